(** What goroutines sharing a grammar may expect. *)
From Verif.model Require Export Threads.
From Verif.spec Require Export GrammarSpec.

(** What the job gives when nothing else uses the grammar. *)
Definition job_alone (fuel : nat) (g : gr) (j : job) : outcome :=
  match j with
  | JPackrat lexemes => OTree (packrat_parse fuel (gr_view g) lexemes)
  | JTopdown lexemes => OTree (td_parse fuel (gr_view g) lexemes)
  | JLeftRecursive => OBool (is_left_recursive fuel (gr_view g))
  | JCall c => OAnswer (fst (gr_call g c))
  end.
(** Parses, IsLeftRecursive, and all methods but Add. *)
Definition reading (j : job) : Prop := match j with JCall c => lookup_call c = true | _ => True end.
(** Productions is only called for symbols that the grammar mentions. Parsers and
    IsLeftRecursive may be given anything. *)
Definition polite (g : grammar) (j : job) : Prop :=
  match j with JCall (CProductions (s, _)) => mentions g s | _ => True end.
(** Some goroutine's next call changes the grammar. *)
Definition about_to_write (g : gr) (t : prog outcome) : Prop :=
  exists c k, t = Call c k /\ snd (gr_call g c) <> g.
