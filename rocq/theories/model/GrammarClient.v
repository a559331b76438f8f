(** A client driving one grammar.Grammar through its exported methods
    (grammar/grammar.go:122-194), with symbol arguments of either kind. *)
From Verif.model Require Export GrammarGo.
From Verif.spec Require Import GrammarSpec.

(** One call of Add, Productions, NonTerminals or String. *)
Definition gr_call (g : gr) (c : call) : answer * gr :=
  match c with
  | CAdd f to => (AUnit, gr_add g (resolve g f) (option_map (map (resolve g)) to))
  | CProductions s =>
      let '(ps, g') := gr_productions g (resolve g s) in
      (AProds (option_map (map (prod_names (gr_set g'))) ps), g')
  | CNonTerminals => (ANames (map (sym_name (gr_set g)) (gr_nonterminals g)), g)
  | CString => (AText (gr_string g), g)
  end.
Fixpoint gr_run (g : gr) (cs : list call) : list answer :=
  match cs with
  | [] => []
  | c :: r => let '(a, g') := gr_call g c in a :: gr_run g' r
  end.

(** The grammar after a history. *)
Definition gr_state (g : gr) (cs : list call) : gr := fold_left (fun g c => snd (gr_call g c)) cs g.

(** A grammar obtained from Empty or New, after any history of calls. *)
Definition built (g : gr) : Prop :=
  exists g0 cs, (g0 = gr_empty \/ exists def, gr_new def = Some g0) /\ g = gr_state g0 cs.
