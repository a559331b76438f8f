(** Grammars as ordered multimaps, and the meaning of grammar text. *)
From Coq Require Import String.
From Verif.model Require Export GoBase GoStrings.

(** Non-terminals in order of first addition, each with its productions in order. *)
Notation amap := (list (gostring * list (list gostring))).

Fixpoint am_add (A : amap) (nt : gostring) (p : list gostring) : amap :=
  match A with
  | [] => [(nt, [p])]
  | (k, ps) :: r => if decide (k = nt) then (k, ps ++ [p]) :: r else (k, ps) :: am_add r nt p
  end.

(** Two grammars the interface cannot tell apart. *)
Definition same_grammar (g h : grammar) : Prop :=
  g_nts g = g_nts h /\ forall s, g_prods g s = g_prods h s.

(** [s] occurs in the grammar. *)
Definition mentions (g : grammar) (s : gostring) : Prop :=
  s ∈ g_nts g \/ exists nt ps p, g_prods g nt = Some ps /\ p ∈ ps /\ s ∈ p.

(** Printed form: one production per line, names padded to a common width, the
    name only on a non-terminal's first line. *)
Definition am_text (A : amap) : gostring :=
  let width := fold_left (fun m kp => Nat.max m (length (fst kp))) A 0 in
  let row nm p := pad_right width nm ++ L " -> " ++ strjoin [c_sp] p in
  let rows (kp : gostring * list (list gostring)) :=
    match snd kp with
    | [] => []
    | p :: r => row (fst kp) p :: map (row []) r
    end in
  strjoin [c_nl] (List.concat (map rows A)).

(** A client's calls. A symbol argument is a name, with a flag telling whether the
    client passes the grammar's own symbol of that name (if the grammar has one)
    or a symbol of some other type. *)
Notation sarg := (gostring * bool)%type.
Inductive call :=
| CAdd (from : sarg) (to : option (list sarg))
| CProductions (s : sarg)
| CNonTerminals
| CString.
Inductive answer :=
| AUnit
| AProds (ps : option (list (list gostring)))
| ANames (l : list gostring)
| AText (s : gostring).

Definition am_call (A : amap) (c : call) : answer * amap :=
  match c with
  | CAdd (f, _) to => (AUnit, am_add A f (map fst (default [] to)))
  | CProductions (s, _) => (AProds (assoc_prods A s), A)
  | CNonTerminals => (ANames (map fst A), A)
  | CString => (AText (am_text A), A)
  end.
Fixpoint am_run (A : amap) (cs : list call) : list answer :=
  match cs with
  | [] => []
  | c :: r => let '(a, A') := am_call A c in a :: am_run A' r
  end.

(** A call that only looks. *)
Definition lookup_call (c : call) : bool := match c with CAdd _ _ => false | _ => true end.

(** *** Text *)

(** The words of a text: its pieces between spaces, without surrounding white
    space, empty ones dropped. *)
Definition words (s : gostring) : list gostring :=
  filter (fun w => w <> []) (map trim (split1 c_sp s)).

Definition arrow_free (s : gostring) : Prop := ~ exists a b, s = a ++ L "->" ++ b.
Definition blank (s : gostring) : Prop := Forall (fun c => is_space c = true) s.

(** [line_means line r]: the line adds nothing ([None]), or one production to the
    named non-terminal or, without a name, to the current one. *)
Inductive line_means : gostring -> option (option gostring * list gostring) -> Prop :=
| lm_blank s : blank s -> line_means s None
| lm_plain s : ~ blank s -> arrow_free s -> line_means s (Some (None, words s))
| lm_more a b : arrow_free a -> arrow_free b -> blank a ->
    line_means (a ++ L "->" ++ b) (Some (None, words b))
| lm_rule a b : arrow_free a -> arrow_free b -> ~ blank a ->
    line_means (a ++ L "->" ++ b) (Some (Some (trim a), words b)).

(** A line with two arrows or more. *)
Definition line_bad (s : gostring) : Prop :=
  exists a b c, s = a ++ L "->" ++ b ++ L "->" ++ c.

Inductive lines_mean : list gostring -> option gostring -> amap -> amap -> Prop :=
| lsm_nil cur A : lines_mean [] cur A A
| lsm_blank s r cur A A' : line_means s None -> lines_mean r cur A A' ->
    lines_mean (s :: r) cur A A'
| lsm_more s r cur p A A' : line_means s (Some (None, p)) ->
    let nt := default (L "START") cur in
    lines_mean r (Some nt) (am_add A nt p) A' -> lines_mean (s :: r) cur A A'
| lsm_rule s r cur nt p A A' : line_means s (Some (Some nt, p)) ->
    lines_mean r (Some nt) (am_add A nt p) A' -> lines_mean (s :: r) cur A A'.

(** The text's lines are the pieces between newlines. *)
Definition text_means (def : gostring) (A : amap) : Prop :=
  exists lines, def = strjoin [c_nl] lines /\ lines <> [] /\ Forall (fun l => c_nl ∉ l) lines
    /\ lines_mean lines None [] A.

(** Names that survive printing: symbols are words, non-terminals have no
    surrounding white space, and neither holds a newline or an arrow. *)
Definition printable (g : grammar) : Prop :=
  (forall nt, nt ∈ g_nts g -> nt <> [] /\ trim nt = nt /\ c_nl ∉ nt /\ arrow_free nt)
  /\ (forall nt ps p x, g_prods g nt = Some ps -> p ∈ ps -> x ∈ p ->
        x <> [] /\ trim x = x /\ c_sp ∉ x /\ c_nl ∉ x /\ arrow_free x).
