(** The text form of trees. *)
From Verif.model Require Export TreeText.
From Verif.model Require Import TreeNew.
Local Open Scope N_scope.

(** A kind that can be written in the text form: not empty, no white space, no brace,
    colon or double quote. *)
Definition writable_kind (k : gostring) : Prop :=
  k <> [] /\ forall c, c ∈ k -> c ∉ [9; 10; 12; 13; 32; 34; 58; 123; 125].
(** Code points of values that survive: printable ones and the newline. *)
Definition kept (print : N -> bool) (c : N) : bool :=
  (c =? 10) || ((32 <=? c) && (c <? 127)) || ((128 <=? c) && print c).

Inductive all_nodes (P : lexeme -> Prop) : pn -> Prop :=
| all_nodes_intro lx cs : P lx -> Forall (all_nodes P) cs -> all_nodes P (PN lx cs).
Definition writable (t : pn) : Prop := all_nodes (fun lx => writable_kind (lx_kind lx)) t.
Definition values_kept (print : N -> bool) (t : pn) : Prop :=
  all_nodes (fun lx => forall c, c ∈ lx_val lx -> kept print c = true) t.

(** The tree with every position unset, as after lexeme.New. *)
Fixpoint unset (t : pn) : pn :=
  match t with PN lx cs => PN (Lx (lx_kind lx) (lx_val lx) (-1)%Z 0%Z) (map unset cs) end.

(** ... and with every code point that is not kept spelled as its escape sequence. *)
Definition respelled (print : N -> bool) (v : gostring) : gostring :=
  List.concat (map (fun c => if kept print c then [c] else quote_rune print c) v).
Fixpoint reread (print : N -> bool) (t : pn) : pn :=
  match t with
  | PN lx cs => PN (Lx (lx_kind lx) (respelled print (lx_val lx)) (-1)%Z 0%Z) (map (reread print) cs)
  end.

(** Tree texts as sequences of three kinds of marks. *)
Inductive mark := MLeaf (lx : lexeme) | MOpen (lx : lexeme) | MClose.
(** [forest ms ts]: the balanced marks [ms] spell the trees [ts]. *)
Inductive forest : list mark -> list pn -> Prop :=
| forest_nil : forest [] []
| forest_leaf lx ms ts : forest ms ts -> forest (MLeaf lx :: ms) (PN lx [] :: ts)
| forest_node lx body cs ms ts :
    forest body cs -> forest ms ts -> forest (MOpen lx :: body ++ MClose :: ms) (PN lx cs :: ts).
(** [opens ms]: balanced marks and nodes opened and never closed, the last mark opening
    a node, or no marks at all. *)
Inductive opens : list mark -> Prop :=
| opens_nil : opens []
| opens_node pre f cs lx : opens pre -> forest f cs -> opens (pre ++ f ++ [MOpen lx]).
(** The marks of the lines of a text, all of which match. *)
Definition line_marks (l : tline) : list mark :=
  (if tl_close l then [MClose] else [])
  ++ (match tl_node l with Some lx => [if tl_open l then MOpen lx else MLeaf lx] | None => [] end).
Definition text_marks (str : gostring) (ms : list mark) : Prop :=
  exists ls, Forall2 (fun line l => tree_line line = Ok (Some l)) (split1 c_nl str) ls
    /\ ms = List.concat (map line_marks ls).
