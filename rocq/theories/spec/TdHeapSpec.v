(** What the trees topdown builds look like in memory. *)
From Verif.spec Require Export HeapSpec.

(** Every node without children is of a kind that has no productions. *)
Inductive full (g : grammar) : pn -> Prop :=
| full_intro lx cs : (cs = [] -> g_prods g (lx_kind lx) = None) -> Forall (full g) cs -> full g (PN lx cs).

(** No node of [A] has a parent link. *)
Definition orphans (h : heap) (A : atree) : Prop :=
  forall n, n ∈ a_nodes A -> exists x, h_nodes h !! n = Some x /\ h_par x = None.

(** Leaves are lexemes of the input as they are, every other node is at line -1, column 0
    with no value. *)
Inductive bare (lexemes : list lexeme) : pn -> Prop :=
| bare_lexeme lx : lx ∈ lexemes -> bare lexemes (PN lx [])
| bare_inner s cs : Forall (bare lexemes) cs -> bare lexemes (PN (Lx s [] (-1) 0) cs).
