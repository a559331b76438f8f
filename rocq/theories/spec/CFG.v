(** Context-free derivations, independent of any parser. *)
From Verif.model Require Export GoBase.

Section CFG.
  Variable g : grammar.

  (** [derives s w]: symbol [s] derives the terminal string [w]. *)
  Inductive derives : gostring -> list gostring -> Prop :=
  | der_term s : g_prods g s = None -> derives s [s]
  | der_nt s ps p w :
      g_prods g s = Some ps -> p ∈ ps -> derives_seq p w -> derives s w
  with derives_seq : list gostring -> list gostring -> Prop :=
  | der_nil : derives_seq [] []
  | der_cons s r u v : derives s u -> derives_seq r v -> derives_seq (s :: r) (u ++ v).

  (** [is_tree s t lxs]: [t] is a derivation tree with root symbol [s] whose leaves,
      left to right, are the lexemes [lxs]. *)
  Inductive is_tree : gostring -> pn -> list lexeme -> Prop :=
  | tree_leaf lx :
      g_prods g (lx_kind lx) = None -> is_tree (lx_kind lx) (PN lx []) [lx]
  | tree_node lx ps p cs lxs :
      g_prods g (lx_kind lx) = Some ps -> p ∈ ps -> are_trees p cs lxs ->
      is_tree (lx_kind lx) (PN lx cs) lxs
  with are_trees : list gostring -> list pn -> list lexeme -> Prop :=
  | trees_nil : are_trees [] [] []
  | trees_cons s r c cs u v :
      is_tree s c u -> are_trees r cs v -> are_trees (s :: r) (c :: cs) (u ++ v).

  (** The start symbol derives [w]. *)
  Definition generates (w : list gostring) : Prop :=
    exists s0 r, g_nts g = s0 :: r /\ derives s0 w.

  (** [A] derives a sentential form consisting of [B] and nullable symbols. *)
  Definition unit_step (A B : gostring) : Prop :=
    exists ps p a b, g_prods g A = Some ps /\ p ∈ ps /\ p = a ++ B :: b
      /\ derives_seq a [] /\ derives_seq b [].

  (** No symbol derives itself (A =>+ A). *)
  Definition acyclic_grammar : Prop := forall A, ~ tc unit_step A A.
End CFG.

Scheme derives_mut := Induction for derives Sort Prop
  with derives_seq_mut := Induction for derives_seq Sort Prop.
Scheme is_tree_mut := Induction for is_tree Sort Prop
  with are_trees_mut := Induction for are_trees Sort Prop.
