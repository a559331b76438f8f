(** Renaming symbols. *)
From Verif.spec Require Export Reach.

Section Rename.
  Variable f : gostring -> gostring.
  (** The kind is renamed; value and position stay. *)
  Definition rn_lexeme (lx : lexeme) : lexeme := Lx (f (lx_kind lx)) (lx_val lx) (lx_line lx) (lx_col lx).
  Fixpoint rn_tree (t : pn) : pn :=
    match t with PN lx ch => PN (rn_lexeme lx) (map rn_tree ch) end.
  (** [g2] is [g1] with its symbols renamed, as far as the start symbol reaches. *)
  Definition renamed (g1 g2 : grammar) : Prop :=
    head (g_nts g2) = option_map f (head (g_nts g1))
    /\ forall x, reachable g1 x -> g_prods g2 (f x) = option_map (map (map f)) (g_prods g1 x).
  Definition one_to_one : Prop := forall x y, f x = f y -> x = y.
End Rename.
