(** When one derivation tree is preferred to another: the order that packrat's comparisons
    follow (comparePriority, parser/packrat/packrat.go:202-227), stated on whole trees. *)
From Verif.spec Require Export CFG.

Section S.
  Variable g : grammar.

  (** [cs] are the children of a node built by the [k]-th production of [ps]. *)
  Definition made (ps : list (list gostring)) (k : nat) (cs : list pn) : Prop :=
    ps !! k = Some (map (fun c => lx_kind (pn_lexeme c)) cs) /\
    forall k', k' < k -> ps !! k' <> Some (map (fun c => lx_kind (pn_lexeme c)) cs).
  (** The number of leaves of a tree that are terminals. *)
  Fixpoint width (t : pn) : nat :=
    match t with PN lx cs => match g_prods g (lx_kind lx) with None => 1 | Some _ => sum_list_with width cs end end.

  Inductive verdict := Better | Tied | Worse.
  (** [compares i t i2 t2 v]: the tree [t], whose leaves begin at place [i], is better than the
      tree [t2] of the same symbol, whose leaves begin at place [i2]; or worse, or neither.
      The production listed first wins. Trees of the same production are compared child by
      child from the left, passing over children that cover the same places. *)
  Inductive compares : nat -> pn -> nat -> pn -> verdict -> Prop :=
  | cp_leaf i lx cs i2 lx2 cs2 : lx_kind lx = lx_kind lx2 -> g_prods g (lx_kind lx) = None ->
      compares i (PN lx cs) i2 (PN lx2 cs2) Tied
  | cp_earlier i lx cs i2 lx2 cs2 ps k k2 : lx_kind lx = lx_kind lx2 -> g_prods g (lx_kind lx) = Some ps ->
      made ps k cs -> made ps k2 cs2 -> k < k2 -> compares i (PN lx cs) i2 (PN lx2 cs2) Better
  | cp_later i lx cs i2 lx2 cs2 ps k k2 : lx_kind lx = lx_kind lx2 -> g_prods g (lx_kind lx) = Some ps ->
      made ps k cs -> made ps k2 cs2 -> k2 < k -> compares i (PN lx cs) i2 (PN lx2 cs2) Worse
  | cp_same i lx cs i2 lx2 cs2 ps k v : lx_kind lx = lx_kind lx2 -> g_prods g (lx_kind lx) = Some ps ->
      made ps k cs -> made ps k cs2 -> compare_seq i cs i2 cs2 v -> compares i (PN lx cs) i2 (PN lx2 cs2) v
  with compare_seq : nat -> list pn -> nat -> list pn -> verdict -> Prop :=
  | cps_nil i i2 : compare_seq i [] i2 [] Tied
  | cps_skip i c cs c2 cs2 v : width c = width c2 ->
      compare_seq (i + width c) cs (i + width c2) cs2 v -> compare_seq i (c :: cs) i (c2 :: cs2) v
  | cps_child i c cs i2 c2 cs2 v : i <> i2 \/ width c <> width c2 -> compares i c i2 c2 v -> v <> Tied ->
      compare_seq i (c :: cs) i2 (c2 :: cs2) v
  | cps_tied i c cs i2 c2 cs2 v : i <> i2 \/ width c <> width c2 -> compares i c i2 c2 Tied ->
      compare_seq (i + width c) cs (i2 + width c2) cs2 v -> compare_seq i (c :: cs) i2 (c2 :: cs2) v.

  (** [t] is better than [t2], both covering the whole input. *)
  Definition better (t t2 : pn) : Prop := compares 0 t 0 t2 Better.
End S.
