(** How parse trees may look. *)
From Verif.spec Require Export CFG.

(** [part c t]: [c] is a child of [t]; [below d t]: [d] is a descendant of [t]. *)
Definition part (c t : pn) : Prop := c ∈ pn_children t.
Definition below : pn -> pn -> Prop := tc part.

(** A descendant of the same kind covers fewer lexemes. *)
Definition lean (g : grammar) (t : pn) : Prop :=
  forall a d s u v, a = t \/ below a t -> below d a -> is_tree g s a u -> is_tree g s d v -> length v < length u.

(** The number of nodes on the longest way down. *)
Fixpoint height (t : pn) : nat :=
  match t with PN _ cs => S (fold_right (fun c h => Nat.max (height c) h) 0 cs) end.
