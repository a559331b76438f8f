(** What the tree operations should do, on plain lists of children. *)
From Verif.model Require Export GoBase.
Local Open Scope Z_scope.

(** [at_index i C a c b]: the child index [i] means [c] in [C = a ++ c :: b]: it counts
    [a] from the front or, when negative, [b] from the back. *)
Definition at_index {A} (i : Z) (C a : list A) (c : A) (b : list A) : Prop :=
  C = a ++ c :: b /\ (i = Z.of_nat (length a) \/ i = - Z.of_nat (length (c :: b))).
Definition in_range {A} (i : Z) (C : list A) : Prop :=
  - Z.of_nat (length C) <= i < Z.of_nat (length C).

(** The elements of [C] whose position is not listed in [idxs], where [i] lists
    position [k] of [n] when it is [k] or [k - n]. *)
Definition listed (idxs : list Z) (n k : nat) : bool :=
  existsb (fun i => (i =? Z.of_nat k) || (i =? Z.of_nat k - Z.of_nat n)) idxs.
Definition drop_listed {A} (idxs : list Z) (C : list A) : list A :=
  map snd (filter (fun kc => listed idxs (length C) (fst kc) = false) (combine (seq 0 (length C)) C)).

(** All nodes of a tree. *)
Fixpoint nodes (t : pn) : list pn :=
  match t with PN _ cs => t :: List.concat (map nodes cs) end.

(** [reduces R t t']: bottom-up rewriting. [R] gives the reduction registered for a
    kind, if any; it is applied once, to the node with its children already reduced. *)
Inductive reduces (R : gostring -> option (pn -> pn)) : pn -> pn -> Prop :=
| red_some lx cs cs' f :
    Forall2 (reduces R) cs cs' -> R (lx_kind lx) = Some f -> reduces R (PN lx cs) (f (PN lx cs'))
| red_none lx cs cs' :
    Forall2 (reduces R) cs cs' -> R (lx_kind lx) = None -> reduces R (PN lx cs) (PN lx cs').
