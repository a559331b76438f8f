(** Trees in memory. An [atree] is a tree annotated with where its nodes and child
    slices live. *)
From Verif.model Require Import TreeOps.
From Verif.model Require Export Heap.

Inductive atree := AT (p : nat) (lx : lexeme) (sl : option (nat * nat)) (cs : list atree).
Definition a_ptr (A : atree) : nat := match A with AT p _ _ _ => p end.
Definition a_kids (A : atree) : list atree := match A with AT _ _ _ cs => cs end.

(** The tree as a value, its nodes, and its backing arrays. *)
Fixpoint a_val (A : atree) : pn := match A with AT _ lx _ cs => PN lx (map a_val cs) end.
Fixpoint a_nodes (A : atree) : list nat := match A with AT p _ _ cs => p :: List.concat (map a_nodes cs) end.
Definition sl_arr (sl : option (nat * nat)) : list nat := match sl with None => [] | Some (a, _) => [a] end.
Fixpoint a_arrs (A : atree) : list nat := match A with AT _ _ sl cs => sl_arr sl ++ List.concat (map a_arrs cs) end.

(** The slice lists exactly the pointers [ps]; its array may have spare slots. *)
Definition slice_is (h : heap) (sl : option (nat * nat)) (ps : list nat) : Prop :=
  match sl with
  | None => ps = []
  | Some (a, l) => l = length ps /\ exists spare, h_arrs h !! a = Some (map Some ps ++ spare)
  end.

(** [holds h A]: the heap contains the tree [A]; nodes may be shared and parent links
    are arbitrary. *)
Inductive holds (h : heap) : atree -> Prop :=
| holds_intro p lx par sl cs :
    h_nodes h !! p = Some (HN lx par sl) -> slice_is h sl (map a_ptr cs) ->
    Forall (holds h) cs -> holds h (AT p lx sl cs).

(** ... and every node and every backing array is used once. *)
Definition tree_at (h : heap) (A : atree) : Prop :=
  holds h A /\ NoDup (a_nodes A) /\ NoDup (a_arrs A).

(** Every child's P is the node listing it and the root's P is [par]. *)
Inductive linked (h : heap) : option nat -> atree -> Prop :=
| linked_intro par p lx sl cs n :
    h_nodes h !! p = Some n -> h_par n = par ->
    Forall (linked h (Some p)) cs -> linked h par (AT p lx sl cs).

(** From [h] to [h'], nothing changed outside the nodes and arrays of [A], and [A'] uses
    only those and newly allocated ones. *)
Definition only_changes (h h' : heap) (A A' : atree) : Prop :=
  length (h_nodes h) <= length (h_nodes h') /\ length (h_arrs h) <= length (h_arrs h')
  /\ (forall n, n < length (h_nodes h) -> n ∉ a_nodes A -> h_nodes h' !! n = h_nodes h !! n)
  /\ (forall a, a < length (h_arrs h) -> a ∉ a_arrs A -> h_arrs h' !! a = h_arrs h !! a)
  /\ (forall n, n ∈ a_nodes A' -> n ∈ a_nodes A \/ length (h_nodes h) <= n)
  /\ (forall a, a ∈ a_arrs A' -> a ∈ a_arrs A \/ length (h_arrs h) <= a).

(** The in-memory reduction [r] has the effect of [f] on the unshared tree below the
    node it is called on, and no other effect. *)
Definition implements (f : pn -> pn) (r : nat -> heap -> res heap) : Prop :=
  forall h A, tree_at h A ->
  exists h' A', r (a_ptr A) h = Ok h' /\ tree_at h' A' /\ a_ptr A' = a_ptr A
    /\ a_val A' = f (a_val A) /\ only_changes h h' A A'.

(** The same for reductions that also report whether they did something. *)
Definition implements_b (f : pn -> pn * bool) (r : nat -> heap -> res (heap * bool)) : Prop :=
  forall h A, tree_at h A ->
  exists h' A' ok, r (a_ptr A) h = Ok (h', ok) /\ tree_at h' A' /\ a_ptr A' = a_ptr A
    /\ f (a_val A) = (a_val A', ok) /\ only_changes h h' A A'.

(** A condition that reads [b] off the tree and changes nothing. *)
Definition tests (b : pn -> bool) (c : nat -> heap -> res bool) : Prop :=
  forall h A, tree_at h A -> c (a_ptr A) h = Ok (b (a_val A)).

(** [T'] is [T] with one subtree [A] replaced by [A']; the same for values. *)
Inductive replaced (A A' : atree) : atree -> atree -> Prop :=
| rep_here : replaced A A' A A'
| rep_below p lx sl l c c' r :
    replaced A A' c c' -> replaced A A' (AT p lx sl (l ++ c :: r)) (AT p lx sl (l ++ c' :: r)).
Inductive pn_replaced (t t' : pn) : pn -> pn -> Prop :=
| prep_here : pn_replaced t t' t t'
| prep_below lx l c c' r :
    pn_replaced t t' c c' -> pn_replaced t t' (PN lx (l ++ c :: r)) (PN lx (l ++ c' :: r)).

(** The old heap is intact inside the new one. *)
Definition extends (h h' : heap) : Prop :=
  h_nodes h `prefix_of` h_nodes h' /\ h_arrs h `prefix_of` h_arrs h'.
(** [A] lives entirely outside the old heap [h]. *)
Definition fresh_from (h : heap) (A : atree) : Prop :=
  (forall n, n ∈ a_nodes A -> length (h_nodes h) <= n)
  /\ (forall a, a ∈ a_arrs A -> length (h_arrs h) <= a).

(** Two reducers with the same keys in effect, each in-memory reduction implementing the
    other's. *)
Definition reducers_agree (r : reducer) (hr : gmap gostring (option hred)) : Prop :=
  forall k, match reduction_for r k, (match hr !! k with Some x => x | None => None end) with
            | Some f, Some hf => implements f hf
            | None, None => True
            | _, _ => False
            end.

(** Kinds, values and shape, all positions (0, 0). *)
Fixpoint unplaced (t : pn) : pn :=
  match t with PN lx cs => PN (Lx (lx_kind lx) (lx_val lx) 0 0) (map unplaced cs) end.

(** The direct children of [A] point back to it. *)
Definition kids_linked (h : heap) (A : atree) : Prop :=
  forall c n, c ∈ a_kids A -> h_nodes h !! a_ptr c = Some n -> h_par n = Some (a_ptr A).
