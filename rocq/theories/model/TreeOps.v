(** tree/node_reductions.go, tree/chain_reductions.go, tree/reducer.go and the
    accessors of tree/parsetree.go, on trees as values. A method that mutates its
    receiver is a function from the node to the new node (with the returned bool).
    Slices of children are lists here; model/Heap.v has the same methods on a heap
    with shared backing arrays, and proofs/HeapProofs.v relates the two. *)
From Verif.model Require Export GoBase.
Local Open Scope Z_scope.

Definition zlen {A} (l : list A) : Z := Z.of_nat (length l).
(** [l[i]] for an index that may be out of range. *)
Definition zget {A} (l : list A) (i : Z) : option A :=
  if (i <? 0) then None else l !! Z.to_nat i.
(** [l[:i]] and [l[i:]] for 0 <= i <= len(l). *)
Definition zto {A} (i : Z) (l : list A) : list A := take (Z.to_nat i) l.
Definition zfrom {A} (i : Z) (l : list A) : list A := drop (Z.to_nat i) l.

(** node_reductions.go:31-37 [GetIdx] *)
Definition get_idx (p : pn) (i : Z) : Z * Z * bool :=
  let l := zlen (pn_children p) in
  let i := if i <? 0 then l + i else i in
  (i, l, (0 <=? i) && (i <? l)).

(** parsetree.go:71-77 [Child] *)
Definition child (p : pn) (i : Z) : option pn :=
  let '(i, _, ok) := get_idx p i in
  if ok then zget (pn_children p) i else None.

(** parsetree.go:142-154 [ChildAt] *)
Definition child_at (p : pn) (i : Z) (symbs : list gostring) : bool :=
  let '(i, _, ok) := get_idx p i in
  if ok then
    match zget (pn_children p) i with
    | Some c => existsb (fun s => bool_decide (s = lx_kind (pn_lexeme c))) symbs
    | None => false
    end
  else false.

(** node_reductions.go:104-110 [ChildIs]; [p.Child] renormalises an index that is
    already in range. *)
Definition child_is (p : pn) (i : Z) (kind : gostring) : bool :=
  let '(i, _, ok) := get_idx p i in
  if ok then
    match child p i with
    | Some c => bool_decide (lx_kind (pn_lexeme c) = kind)
    | None => false
    end
  else false.

(** node_reductions.go:8-15 [ReplaceWithChild] *)
Definition replace_with_child (i : Z) (p : pn) : pn * bool :=
  let '(i, _, ok) := get_idx p i in
  if ok then
    match zget (pn_children p) i with
    | Some c => (c, true)
    | None => (p, false)
    end
  else (p, false).

(** node_reductions.go:64-75 [RemoveChild] *)
Definition remove_child (i : Z) (p : pn) : pn * bool :=
  let '(i, l, ok) := get_idx p i in
  let C := pn_children p in
  if ok then
    if i =? l - 1 then (PN (pn_lexeme p) (zto i C), true)
    else (PN (pn_lexeme p) (zto i C ++ zfrom (i + 1) C), true)
  else (p, false).

(** node_reductions.go:18-25 [RemoveAll]: the loop re-reads len(p.C) and p.C[i]. *)
Fixpoint remove_all_loop (fuel : nat) (symbols : list gostring) (i : Z) (p : pn) : pn :=
  match fuel with
  | O => p
  | S f =>
      if i <? zlen (pn_children p) then
        if child_at p i symbols
        then remove_all_loop f symbols i (fst (remove_child i p))
        else remove_all_loop f symbols (i + 1) p
      else p
  end.
(** Each round removes a child or advances, so len(p.C) rounds suffice. *)
Definition remove_all (symbols : list gostring) (p : pn) : pn :=
  remove_all_loop (length (pn_children p)) symbols 0 p.

(** node_reductions.go:40-60 [RemoveChildren] *)
Fixpoint mark_drop (p : pn) (idxs : list Z) (drop_ : list bool) : list bool :=
  match idxs with
  | [] => drop_
  | i :: r =>
      let '(i, _, ok) := get_idx p i in
      mark_drop p r (if ok then <[Z.to_nat i := true]> drop_ else drop_)
  end.
Fixpoint keep_undropped {A} (drop_ : list bool) (C : list A) : list A :=
  match drop_, C with
  | d :: ds, c :: cs => if (d : bool) then keep_undropped ds cs else c :: keep_undropped ds cs
  | _, _ => []
  end.
Definition remove_children (idxs : list Z) (p : pn) : pn :=
  let C := pn_children p in
  PN (pn_lexeme p) (keep_undropped (mark_drop p idxs (replicate (length C) false)) C).

(** node_reductions.go:148-164 [PromoteChild] *)
Definition promote_child (i : Z) (p : pn) : pn * bool :=
  let '(i, l, ok) := get_idx p i in
  let C := pn_children p in
  if ok then
    match zget C i with
    | Some c =>
        let tail := pn_children c in
        let tail := if i + 1 <? l then tail ++ zfrom (i + 1) C else tail in
        (PN (pn_lexeme c) (zto i C ++ tail), true)
    | None => (p, false)
    end
  else (p, false).

(** node_reductions.go:79-85 [PromoteSingleChild] *)
Definition promote_single_child (p : pn) : pn * bool :=
  if (length (pn_children p) =? 1)%nat then (fst (promote_child 0 p), true) else (p, false).

(** node_reductions.go:91-101 [PromoteChildValue]: RemoveChild is called with the
    already normalised index, in or out of range. *)
Definition promote_child_value (i : Z) (p : pn) : pn :=
  let C := pn_children p in
  let l := zlen C in
  let i := if i <? 0 then l + i else i in
  let p1 := if (0 <=? i) && (i <? l) then
              match zget C i with
              | Some ch => PN (Lx (lx_kind (pn_lexeme p)) (lx_val (pn_lexeme ch))
                                  (lx_line (pn_lexeme ch)) (lx_col (pn_lexeme ch))) C
              | None => p
              end
            else p in
  fst (remove_child i p1).

(** node_reductions.go:115-126 [PromoteChildrenOf] *)
Definition promote_children_of (i : Z) (p : pn) : pn * bool :=
  let '(i, l, ok) := get_idx p i in
  let C := pn_children p in
  if ok then
    match zget C i with
    | Some c =>
        if i =? l - 1 then (PN (pn_lexeme p) (zto i C ++ pn_children c), true)
        else (PN (pn_lexeme p) (zto i C ++ (pn_children c ++ zfrom (i + 1) C)), true)
    | None => (p, false)
    end
  else (p, false).

(** node_reductions.go:130-143 [PromoteGrandChildren] *)
Definition promote_grand_children (p : pn) : pn :=
  PN (pn_lexeme p) (fold_left (fun acc c => acc ++ pn_children c) (pn_children p) []).

(** reducer.go:9 [Reduction]. *)
Notation reduction := (pn -> pn).

(** Calling a reduction if it is not nil (chain_reductions.go:26-32, reducer.go:80-82). *)
Definition run_red (r : option reduction) (n : pn) : pn := match r with Some f => f n | None => n end.

(** chain_reductions.go:5-16 [Chain]; [None] is a nil Reduction. *)
Definition chain (r1 r2 : option reduction) : option reduction :=
  match r1, r2 with
  | None, _ => r2
  | _, None => r1
  | Some f, Some g => Some (fun n => g (f n))
  end.

(** chain_reductions.go:23-35 [If] *)
Definition if_ (cond : option (pn -> bool)) (th el : option reduction) : reduction :=
  fun n =>
    match cond with
    | Some c => if c n then run_red th n else run_red el n
    | None => run_red el n
    end.

(** reducer.go:14 [Reducer], a Go map from kind to reduction; a key may map to nil. *)
Notation reducer := (gmap gostring (option reduction)).

(** The reduction run on a node of kind [k]: reducer.go:80 reads r[k], which is nil for
    an absent key. *)
Definition reduction_for (r : reducer) (k : gostring) : option reduction :=
  match r !! k with Some f => f | None => None end.

(** reducer.go:17-19 [Add]; 22-25 [Can]. *)
Definition reducer_add (r : reducer) (k : gostring) (f : option reduction) : reducer := <[k := f]> r.
Definition reducer_can (r : reducer) (n : pn) : bool :=
  match r !! lx_kind (pn_lexeme n) with Some _ => true | None => false end.

(** reducer.go:30-45 [Merge]. Go ranges over the maps in an arbitrary order: [ks1]
    and [ks2] are the orders in which the keys of r1 and r2 come up. *)
Definition merge_step2 (r1 r2 : reducer) (merged : reducer) (k : gostring) : reducer :=
  match r2 !! k with
  | None => merged
  | Some f2 =>
      match r1 !! k with
      | None => <[k := f2]> merged
      | Some f1 => <[k := chain f1 f2]> merged
      end
  end.
Definition merge_step1 (r1 : reducer) (merged : reducer) (k : gostring) : reducer :=
  match r1 !! k with
  | None => merged
  | Some f1 => match merged !! k with Some _ => merged | None => <[k := f1]> merged end
  end.
Definition merge_reducers (ks1 ks2 : list gostring) (r1 r2 : reducer) : reducer :=
  fold_left (merge_step1 r1) ks1 (fold_left (merge_step2 r1 r2) ks2 ∅).

(** reducer.go:67-84 [RawReduce] (and 53-59 [Reduce]) on a non-nil node; line 80
    looks up the kind of the copy, which is the node's. *)
Fixpoint raw_reduce (r : reducer) (n : pn) : pn :=
  match n with
  | PN lx cs =>
      let cp := PN lx (map (raw_reduce r) cs) in
      match r !! lx_kind lx with
      | Some (Some f) => f cp
      | _ => cp
      end
  end.
