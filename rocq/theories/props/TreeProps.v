(** C25-C28, C30-C32, C78: the tree package on trees as values. [at_index i C a c b] says
    that the child index [i] means [c] in [C = a ++ c :: b]; every index in range means
    exactly one child (first theorem). Theorems about the heap are in HeapProps.v. *)
From Coq Require Import String.
From Verif.model Require Import TreeText TreeOps.
From Verif.spec Require Import TreeSpec.
From Verif.proofs Require TreeProofs TreeWit.
Open Scope Z_scope.

Theorem c25_index {A} i (C : list A) : in_range i C <-> exists a c b, at_index i C a c b.
Proof. exact (TreeWit.index_exact i C). Qed.
Print Assumptions c25_index.

(** C25 *)
Theorem c25_remove_child i lx C a c b :
  at_index i C a c b -> remove_child i (PN lx C) = (PN lx (a ++ b), true).
Proof. exact (TreeProofs.remove_child_in i lx C a c b). Qed.
Print Assumptions c25_remove_child.
Theorem c25_remove_child_out i p : ~ in_range i (pn_children p) -> remove_child i p = (p, false).
Proof. exact (TreeProofs.remove_child_out i p). Qed.
Print Assumptions c25_remove_child_out.
Theorem c25_remove_children idxs lx C :
  remove_children idxs (PN lx C) = PN lx (drop_listed idxs C).
Proof. exact (TreeProofs.remove_children_spec idxs lx C). Qed.
Print Assumptions c25_remove_children.
Theorem c25_remove_all symbols lx C :
  remove_all symbols (PN lx C) = PN lx (filter (fun c => ~ lx_kind (pn_lexeme c) ∈ symbols) C).
Proof. exact (TreeProofs.remove_all_spec symbols lx C). Qed.
Print Assumptions c25_remove_all.
Example c25_example :
  at_index (-2) (pn_children TreeWit.abc) [TreeWit.leaf "a"] (TreeWit.leaf "b") [TreeWit.leaf "a"]
  /\ ~ in_range 3 (pn_children TreeWit.abc)
  /\ remove_children [2; -3; 0; 7] TreeWit.abc = PN (TreeWit.lx "P" "") [TreeWit.leaf "b"]
  /\ remove_all [L "a"; L "z"] TreeWit.abc = PN (TreeWit.lx "P" "") [TreeWit.leaf "b"].
Proof. exact TreeWit.abc_remove. Qed.

(** C26 *)
Theorem c26_promote_children_of i lx C a c b : at_index i C a c b ->
  promote_children_of i (PN lx C) = (PN lx (a ++ pn_children c ++ b), true).
Proof. exact (TreeProofs.promote_children_of_in i lx C a c b). Qed.
Print Assumptions c26_promote_children_of.
Theorem c26_promote_children_of_out i p :
  ~ in_range i (pn_children p) -> promote_children_of i p = (p, false).
Proof. exact (TreeProofs.promote_children_of_out i p). Qed.
Print Assumptions c26_promote_children_of_out.
Theorem c26_promote_grand_children lx C :
  promote_grand_children (PN lx C) = PN lx (List.concat (map pn_children C)).
Proof. exact (TreeProofs.promote_grand_children_spec lx C). Qed.
Print Assumptions c26_promote_grand_children.
Example c26_example :
  promote_children_of (-1) (PN (TreeWit.lx "Q" "") [TreeWit.leaf "c"; TreeWit.abc])
  = (PN (TreeWit.lx "Q" "") [TreeWit.leaf "c"; TreeWit.leaf "a"; TreeWit.leaf "b"; TreeWit.leaf "a"], true).
Proof. reflexivity. Qed.

(** C27 *)
Theorem c27_promote_child i lx C a c b : at_index i C a c b ->
  promote_child i (PN lx C) = (PN (pn_lexeme c) (a ++ pn_children c ++ b), true).
Proof. exact (TreeProofs.promote_child_in i lx C a c b). Qed.
Print Assumptions c27_promote_child.
Theorem c27_promote_child_out i p : ~ in_range i (pn_children p) -> promote_child i p = (p, false).
Proof. exact (TreeProofs.promote_child_out i p). Qed.
Print Assumptions c27_promote_child_out.
Theorem c27_promote_single_child lx c : promote_single_child (PN lx [c]) = (c, true).
Proof. exact (TreeProofs.promote_single_child_one lx c). Qed.
Print Assumptions c27_promote_single_child.
Theorem c27_promote_single_child_other p :
  length (pn_children p) <> 1%nat -> promote_single_child p = (p, false).
Proof. exact (TreeProofs.promote_single_child_other p). Qed.
Print Assumptions c27_promote_single_child_other.
Theorem c27_replace_with_child i lx C a c b : at_index i C a c b ->
  replace_with_child i (PN lx C) = (c, true).
Proof. exact (TreeProofs.replace_with_child_in i lx C a c b). Qed.
Print Assumptions c27_replace_with_child.
Theorem c27_replace_with_child_out i p :
  ~ in_range i (pn_children p) -> replace_with_child i p = (p, false).
Proof. exact (TreeProofs.replace_with_child_out i p). Qed.
Print Assumptions c27_replace_with_child_out.
Example c27_example :
  at_index 1 [TreeWit.leaf "c"; TreeWit.abc] [TreeWit.leaf "c"] TreeWit.abc []
  /\ promote_child 1 (PN (TreeWit.lx "Q" "") [TreeWit.leaf "c"; TreeWit.abc])
     = (PN (TreeWit.lx "P" "") [TreeWit.leaf "c"; TreeWit.leaf "a"; TreeWit.leaf "b"; TreeWit.leaf "a"], true).
Proof. exact TreeWit.abc_promote. Qed.

(** C28: an index below -len that is at least -2*len is out of bounds and still
    removes a child. The rest of the claim, and what happens in that case: *)
Theorem c28_out_of_bounds_refuted : exists i p,
  ~ in_range i (pn_children p) /\ promote_child_value i p <> p.
Proof. exact TreeWit.promote_value_refuted. Qed.
Print Assumptions c28_out_of_bounds_refuted.
Theorem c28_in_range_partial i lx C a c b : at_index i C a c b ->
  promote_child_value i (PN lx C)
  = PN (Lx (lx_kind lx) (lx_val (pn_lexeme c)) (lx_line (pn_lexeme c)) (lx_col (pn_lexeme c))) (a ++ b).
Proof. exact (TreeProofs.promote_child_value_in i lx C a c b). Qed.
Print Assumptions c28_in_range_partial.
Theorem c28_out_of_bounds_partial i lx C :
  i < - 2 * Z.of_nat (length C) \/ Z.of_nat (length C) <= i ->
  promote_child_value i (PN lx C) = PN lx C.
Proof. exact (TreeProofs.promote_child_value_far i lx C). Qed.
Print Assumptions c28_out_of_bounds_partial.
Theorem c28_wraps_partial i lx C a c b :
  C = a ++ c :: b -> i = - (Z.of_nat (length C) + Z.of_nat (length (c :: b))) ->
  promote_child_value i (PN lx C) = PN lx (a ++ b).
Proof. exact (TreeProofs.promote_child_value_wrap i lx C a c b). Qed.
Print Assumptions c28_wraps_partial.
Example c28_example :
  promote_child_value (-2) TreeWit.abc = PN (TreeWit.lx "P" "vb") [TreeWit.leaf "a"; TreeWit.leaf "a"]
  /\ promote_child_value (-5) TreeWit.abc = PN (TreeWit.lx "P" "") [TreeWit.leaf "a"; TreeWit.leaf "a"].
Proof. split; reflexivity. Qed.

(** C30 (that Reduce leaves its input alone is c30_input_untouched in HeapProps.v) *)
Theorem c30_bottom_up r t t' : raw_reduce r t = t' <-> reduces (reduction_for r) t t'.
Proof. exact (TreeProofs.raw_reduce_exact r t t'). Qed.
Print Assumptions c30_bottom_up.
Theorem c30_empty t : raw_reduce ∅ t = t.
Proof. exact (TreeProofs.raw_reduce_empty t). Qed.
Print Assumptions c30_empty.
(** C78. The reductions of a reducer: each kind's last Add. *)
Theorem c78_add r k f k' n :
  reduction_for (reducer_add r k f) k' = (if decide (k' = k) then f else reduction_for r k')
  /\ (reducer_can (reducer_add r k f) n = true <-> lx_kind (pn_lexeme n) = k \/ reducer_can r n = true).
Proof. exact (TreeWit.add_lookup r k f k' n). Qed.
Print Assumptions c78_add.
Theorem c78_adds (calls : list (gostring * option reduction)) k n :
  let r := fold_left (fun r c => reducer_add r (fst c) (snd c)) calls ∅ in
  (forall a f b, calls = (a ++ (k, f) :: b)%list -> k ∉ map fst b -> reduction_for r k = f)
  /\ (k ∉ map fst calls -> reduction_for r k = None)
  /\ (reducer_can r n = true <-> lx_kind (pn_lexeme n) ∈ map fst calls).
Proof. exact (TreeWit.added_spec calls k n). Qed.
Print Assumptions c78_adds.
Example c78_example :
  reduction_for (TreeWit.added [(L "P", None); (L "Q", None); (L "P", Some (fun p => fst (remove_child 0 p)))] ∅) (L "P")
    = Some (fun p => fst (remove_child 0 p))
  /\ reducer_can (TreeWit.added [(L "P", None); (L "Q", None)] ∅) (TreeWit.leaf "a") = false.
Proof. exact TreeWit.added_example. Qed.
Example c30_example :
  raw_reduce {[L "P" := Some (fun p => fst (remove_child 0 p))]}
    (PN (TreeWit.lx "P" "") [TreeWit.leaf "c"; TreeWit.abc])
  = PN (TreeWit.lx "P" "") [PN (TreeWit.lx "P" "") [TreeWit.leaf "b"; TreeWit.leaf "a"]].
Proof. vm_compute. reflexivity. Qed.

(** C31: [ks1] and [ks2] are the orders in which Go ranges over the two maps. *)
Theorem c31_merge (ks1 ks2 : list gostring) (r1 r2 : reducer) (k : gostring) :
  (forall x, x ∈ ks1 <-> is_Some (r1 !! x)) -> (forall x, x ∈ ks2 <-> is_Some (r2 !! x)) ->
  merge_reducers ks1 ks2 r1 r2 !! k
  = match r1 !! k, r2 !! k with
    | Some f1, Some f2 => Some (chain f1 f2)
    | Some f1, None => Some f1
    | None, Some f2 => Some f2
    | None, None => None
    end.
Proof. exact (TreeProofs.merge_lookup ks1 ks2 r1 r2 k). Qed.
Print Assumptions c31_merge.
Theorem c31_merge_runs (ks1 ks2 : list gostring) (r1 r2 : reducer) (k : gostring) (n : pn) :
  (forall x, x ∈ ks1 <-> is_Some (r1 !! x)) -> (forall x, x ∈ ks2 <-> is_Some (r2 !! x)) ->
  run_red (reduction_for (merge_reducers ks1 ks2 r1 r2) k) n
  = run_red (reduction_for r2 k) (run_red (reduction_for r1 k) n).
Proof. exact (TreeWit.merge_runs ks1 ks2 r1 r2 k n). Qed.
Print Assumptions c31_merge_runs.
Theorem c31_chain (f g h : option reduction) n :
  chain None f = f /\ chain f None = f
  /\ run_red (chain f g) n = run_red g (run_red f n)
  /\ run_red (chain (chain f g) h) n = run_red (chain f (chain g h)) n.
Proof. exact (TreeWit.chain_laws f g h n). Qed.
Print Assumptions c31_chain.
Theorem c31_if c th el n :
  (c = None -> if_ c th el n = run_red el n)
  /\ (forall b, c = Some b -> if_ c th el n = if b n then run_red th n else run_red el n).
Proof. exact (TreeWit.if_runs c th el n). Qed.
Print Assumptions c31_if.
Example c31_example :
  (forall x, x ∈ [L "P"] <-> is_Some (TreeWit.red1 !! x))
  /\ (forall x, x ∈ [L "Q"; L "P"] <-> is_Some (TreeWit.red2 !! x))
  /\ run_red (reduction_for (merge_reducers [L "P"] [L "Q"; L "P"] TreeWit.red1 TreeWit.red2) (L "P")) TreeWit.abc
     = PN (TreeWit.lx "P" "vb") [TreeWit.leaf "a"].
Proof. exact TreeWit.merge_example. Qed.

(** C32, for every rune-printability predicate *)
Theorem c32_slice_req print pad t : length (node_segs print pad t) = slice_req t.
Proof. exact (TreeProofs.slice_req_exact print pad t). Qed.
Print Assumptions c32_slice_req.
Theorem c32_size t : pn_size t = length (nodes t).
Proof. exact (TreeProofs.pn_size_nodes t). Qed.
Print Assumptions c32_size.
Theorem c32_nil print t : pn_string print None = (L "NIL" ++ [10%N])%list /\ node_size None = 0%nat /\ node_size (Some t) = length (nodes t).
Proof. exact (conj eq_refl (conj eq_refl (TreeProofs.pn_size_nodes t))). Qed.
Print Assumptions c32_nil.
Example c32_example :
  slice_req (Some TreeWit.abc) = 17%nat /\ pn_size TreeWit.abc = 4%nat
  /\ pn_string (fun _ => true) (Some TreeWit.abc)
     = L "P {" ++ [10%N] ++ [9%N] ++ L "a: " ++ [34%N] ++ L "va" ++ [34%N; 10%N]
       ++ [9%N] ++ L "b: " ++ [34%N] ++ L "vb" ++ [34%N; 10%N]
       ++ [9%N] ++ L "a: " ++ [34%N] ++ L "va" ++ [34%N; 10%N] ++ L "}" ++ [10%N].
Proof. repeat split; vm_compute; reflexivity. Qed.
