(** C05, C29, C30, C35, C36, C59: tree nodes in memory, with pointers, parent links and
    slices over shared arrays. [tree_at h A]: the unshared tree [A] is in heap [h];
    [holds h A] allows sharing. [grow] is an arbitrary slice growth policy. *)
From Coq Require Import String.
From Verif.model Require Import TreeOps Packrat.
From Verif.spec Require Import HeapSpec TreeSpec Outcome PackratSpec CFG.
From Verif.proofs Require HeapProofs HeapProofs2 HeapThms HeapWit PackratWit.

(** C05 *)
Theorem c05_packrat_placed g lexemes h r :
  g_wf g -> terminal_kinds g lexemes -> returns (fun n => packrat_parse n g lexemes) r ->
  match r with
  | Some t => positioned g t /\ exists h' A, returns (fun n => h_packrat_parse n g lexemes h) (h', Some (a_ptr A))
      /\ tree_at h' A /\ a_val A = t /\ linked h' None A /\ extends h h' /\ fresh_from h A
  | None => returns (fun n => h_packrat_parse n g lexemes h) (h, None)
  end.
Proof. exact (HeapThms.packrat_placed g lexemes h r). Qed.
Print Assumptions c05_packrat_placed.
(** The tree in memory is right for any lexemes, also those named like non-terminals. *)
Theorem c05_packrat_linked g lexemes h t :
  returns (fun n => packrat_parse n g lexemes) (Some t) ->
  exists h' A, returns (fun n => h_packrat_parse n g lexemes h) (h', Some (a_ptr A))
    /\ tree_at h' A /\ a_val A = t /\ linked h' None A /\ extends h h' /\ fresh_from h A.
Proof. exact (HeapThms.packrat_in_memory g lexemes h t). Qed.
Print Assumptions c05_packrat_linked.
Example c05_example : exists h' p,
  h_packrat_parse 40 PackratWit.expr PackratWit.n_plus_n_times_n heap_empty = Ok (h', Some p)
  /\ children_of h' p = Ok [Some 1; Some 3; Some 4]
  /\ (h_par <$> h_nodes h' !! 4) = Some (Some p)
  /\ (h_par <$> h_nodes h' !! p) = Some None
  /\ ((fun n => (lx_line (h_lex n), lx_col (h_lex n))) <$> h_nodes h' !! p) = Some (0%Z, 1%Z).
Proof. exact HeapWit.expr_in_memory. Qed.

(** C29: one theorem per reduction ... *)
Theorem c29_remove_child grow i : implements_b (remove_child i) (h_remove_child grow i).
Proof. exact (HeapWit.remove_child_b grow i). Qed.
Print Assumptions c29_remove_child.
Theorem c29_replace_with_child i : implements_b (replace_with_child i) (h_replace_with_child i).
Proof. exact (HeapWit.replace_with_child_b i). Qed.
Print Assumptions c29_replace_with_child.
Theorem c29_promote_child grow i : implements_b (promote_child i) (h_promote_child grow i).
Proof. exact (HeapWit.promote_child_b grow i). Qed.
Print Assumptions c29_promote_child.
Theorem c29_promote_single_child grow : implements_b promote_single_child (h_promote_single_child grow).
Proof. exact (HeapWit.promote_single_child_b grow). Qed.
Print Assumptions c29_promote_single_child.
Theorem c29_promote_children_of grow i : implements_b (promote_children_of i) (h_promote_children_of grow i).
Proof. exact (HeapWit.promote_children_of_b grow i). Qed.
Print Assumptions c29_promote_children_of.
Theorem c29_promote_child_value grow i : implements (promote_child_value i) (h_promote_child_value grow i).
Proof. exact (HeapProofs.promote_child_value_implements grow i). Qed.
Print Assumptions c29_promote_child_value.
Theorem c29_promote_grand_children grow : implements promote_grand_children (h_promote_grand_children grow).
Proof. exact (HeapProofs2.promote_grand_children_implements grow). Qed.
Print Assumptions c29_promote_grand_children.
Theorem c29_remove_children grow idxs : implements (remove_children idxs) (h_remove_children grow idxs).
Proof. exact (HeapProofs2.remove_children_implements grow idxs). Qed.
Print Assumptions c29_remove_children.
Theorem c29_remove_all grow symbols : implements (remove_all symbols) (h_remove_all grow symbols).
Proof. exact (HeapProofs2.remove_all_implements grow symbols). Qed.
Print Assumptions c29_remove_all.
(** ... closed under running one after the other and choosing by a condition ... *)
Theorem c29_chain f1 f2 r1 r2 :
  implements (run_red f1) (h_run r1) -> implements (run_red f2) (h_run r2) ->
  implements (run_red (chain f1 f2)) (h_run (h_chain r1 r2)).
Proof. exact (HeapWit.chain_implements f1 f2 r1 r2). Qed.
Print Assumptions c29_chain.
Theorem c29_if b c f1 f2 r1 r2 :
  tests b c -> implements (run_red f1) (h_run r1) -> implements (run_red f2) (h_run r2) ->
  implements (if_ (Some b) f1 f2) (h_if (Some c) r1 r2).
Proof. exact (HeapProofs2.if_implements b c f1 f2 r1 r2). Qed.
Print Assumptions c29_if.
(** If without a condition does the else part. *)
Theorem c29_if_nil f1 f2 r1 r2 :
  implements (run_red f2) (h_run r2) -> implements (if_ None f1 f2) (h_if None r1 r2).
Proof. exact (HeapProofs2.if_nil_implements f1 f2 r1 r2). Qed.
Print Assumptions c29_if_nil.
Theorem c29_child_is i kind : tests (fun t => child_is t i kind) (fun p h => h_child_is h p i kind).
Proof. exact (HeapProofs2.child_is_tests i kind). Qed.
Print Assumptions c29_child_is.
(** ... and called on a node inside a larger tree it changes that subtree only. *)
Theorem c29_inside f r h A T : implements f r -> tree_at h T -> (exists X Y, replaced A X T Y) ->
  exists h' A' T', r (a_ptr A) h = Ok h' /\ replaced A A' T T' /\ tree_at h' T' /\ a_ptr T' = a_ptr T
    /\ pn_replaced (a_val A) (f (a_val A)) (a_val T) (a_val T') /\ only_changes h h' T T'.
Proof. exact (HeapWit.reduce_inside f r h A T). Qed.
Print Assumptions c29_inside.
Example c29_example :
  tree_at HeapWit.h0 HeapWit.T0 /\ linked HeapWit.h0 None HeapWit.T0
  /\ exists X Y, replaced HeapWit.B0 X HeapWit.T0 Y.
Proof. exact HeapWit.h0_tree. Qed.
Example c29_effect : exists h', h_promote_children_of (fun _ _ => 0) 1 0 HeapWit.h0 = Ok (h', true)
    /\ children_of h' 0 = Ok [Some 1; Some 4; Some 5; Some 3]
    /\ children_of h' 2 = Ok [Some 4; Some 5].
Proof. exact HeapWit.h0_promote. Qed.
(** Two nodes over one array would interfere. *)
Example c29_sharing : exists h', h_remove_child (fun _ _ => 0) 0 0 HeapWit.h_shared = Ok (h', true)
    /\ children_of HeapWit.h_shared 3 = Ok [Some 1; Some 2]
    /\ children_of h' 3 = Ok [Some 2; Some 2].
Proof. exact HeapWit.shared_breaks. Qed.

(** C30: the source, possibly with shared nodes, is still there and the result is a
    new unshared tree. *)
Theorem c30_input_untouched r hr h A :
  reducers_agree r hr -> holds h A ->
  exists h' A', returns (fun n => h_raw_reduce n hr (a_ptr A) h) (h', a_ptr A')
    /\ tree_at h' A' /\ a_val A' = raw_reduce r (a_val A)
    /\ extends h h' /\ fresh_from h A' /\ holds h' A.
Proof. exact (HeapThms.raw_reduce_untouched r hr h A). Qed.
Print Assumptions c30_input_untouched.
Example c30_example grow : reducers_agree (HeapWit.r0 grow) (HeapWit.hr0 grow).
Proof. exact (HeapWit.r0_agree grow). Qed.
Example c30_effect : exists h' q,
  h_raw_reduce 5 (HeapWit.hr0 (fun _ _ => 0)) 0 HeapWit.h0 = Ok (h', q) /\ q = 6
  /\ children_of h' 6 = Ok [Some 7; Some 8; Some 11]
  /\ children_of h' 8 = Ok [Some 10] /\ (lx_kind ∘ h_lex <$> h_nodes h' !! 8) = Some (L "d")
  /\ children_of h' 0 = Ok [Some 1; Some 2; Some 3].
Proof. exact HeapWit.reduce_h0. Qed.

(** C35 is false for positions ... *)
Theorem c35_clone_positions_refuted : exists h A h' A',
  tree_at h A /\ returns (fun n => h_clone n (a_ptr A) h) (h', a_ptr A') /\ tree_at h' A' /\ a_val A' <> a_val A.
Proof. exact HeapWit.clone_loses_positions. Qed.
Print Assumptions c35_clone_positions_refuted.
(** ... and holds for everything else. Missing from the full statement: positions, which
    are all (0, 0) in the copy. *)
Theorem c35_clone_partial h A :
  holds h A ->
  exists h' A', returns (fun n => h_clone n (a_ptr A) h) (h', a_ptr A')
    /\ tree_at h' A' /\ a_val A' = unplaced (a_val A) /\ linked h' None A'
    /\ extends h h' /\ fresh_from h A' /\ holds h' A.
Proof. exact (HeapThms.clone_copies h A). Qed.
Print Assumptions c35_clone_partial.

(** C36 is false: the copies made by Reduce have no parent links. *)
Theorem c36_links_refuted : exists h A h' A',
  tree_at h A /\ linked h None A /\ returns (fun n => h_raw_reduce n ∅ (a_ptr A) h) (h', a_ptr A')
  /\ tree_at h' A' /\ a_val A' = a_val A /\ ~ linked h' None A'.
Proof. exact HeapWit.reduce_unlinked. Qed.
Print Assumptions c36_links_refuted.
(** It fails for every tree with more than one node: *)
Theorem c36_no_links h A :
  holds h A ->
  exists h' A', returns (fun n => h_raw_reduce n ∅ (a_ptr A) h) (h', a_ptr A')
    /\ tree_at h' A' /\ a_val A' = a_val A
    /\ forall n x, n ∈ a_nodes A' -> h_nodes h' !! n = Some x -> h_par x = None.
Proof. exact (HeapThms.raw_reduce_orphans h A). Qed.
Print Assumptions c36_no_links.
(** PromoteChild and PromoteGrandChildren set the links of the children they leave.
    Missing: everything they do not touch. *)
Theorem c36_promote_child_partial grow i h A : tree_at h A -> in_range i (a_kids A) ->
  exists h' A', h_promote_child grow i (a_ptr A) h = Ok (h', true) /\ a_ptr A' = a_ptr A /\ tree_at h' A'
    /\ (a_val A', true) = promote_child i (a_val A) /\ kids_linked h' A'.
Proof. exact (HeapWit.promote_child_links grow i h A). Qed.
Print Assumptions c36_promote_child_partial.
Theorem c36_promote_grand_children_partial grow h A : tree_at h A ->
  exists h' A', h_promote_grand_children grow (a_ptr A) h = Ok h' /\ a_ptr A' = a_ptr A /\ tree_at h' A'
    /\ a_val A' = promote_grand_children (a_val A) /\ kids_linked h' A'.
Proof. exact (HeapWit.promote_grand_children_links grow h A). Qed.
Print Assumptions c36_promote_grand_children_partial.
Example c36_example : tree_at HeapWit.h0 HeapWit.T0 /\ in_range (-2) (a_kids HeapWit.T0).
Proof. exact (conj (proj1 HeapWit.h0_tree) HeapWit.links_h0). Qed.

(** C59 is false: Parent() of a root is a nil *PN in a non-nil interface, and asking that
    for its parent panics. *)
Theorem c59_parent_refuted : exists h A, tree_at h A /\ linked h None A /\
  h_parent h (Some (a_ptr A)) <> Ok INil
  /\ (i <-! h_parent h (Some (a_ptr A)); match i with INil => Ok INil | IPN p => h_parent h p end) = Panic.
Proof. exact HeapWit.root_parent_refuted. Qed.
Print Assumptions c59_parent_refuted.
Theorem c59_never_nil h p i : h_parent h p = Ok i -> i <> INil.
Proof. exact (HeapThms.parent_not_nil h p i). Qed.
Print Assumptions c59_never_nil.
(** The pointer inside is right. *)
Theorem c59_parent_partial h par A : linked h par A -> h_parent h (Some (a_ptr A)) = Ok (IPN par).
Proof. exact (HeapThms.parent_exact h par A). Qed.
Print Assumptions c59_parent_partial.
