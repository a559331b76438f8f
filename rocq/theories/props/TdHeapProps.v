(** C97: the tree topdown Parse returns, in memory. [h_td_parse] is Parse building *PN
    nodes in the memory [h]; [tree_at] says every node and child slice is used once,
    [linked] that parent links are right (spec/HeapSpec.v). *)
From Coq Require Import String.
From Verif.spec Require Import Outcome TopdownSpec TdHeapSpec.
From Verif.model Require Import HeapTopdown TreeOps.
From Verif.proofs Require TdHeap TdHeapWit TopdownWit.
Local Open Scope nat_scope.
Local Open Scope list_scope.

(** C97 is false for node identity: on "a" the two N of [S -> N N a; N -> M; M -> ] are one
    node, and RemoveChild(0) on the first N also takes the child of the second ... *)
Theorem c97_distinct_nodes_refuted : exists g lexemes h A, g_wf g /\ returns (fun n => td_new n g) true
  /\ returns (fun n => h_td_parse n g lexemes heap_empty) (h, Some (a_ptr A)) /\ holds h A /\ ~ tree_at h A
  /\ exists c1 c2 c3 d1 d2 d3 h' A', a_kids A = [c1; c2; c3]
     /\ (forall grow, h_remove_child grow 0 (a_ptr c1) h = Ok (h', true))
     /\ holds h' A' /\ a_ptr A' = a_ptr A /\ a_kids A' = [d1; d2; d3]
     /\ a_val c2 <> a_val d2.
Proof. exact TdHeapWit.shared_refuted. Qed.
Print Assumptions c97_distinct_nodes_refuted.
(** ... and for parent links, in every tree with children. *)
Theorem c97_links_refuted : exists g lexemes h A, g_wf g
  /\ returns (fun n => h_td_parse n g lexemes heap_empty) (h, Some (a_ptr A)) /\ holds h A /\ ~ linked h None A.
Proof. exact TdHeapWit.links_refuted. Qed.
Print Assumptions c97_links_refuted.
Theorem c97_no_links g lexemes h t :
  g_wf g -> returns (fun n => td_parse n g lexemes) (Some t) -> pn_children t <> [] ->
  exists h' A, returns (fun n => h_td_parse n g lexemes h) (h', Some (a_ptr A))
    /\ holds h' A /\ a_val A = t /\ ~ linked h' None A.
Proof. exact (TdHeapWit.unlinked g lexemes h t). Qed.
Print Assumptions c97_no_links.
(** The tree is in memory new and whole, without any parent link, and nothing else in
    memory changes; its nodes are distinct if every non-terminal node has a child. *)
Theorem c97_topdown_partial g lexemes h t :
  g_wf g -> returns (fun n => td_parse n g lexemes) (Some t) ->
  exists h' A, returns (fun n => h_td_parse n g lexemes h) (h', Some (a_ptr A))
    /\ holds h' A /\ a_val A = t /\ orphans h' A /\ extends h h' /\ fresh_from h A /\ (full g t -> tree_at h' A).
Proof. exact (TdHeap.td_some g lexemes h t). Qed.
Print Assumptions c97_topdown_partial.
Theorem c97_no_tree g lexemes h :
  g_wf g -> returns (fun n => td_parse n g lexemes) None ->
  exists h', returns (fun n => h_td_parse n g lexemes h) (h', None) /\ extends h h'.
Proof. exact (TdHeap.td_none g lexemes h). Qed.
Print Assumptions c97_no_tree.
Theorem c97_diverges g lexemes h :
  g_wf g -> diverges (fun n => td_parse n g lexemes) -> diverges (fun n => h_td_parse n g lexemes h).
Proof. exact (TdHeap.h_td_parse_diverges g lexemes h). Qed.
Print Assumptions c97_diverges.
(** Leaves are the lexemes with their positions, all other nodes are at (-1, 0). *)
Theorem c97_positions g lexemes t :
  g_wf g -> returns (fun n => td_parse n g lexemes) (Some t) -> bare lexemes t.
Proof. exact (TdHeap.td_bare g lexemes t). Qed.
Print Assumptions c97_positions.
(** Clone and RawReduce give trees with nodes of their own. *)
Theorem c97_clone g lexemes h t :
  g_wf g -> returns (fun n => td_parse n g lexemes) (Some t) ->
  exists h1 p h2 A, returns (fun n => h_td_parse n g lexemes h) (h1, Some p)
    /\ returns (fun n => h_clone n p h1) (h2, a_ptr A)
    /\ tree_at h2 A /\ a_val A = unplaced t /\ linked h2 None A /\ extends h h2 /\ fresh_from h1 A.
Proof. exact (TdHeapWit.cloned g lexemes h t). Qed.
Print Assumptions c97_clone.
Theorem c97_reduce r hr g lexemes h t :
  reducers_agree r hr -> g_wf g -> returns (fun n => td_parse n g lexemes) (Some t) ->
  exists h1 p h2 A, returns (fun n => h_td_parse n g lexemes h) (h1, Some p)
    /\ returns (fun n => h_raw_reduce n hr p h1) (h2, a_ptr A)
    /\ tree_at h2 A /\ a_val A = raw_reduce r t /\ extends h h2 /\ fresh_from h1 A.
Proof. exact (TdHeapWit.reduced r hr g lexemes h t). Qed.
Print Assumptions c97_reduce.
(** "( ( x ) )" under [S -> ( S ) | x]. *)
Example c97_example : exists t, td_parse 20 TopdownWit.paren TopdownWit.paren_in = Ok (Some t)
  /\ full TopdownWit.paren t /\ length (pn_children t) = 3.
Proof. exact TdHeapWit.paren_full. Qed.
