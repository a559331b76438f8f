(** Concrete topdown trees in memory. *)
From Coq Require Import String Lia.
From Verif.model Require Import HeapTopdown TreeOps.
From Verif.spec Require Import TdHeapSpec TopdownSpec Outcome TreeSpec.
From Verif.proofs Require Import Fuel HeapProofs HeapBuild HeapThms TdHeap TopdownProofs PackratWit TopdownWit.
From Verif.proofs Require LeftRecProofs.
Local Open Scope nat_scope.
Local Open Scope list_scope.

(** [S -> N N a; N -> M; M -> ] on "a": both N are one node. *)
Definition twice : grammar :=
  gram_of [(L "S", [[L "N"; L "N"; L "a"]]); (L "N", [[L "M"]]); (L "M", [[]])].
Lemma twice_wf : g_wf twice.
Proof. apply gram_of_wf. Qed.
Definition nd (k : gostring) : lexeme := Lx k [] (-1) 0.
Definition tM : atree := AT 0 (nd (L "M")) (Some (2, 0)) [].
Definition tN : atree := AT 1 (nd (L "N")) (Some (1, 1)) [tM].
Definition ta : atree := AT 2 (lx (L "a")) None [].
Definition tS : atree := AT 3 (nd (L "S")) (Some (0, 3)) [tN; tN; ta].
Definition twice_heap : heap :=
  Heap [HN (nd (L "M")) None (Some (2, 0)); HN (nd (L "N")) None (Some (1, 1));
        HN (lx (L "a")) None None; HN (nd (L "S")) None (Some (0, 3))]
       [[Some 1; Some 1; Some 2]; [Some 0]; []].
Lemma twice_parse : returns (fun n => h_td_parse n twice [lx (L "a")] heap_empty) (twice_heap, Some (a_ptr tS)).
Proof. apply (returns_at _ 20); [apply h_td_parse_mono|vm_compute; reflexivity]. Qed.
Ltac slot := split; [reflexivity|exists []; reflexivity].
Lemma twice_holds : holds twice_heap tS.
Proof.
  assert (HM : holds twice_heap tM) by (econstructor; [reflexivity|slot|constructor]).
  assert (HN : holds twice_heap tN) by (econstructor; [reflexivity|slot|by constructor]).
  assert (Ha : holds twice_heap ta) by (econstructor; [reflexivity|reflexivity|constructor]).
  econstructor; [reflexivity|slot|]. repeat constructor; done.
Qed.
(** Removing the child of the first N removes that of the second. *)
Definition tN2 : atree := AT 1 (nd (L "N")) (Some (1, 0)) [].
Definition tS2 : atree := AT 3 (nd (L "S")) (Some (0, 3)) [tN2; tN2; ta].
Definition twice_heap2 : heap := set_node twice_heap 1 (HN (nd (L "N")) None (Some (1, 0))).
Lemma twice_remove grow : h_remove_child grow 0 (a_ptr tN) twice_heap = Ok (twice_heap2, true).
Proof. reflexivity. Qed.
Lemma twice_holds2 : holds twice_heap2 tS2.
Proof.
  assert (HN : holds twice_heap2 tN2) by (econstructor; [reflexivity|split; [reflexivity|eexists; reflexivity]|constructor]).
  assert (Ha : holds twice_heap2 ta) by (econstructor; [reflexivity|reflexivity|constructor]).
  econstructor; [reflexivity|slot|]. repeat constructor; done.
Qed.
Lemma shared_refuted : exists g lexemes h A, g_wf g /\ returns (fun n => td_new n g) true
  /\ returns (fun n => h_td_parse n g lexemes heap_empty) (h, Some (a_ptr A)) /\ holds h A /\ ~ tree_at h A
  /\ exists c1 c2 c3 d1 d2 d3 h' A', a_kids A = [c1; c2; c3]
     /\ (forall grow, h_remove_child grow 0 (a_ptr c1) h = Ok (h', true))
     /\ holds h' A' /\ a_ptr A' = a_ptr A /\ a_kids A' = [d1; d2; d3]
     /\ a_val c2 <> a_val d2.
Proof.
  exists twice, [lx (L "a")], twice_heap, tS. split_and!.
  - apply twice_wf.
  - apply (returns_at _ 10); [|vm_compute; reflexivity].
    intros n m Hle. apply rle_bind; [apply LeftRecProofs.is_lr_mono; done|]. intros; apply rle_refl.
  - apply twice_parse.
  - apply twice_holds.
  - intros (_ & Hn & _). cbn in Hn. apply NoDup_cons in Hn as [_ Hn]. apply NoDup_cons in Hn as [Hn _]. apply Hn. right. left.
  - exists tN, tN, ta, tN2, tN2, ta, twice_heap2, tS2. split_and!; [done|apply twice_remove|apply twice_holds2|done|done|discriminate].
Qed.

Lemma unlinked g lexemes h t : g_wf g -> returns (fun n => td_parse n g lexemes) (Some t) -> pn_children t <> [] ->
  exists h' A, returns (fun n => h_td_parse n g lexemes h) (h', Some (a_ptr A)) /\ holds h' A /\ a_val A = t /\ ~ linked h' None A.
Proof.
  intros Hg H Hc. destruct (td_some g lexemes h t Hg H) as (h' & A & H1 & H2 & H3 & H4 & _). exists h', A. split_and!; [done|done|done|].
  intros Hl. inversion Hl as [par p lx0 sl cs n Hp Hpar HF]; subst. rewrite val_AT in Hc. cbn [pn_children] in Hc.
  destruct cs as [|[q lx1 sl1 ds] cs]; [done|]. apply List.Forall_inv in HF. inversion HF as [par q' ? ? ? m Hq Hqpar _]; subst.
  destruct (H4 q) as (x & Hx & Hxp).
  { rewrite nodes_AT, fnodes_cons, nodes_AT. right. left. }
  rewrite Hq in Hx. injection Hx as <-. congruence.
Qed.
Lemma cloned g lexemes h t : g_wf g -> returns (fun n => td_parse n g lexemes) (Some t) ->
  exists h1 p h2 A, returns (fun n => h_td_parse n g lexemes h) (h1, Some p)
    /\ returns (fun n => h_clone n p h1) (h2, a_ptr A)
    /\ tree_at h2 A /\ a_val A = unplaced t /\ linked h2 None A /\ extends h h2 /\ fresh_from h1 A.
Proof.
  intros Hg H. destruct (td_some g lexemes h t Hg H) as (h1 & B & H1 & H2 & H3 & H4 & H5 & _).
  destruct (clone_copies h1 B H2) as (h2 & A & C1 & C2 & C3 & C4 & C5 & C6 & C7).
  exists h1, (a_ptr B), h2, A. split_and!; [done|done|done|by rewrite C3, H3|done|by eapply extends_trans|done].
Qed.
Lemma reduced r hr g lexemes h t : reducers_agree r hr -> g_wf g -> returns (fun n => td_parse n g lexemes) (Some t) ->
  exists h1 p h2 A, returns (fun n => h_td_parse n g lexemes h) (h1, Some p)
    /\ returns (fun n => h_raw_reduce n hr p h1) (h2, a_ptr A)
    /\ tree_at h2 A /\ a_val A = raw_reduce r t /\ extends h h2 /\ fresh_from h1 A.
Proof.
  intros Hr Hg H. destruct (td_some g lexemes h t Hg H) as (h1 & B & H1 & H2 & H3 & H4 & H5 & _).
  destruct (raw_reduce_untouched r hr h1 B Hr H2) as (h2 & A & C1 & C2 & C3 & C4 & C5 & C6).
  exists h1, (a_ptr B), h2, A. split_and!; [done|done|done|by rewrite C3, H3|by eapply extends_trans|done].
Qed.

Lemma paren_full : exists t, td_parse 20 paren paren_in = Ok (Some t) /\ full paren t /\ length (pn_children t) = 3.
Proof.
  eexists. split_and!; [vm_compute; reflexivity| |reflexivity].
  repeat first [apply full_intro; [intros; first [discriminate|reflexivity]|] | apply List.Forall_nil | apply List.Forall_cons].
Qed.
Lemma links_refuted : exists g lexemes h A, g_wf g
  /\ returns (fun n => h_td_parse n g lexemes heap_empty) (h, Some (a_ptr A)) /\ holds h A /\ ~ linked h None A.
Proof.
  assert (H : exists t, td_parse 20 twice [lx (L "a")] = Ok (Some t) /\ pn_children t <> []) by (eexists; split; [vm_compute; reflexivity|discriminate]).
  destruct H as (t & H1 & H2).
  destruct (unlinked twice [lx (L "a")] heap_empty t twice_wf ltac:(apply (returns_at _ 20); [apply td_parse_mono|done]) H2)
    as (h & A & P1 & P2 & _ & P3). exists twice, [lx (L "a")], h, A. split_and!; [apply twice_wf|done|done|done].
Qed.
