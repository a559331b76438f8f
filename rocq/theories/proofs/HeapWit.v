(** Concrete heaps for props/HeapProps.v, and the theorems there that only repackage
    others. *)
From Coq Require Import String Lia.
From Verif.model Require Import TreeOps Packrat.
From Verif.spec Require Import HeapSpec TreeSpec Outcome PackratSpec CFG.
From Verif.proofs Require Import TreeProofs HeapProofs HeapProofs2 HeapBuild HeapThms Fuel.
From Verif.proofs Require TreeWit PackratWit.
Local Open Scope Z_scope.

Lemma remove_child_b g i : implements_b (remove_child i) (h_remove_child g i).
Proof.
  intros h [p lx sl cs] HT. destruct (remove_child_heap g i p lx sl cs h HT) as (h' & sl' & cs' & ok & E & H1 & H2 & H3 & _).
  exists h', (AT p lx sl' cs'), ok. done.
Qed.
Lemma promote_children_of_b g i : implements_b (promote_children_of i) (h_promote_children_of g i).
Proof.
  intros h [p lx sl cs] HT. destruct (promote_children_of_heap g i p lx sl cs h HT) as (h' & sl' & cs' & ok & E & H1 & H2 & H3).
  exists h', (AT p lx sl' cs'), ok. done.
Qed.
Lemma replace_with_child_b i : implements_b (replace_with_child i) (h_replace_with_child i).
Proof.
  intros h [p lx sl cs] HT. destruct (replace_with_child_heap i p lx sl cs h HT) as (h' & A' & ok & E & Hp & H1 & H2 & H3).
  exists h', A', ok. done.
Qed.
Lemma promote_child_b g i : implements_b (promote_child i) (h_promote_child g i).
Proof.
  intros h [p lx sl cs] HT. destruct (promote_child_heap g i p lx sl cs h HT) as (h' & A' & ok & E & Hp & H1 & H2 & H3 & _).
  exists h', A', ok. done.
Qed.
Lemma promote_single_child_b g : implements_b promote_single_child (h_promote_single_child g).
Proof.
  intros h [p lx sl cs] HT. open_tree HT. unfold h_promote_single_child. cbn [a_ptr].
  rewrite (deref_at _ _ _ Hp). cbn [rbind h_ch]. rewrite (slice_len_is _ _ _ Hs), map_length.
  unfold promote_single_child. cbn [a_val pn_children]. rewrite map_length.
  destruct (length cs =? 1)%nat.
  - destruct (promote_child_b g 0 h (AT p lx sl cs) HT) as (h' & A' & ok & E & H1 & H2 & H3 & H4).
    cbn [a_ptr] in E. rewrite E. cbn [rbind fst]. exists h', A', true. rewrite val_AT in H3. by rewrite H3.
  - exists h, (AT p lx sl cs), false. split; [done|]. split; [done|]. split; [done|]. split; [done|]. apply only_changes_refl.
Qed.

(** [T] contains the subtree [A]. *)
Lemma reduce_inside f r h A T : implements f r -> tree_at h T -> (exists X Y, replaced A X T Y) ->
  exists h' A' T', r (a_ptr A) h = Ok h' /\ replaced A A' T T' /\ tree_at h' T' /\ a_ptr T' = a_ptr T
    /\ pn_replaced (a_val A) (f (a_val A)) (a_val T) (a_val T') /\ only_changes h h' T T'.
Proof.
  intros Hi HT (X & Y & Hr).
  assert (HA : tree_at h A).
  { clear Hi. induction Hr as [|p lx sl l c c' rr Hr IH]; [done|]. apply IH.
    destruct HT as (Hh & Hn & Ha). inversion Hh as [? ? par ? ? Hp Hs Hc]; subst.
    rewrite nodes_AT, fnodes_app, fnodes_cons in Hn. rewrite arrs_AT, farrs_app, farrs_cons in Ha.
    apply Forall_app in Hc as [_ Hc]. apply Forall_cons in Hc as [Hc _]. split; [done|]. split.
    - apply NoDup_cons in Hn as [_ Hn]. apply NoDup_app in Hn as (_ & _ & Hn). by apply NoDup_app in Hn as (Hn & _).
    - apply NoDup_app in Ha as (_ & _ & Ha). apply NoDup_app in Ha as (_ & _ & Ha). by apply NoDup_app in Ha as (Ha & _). }
  destruct (Hi h A HA) as (h' & A' & E & HA' & Hp & Hv & Hch).
  assert (HT' : exists T', replaced A A' T T').
  { clear -Hr. induction Hr as [|p lx sl l c c' rr Hr [T' IH]]; [exists A'; constructor|]. eexists. by constructor. }
  destruct HT' as [T' HT']. exists h', A', T'. split; [done|]. split; [done|].
  destruct (inside_step h h' A A' Hch HA' Hp T T' HT' HT) as [H1 H2]. split; [done|].
  split; [by apply (replaced_ptr A A')|]. split; [|done]. rewrite <- Hv. by apply replaced_val.
Qed.

(** A three level tree; the root's array has a spare slot, the inner node's has two. *)
Definition lf (k : string) : lexeme := Lx (L k) (L "v") 3 4.
Definition h0 : heap := Heap
  [HN (lf "R") None (Some (0%nat, 3%nat)); HN (lf "a") (Some 0%nat) None; HN (lf "B") (Some 0%nat) (Some (1%nat, 2%nat));
   HN (lf "c") (Some 0%nat) None; HN (lf "d") (Some 2%nat) None; HN (lf "e") (Some 2%nat) None]
  [[Some 1%nat; Some 2%nat; Some 3%nat; None]; [Some 4%nat; Some 5%nat; None; None]].
Definition B0 : atree := AT 2 (lf "B") (Some (1%nat, 2%nat)) [AT 4 (lf "d") None []; AT 5 (lf "e") None []].
Definition T0 : atree := AT 0 (lf "R") (Some (0%nat, 3%nat)) [AT 1 (lf "a") None []; B0; AT 3 (lf "c") None []].

Ltac holds_tac := repeat first
  [ apply Forall_nil_2 | apply Forall_cons_2
  | eapply holds_intro; [reflexivity| first [reflexivity | split; [reflexivity|eexists; reflexivity]] |] ].
Lemma h0_tree : tree_at h0 T0 /\ linked h0 None T0 /\ exists X Y, replaced B0 X T0 Y.
Proof.
  split; [|split].
  - split; [unfold T0, B0; holds_tac|]. split; vm_compute; apply (bool_decide_unpack _); vm_compute; exact I.
  - unfold T0, B0. repeat first [apply Forall_nil_2 | apply Forall_cons_2 | eapply linked_intro; [reflexivity|reflexivity|]].
  - exists B0, T0. apply (rep_below B0 B0 0 (lf "R") _ [AT 1 (lf "a") None []] B0 B0 [AT 3 (lf "c") None []]). constructor.
Qed.

(** With no growth slack, PromoteChildrenOf(1) on the root goes to a new array; the
    inner node keeps its two children. *)
Lemma h0_promote :
  exists h', h_promote_children_of (fun _ _ => 0%nat) 1 0 h0 = Ok (h', true)
    /\ children_of h' 0 = Ok [Some 1%nat; Some 4%nat; Some 5%nat; Some 3%nat]
    /\ children_of h' 2 = Ok [Some 4%nat; Some 5%nat].
Proof. eexists. vm_compute. repeat split. Qed.

(** Two nodes over one array, which no code of the package makes: the edit of one shows
    in the other, so the hypothesis of the theorems is needed. *)
Definition h_shared : heap := Heap
  [HN (lf "R") None (Some (0%nat, 2%nat)); HN (lf "a") None None; HN (lf "b") None None;
   HN (lf "S") None (Some (0%nat, 2%nat))]
  [[Some 1%nat; Some 2%nat]].
Lemma shared_breaks :
  exists h', h_remove_child (fun _ _ => 0%nat) 0 0 h_shared = Ok (h', true)
    /\ children_of h_shared 3 = Ok [Some 1%nat; Some 2%nat]
    /\ children_of h' 3 = Ok [Some 2%nat; Some 2%nat].
Proof. eexists. vm_compute. repeat split. Qed.

(** Reducers *)
Definition r0 (g : nat -> nat -> nat) : reducer := {[ L "B" := Some (fun t => fst (promote_child 0 t)) ]}.
Definition hr0 (g : nat -> nat -> nat) : gmap gostring (option hred) :=
  {[ L "B" := Some (fun p h => drop_bool (h_promote_child g 0 p h)) ]}.
Lemma r0_agree g : reducers_agree (r0 g) (hr0 g).
Proof.
  intros k. unfold reduction_for, r0, hr0. destruct (decide (k = L "B")) as [->|Hne].
  - rewrite !lookup_singleton. apply promote_child_implements.
  - rewrite !lookup_singleton_ne by done. done.
Qed.
Lemma reduce_h0 : exists h' q,
  h_raw_reduce 5 (hr0 (fun _ _ => 0%nat)) 0 h0 = Ok (h', q) /\ q = 6%nat
  /\ children_of h' 6 = Ok [Some 7%nat; Some 8%nat; Some 11%nat]
  /\ children_of h' 8 = Ok [Some 10%nat] /\ (lx_kind ∘ h_lex <$> h_nodes h' !! 8%nat) = Some (L "d")
  /\ children_of h' 0 = Ok [Some 1%nat; Some 2%nat; Some 3%nat].
Proof. eexists _, _. vm_compute. repeat split. Qed.

(** C36 *)
Lemma reduce_unlinked : exists h A h' A',
  tree_at h A /\ linked h None A /\ returns (fun n => h_raw_reduce n ∅ (a_ptr A) h) (h', a_ptr A')
  /\ tree_at h' A' /\ a_val A' = a_val A /\ ~ linked h' None A'.
Proof.
  destruct h0_tree as (Ht & Hl & _). destruct (raw_reduce_orphans h0 T0 (proj1 Ht)) as (h' & A' & Hr & Ht' & Hv & Ho).
  exists h0, T0, h', A'. repeat (split; [done|]). intros Hl'.
  destruct A' as [p lx sl [|c cs]]; [rewrite val_AT in Hv; discriminate|].
  inversion Hl' as [? ? ? ? ? n Hp Hpar Hcs]; subst. apply Forall_cons in Hcs as [Hc _].
  inversion Hc as [? cp clx csl ccs nc Hcp Hcpar _]; subst.
  assert (Hin : cp ∈ a_nodes (AT p lx sl (AT cp clx csl ccs :: cs))).
  { rewrite nodes_AT, fnodes_cons, nodes_AT. right. by left. }
  rewrite (Ho cp nc Hin Hcp) in Hcpar. discriminate.
Qed.
Lemma promote_child_links g i h A : tree_at h A -> in_range i (a_kids A) ->
  exists h' A', h_promote_child g i (a_ptr A) h = Ok (h', true) /\ a_ptr A' = a_ptr A /\ tree_at h' A'
    /\ (a_val A', true) = promote_child i (a_val A) /\ kids_linked h' A'.
Proof.
  destruct A as [p lx sl cs]. intros HT Hr. cbn [a_kids] in Hr.
  destruct (promote_child_heap g i p lx sl cs h HT) as (h' & A' & ok & E & Hp & Ht & _ & Hv & Hk).
  assert (Hok : ok = true).
  { destruct (range_at_index i cs Hr) as (a & c & b & Hat). apply (at_index_map a_val) in Hat.
    rewrite val_AT in Hv. rewrite (promote_child_in _ _ _ _ _ _ Hat) in Hv. by injection Hv. }
  subst ok. exists h', A'. split; [done|]. split; [done|]. split; [done|]. split; [by symmetry|]. exact (Hk eq_refl).
Qed.
Lemma promote_grand_children_links g h A : tree_at h A ->
  exists h' A', h_promote_grand_children g (a_ptr A) h = Ok h' /\ a_ptr A' = a_ptr A /\ tree_at h' A'
    /\ a_val A' = promote_grand_children (a_val A) /\ kids_linked h' A'.
Proof.
  destruct A as [p lx sl cs]. intros HT.
  destruct (promote_grand_children_heap g p lx sl cs h HT) as (h' & A' & E & Hp & Ht & _ & Hv & Hk).
  exists h', A'. done.
Qed.
Lemma links_h0 : in_range (-2) (a_kids T0).
Proof. unfold in_range; cbn; lia. Qed.

(** C35 *)
Lemma clone_loses_positions : exists h A h' A',
  tree_at h A /\ returns (fun n => h_clone n (a_ptr A) h) (h', a_ptr A') /\ tree_at h' A' /\ a_val A' <> a_val A.
Proof.
  destruct h0_tree as (Ht & _). destruct (clone_copies h0 T0 (proj1 Ht)) as (h' & A' & Hr & Ht' & Hv & _).
  exists h0, T0, h', A'. repeat (split; [done|]). rewrite Hv. vm_compute. discriminate.
Qed.
Lemma clone_of_unplaced h A : holds h A -> unplaced (a_val A) = a_val A ->
  exists h' A', returns (fun n => h_clone n (a_ptr A) h) (h', a_ptr A') /\ tree_at h' A' /\ a_val A' = a_val A.
Proof.
  intros Hh Hu. destruct (clone_copies h A Hh) as (h' & A' & Hr & Ht & Hv & _). exists h', A'.
  split; [done|]. split; [done|]. by rewrite Hv.
Qed.

(** C59 *)
Lemma root_parent_refuted : exists h A, tree_at h A /\ linked h None A /\
  h_parent h (Some (a_ptr A)) <> Ok INil /\ (i <-! h_parent h (Some (a_ptr A)); match i with INil => Ok INil | IPN p => h_parent h p end) = Panic.
Proof.
  exists h0, T0. destruct h0_tree as (Ht & Hl & _). split; [done|]. split; [done|]. split; [discriminate|reflexivity].
Qed.

(** C05 *)
Lemma expr_in_memory : exists h' p,
  h_packrat_parse 40 PackratWit.expr PackratWit.n_plus_n_times_n heap_empty = Ok (h', Some p)
  /\ children_of h' p = Ok [Some 1%nat; Some 3%nat; Some 4%nat]
  /\ (h_par <$> h_nodes h' !! 4%nat) = Some (Some p)
  /\ (h_par <$> h_nodes h' !! p) = Some None
  /\ ((fun n => (lx_line (h_lex n), lx_col (h_lex n))) <$> h_nodes h' !! p) = Some (0, 1).
Proof. eexists _, _. vm_compute. repeat split. Qed.

Lemma chain_implements f1 f2 r1 r2 :
  implements (run_red f1) (h_run r1) -> implements (run_red f2) (h_run r2) ->
  implements (run_red (chain f1 f2)) (h_run (h_chain r1 r2)).
Proof.
  intros H1 H2 h A HT.
  destruct (compose_implements _ _ _ _ H1 H2 h A HT) as (h' & A' & E & Hrest). exists h', A'.
  rewrite TreeWit.chain_run. split; [|done]. rewrite <- E.
  destruct r1 as [r1|], r2 as [r2|]; cbn [h_chain h_run rbind]; try done. by destruct (r1 (a_ptr A) h).
Qed.
