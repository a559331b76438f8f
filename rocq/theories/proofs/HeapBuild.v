(** Building a tree bottom up in fresh memory: RawReduce, Clone and packrat's toPN. *)
From Coq Require Import Lia.
From Verif.model Require Import TreeOps Packrat.
From Verif.spec Require Import HeapSpec TreeSpec Outcome.
From Verif.proofs Require Import TreeProofs HeapProofs HeapProofs2 Fuel.

(** * Extension *)
Lemma extends_refl h : extends h h.
Proof. by split. Qed.
Lemma extends_trans h1 h2 h3 : extends h1 h2 -> extends h2 h3 -> extends h1 h3.
Proof. intros [? ?] [? ?]. split; etrans; eassumption. Qed.
Lemma extends_node h h' n x : extends h h' -> h_nodes h !! n = Some x -> h_nodes h' !! n = Some x.
Proof. intros [H _] Hx. by apply (prefix_lookup _ _ _ _ Hx). Qed.
Lemma extends_arr h h' a x : extends h h' -> h_arrs h !! a = Some x -> h_arrs h' !! a = Some x.
Proof. intros [_ H] Hx. by apply (prefix_lookup _ _ _ _ Hx). Qed.
Lemma extends_nodes_len h h' : extends h h' -> length (h_nodes h) <= length (h_nodes h').
Proof. intros [H _]. by apply prefix_length. Qed.
Lemma extends_arrs_len h h' : extends h h' -> length (h_arrs h) <= length (h_arrs h').
Proof. intros [_ H]. by apply prefix_length. Qed.
Lemma prefix_of_lookup {A} (l k : list A) :
  (forall i x, l !! i = Some x -> k !! i = Some x) -> l `prefix_of` k.
Proof.
  intros H. exists (drop (length l) k).
  assert (Hl : length l <= length k).
  { destruct (decide (length l <= length k)) as [|Hn]; [done|].
    destruct (lookup_lt_is_Some_2 l (length k)) as [x Hx]; [lia|].
    pose proof (H _ _ Hx) as Hk. apply lookup_lt_Some in Hk. lia. }
  apply list_eq. intros i. destruct (decide (i < length l)) as [Hi|Hi].
  - rewrite lookup_app_l by done. destruct (lookup_lt_is_Some_2 l i Hi) as [x Hx]. by rewrite Hx, (H _ _ Hx).
  - rewrite lookup_app_r by lia. rewrite lookup_drop. f_equal. lia.
Qed.
Lemma extends_lookup h h' :
  (forall n x, h_nodes h !! n = Some x -> h_nodes h' !! n = Some x) ->
  (forall n x, h_arrs h !! n = Some x -> h_arrs h' !! n = Some x) -> extends h h'.
Proof. intros H1 H2. split; by apply prefix_of_lookup. Qed.

Lemma extends_holds h h' A : extends h h' -> holds h A -> holds h' A.
Proof.
  intros He Hh. apply (holds_agree h); [done|]. apply agree_eq.
  - intros n Hin. pose proof (holds_node_lt _ _ _ Hh Hin) as Hlt.
    destruct (lookup_lt_is_Some_2 _ _ Hlt) as [x Hx]. by rewrite Hx, (extends_node _ _ _ _ He Hx).
  - intros n Hin. pose proof (holds_arr_lt _ _ _ Hh Hin) as Hlt.
    destruct (lookup_lt_is_Some_2 _ _ Hlt) as [x Hx]. by rewrite Hx, (extends_arr _ _ _ _ He Hx).
Qed.

Lemma only_changes_extends h0 h h' A A' :
  extends h0 h -> fresh_from h0 A -> only_changes h h' A A' -> extends h0 h' /\ fresh_from h0 A'.
Proof.
  intros He [F1 F2] (L1 & L2 & C1 & C2 & C3 & C4).
  pose proof (extends_nodes_len _ _ He). pose proof (extends_arrs_len _ _ He). split.
  - apply extends_lookup.
    + intros n x Hx. pose proof (lookup_lt_Some _ _ _ Hx). rewrite C1.
      * by apply (extends_node h0).
      * lia.
      * intros Hin. apply F1 in Hin. lia.
    + intros n x Hx. pose proof (lookup_lt_Some _ _ _ Hx). rewrite C2.
      * by apply (extends_arr h0).
      * lia.
      * intros Hin. apply F2 in Hin. lia.
  - split; [intros n Hin; destruct (C3 n Hin)|intros a Hin; destruct (C4 a Hin)].
    + by apply F1. + lia. + by apply F2. + lia.
Qed.

(** * Filling the slots of a new node *)
Definition local_prop (Q : heap -> atree -> Prop) : Prop :=
  forall h h' A, Q h A -> (forall n, n ∈ a_nodes A -> h_nodes h' !! n = h_nodes h !! n) -> Q h' A.

Record filling (Q : heap -> atree -> Prop) (h hk : heap) (lx : lexeme) (n : nat) (Bs : list atree) : Prop := {
  fl_ext : extends h hk;
  fl_node : h_nodes hk !! length (h_nodes h) = Some (HN lx None (Some (length (h_arrs h), n)));
  fl_arr : h_arrs hk !! length (h_arrs h) = Some (map Some (map a_ptr Bs) ++ replicate (n - length Bs) None);
  fl_holds : Forall (holds hk) Bs;
  fl_nodes : NoDup (fnodes Bs);
  fl_arrs : NoDup (farrs Bs);
  fl_above : forall x, x ∈ fnodes Bs -> length (h_nodes h) < x;
  fl_abovea : forall a, a ∈ farrs Bs -> length (h_arrs h) < a;
  fl_q : Forall (Q hk) Bs
}.

Lemma filling_start Q h lx n :
  forall h1 sl h2 p, make_slice h n n = (h1, sl) -> alloc h1 (HN lx None sl) = (h2, p) ->
  p = length (h_nodes h) /\ sl = Some (length (h_arrs h), n) /\ filling Q h h2 lx n [].
Proof.
  intros h1 sl h2 p [= <- <-] [= <- <-]. cbn [h_nodes h_arrs]. split; [done|]. split; [done|].
  constructor; cbn [h_nodes h_arrs]; try constructor; cbn [h_nodes h_arrs].
  - by apply prefix_app_r.
  - by apply prefix_app_r.
  - by apply list_lookup_middle.
  - rewrite list_lookup_middle by done. cbn. by rewrite Nat.sub_0_r.
  - intros x Hx. by apply elem_of_nil in Hx.
  - intros x Hx. by apply elem_of_nil in Hx.
Qed.

Lemma forall_holds_in h Bs n : Forall (holds h) Bs -> n ∈ fnodes Bs -> n < length (h_nodes h).
Proof.
  intros F Hin. apply elem_of_list_In, in_concat in Hin as (x & Hx & Hin).
  apply in_map_iff in Hx as (k & <- & Hk). apply elem_of_list_In in Hk, Hin. rewrite Forall_forall in F.
  by apply (holds_node_lt h k n (F k Hk)).
Qed.
Lemma forall_holds_ina h Bs n : Forall (holds h) Bs -> n ∈ farrs Bs -> n < length (h_arrs h).
Proof.
  intros F Hin. apply elem_of_list_In, in_concat in Hin as (x & Hx & Hin).
  apply in_map_iff in Hx as (k & <- & Hk). apply elem_of_list_In in Hk, Hin. rewrite Forall_forall in F.
  by apply (holds_arr_lt h k n (F k Hk)).
Qed.

Lemma filling_step Q h hk h1 h2 lx n Bs B :
  local_prop Q -> filling Q h hk lx n Bs -> length Bs < n ->
  extends hk h1 -> h_arrs h2 = h_arrs h1 -> length (h_nodes h2) = length (h_nodes h1) ->
  (forall m, m <> a_ptr B -> h_nodes h2 !! m = h_nodes h1 !! m) ->
  tree_at h2 B -> fresh_from hk B -> Q h2 B ->
  h_nodes h2 !! length (h_nodes h) = Some (HN lx None (Some (length (h_arrs h), n)))
  /\ exists h3, slice_set h2 (Some (length (h_arrs h), n)) (length Bs) (Some (a_ptr B)) = Ok h3
     /\ filling Q h h3 lx n (Bs ++ [B]).
Proof.
  intros HQ Hf Hlt He Ea El En (Hh & Hn & Ha) [F1 F2] HB.
  destruct Hf as [fext fnode farr fholds fnodes_ farrs_ fabove fabovea fq].
  pose proof (extends_nodes_len _ _ fext) as L1. pose proof (extends_arrs_len _ _ fext) as L2.
  pose proof (lookup_lt_Some _ _ _ fnode) as L3. pose proof (lookup_lt_Some _ _ _ farr) as L4.
  assert (Hptr : length (h_nodes hk) <= a_ptr B) by (apply F1, ptr_in_nodes).
  assert (Hold : forall m, m < length (h_nodes hk) -> h_nodes h2 !! m = h_nodes hk !! m).
  { intros m Hm. rewrite En by lia. destruct (lookup_lt_is_Some_2 _ _ Hm) as [x Hx].
    by rewrite Hx, (extends_node _ _ _ _ He Hx). }
  assert (Holda : forall m, m < length (h_arrs hk) -> h_arrs h2 !! m = h_arrs hk !! m).
  { intros m Hm. rewrite Ea. destruct (lookup_lt_is_Some_2 _ _ Hm) as [x Hx].
    by rewrite Hx, (extends_arr _ _ _ _ He Hx). }
  split; [by rewrite Hold|].
  unfold slice_set. rewrite (proj2 (Nat.ltb_lt _ _) Hlt). eexists. split; [reflexivity|].
  assert (Hlt2 : length (h_arrs h) < length (h_arrs h2)).
  { rewrite Ea. apply (Nat.lt_le_trans _ _ _ L4). by apply extends_arrs_len. }
  set (h3 := Heap _ _).
  assert (Harr3 : forall m, m <> length (h_arrs h) -> h_arrs h3 !! m = h_arrs h2 !! m).
  { intros m Hm. unfold h3. cbn [h_arrs]. by rewrite list_lookup_insert_ne. }
  constructor.
  - apply extends_lookup.
    + intros m x Hx. change (h_nodes h3) with (h_nodes h2). pose proof (lookup_lt_Some _ _ _ Hx).
      rewrite Hold by lia. by apply (extends_node h).
    + intros m x Hx. pose proof (lookup_lt_Some _ _ _ Hx). rewrite Harr3 by lia. rewrite Holda by lia.
      by apply (extends_arr h).
  - change (h_nodes h3) with (h_nodes h2). by rewrite Hold.
  - unfold h3. cbn [h_arrs]. rewrite list_lookup_insert by done. f_equal. unfold array. rewrite Holda, farr by done.
    cbn [from_option id]. rewrite insert_app_r_alt by (by rewrite !map_length).
    rewrite !map_length, Nat.sub_diag. rewrite !map_app, <- app_assoc. f_equal. cbn [map app].
    rewrite app_length. cbn [length]. replace (n - length Bs) with (S (n - (length Bs + 1))) by lia. reflexivity.
  - rewrite Forall_app. split; [|constructor; [|constructor]].
    + apply (holds_all_agree hk); [done|]. apply agree_eq.
      * intros m Hm. change (h_nodes h3) with (h_nodes h2). apply Hold. by apply (forall_holds_in hk Bs).
      * intros m Hm. rewrite Harr3; [apply Holda; by apply (forall_holds_ina hk Bs)|].
        intros ->. apply fabovea in Hm. lia.
    + apply (holds_agree h2); [done|]. apply agree_eq; [done|]. intros m Hm. apply Harr3. apply F2 in Hm. lia.
  - rewrite fnodes_app. cbn [map List.concat]. rewrite app_nil_r. apply NoDup_app. split; [done|]. split; [|done].
    intros m Hm Hm'. apply F1 in Hm'. apply (forall_holds_in hk Bs m fholds) in Hm. lia.
  - rewrite farrs_app. cbn [map List.concat]. rewrite app_nil_r. apply NoDup_app. split; [done|]. split; [|done].
    intros m Hm Hm'. apply F2 in Hm'. apply (forall_holds_ina hk Bs m fholds) in Hm. lia.
  - intros m. rewrite fnodes_app. cbn [map List.concat]. rewrite app_nil_r, elem_of_app.
    intros [Hm|Hm]; [by apply fabove|]. apply F1 in Hm. lia.
  - intros m. rewrite farrs_app. cbn [map List.concat]. rewrite app_nil_r, elem_of_app.
    intros [Hm|Hm]; [by apply fabovea|]. apply F2 in Hm. lia.
  - rewrite Forall_app. split; [|constructor; [|constructor]].
    + rewrite Forall_forall in fq |- *. intros C HC. apply (HQ hk); [by apply fq|].
      intros m Hm. change (h_nodes h3) with (h_nodes h2). apply Hold. rewrite Forall_forall in fholds.
      apply (holds_node_lt hk C m); [by apply fholds|done].
    + apply (HQ h2); [done|]. intros m _. reflexivity.
Qed.

Lemma filling_done Q h hk lx Bs n :
  filling Q h hk lx n Bs -> length Bs = n ->
  tree_at hk (AT (length (h_nodes h)) lx (Some (length (h_arrs h), n)) Bs)
  /\ fresh_from h (AT (length (h_nodes h)) lx (Some (length (h_arrs h), n)) Bs).
Proof.
  intros [fext fnode farr fholds fnodes_ farrs_ fabove fabovea fq] <-.
  rewrite Nat.sub_diag in farr. cbn [replicate] in farr. split.
  - split; [|split].
    + apply (holds_intro _ _ _ None); [done| |done]. split; [by rewrite map_length|]. eauto.
    + rewrite nodes_AT. apply NoDup_cons. split; [|done]. intros Hin. apply fabove in Hin. lia.
    + rewrite arrs_AT. cbn [sl_arr]. apply NoDup_cons. split; [|done]. intros Hin. apply fabovea in Hin. lia.
  - split; [intros m|intros m].
    + rewrite nodes_AT, elem_of_cons. intros [->|Hin]; [lia|]. apply fabove in Hin. lia.
    + rewrite arrs_AT. cbn [sl_arr]. rewrite elem_of_app, elem_of_list_singleton.
      intros [->|Hin]; [lia|]. apply fabovea in Hin. lia.
Qed.

(** * Reading the children of a source node *)
Lemma h_child_get h p lx sl pre c post :
  holds h (AT p lx sl (pre ++ c :: post)) -> h_child h p (Z.of_nat (length pre)) = Ok (Some (Some (a_ptr c))).
Proof.
  intros Hh. inversion Hh as [? ? par ? ? Hp Hs Hc]; subst. unfold h_child. rewrite (deref_at _ _ _ Hp). cbn [rbind].
  assert (Hat : at_index (Z.of_nat (length pre)) (pre ++ c :: post) pre c post) by (split; auto).
  rewrite (h_idx_in h lx par sl _ _ _ _ _ Hs Hat). cbn [h_ch]. rewrite Nat2Z.id.
  rewrite map_app in Hs. cbn [map] in Hs. pose proof (slice_get_is _ _ _ _ _ Hs) as Hg. rewrite map_length in Hg.
  by rewrite Hg.
Qed.

Fixpoint a_height (A : atree) : nat := match A with AT _ _ _ cs => S (list_max (map a_height cs)) end.
Lemma height_child p lx sl cs c f : a_height (AT p lx sl cs) <= S f -> c ∈ cs -> a_height c <= f.
Proof.
  cbn [a_height]. intros H Hc. assert (Hm : list_max (map a_height cs) <= f) by lia.
  apply list_max_le in Hm. rewrite List.Forall_forall in Hm. apply Hm. apply in_map. by apply elem_of_list_In.
Qed.

(** * RawReduce *)
Section Raw.
  Variable g : nat -> nat -> nat.
  Variable r : reducer.
  Variable hr : gmap gostring (option hred).
  Hypothesis Hagree : reducers_agree r hr.
  Variable Q : heap -> atree -> Prop.
  Hypothesis HQ : local_prop Q.
  Hypothesis HQn : forall h p lx sl cs, h_nodes h !! p = Some (HN lx None sl) -> Forall (Q h) cs -> Q h (AT p lx sl cs).
  Hypothesis HQr : (forall h A, Q h A) \/ forall k, reduction_for r k = None.

  Lemma raw_reduce_heap : forall fuel A h, a_height A <= fuel -> holds h A ->
    exists h' A', h_raw_reduce fuel hr (a_ptr A) h = Ok (h', a_ptr A')
      /\ tree_at h' A' /\ extends h h' /\ fresh_from h A' /\ a_val A' = raw_reduce r (a_val A) /\ Q h' A'.
  Proof.
    induction fuel as [|f IH]; intros [p lx sl cs] h Hf Hh; [cbn [a_height] in Hf; lia|].
    cbn [h_raw_reduce a_ptr]. inversion Hh as [? ? par ? ? Hp Hs Hc]; subst.
    rewrite (deref_at _ _ _ Hp). cbn [rbind h_ch h_lex]. rewrite (slice_len_is _ _ _ Hs), map_length.
    destruct (make_slice h (length cs) (length cs)) as [h1 sl1] eqn:Em.
    destruct (alloc h1 (HN lx None sl1)) as [h2 q] eqn:Eal.
    destruct (filling_start Q h lx _ _ _ _ _ Em Eal) as (-> & -> & Hfill).
    set (q := length (h_nodes h)) in *.
    assert (Hloop : forall post pre Bs hk, cs = pre ++ post -> length Bs = length pre ->
      map a_val Bs = map (raw_reduce r) (map a_val pre) ->
      filling Q h hk lx (length cs) Bs ->
      exists hk' Bs', rfold (fun h i =>
            c <-! h_child h p (Z.of_nat i);
            match c with
            | None => cpn <-! deref h q; slice_set h (h_ch cpn) i None
            | Some None => Panic
            | Some (Some c) =>
                ' (h, q0) <-! h_raw_reduce f hr c h;
                cpn <-! deref h q;
                slice_set h (h_ch cpn) i (Some q0)
            end) (seq (length pre) (length post)) hk = Ok hk'
        /\ length Bs' = length cs /\ map a_val Bs' = map (raw_reduce r) (map a_val cs)
        /\ filling Q h hk' lx (length cs) Bs').
    { induction post as [|c post IHp]; intros pre Bs hk Hcs HlB Hv Hfl.
      - rewrite app_nil_r in Hcs. subst pre. cbn [length seq rfold]. eauto 10.
      - cbn [length seq rfold].
        pose proof (extends_holds _ _ _ (fl_ext _ _ _ _ _ _ Hfl) Hh) as Hhk.
        rewrite Hcs in Hhk. rewrite (h_child_get _ _ _ _ _ _ _ Hhk). cbn [rbind].
        assert (Hcin : c ∈ cs) by (rewrite Hcs, elem_of_app; right; by left).
        assert (Hck : holds hk c).
        { apply (extends_holds h); [apply (fl_ext _ _ _ _ _ _ Hfl)|]. rewrite Forall_forall in Hc. by apply Hc. }
        destruct (IH c hk (height_child _ _ _ _ _ _ Hf Hcin) Hck) as (h3 & B & E3 & Ht3 & He3 & Hfr3 & Hv3 & HQ3).
        rewrite E3. cbn [rbind].
        destruct (filling_step Q h hk h3 h3 lx (length cs) Bs B HQ Hfl) as (Hq3 & h4 & E4 & Hfl4); try done.
        { rewrite HlB, Hcs, app_length. cbn [length]. lia. }
        fold q in Hq3. rewrite (deref_at _ _ _ Hq3). cbn [rbind h_ch]. rewrite <- HlB. rewrite E4. cbn [rbind].
        assert (Hl : S (length Bs) = length (pre ++ [c])) by (rewrite app_length; cbn [length]; lia). rewrite Hl.
        apply (IHp (pre ++ [c]) (Bs ++ [B])).
        + by rewrite <- app_assoc.
        + rewrite !app_length. cbn [length]. lia.
        + rewrite !map_app. cbn [map]. by rewrite Hv, Hv3.
        + done. }
    destruct (Hloop cs [] [] h2 eq_refl eq_refl eq_refl Hfill) as (h3 & Bs & E3 & HlB & Hv & Hfl).
    cbn [length] in E3. rewrite E3. cbn [rbind].
    destruct (filling_done _ _ _ _ _ _ Hfl HlB) as [Ht Hfr]. fold q in Ht, Hfr.
    set (A1 := AT q lx (Some (length (h_arrs h), length cs)) Bs) in *.
    pose proof (fl_node _ _ _ _ _ _ Hfl) as Hq3. fold q in Hq3. rewrite (deref_at _ _ _ Hq3). cbn [rbind h_lex].
    pose proof (Hagree (lx_kind lx)) as Hag. cbn [raw_reduce a_val].
    assert (HvA : a_val A1 = PN lx (map (raw_reduce r) (map a_val cs))) by (unfold A1; rewrite val_AT; by rewrite Hv).
    assert (Hrr : match r !! lx_kind lx with Some (Some f0) => f0 (PN lx (map (raw_reduce r) (map a_val cs))) | _ => PN lx (map (raw_reduce r) (map a_val cs)) end
                 = match reduction_for r (lx_kind lx) with Some f0 => f0 (PN lx (map (raw_reduce r) (map a_val cs))) | None => PN lx (map (raw_reduce r) (map a_val cs)) end).
    { unfold reduction_for. destruct (r !! lx_kind lx) as [[?|]|]; done. }
    rewrite Hrr. clear Hrr.
    destruct (reduction_for r (lx_kind lx)) as [f0|] eqn:Er,
      (match hr !! lx_kind lx with Some x => x | None => None end) as [hf|]; try done.
    - destruct (Hag h3 A1 Ht) as (h4 & A2 & E4 & Ht4 & Hp4 & Hv4 & Hch4).
      exists h4, A2. cbn [h_run]. change q with (a_ptr A1). rewrite E4. cbn [rbind]. rewrite Hp4.
      destruct (only_changes_extends h h3 h4 A1 A2 (fl_ext _ _ _ _ _ _ Hfl) Hfr Hch4) as [He4 Hfr4].
      split; [done|]. split; [done|]. split; [done|]. split; [done|]. split; [by rewrite Hv4, HvA|].
      destruct HQr as [HQr'|HQr']; [apply HQr'|]. by rewrite HQr' in Er.
    - exists h3, A1. cbn [h_run rbind]. split; [done|]. split; [done|].
      split; [apply (fl_ext _ _ _ _ _ _ Hfl)|]. split; [done|]. split; [done|].
      apply HQn; [done|]. apply (fl_q _ _ _ _ _ _ Hfl).
  Qed.
End Raw.

(** * Parents *)
Inductive has_parents (up : nat -> option nat) (h : heap) : option nat -> atree -> Prop :=
| hp_intro par p lx sl cs n :
    h_nodes h !! p = Some n -> h_par n = par ->
    Forall (has_parents up h (up p)) cs -> has_parents up h par (AT p lx sl cs).

Lemma has_parents_local up par : local_prop (fun h => has_parents up h par).
Proof.
  intros h h' A. revert par. induction A as [p lx sl cs IH] using atree_ind_list. intros par H Hn.
  inversion H as [? ? ? ? ? n Hp Hpar Hcs]; subst. apply (hp_intro up h' _ p lx sl cs n).
  - rewrite Hn; [done|]. rewrite nodes_AT. by left.
  - done.
  - rewrite Forall_forall in *. intros c Hc. apply IH; [done|by apply Hcs|].
    intros m Hm. apply Hn. rewrite nodes_AT. right. apply elem_of_list_In, in_concat. exists (a_nodes c).
    split; [apply in_map; by apply elem_of_list_In|by apply elem_of_list_In].
Qed.
Lemma has_parents_linked h par A : has_parents Some h par A <-> linked h par A.
Proof.
  revert par. induction A as [p lx sl cs IH] using atree_ind_list. intros par. rewrite Forall_forall in IH.
  split; intros H; inversion H as [? ? ? ? ? n Hp Hpar Hcs]; subst.
  - apply (linked_intro h _ p lx sl cs n); [done|done|]. rewrite Forall_forall in *. intros c Hc. apply IH; auto.
  - apply (hp_intro Some h _ p lx sl cs n); [done|done|]. rewrite Forall_forall in *. intros c Hc. apply IH; auto.
Qed.

(** Giving the root of a tree a parent. *)
Lemma set_root_par h A q x :
  tree_at h A -> h_nodes h !! a_ptr A = Some x ->
  tree_at (set_node h (a_ptr A) (HN (h_lex x) (Some q) (h_ch x))) A
  /\ (forall par, has_parents Some h par A ->
        has_parents Some (set_node h (a_ptr A) (HN (h_lex x) (Some q) (h_ch x))) (Some q) A).
Proof.
  intros (Hh & Hn & Ha) Hx. pose proof (lookup_lt_Some _ _ _ Hx) as Hlt. split.
  - split; [|done]. apply (holds_agree h); [done|]. split; [|done]. intros n y _ Hy. cbn [set_node h_nodes].
    destruct (decide (n = a_ptr A)) as [->|Hne].
    + rewrite list_lookup_insert by done. rewrite Hx in Hy. injection Hy as <-. eexists. by repeat split.
    + rewrite list_lookup_insert_ne by done. exists y. by repeat split.
  - intros par Hpar. destruct A as [p lx sl cs]. cbn [a_ptr] in *. inversion Hpar as [? ? ? ? ? n Hp Hpp Hcs]; subst.
    eapply hp_intro; [cbn [set_node h_nodes]; by apply list_lookup_insert|done|].
    rewrite Forall_forall in *. intros c Hc. eapply (has_parents_local _ _ h); [by apply Hcs|].
    intros m Hm. cbn [set_node h_nodes]. rewrite list_lookup_insert_ne; [done|]. intros ->.
    rewrite nodes_AT in Hn. apply NoDup_cons in Hn as [Hn _]. apply Hn. apply elem_of_list_In, in_concat. exists (a_nodes c).
    split; [apply in_map; by apply elem_of_list_In|by apply elem_of_list_In].
Qed.

Lemma linked_root h q : forall h1 B, tree_at h1 B -> has_parents Some h1 None B -> fresh_from h B -> extends h h1 ->
  exists x, h_nodes h1 !! a_ptr B = Some x
    /\ tree_at (set_node h1 (a_ptr B) (HN (h_lex x) (Some q) (h_ch x))) B
    /\ has_parents Some (set_node h1 (a_ptr B) (HN (h_lex x) (Some q) (h_ch x))) (Some q) B.
Proof.
  intros h1 B Ht HP Hfr He. destruct Ht as (Hh & Hn). pose proof (holds_node_lt _ _ _ Hh (ptr_in_nodes B)) as Hlt.
  destruct (lookup_lt_is_Some_2 _ _ Hlt) as [x Hx]. exists x. split; [done|].
  destruct (set_root_par h1 B q x (conj Hh Hn) Hx) as [H1 H2]. split; [done|]. by apply (H2 None).
Qed.

(** * Clone *)
Lemma clone_heap : forall fuel A h, a_height A <= fuel -> holds h A ->
  exists h' A', h_clone fuel (a_ptr A) h = Ok (h', a_ptr A')
    /\ tree_at h' A' /\ extends h h' /\ fresh_from h A' /\ a_val A' = unplaced (a_val A)
    /\ has_parents Some h' None A'.
Proof.
  induction fuel as [|f IH]; intros [p lx sl cs] h Hf Hh; [cbn [a_height] in Hf; lia|].
  cbn [h_clone a_ptr]. inversion Hh as [? ? par ? ? Hp Hs Hc]; subst.
  rewrite (deref_at _ _ _ Hp). cbn [rbind h_ch h_lex]. rewrite (slice_len_is _ _ _ Hs), map_length.
  set (lx1 := Lx (lx_kind lx) (lx_val lx) 0 0).
  destruct (make_slice h (length cs) (length cs)) as [h1 sl1] eqn:Em.
  destruct (alloc h1 (HN lx1 None sl1)) as [h2 q] eqn:Eal.
  set (Q := fun h' => has_parents Some h' (Some (length (h_nodes h)))).
  assert (HQ : local_prop Q) by apply has_parents_local.
  destruct (filling_start Q h lx1 _ _ _ _ _ Em Eal) as (-> & -> & Hfill).
  set (q := length (h_nodes h)) in *.
  assert (Hloop : forall post pre Bs hk, cs = pre ++ post -> length Bs = length pre ->
    map a_val Bs = map unplaced (map a_val pre) ->
    filling Q h hk lx1 (length cs) Bs ->
    exists hk' Bs', rfold (fun h i =>
          c <-! h_child h p (Z.of_nat i);
          match c with
          | Some (Some c) =>
              ' (h, cq) <-! h_clone f c h;
              cn <-! deref h cq;
              let h := set_node h cq (HN (h_lex cn) (Some q) (h_ch cn)) in
              qn <-! deref h q;
              slice_set h (h_ch qn) i (Some cq)
          | _ => Panic
          end) (seq (length pre) (length post)) hk = Ok hk'
      /\ length Bs' = length cs /\ map a_val Bs' = map unplaced (map a_val cs)
      /\ filling Q h hk' lx1 (length cs) Bs').
  { induction post as [|c post IHp]; intros pre Bs hk Hcs HlB Hv Hfl.
    - rewrite app_nil_r in Hcs. subst pre. cbn [length seq rfold]. eauto 10.
    - cbn [length seq rfold].
      pose proof (extends_holds _ _ _ (fl_ext _ _ _ _ _ _ Hfl) Hh) as Hhk.
      rewrite Hcs in Hhk. rewrite (h_child_get _ _ _ _ _ _ _ Hhk). cbn [rbind].
      assert (Hcin : c ∈ cs) by (rewrite Hcs, elem_of_app; right; by left).
      assert (Hck : holds hk c).
      { apply (extends_holds h); [apply (fl_ext _ _ _ _ _ _ Hfl)|]. rewrite Forall_forall in Hc. by apply Hc. }
      destruct (IH c hk (height_child _ _ _ _ _ _ Hf Hcin) Hck) as (h3 & B & E3 & Ht3 & He3 & Hfr3 & Hv3 & HP3).
      rewrite E3. cbn [rbind].
      destruct (linked_root hk q h3 B Ht3 HP3 Hfr3 He3) as (x & Hx & Ht4 & HP4).
      rewrite (deref_at _ _ _ Hx). cbn [rbind]. cbv zeta.
      set (h4 := set_node h3 (a_ptr B) (HN (h_lex x) (Some q) (h_ch x))) in *.
      destruct (filling_step Q h hk h3 h4 lx1 (length cs) Bs B HQ Hfl) as (Hq4 & h5 & E5 & Hfl5); try done.
      { rewrite HlB, Hcs, app_length. cbn [length]. lia. }
      { unfold h4. cbn [set_node h_nodes]. by rewrite insert_length. }
      { intros m Hm. unfold h4. cbn [set_node h_nodes]. by rewrite list_lookup_insert_ne. }
      fold q in Hq4. rewrite (deref_at _ _ _ Hq4). cbn [rbind h_ch]. rewrite <- HlB. rewrite E5. cbn [rbind].
      assert (Hl : S (length Bs) = length (pre ++ [c])) by (rewrite app_length; cbn [length]; lia). rewrite Hl.
      apply (IHp (pre ++ [c]) (Bs ++ [B])).
      + by rewrite <- app_assoc.
      + rewrite !app_length. cbn [length]. lia.
      + rewrite !map_app. cbn [map]. by rewrite Hv, Hv3.
      + done. }
  destruct (Hloop cs [] [] h2 eq_refl eq_refl eq_refl Hfill) as (h3 & Bs & E3 & HlB & Hv & Hfl).
  cbn [length] in E3. rewrite E3. cbn [rbind].
  destruct (filling_done _ _ _ _ _ _ Hfl HlB) as [Ht Hfr]. fold q in Ht, Hfr.
  eexists h3, _. split; [|split; [exact Ht|]]; [reflexivity|].
  split; [apply (fl_ext _ _ _ _ _ _ Hfl)|]. split; [exact Hfr|]. split.
  - rewrite !val_AT. cbn [unplaced]. by rewrite Hv.
  - eapply hp_intro; [apply (fl_node _ _ _ _ _ _ Hfl)|done|apply (fl_q _ _ _ _ _ _ Hfl)].
Qed.

(** * packrat's toPN *)
Lemma to_pn_heap lxms m name : forall fuel td t, to_pn fuel lxms m name td = Ok t -> forall h,
  exists h' A', h_to_pn fuel lxms m name td h = Ok (h', a_ptr A')
    /\ tree_at h' A' /\ extends h h' /\ fresh_from h A' /\ a_val A' = t /\ has_parents Some h' None A'.
Proof.
  induction fuel as [|f IH]; intros td t Ht h; [done|]. cbn [to_pn h_to_pn] in *.
  destruct (td_key td) as [[idx start] e].
  set (own := match lxms !! start with Some (k, lx) => if k =? idx then Some lx else None | None => None end) in *.
  destruct (rmap (fun c => to_pn f lxms m name (mget m c)) (td_children td)) as [ts| |] eqn:Ets; cbn [rbind] in Ht; try done.
  set (lx := match own with Some lx => lx | None => lexeme_new (name idx) end).
  destruct (make_slice h (length (td_children td)) (length (td_children td))) as [h1 sl1] eqn:Em.
  destruct (alloc h1 (HN lx None sl1)) as [h2 q] eqn:Eal.
  set (Q := fun h' => has_parents Some h' (Some (length (h_nodes h)))).
  assert (HQ : local_prop Q) by apply has_parents_local.
  destruct (filling_start Q h lx _ _ _ _ _ Em Eal) as (-> & -> & Hfill).
  set (q := length (h_nodes h)) in *. set (cs := td_children td) in *.
  assert (Hloop : forall post ts2 pre Bs hk, cs = pre ++ post -> length Bs = length pre ->
    rmap (fun c => to_pn f lxms m name (mget m c)) post = Ok ts2 ->
    filling Q h hk lx (length cs) Bs ->
    exists hk' Bs', rfold (fun h '(i, c) =>
          ' (h, cp) <-! h_to_pn f lxms m name (mget m c) h;
          cn <-! deref h cp;
          let h := set_node h cp (HN (h_lex cn) (Some q) (h_ch cn)) in
          pn <-! deref h q;
          slice_set h (h_ch pn) i (Some cp)) (combine (seq (length pre) (length post)) post) hk = Ok hk'
      /\ length Bs' = length cs /\ map a_val Bs' = map a_val Bs ++ ts2
      /\ filling Q h hk' lx (length cs) Bs').
  { induction post as [|c post IHp]; intros ts2 pre Bs hk Hcs HlB Hr Hfl; cbn [rmap] in Hr.
    - injection Hr as <-. rewrite app_nil_r in *. subst pre. cbn [length seq combine rfold]. eauto 10.
    - destruct (to_pn f lxms m name (mget m c)) as [tc| |] eqn:Ec; cbn [rbind] in Hr; try done.
      destruct (rmap (fun c => to_pn f lxms m name (mget m c)) post) as [ts3| |] eqn:E3; cbn [rbind] in Hr; try done.
      injection Hr as <-. cbn [length seq combine rfold].
      destruct (IH _ _ Ec hk) as (h3 & B & E3' & Ht3 & He3 & Hfr3 & Hv3 & HP3).
      rewrite E3'. cbn [rbind].
      destruct (linked_root hk q h3 B Ht3 HP3 Hfr3 He3) as (x & Hx & Ht4 & HP4).
      rewrite (deref_at _ _ _ Hx). cbn [rbind]. cbv zeta.
      set (h4 := set_node h3 (a_ptr B) (HN (h_lex x) (Some q) (h_ch x))) in *.
      destruct (filling_step Q h hk h3 h4 lx (length cs) Bs B HQ Hfl) as (Hq4 & h5 & E5 & Hfl5); try done.
      { rewrite HlB, Hcs, app_length. cbn [length]. lia. }
      { unfold h4. cbn [set_node h_nodes]. by rewrite insert_length. }
      { intros z Hz. unfold h4. cbn [set_node h_nodes]. by rewrite list_lookup_insert_ne. }
      fold q in Hq4. rewrite (deref_at _ _ _ Hq4). cbn [rbind h_ch]. rewrite <- HlB. rewrite E5. cbn [rbind].
      assert (Hl : S (length Bs) = length (pre ++ [c])) by (rewrite app_length; cbn [length]; lia). rewrite Hl.
      destruct (IHp ts3 (pre ++ [c]) (Bs ++ [B]) h5) as (hk' & Bs' & E & L & V & F).
      + by rewrite <- app_assoc.
      + rewrite !app_length. cbn [length]. lia.
      + done.
      + done.
      + exists hk', Bs'. split; [exact E|]. split; [done|]. split; [|done].
        rewrite V, map_app. cbn [map]. rewrite <- app_assoc, Hv3. done. }
  destruct (Hloop cs ts [] [] h2 eq_refl eq_refl Ets Hfill) as (h3 & Bs & E3 & HlB & Hv & Hfl).
  cbn [length map app] in E3, Hv. rewrite E3. cbn [rbind].
  destruct (filling_done _ _ _ _ _ _ Hfl HlB) as [Htr Hfr]. fold q in Htr, Hfr.
  pose proof (fl_node _ _ _ _ _ _ Hfl) as Hq3. fold q in Hq3.
  assert (HPd : forall h' lx', h_nodes h' !! q = Some (HN lx' None (Some (length (h_arrs h), length cs))) ->
     Forall (Q h') Bs -> has_parents Some h' None (AT q lx' (Some (length (h_arrs h), length cs)) Bs)).
  { intros h' lx' Hq' HF. eapply hp_intro; [exact Hq'|done|done]. }
  unfold lx in *. clear lx. destruct own as [lx|] eqn:Eo.
  - injection Ht as <-. eexists h3, _. split; [|split; [exact Htr|]]; [reflexivity|].
    split; [apply (fl_ext _ _ _ _ _ _ Hfl)|]. split; [exact Hfr|]. split.
    + rewrite val_AT. by rewrite Hv.
    + apply HPd; [done|apply (fl_q _ _ _ _ _ _ Hfl)].
  - injection Ht as <-. rewrite (deref_at _ _ _ Hq3). cbn [rbind h_ch slice_len h_lex h_par].
    destruct Bs as [|B Bs].
    + cbn [length] in HlB. rewrite <- HlB. cbn [Nat.ltb Nat.leb]. rewrite <- HlB in Htr, Hfr, HPd, Hq3.
      eexists h3, _. split; [|split; [exact Htr|]]; [reflexivity|].
      split; [apply (fl_ext _ _ _ _ _ _ Hfl)|]. split; [exact Hfr|]. split.
      * rewrite val_AT, Hv. cbn [map] in Hv. by subst ts.
      * apply HPd; [done|apply (fl_q _ _ _ _ _ _ Hfl)].
    + assert (E0 : (0 <? length cs)%nat = true) by (rewrite <- HlB; reflexivity). rewrite E0. clear E0.
      destruct Htr as (Hh3 & Hrest). pose proof Hh3 as Hh3'. inversion Hh3' as [? ? par ? ? Hp' Hs' Hc']; subst.
      cbn [map] in Hs'. pose proof (slice_get_is h3 _ [] _ _ Hs') as Hg. cbn [length] in Hg. rewrite Hg. cbn [rbind deref_opt].
      inversion Hc' as [|? ? HB HBs]; subst. inversion HB as [bp blx bpar bsl bcs Hbp Hbs Hbc]; subst.
      cbn [a_ptr]. rewrite (deref_at _ _ _ Hbp). cbn [rbind h_lex].
      set (lx2 := Lx _ _ _ _).
      destruct (set_lex_step h3 q _ _ _ None lx2 (conj Hh3 Hrest) Hq3) as [Ht4 Hch4].
      eexists _, (AT q lx2 _ _). split; [reflexivity|]. split; [exact Ht4|].
      destruct (only_changes_extends h h3 _ _ _ (fl_ext _ _ _ _ _ _ Hfl) Hfr Hch4) as [He4 Hfr4].
      split; [exact He4|]. split; [exact Hfr4|]. split.
      * rewrite val_AT. reflexivity.
      * apply HPd.
        -- cbn [set_node h_nodes]. apply list_lookup_insert. by apply lookup_lt_Some in Hq3.
        -- pose proof (fl_q _ _ _ _ _ _ Hfl) as Fq. rewrite Forall_forall in *. intros C HC.
           apply (HQ h3); [by apply Fq|]. intros z Hz. cbn [set_node h_nodes]. rewrite list_lookup_insert_ne; [done|].
           intros Hqz. rewrite <- Hqz in Hz. assert (Hin : q ∈ fnodes (AT bp blx bsl bcs :: Bs)).
           { apply elem_of_list_In, in_concat. exists (a_nodes C). split; [apply in_map; by apply elem_of_list_In|by apply elem_of_list_In]. }
           apply (fl_above _ _ _ _ _ _ Hfl) in Hin. fold q in Hin. lia.
Qed.
