(** The reductions that write parent links, and the loops. *)
From Coq Require Import Lia.
From Verif.model Require Import TreeOps.
From Verif.spec Require Import HeapSpec TreeSpec.
From Verif.proofs Require Import TreeProofs HeapProofs.

Ltac open_tree HT :=
  let Hh := fresh "Hh" in let Hn := fresh "Hn" in let Ha := fresh "Ha" in
  pose proof HT as (Hh & Hn & Ha);
  let Hp := fresh "Hp" in let Hs := fresh "Hs" in let Hc := fresh "Hc" in
  inversion Hh as [p0 lx0 par sl0 cs0 Hp Hs Hc]; subst p0 lx0 sl0 cs0.

Definition with_par (p : nat) (x : hnode) : hnode := HN (h_lex x) (Some p) (h_ch x).

Lemma set_parents_spec p : forall ps h, (forall q, q ∈ ps -> q < length (h_nodes h)) ->
  exists h', set_parents h p (map Some ps) = Ok h' /\ h_arrs h' = h_arrs h
    /\ length (h_nodes h') = length (h_nodes h)
    /\ forall n x, h_nodes h !! n = Some x ->
         h_nodes h' !! n = Some (if decide (n ∈ ps) then with_par p x else x).
Proof.
  induction ps as [|q ps IH]; intros h Hlt.
  - exists h. split; [done|]. split; [done|]. split; [done|]. intros n x Hx.
    rewrite decide_False; [done|]. by apply not_elem_of_nil.
  - destruct (lookup_lt_is_Some_2 (h_nodes h) q) as [xq Hq]; [apply Hlt; by left|].
    destruct (IH (set_node h q (with_par p xq))) as (h' & E & Ea & El & En).
    { intros r Hr. cbn [set_node h_nodes]. rewrite insert_length. apply Hlt. by right. }
    exists h'. unfold set_parents. cbn [map rfold]. rewrite (deref_at _ _ _ Hq). cbn [rbind].
    split; [exact E|]. split; [done|]. cbn [set_node h_nodes] in El, En. rewrite insert_length in El. split; [done|].
    intros n x Hx. destruct (decide (n = q)) as [->|Hne].
    + rewrite Hq in Hx. injection Hx as ->.
      rewrite (En q (with_par p x)) by (apply list_lookup_insert; by apply lookup_lt_Some in Hq).
      rewrite (decide_True (P := q ∈ q :: ps)) by (by left). by destruct (decide (q ∈ ps)).
    + rewrite (En n x) by (by rewrite list_lookup_insert_ne).
      destruct (decide (n ∈ ps)) as [H|H].
      * by rewrite decide_True by (by right).
      * rewrite decide_False; [done|]. rewrite elem_of_cons. tauto.
Qed.

(** Writing parents inside a tree does not change what it represents. *)
Lemma parents_step h h' A :
  tree_at h A -> h_arrs h' = h_arrs h -> length (h_nodes h') = length (h_nodes h) ->
  (forall n x, h_nodes h !! n = Some x -> exists x', h_nodes h' !! n = Some x' /\ same_node x x' /\ (n ∉ a_nodes A -> x' = x)) ->
  tree_at h' A /\ only_changes h h' A A.
Proof.
  intros (Hh & Hn & Ha) Ea El En. split.
  - split; [|done]. apply (holds_agree h); [done|]. split; [|intros; by rewrite Ea].
    intros n x _ Hx. destruct (En n x Hx) as (x' & ? & ? & _). eauto.
  - split; [lia|]. split; [by rewrite Ea|]. split; [|split; [by intros; rewrite Ea|auto]].
    intros n Hlt Hnin. destruct (lookup_lt_is_Some_2 (h_nodes h) n Hlt) as [x Hx].
    destruct (En n x Hx) as (x' & Hx' & _ & He). rewrite Hx, Hx'. f_equal. by apply He.
Qed.

Lemma set_parents_kids h p lx sl cs :
  tree_at h (AT p lx sl cs) ->
  exists h', set_parents h p (map Some (map a_ptr cs)) = Ok h' /\ h_arrs h' = h_arrs h
    /\ tree_at h' (AT p lx sl cs) /\ only_changes h h' (AT p lx sl cs) (AT p lx sl cs)
    /\ (forall c n, c ∈ cs -> h_nodes h' !! a_ptr c = Some n -> h_par n = Some p).
Proof.
  intros HT. pose proof HT as (Hh & _ & _).
  destruct (set_parents_spec p (map a_ptr cs) h) as (h' & E & Ea & El & En).
  { intros q Hq. apply elem_of_list_In, in_map_iff in Hq as (c & <- & Hc). apply elem_of_list_In in Hc.
    apply (holds_node_lt _ _ _ Hh). rewrite nodes_AT. right. by apply ptr_in_fnodes. }
  exists h'. split; [done|]. split; [done|].
  destruct (parents_step h h' _ HT Ea El) as [Ht Hc].
  { intros n x Hx. rewrite (En n x Hx). eexists. split; [done|]. destruct (decide (n ∈ map a_ptr cs)) as [Hin|Hin].
    - split; [done|]. intros Hnin. destruct Hnin. rewrite nodes_AT. right.
      apply elem_of_list_In, in_map_iff in Hin as (c & <- & Hc). apply ptr_in_fnodes. by apply elem_of_list_In.
    - done. }
  split; [done|]. split; [done|]. intros c n Hin Hx.
  assert (Hin' : a_ptr c ∈ map a_ptr cs) by (apply elem_of_list_In, in_map; by apply elem_of_list_In).
  assert (Hlt : a_ptr c < length (h_nodes h)).
  { apply (holds_node_lt _ _ _ Hh). rewrite nodes_AT. right. by apply ptr_in_fnodes. }
  destruct (lookup_lt_is_Some_2 _ _ Hlt) as [y Hy]. rewrite (En _ y Hy) in Hx.
  rewrite decide_True in Hx by done. by injection Hx as <-.
Qed.

(** * PromoteChild *)
Lemma promote_child_heap g i p lx sl cs h :
  tree_at h (AT p lx sl cs) ->
  exists h' A' ok, h_promote_child g i p h = Ok (h', ok) /\ a_ptr A' = p
    /\ tree_at h' A' /\ only_changes h h' (AT p lx sl cs) A'
    /\ promote_child i (a_val (AT p lx sl cs)) = (a_val A', ok)
    /\ (ok = true -> kids_linked h' A').
Proof.
  intros HT. open_tree HT. unfold h_promote_child. rewrite (deref_at _ _ _ Hp). cbn [rbind].
  destruct (in_range_dec i cs) as [Hr|Hr].
  - destruct (range_at_index i cs Hr) as (a & c & b & Hat).
    rewrite (h_idx_in h lx par sl cs i a c b Hs Hat). cbn [h_ch h_par].
    pose proof (at_index_map a_val _ _ _ _ _ Hat) as Hat'. destruct Hat as [-> _].
    rewrite Nat2Z.id.
    assert (Hsc : slice_is h sl (map a_ptr a ++ a_ptr c :: map a_ptr b)) by (by rewrite map_app in Hs).
    pose proof (slice_get_is h sl _ _ _ Hsc) as Hsg. rewrite map_length in Hsg. rewrite Hsg. cbn [rbind deref_opt].
    assert (Hcc : holds h c) by (rewrite Forall_app, Forall_cons in Hc; tauto).
    inversion Hcc as [cp clx cpar csl ccs Hcp Hcsl Hccs]; subst c. cbn [a_ptr a_val] in *.
    rewrite (deref_at _ _ _ Hcp). cbn [rbind h_lex].
    destruct (set_lex_step h p lx sl (a ++ AT cp clx csl ccs :: b) par clx HT Hp) as [HT1 Hc1].
    set (h0 := set_node h p (HN clx par sl)) in *.
    assert (Hne : cp <> p).
    { rewrite nodes_AT, fnodes_app, fnodes_cons, nodes_AT in Hn. apply NoDup_cons in Hn as [Hn _].
      intros ->. apply Hn. rewrite elem_of_app. right. rewrite elem_of_app. left. by left. }
    assert (Hcp0 : h_nodes h0 !! cp = Some (HN clx cpar csl)).
    { unfold h0. cbn [set_node h_nodes]. by rewrite list_lookup_insert_ne. }
    rewrite (deref_at _ _ _ Hcp0). cbn [rbind h_ch].
    assert (Hcsl0 : slice_is h0 csl (map a_ptr ccs)) by exact Hcsl.
    assert (Hs0 : slice_is h0 sl (map a_ptr (a ++ AT cp clx csl ccs :: b))) by exact Hs.
    assert (Hsa : slice_is h0 (slice_to sl (length a)) (map a_ptr a)).
    { rewrite <- (map_length a_ptr a). by apply (slice_to_is h0 sl _ (cp :: map a_ptr b)). }
    assert (HF : Forall (holds h0) (a ++ ccs ++ b)).
    { destruct HT1 as (Hh1 & _). inversion Hh1 as [? ? ? ? ? ? ? HF1]; subst.
      rewrite !Forall_app, ?Forall_cons in *. destruct HF1 as (F1 & F2 & F3).
      inversion F2; subst. tauto. }
    rewrite (elems_is _ _ _ Hs0), zfrom_ptrs.
    assert (Hinner : exists h1 tail, (if (Z.of_nat (length a) + 1 <? Z.of_nat (length (a ++ AT cp clx csl ccs :: b)))%Z
                 then append_slice g h0 csl (map Some (map a_ptr b)) else (h0, csl)) = (h1, tail)
      /\ append_slice g h0 csl (map Some (map a_ptr b)) = (h1, tail)).
    { destruct (Z.ltb_spec (Z.of_nat (length a) + 1) (Z.of_nat (length (a ++ AT cp clx csl ccs :: b)))).
      - destruct (append_slice g h0 csl (map Some (map a_ptr b))) as [h1 tail]. eauto.
      - exists h0, csl. split; [done|]. rewrite app_length in *. cbn [length] in *. destruct b; [done|cbn [length] in *; lia]. }
    destruct Hinner as (h1 & tail & -> & Ein).
    destruct (inner_append h0 g csl _ _ h1 tail p clx sl _ clx cp ccs a b HT1 eq_refl Hcsl0 Ein)
      as (Hi1 & Hi2 & Hi3 & Hi4 & Hi5 & Hi6).
    rewrite (elems_is _ _ _ Hi1), <- map_app.
    destruct (append_slice g h1 (slice_to sl (length a)) (map Some (map a_ptr (ccs ++ b)))) as [h2 sl2] eqn:Eap.
    destruct (splice_step g h0 h1 h2 p clx sl (a ++ AT cp clx csl ccs :: b) clx par a (ccs ++ b) sl2) as (En & Ht & Hch); try done.
    { by rewrite Hi2. } { by rewrite Hi2. }
    { apply (slice_is_agree h0); [done|]. rewrite sl_arr_to. apply Hi5. }
    { by apply Hi4. } { apply fnodes_splice. } { apply farrs_splice. }
    assert (Hsa1 : slice_is h1 (slice_to sl (length a)) (map a_ptr a)).
    { apply (slice_is_agree h0); [done|]. rewrite sl_arr_to. apply Hi5. }
    destruct (append_spec _ _ _ _ _ _ _ Hsa1 Eap) as (Hs2 & Hn2 & _).
    assert (Hp2 : h_nodes h2 !! p = Some (HN clx par sl)).
    { rewrite Hn2, Hi2. unfold h0. cbn [set_node h_nodes]. apply list_lookup_insert. by apply lookup_lt_Some in Hp. }
    rewrite (deref_at _ _ _ Hp2). cbn [rbind]. unfold set_ch. cbn [h_lex h_par].
    set (h3 := set_node h2 p (HN clx par sl2)) in *.
    assert (Hs3 : slice_is h3 sl2 (map a_ptr (a ++ ccs ++ b))) by (rewrite map_app; exact Hs2).
    rewrite (elems_is _ _ _ Hs3).
    destruct (set_parents_kids h3 p clx sl2 (a ++ ccs ++ b) Ht) as (h4 & E4 & _ & Ht4 & Hc4 & Hl4).
    rewrite E4. cbn [rbind]. exists h4, (AT p clx sl2 (a ++ ccs ++ b)), true.
    split; [done|]. split; [done|]. split; [done|]. split.
    { apply (only_changes_trans _ _ _ _ _ _ Hc1). by apply (only_changes_trans _ _ _ _ _ _ Hch). }
    split; [|intros _; exact Hl4].
    rewrite (promote_child_in i lx _ _ _ _ Hat'). cbn [pn_children pn_lexeme a_val]. by rewrite !map_app.
  - pose proof (h_idx_out h lx par sl cs i Hs Hr) as Ho.
    destruct (h_get_idx (HN lx par sl) i) as [[? ?] ok]. cbn [snd] in Ho. subst ok.
    exists h, (AT p lx sl cs), false. split; [done|]. split; [done|]. split; [done|]. split; [apply only_changes_refl|].
    split; [|done]. apply promote_child_out. cbn [a_val pn_children]. by rewrite in_range_map.
Qed.
Lemma promote_child_implements g i :
  implements (fun t => fst (promote_child i t)) (fun p h => drop_bool (h_promote_child g i p h)).
Proof.
  intros h [p lx sl cs] HT. destruct (promote_child_heap g i p lx sl cs h HT) as (h' & A' & ok & E & Hp & Ht & Hc & Hv & _).
  exists h', A'. unfold drop_bool. cbn [a_ptr]. rewrite E. cbn [rbind fst]. rewrite Hv.
  split; [done|]. split; [done|]. split; [done|]. split; done.
Qed.

(** * PromoteSingleChild *)
Lemma promote_single_child_implements g :
  implements (fun t => fst (promote_single_child t)) (fun p h => drop_bool (h_promote_single_child g p h)).
Proof.
  intros h [p lx sl cs] HT. open_tree HT. unfold h_promote_single_child, drop_bool. cbn [a_ptr].
  rewrite (deref_at _ _ _ Hp). cbn [rbind h_ch]. rewrite (slice_len_is _ _ _ Hs), map_length.
  unfold promote_single_child. cbn [a_val pn_children]. rewrite map_length.
  destruct (length cs =? 1).
  - destruct (promote_child_heap g 0 p lx sl cs h HT) as (h' & A' & ok & E & Hp' & Ht & Hc' & Hv & _).
    rewrite E. cbn [rbind fst]. exists h', A'. cbn [a_val] in Hv. rewrite Hv. by repeat (split; [done|]).
  - exists h, (AT p lx sl cs). cbn [rbind fst]. split; [done|]. split; [done|]. split; [done|]. split; [done|].
    apply only_changes_refl.
Qed.

(** * RemoveAll *)
Lemma child_at_heap h p lx sl cs i symbs :
  tree_at h (AT p lx sl cs) -> h_child_at h p i symbs = Ok (child_at (a_val (AT p lx sl cs)) i symbs).
Proof.
  intros HT. open_tree HT. unfold h_child_at. rewrite (deref_at _ _ _ Hp). cbn [rbind].
  destruct (in_range_dec i cs) as [Hr|Hr].
  - destruct (range_at_index i cs Hr) as (a & c & b & Hat).
    rewrite (h_idx_in h lx par sl cs i a c b Hs Hat). cbn [h_ch]. rewrite Nat2Z.id.
    pose proof (at_index_map a_val _ _ _ _ _ Hat) as Hat'. destruct Hat as [-> _].
    assert (Hsc : slice_is h sl (map a_ptr a ++ a_ptr c :: map a_ptr b)) by (by rewrite map_app in Hs).
    pose proof (slice_get_is h sl _ _ _ Hsc) as Hsg. rewrite map_length in Hsg. rewrite Hsg. cbn [rbind deref_opt].
    assert (Hcc : holds h c) by (rewrite Forall_app, Forall_cons in Hc; tauto).
    inversion Hcc as [cp clx cpar csl ccs Hcp Hcsl Hccs]; subst c. cbn [a_ptr] in *.
    rewrite (deref_at _ _ _ Hcp). cbn [rbind h_lex]. f_equal. unfold child_at. rewrite val_AT.
    rewrite (get_idx_at (PN lx (map a_val (a ++ AT cp clx csl ccs :: b))) i _ _ _ Hat').
    cbn [pn_children]. rewrite map_app. cbn [map]. by rewrite zget_mid.
  - pose proof (h_idx_out h lx par sl cs i Hs Hr) as Ho.
    destruct (h_get_idx (HN lx par sl) i) as [[? ?] ok]. cbn [snd] in Ho. subst ok.
    rewrite child_at_out; [done|]. cbn [a_val pn_children]. by rewrite in_range_map.
Qed.

Lemma child_is_heap h p lx sl cs i kind :
  tree_at h (AT p lx sl cs) -> h_child_is h p i kind = Ok (child_is (a_val (AT p lx sl cs)) i kind).
Proof.
  intros HT. open_tree HT. unfold h_child_is, h_child. rewrite (deref_at _ _ _ Hp). cbn [rbind].
  destruct (in_range_dec i cs) as [Hr|Hr].
  - destruct (range_at_index i cs Hr) as (a & c & b & Hat).
    rewrite (h_idx_in h lx par sl cs i a c b Hs Hat).
    assert (Hat2 : at_index (Z.of_nat (length a)) cs a c b) by (destruct Hat; split; auto).
    rewrite (h_idx_in h lx par sl cs _ a c b Hs Hat2). cbn [h_ch]. rewrite Nat2Z.id.
    pose proof (at_index_map a_val _ _ _ _ _ Hat) as Hat'.
    pose proof (at_index_map a_val _ _ _ _ _ Hat2) as Hat2'. destruct Hat as [-> _].
    assert (Hsc : slice_is h sl (map a_ptr a ++ a_ptr c :: map a_ptr b)) by (by rewrite map_app in Hs).
    pose proof (slice_get_is h sl _ _ _ Hsc) as Hsg. rewrite map_length in Hsg. rewrite Hsg. cbn [rbind deref_opt].
    assert (Hcc : holds h c) by (rewrite Forall_app, Forall_cons in Hc; tauto).
    inversion Hcc as [cp clx cpar csl ccs Hcp Hcsl Hccs]; subst c. cbn [a_ptr] in *.
    rewrite (deref_at _ _ _ Hcp). cbn [rbind h_lex]. f_equal. unfold child_is. rewrite val_AT.
    rewrite (get_idx_at (PN lx (map a_val (a ++ AT cp clx csl ccs :: b))) i _ _ _ Hat').
    rewrite map_length.
    rewrite (child_in (PN lx (map a_val (a ++ AT cp clx csl ccs :: b))) _ _ _ _ Hat2').
    reflexivity.
  - pose proof (h_idx_out h lx par sl cs i Hs Hr) as Ho.
    destruct (h_get_idx (HN lx par sl) i) as [[? ?] ok]. cbn [snd] in Ho. subst ok.
    rewrite child_is_out; [done|]. cbn [a_val pn_children]. by rewrite in_range_map.
Qed.

Lemma remove_all_loop_heap g symbols p lx : forall fuel i sl cs h,
  (0 <= i <= Z.of_nat (length cs))%Z ->
  tree_at h (AT p lx sl cs) -> length cs < fuel + Z.to_nat i ->
  exists h' sl' cs', h_remove_all_loop g fuel symbols i p h = Ok h'
    /\ tree_at h' (AT p lx sl' cs') /\ only_changes h h' (AT p lx sl cs) (AT p lx sl' cs')
    /\ a_val (AT p lx sl' cs') = remove_all_loop fuel symbols i (a_val (AT p lx sl cs)).
Proof.
  induction fuel as [|fuel IH]; intros i sl cs h Hi HT Hf; [lia|].
  cbn [h_remove_all_loop remove_all_loop]. pose proof HT as (Hh & _).
  inversion Hh as [? ? par ? ? Hp Hs Hc]; subst. rewrite (deref_at _ _ _ Hp). cbn [rbind h_ch].
  rewrite (slice_len_is _ _ _ Hs), map_length. rewrite val_AT. cbn [pn_children].
  assert (Hz : zlen (map a_val cs) = Z.of_nat (length cs)) by (unfold zlen; by rewrite map_length). rewrite Hz.
  destruct (Z.ltb_spec i (Z.of_nat (length cs))) as [Hlt|Hge].
  - rewrite (child_at_heap h p lx sl cs i symbols HT). cbn [rbind]. rewrite val_AT.
    destruct (child_at (PN lx (map a_val cs)) i symbols) eqn:Ec.
    + destruct (remove_child_heap g i p lx sl cs h HT) as (h1 & sl1 & cs1 & ok & E1 & Ht1 & Hc1 & Hv1 & _).
      rewrite E1. cbn [rbind fst]. rewrite val_AT in Hv1. rewrite Hv1. cbn [fst].
      assert (Hl1 : length cs = S (length cs1)).
      { destruct (range_at_index i cs) as (a & c & b & Hat); [unfold in_range; lia|].
        pose proof (at_index_map a_val _ _ _ _ _ Hat) as Hat'.
        rewrite (remove_child_in i lx _ _ _ _ Hat') in Hv1. injection Hv1 as Hv1 _.
        apply (f_equal length) in Hv1. rewrite app_length, !map_length in Hv1.
        destruct Hat as [-> _]. rewrite app_length in *. cbn [length] in *. lia. }
      destruct (IH i sl1 cs1 h1) as (h' & sl' & cs' & E & Ht & Hc' & Hv); [lia|done|lia|].
      exists h', sl', cs'. split; [done|]. split; [done|]. split; [by apply (only_changes_trans _ _ _ _ _ _ Hc1)|]. done.
    + destruct (IH (i + 1)%Z sl cs h) as (h' & sl' & cs' & E & Ht & Hc' & Hv); [lia|done|lia|].
      exists h', sl', cs'. rewrite val_AT in Hv. done.
  - exists h, sl, cs. split; [done|]. split; [done|]. split; [apply only_changes_refl|done].
Qed.
Lemma remove_all_fuel symbols lx C : remove_all_loop (S (length C)) symbols 0 (PN lx C) = remove_all symbols (PN lx C).
Proof.
  rewrite remove_all_spec. apply (remove_all_loop_spec symbols C (S (length C)) lx []). lia.
Qed.
Lemma remove_all_implements g symbols : implements (remove_all symbols) (h_remove_all g symbols).
Proof.
  intros h [p lx sl cs] HT. open_tree HT. unfold h_remove_all. cbn [a_ptr]. rewrite (deref_at _ _ _ Hp). cbn [rbind h_ch].
  rewrite (slice_len_is _ _ _ Hs), map_length.
  destruct (remove_all_loop_heap g symbols p lx (S (length cs)) 0 sl cs h) as (h' & sl' & cs' & E & Ht & Hc' & Hv); [lia|done|lia|].
  exists h', (AT p lx sl' cs'). split; [done|]. split; [done|]. split; [done|]. split; [|done].
  rewrite Hv, val_AT. rewrite <- (map_length a_val cs). apply remove_all_fuel.
Qed.

(** * RemoveChildren *)
Lemma h_mark_drop_eq lx par sl cs h : slice_is h sl (map a_ptr cs) -> forall idxs d ln,
  length d = length cs ->
  fst (h_mark_drop (HN lx par sl) idxs d ln) = mark_drop (PN lx (map a_val cs)) idxs d.
Proof.
  intros Hs. induction idxs as [|i idxs IH]; intros d ln Hd; [done|]. cbn [h_mark_drop mark_drop].
  assert (Hg : h_get_idx (HN lx par sl) i = get_idx (PN lx (map a_val cs)) i).
  { unfold h_get_idx, get_idx, zlen. cbn [h_ch pn_children]. by rewrite (slice_len_is _ _ _ Hs), !map_length. }
  rewrite Hg. destruct (get_idx (PN lx (map a_val cs)) i) as [[j l] ok]. destruct ok; [|by apply IH].
  destruct (nth (Z.to_nat j) d false) eqn:En.
  - rewrite IH by done. f_equal. symmetry. apply list_insert_id.
    rewrite nth_lookup in En. destruct (d !! Z.to_nat j) as [[]|]; done.
  - apply IH. by rewrite insert_length.
Qed.

Definition kept (d : list bool) : nat := length (filter (eq false) d).
Lemma kept_insert d : forall j, d !! j = Some false -> kept d = S (kept (<[j := true]> d)).
Proof.
  unfold kept. induction d as [|b d IH]; intros [|j] H; [done|done|injection H as ->; done|]. cbn [lookup list_lookup] in H.
  change (<[S j := true]> (b :: d)) with (b :: <[j := true]> d). rewrite !filter_cons. specialize (IH j H). case_decide; cbn [length]; lia.
Qed.
Lemma h_mark_drop_len lx par sl cs h : slice_is h sl (map a_ptr cs) -> forall idxs d ln,
  length d = length cs -> ln = Z.of_nat (kept d) ->
  snd (h_mark_drop (HN lx par sl) idxs d ln) = Z.of_nat (kept (fst (h_mark_drop (HN lx par sl) idxs d ln))).
Proof.
  intros Hs. induction idxs as [|i idxs IH]; intros d ln Hd Hl; [done|]. cbn [h_mark_drop].
  destruct (h_get_idx (HN lx par sl) i) as [[j l] ok] eqn:Eg. destruct ok; [|by apply IH].
  destruct (nth (Z.to_nat j) d false) eqn:En; [by apply IH|].
  apply IH; [by rewrite insert_length|].
  assert (Hj : (0 <= j < Z.of_nat (length d))%Z).
  { revert Eg. unfold h_get_idx. cbn [h_ch]. rewrite (slice_len_is _ _ _ Hs), map_length, Hd. cbv zeta.
    intros Eg. repeat (case_match; simplify_eq); lia. }
  rewrite nth_lookup in En. destruct (d !! Z.to_nat j) as [b|] eqn:Ej; [|apply lookup_ge_None in Ej; lia]. cbn in En. subst b.
  rewrite Hl, (kept_insert _ _ Ej). lia.
Qed.

(** A slice in an array that did not exist in [h], all else as in [h]. *)
Definition fresh_slice (h h1 : heap) (sl : option (nat * nat)) (ps : list nat) : Prop :=
  slice_is h1 sl ps /\ length (h_arrs h) <= length (h_arrs h1)
  /\ (forall a, a < length (h_arrs h) -> h_arrs h1 !! a = h_arrs h !! a)
  /\ exists a, sl_arr sl = [a] /\ length (h_arrs h) <= a.

Lemma fresh_make h cap h1 sl : make_slice h 0 cap = (h1, sl) -> h_nodes h1 = h_nodes h /\ fresh_slice h h1 sl [].
Proof.
  intros [= <- <-]. split; [done|]. cbn [h_arrs]. split; [|split; [|split]].
  - split; [done|]. eexists. cbn [h_arrs]. rewrite list_lookup_middle by done. reflexivity.
  - cbn [h_arrs]. rewrite app_length. lia.
  - intros a Ha. cbn [h_arrs]. by rewrite lookup_app_l.
  - eexists. split; [reflexivity|]. lia.
Qed.
Lemma fresh_append g h h1 sl ps qs h2 sl2 :
  fresh_slice h h1 sl ps -> append_slice g h1 sl (map Some qs) = (h2, sl2) ->
  h_nodes h2 = h_nodes h1 /\ fresh_slice h h2 sl2 (ps ++ qs).
Proof.
  intros (Hs & Hl & Ho & a & Ea & Ha) Eap.
  destruct (append_spec _ _ _ _ _ _ _ Hs Eap) as (Hs1 & Hn1 & Hl1 & Ho1 & Ha1).
  split; [done|]. split; [done|]. split; [lia|]. split.
  - intros x Hx. rewrite Ho1; [by apply Ho|lia|]. rewrite Ea. intros ->%elem_of_list_singleton. lia.
  - destruct Ha1 as [->|Ha1]; [eauto|]. eexists. split; [done|]. lia.
Qed.

Lemma keep_undropped_map {A B} (f : A -> B) : forall d C,
  keep_undropped d (map f C) = map f (keep_undropped d C).
Proof. induction d as [|[] d IH]; intros [|c C]; cbn [keep_undropped map]; rewrite ?IH; done. Qed.
Lemma keep_undropped_sublist {A} : forall d (C : list A), keep_undropped d C `sublist_of` C.
Proof.
  induction d as [|[] d IH]; intros [|c C]; cbn [keep_undropped]; try apply sublist_nil_l.
  - by apply sublist_cons.
  - by apply sublist_skip.
Qed.

Lemma fresh_slice_old h h1 sl1 ps1 sl ps :
  fresh_slice h h1 sl1 ps1 -> slice_is h sl ps -> slice_is h1 sl ps.
Proof.
  intros (_ & _ & Ho & _) Hs. apply (slice_is_agree h); [done|]. intros a Ha. apply Ho.
  by apply (slice_arr_lt _ _ _ _ Hs).
Qed.

Lemma remove_children_loop g h p lx par sl cs :
  h_nodes h !! p = Some (HN lx par sl) -> slice_is h sl (map a_ptr cs) ->
  forall d pre rest hk slk ks,
  cs = pre ++ rest -> length d = length rest -> h_nodes hk = h_nodes h -> fresh_slice h hk slk (map a_ptr ks) ->
  exists h' sl', rfold (fun (hs : heap * option (nat * nat)) '(idx, skip) =>
        let '(h, newC) := hs in
        if (skip : bool) then Ok (h, newC)
        else n <-! deref h p; c <-! slice_get h (h_ch n) idx; Ok (append_slice g h newC [c]))
      (combine (seq (length pre) (length d)) d) (hk, slk) = Ok (h', sl')
    /\ h_nodes h' = h_nodes h /\ fresh_slice h h' sl' (map a_ptr (ks ++ keep_undropped d rest)).
Proof.
  intros Hp Hs. induction d as [|skip d IH]; intros pre rest hk slk ks Hcs Hl Hn Hf.
  - destruct rest; [|discriminate]. cbn [combine rfold length seq keep_undropped]. rewrite app_nil_r. eauto.
  - destruct rest as [|c rest]; [discriminate|]. cbn [length seq combine rfold keep_undropped].
    assert (Hcs' : cs = (pre ++ [c]) ++ rest) by (by rewrite <- app_assoc).
    assert (Hl' : length (pre ++ [c]) = S (length pre)) by (rewrite app_length; cbn [length]; lia).
    destruct skip; cbn [rbind].
    + rewrite <- Hl'. apply (IH _ rest hk slk ks Hcs'); [by injection Hl|done|done].
    + rewrite (deref_at hk p (HN lx par sl)) by (by rewrite Hn). cbn [rbind h_ch].
      pose proof (fresh_slice_old _ _ _ _ _ _ Hf Hs) as Hsk. rewrite Hcs, map_app in Hsk. cbn [map] in Hsk.
      pose proof (slice_get_is _ _ _ _ _ Hsk) as Hg. rewrite map_length in Hg. rewrite Hg. cbn [rbind].
      destruct (append_slice g hk slk [Some (a_ptr c)]) as [h2 sl2] eqn:Eap.
      destruct (fresh_append g h hk slk (map a_ptr ks) [a_ptr c] h2 sl2 Hf Eap) as [Hn2 Hf2].
      destruct (IH (pre ++ [c]) rest h2 sl2 (ks ++ [c]) Hcs') as (h' & sl' & E & Hn' & Hf').
      { by injection Hl. } { by rewrite Hn2. } { by rewrite map_app. }
      rewrite Hl' in E. exists h', sl'. split; [exact E|]. split; [done|]. by rewrite <- app_assoc in Hf'.
Qed.

(** Ending a step with a fresh slice of children. *)
Lemma fresh_step h h1 p lx sl cs par sl1 cs' :
  tree_at h (AT p lx sl cs) ->
  (exists x, h_nodes h1 !! p = Some x /\ h_lex x = lx /\ h_par x = par) ->
  (forall n x, h_nodes h !! n = Some x -> exists x', h_nodes h1 !! n = Some x' /\ same_node x x' /\ (n ∉ fnodes cs -> x' = x)) ->
  length (h_nodes h1) = length (h_nodes h) ->
  fresh_slice h h1 sl1 (map a_ptr cs') ->
  Forall (holds h) cs' ->
  fnodes cs' `sublist_of` fnodes cs -> farrs cs' `sublist_of` farrs cs ->
  tree_at (set_node h1 p (HN lx par sl1)) (AT p lx sl1 cs')
  /\ only_changes h (set_node h1 p (HN lx par sl1)) (AT p lx sl cs) (AT p lx sl1 cs').
Proof.
  intros HT (x & Hp & _ & _) Hn Hl (Hs & Hla & Ho & a & Ea & Ha) HF Sn Sa. pose proof HT as (Hh & _ & _).
  apply (step_tree_sub h _ p lx sl cs lx par); cbn [set_node h_nodes h_arrs]; try done.
  - apply list_lookup_insert. by apply lookup_lt_Some in Hp.
  - intros n Hne y Hy. rewrite list_lookup_insert_ne by done. by apply Hn.
  - by rewrite insert_length.
  - intros y Hy. apply Ho. apply (holds_arr_lt _ _ _ Hh). rewrite arrs_AT, elem_of_app. right.
    by apply (sublist_in (farrs cs')).
  - intros y Hy _. by apply Ho.
  - right. right. eauto.
Qed.

Lemma remove_children_implements g idxs : implements (remove_children idxs) (h_remove_children g idxs).
Proof.
  intros h [p lx sl cs] HT. open_tree HT. unfold h_remove_children. cbn [a_ptr].
  rewrite (deref_at _ _ _ Hp). cbn [rbind h_ch]. rewrite (slice_len_is _ _ _ Hs), map_length.
  pose proof (h_mark_drop_eq lx par sl cs h Hs idxs (replicate (length cs) false) (Z.of_nat (length cs)) ltac:(apply replicate_length)) as Hd.
  pose proof (h_mark_drop_len lx par sl cs h Hs idxs (replicate (length cs) false) (Z.of_nat (length cs)) ltac:(apply replicate_length)) as Hln.
  destruct (h_mark_drop (HN lx par sl) idxs (replicate (length cs) false) (Z.of_nat (length cs))) as [d ln]. cbn [fst snd] in Hd, Hln.
  assert (Hrep : kept (replicate (length cs) false) = length cs).
  { clear. unfold kept. induction (length cs) as [|m IH]; [done|]. cbn [replicate]. rewrite filter_cons_True by done. cbn [length]. by rewrite IH. }
  rewrite Hrep in Hln. specialize (Hln eq_refl). destruct (Z.ltb_spec ln 0) as [Hneg|_]; [lia|]. cbn [rbind].
  destruct (make_slice h 0 (Z.to_nat ln)) as [h1 sl1] eqn:Em. destruct (fresh_make _ _ _ _ Em) as [Hn1 Hf1].
  assert (Hdl : length d = length cs) by (rewrite Hd, mark_drop_len; apply replicate_length).
  destruct (remove_children_loop g h p lx par sl cs Hp Hs d [] cs h1 sl1 []) as (h2 & sl2 & E & Hn2 & Hf2); try done.
  cbn [length] in E. rewrite E. cbn [rbind].
  rewrite (deref_at h2 p (HN lx par sl)) by (by rewrite Hn2). cbn [rbind].
  destruct (fresh_step h h2 p lx sl cs par sl2 (keep_undropped d cs)) as [Ht Hch]; try done.
  { rewrite Hn2. eauto. }
  { intros n x Hx. exists x. by rewrite Hn2. }
  { by rewrite Hn2. }
  { rewrite Forall_forall in *. intros c Hin. apply Hc. by apply (sublist_in _ _ _ (keep_undropped_sublist d cs)). }
  { apply fnodes_sublist, keep_undropped_sublist. }
  { apply farrs_sublist, keep_undropped_sublist. }
  eexists _, _. split; [reflexivity|]. split; [exact Ht|]. split; [done|]. split; [|exact Hch].
  unfold remove_children. rewrite !val_AT. cbn [pn_lexeme pn_children]. f_equal.
  rewrite Hd, map_length. by rewrite keep_undropped_map.
Qed.

(** * PromoteGrandChildren *)
Lemma grand_loop g h p lx sl : forall todo done_ cs,
  tree_at h (AT p lx sl cs) -> cs = done_ ++ todo ->
  forall hk slk,
  length (h_nodes hk) = length (h_nodes h) ->
  (forall n x, h_nodes h !! n = Some x -> exists x', h_nodes hk !! n = Some x' /\ same_node x x' /\ (n ∉ fnodes cs -> x' = x)) ->
  fresh_slice h hk slk (map a_ptr (List.concat (map a_kids done_))) ->
  (forall c n, c ∈ List.concat (map a_kids done_) -> h_nodes hk !! a_ptr c = Some n -> h_par n = Some p) ->
  exists h' sl', rfold (fun (hs : heap * option (nat * nat)) c =>
        let '(h, newC) := hs in
        cn <-! deref_opt h c;
        h <-! set_parents h p (elems h (h_ch cn));
        cn <-! deref_opt h c;
        Ok (append_slice g h newC (elems h (h_ch cn))))
      (map Some (map a_ptr todo)) (hk, slk) = Ok (h', sl')
    /\ length (h_nodes h') = length (h_nodes h)
    /\ (forall n x, h_nodes h !! n = Some x -> exists x', h_nodes h' !! n = Some x' /\ same_node x x' /\ (n ∉ fnodes cs -> x' = x))
    /\ fresh_slice h h' sl' (map a_ptr (List.concat (map a_kids cs)))
    /\ (forall c n, c ∈ List.concat (map a_kids cs) -> h_nodes h' !! a_ptr c = Some n -> h_par n = Some p).
Proof.
  induction todo as [|c todo IH]; intros done_ cs HT Hcs hk slk Hl Hn Hf Hlk.
  - rewrite app_nil_r in Hcs. subst. cbn [map rfold]. exists hk, slk. by repeat (split; [done|]).
  - cbn [map rfold deref_opt]. open_tree HT.
    assert (Hcin : c ∈ cs) by (subst; rewrite elem_of_app; right; by left).
    assert (Hcc : holds h c) by (rewrite Forall_forall in Hc; by apply Hc).
    inversion Hcc as [cp clx cpar csl ccs Hcp Hcsl Hccs Hceq]. subst c. cbn [a_ptr] in *.
    destruct (Hn cp _ Hcp) as ([clx' cpar' csl'] & Hcp' & [E1 E2] & _). cbn in E1, E2. subst clx' csl'.
    rewrite (deref_at _ _ _ Hcp'). cbn [rbind h_ch].
    pose proof (fresh_slice_old _ _ _ _ _ _ Hf Hcsl) as Hcslk. rewrite (elems_is _ _ _ Hcslk).
    assert (Hsubk : forall k, k ∈ ccs -> a_nodes k `sublist_of` fnodes cs).
    { intros k Hk. subst cs. apply elem_of_list_split in Hk as (k1 & k2 & ->).
      rewrite fnodes_app, fnodes_cons, nodes_AT, fnodes_app, fnodes_cons.
      apply sublist_inserts_l, sublist_inserts_r, sublist_cons, sublist_inserts_l, sublist_inserts_r. done. }
    destruct (set_parents_spec p (map a_ptr ccs) hk) as (h1 & Esp & Ea1 & El1 & En1).
    { intros q Hq. apply elem_of_list_In, in_map_iff in Hq as (k & <- & Hk). apply elem_of_list_In in Hk.
      rewrite Hl. apply (holds_node_lt _ _ _ Hh). rewrite nodes_AT. right.
      apply (sublist_in _ _ _ (Hsubk k Hk)). apply ptr_in_nodes. }
    rewrite Esp. cbn [rbind].
    assert (Hcp1 : exists par1, h_nodes h1 !! cp = Some (HN clx par1 csl)).
    { rewrite (En1 _ _ Hcp'). destruct (decide _); eexists; reflexivity. }
    destruct Hcp1 as [par1 Hcp1]. rewrite (deref_at _ _ _ Hcp1). cbn [rbind h_ch].
    assert (Hcsl1 : slice_is h1 csl (map a_ptr ccs)).
    { apply (slice_is_agree hk); [done|]. intros. by rewrite Ea1. }
    rewrite (elems_is _ _ _ Hcsl1).
    assert (Hf1 : fresh_slice h h1 slk (map a_ptr (List.concat (map a_kids done_)))).
    { destruct Hf as (F1 & F2 & F3 & F4). split; [apply (slice_is_agree hk); [done|intros; by rewrite Ea1]|].
      rewrite Ea1. done. }
    destruct (append_slice g h1 slk (map Some (map a_ptr ccs))) as [h2 sl2] eqn:Eap.
    destruct (fresh_append g h h1 slk _ (map a_ptr ccs) h2 sl2 Hf1 Eap) as [Hn2 Hf2].
    apply (IH (done_ ++ [AT cp clx csl ccs]) cs HT).
    + by rewrite <- app_assoc.
    + by rewrite Hn2, El1.
    + rewrite Hn2. intros n x Hx. destruct (Hn n x Hx) as (x' & Hx' & [S1 S2] & He).
      rewrite (En1 n x' Hx'). eexists. split; [reflexivity|].
      destruct (decide (n ∈ map a_ptr ccs)) as [Hin|Hin].
      * split; [by split|]. intros Hnin. destruct Hnin.
        apply elem_of_list_In, in_map_iff in Hin as (k & <- & Hk). apply elem_of_list_In in Hk.
        apply (sublist_in _ _ _ (Hsubk k Hk)). apply ptr_in_nodes.
      * split; [by split|done].
    + rewrite map_app, concat_app, map_app. cbn [map List.concat a_kids]. by rewrite app_nil_r.
    + rewrite Hn2. intros k n. rewrite map_app, concat_app. cbn [map List.concat a_kids]. rewrite app_nil_r.
      intros Hk Hx. destruct (decide (a_ptr k ∈ map a_ptr ccs)) as [Hin|Hin].
      * assert (Hlt : a_ptr k < length (h_nodes hk)).
        { rewrite <- El1. by apply lookup_lt_Some in Hx. }
        destruct (lookup_lt_is_Some_2 _ _ Hlt) as [y Hy]. rewrite (En1 _ _ Hy), decide_True in Hx by done.
        by injection Hx as <-.
      * assert (Hlt : a_ptr k < length (h_nodes hk)).
        { rewrite <- El1. by apply lookup_lt_Some in Hx. }
        destruct (lookup_lt_is_Some_2 _ _ Hlt) as [y Hy]. rewrite (En1 _ _ Hy), decide_False in Hx by done.
        injection Hx as <-. apply elem_of_app in Hk as [Hk|Hk]; [by apply (Hlk k y Hk)|].
        destruct Hin. apply elem_of_list_In, in_map. by apply elem_of_list_In.
Qed.

Lemma grand_sublists cs :
  fnodes (List.concat (map a_kids cs)) `sublist_of` fnodes cs
  /\ farrs (List.concat (map a_kids cs)) `sublist_of` farrs cs.
Proof.
  induction cs as [|[p lx sl ks] cs [IH1 IH2]]; cbn [map List.concat a_kids]; [done|].
  rewrite fnodes_app, farrs_app. split.
  - rewrite nodes_AT. by apply (sublist_app (fnodes ks) (p :: fnodes ks)); [apply sublist_cons|].
  - rewrite arrs_AT. apply sublist_app; [by apply sublist_inserts_l|done].
Qed.

Lemma grand_count h cs : Forall (holds h) cs -> forall n,
  exists m, rfold (fun ct c => cn <-! deref_opt h c; Ok (ct + slice_len (h_ch cn))) (map Some (map a_ptr cs)) n = Ok m.
Proof.
  induction 1 as [|c cs Hc _ IH]; intros n; cbn [map rfold]; [eauto|].
  inversion Hc as [cp clx cpar csl ccs Hcp]; subst. cbn [deref_opt a_ptr]. rewrite (deref_at _ _ _ Hcp). cbn [rbind].
  apply IH.
Qed.

Lemma promote_grand_children_heap g p lx sl cs h :
  tree_at h (AT p lx sl cs) ->
  exists h' A', h_promote_grand_children g p h = Ok h' /\ a_ptr A' = p
    /\ tree_at h' A' /\ only_changes h h' (AT p lx sl cs) A'
    /\ a_val A' = promote_grand_children (a_val (AT p lx sl cs)) /\ kids_linked h' A'.
Proof.
  intros HT. open_tree HT. unfold h_promote_grand_children. rewrite (deref_at _ _ _ Hp). cbn [rbind h_ch].
  rewrite (elems_is _ _ _ Hs). destruct (grand_count h cs Hc 0) as [ct Ect]. rewrite Ect. cbn [rbind].
  destruct (make_slice h 0 ct) as [h1 sl1] eqn:Em. destruct (fresh_make _ _ _ _ Em) as [Hn1 Hf1].
  pose proof (fresh_slice_old _ _ _ _ _ _ Hf1 Hs) as Hs1. rewrite (elems_is _ _ _ Hs1).
  destruct (grand_loop g h p lx sl cs [] cs HT eq_refl h1 sl1) as (h2 & sl2 & E & Hl2 & Hn2 & Hf2 & Hk2).
  { by rewrite Hn1. } { rewrite Hn1. intros n x Hx. exists x. done. } { done. }
  { intros c n Hin. cbn in Hin. by apply elem_of_nil in Hin. }
  rewrite E. cbn [rbind].
  assert (Hpn : p ∉ fnodes cs) by (rewrite nodes_AT in Hn; by apply NoDup_cons in Hn as [? _]).
  destruct (Hn2 p _ Hp) as (x & Hx & _ & He). rewrite (He Hpn) in Hx. rewrite (deref_at _ _ _ Hx). cbn [rbind].
  destruct (grand_sublists cs) as [Sn Sa].
  destruct (fresh_step h h2 p lx sl cs par sl2 (List.concat (map a_kids cs))) as [Ht Hch]; try done.
  { eauto. }
  { rewrite Forall_forall in *. intros k Hk. apply elem_of_list_In, in_concat in Hk as (l & Hl & Hk).
    apply in_map_iff in Hl as (c & <- & Hcin). apply elem_of_list_In in Hcin.
    pose proof (Hc c Hcin) as Hcc. inversion Hcc as [? ? ? ? ? ? ? HF]; subst. cbn [a_kids] in Hk.
    rewrite Forall_forall in HF. apply HF. by apply elem_of_list_In. }
  exists (set_ch h2 p (HN lx par sl) sl2), (AT p lx sl2 (List.concat (map a_kids cs))).
  split; [done|]. split; [done|]. split; [exact Ht|]. split; [exact Hch|]. split.
  - rewrite !val_AT, promote_grand_children_spec. f_equal. clear. induction cs as [|[p lx sl ks] cs IH]; [done|].
    cbn [map List.concat a_kids a_val pn_children]. by rewrite map_app, IH.
  - intros c n Hin. cbn [a_kids a_ptr] in *. unfold set_ch, set_node. cbn [h_nodes].
    rewrite list_lookup_insert_ne.
    + by apply Hk2.
    + intros ->. apply Hpn. apply (sublist_in _ _ _ Sn). by apply ptr_in_fnodes.
Qed.
Lemma promote_grand_children_implements g : implements promote_grand_children (h_promote_grand_children g).
Proof.
  intros h [p lx sl cs] HT. destruct (promote_grand_children_heap g p lx sl cs h HT) as (h' & A' & E & Hp & Ht & Hc & Hv & _).
  exists h', A'. by repeat (split; [done|]).
Qed.

(** * Chain and If *)
Lemma h_run_implements f r :
  match f, r with Some f, Some r => implements f r | None, None => True | _, _ => False end ->
  implements (run_red f) (h_run r).
Proof.
  destruct f, r; intros H; try done. apply implements_id.
Qed.
Lemma compose_implements f g rf rg :
  implements f rf -> implements g rg -> implements (fun t => g (f t)) (fun p h => h1 <-! rf p h; rg p h1).
Proof.
  intros Hf Hg h A HT. destruct (Hf h A HT) as (h1 & A1 & E1 & Ht1 & Hp1 & Hv1 & Hc1).
  destruct (Hg h1 A1 Ht1) as (h2 & A2 & E2 & Ht2 & Hp2 & Hv2 & Hc2).
  exists h2, A2. rewrite E1. cbn [rbind]. rewrite <- Hp1, E2. split; [done|]. split; [done|]. split; [congruence|].
  split; [by rewrite Hv2, Hv1|]. by apply (only_changes_trans _ _ _ _ _ _ Hc1).
Qed.
Lemma if_implements b c f g rf rg :
  tests b c -> implements (run_red f) (h_run rf) -> implements (run_red g) (h_run rg) ->
  implements (if_ (Some b) f g) (h_if (Some c) rf rg).
Proof.
  intros Hc Hf Hg h A HT. unfold if_, h_if. rewrite (Hc h A HT). cbn [rbind].
  destruct (b (a_val A)); [by apply Hf|by apply Hg].
Qed.
Lemma if_nil_implements f g rf rg :
  implements (run_red g) (h_run rg) -> implements (if_ None f g) (h_if None rf rg).
Proof. intros Hg h A HT. by apply Hg. Qed.
Lemma child_is_tests i kind : tests (fun t => child_is t i kind) (fun p h => h_child_is h p i kind).
Proof. intros h [p lx sl cs] HT. by apply child_is_heap. Qed.

(** * Inside a bigger tree *)
Lemma replaced_ptr A A' T T' : replaced A A' T T' -> a_ptr A' = a_ptr A -> a_ptr T' = a_ptr T.
Proof. intros H Hp. by destruct H. Qed.
Lemma replaced_val A A' T T' : replaced A A' T T' -> pn_replaced (a_val A) (a_val A') (a_val T) (a_val T').
Proof.
  induction 1; [constructor|]. rewrite !val_AT, !map_app. cbn [map]. by constructor.
Qed.

Lemma inside_step h h' A A' : only_changes h h' A A' -> tree_at h' A' -> a_ptr A' = a_ptr A ->
  forall T T', replaced A A' T T' -> tree_at h T ->
  tree_at h' T' /\ only_changes h h' T T'.
Proof.
  intros Hch HA' Hptr T T' Hr. induction Hr as [|p lx sl l c c' r Hr IH]; intros HT; [done|].
  pose proof HT as (Hh & Hn & Ha). inversion Hh as [? ? par ? ? Hp Hs Hc]; subst.
  rewrite nodes_AT, fnodes_app, fnodes_cons in Hn. rewrite arrs_AT, farrs_app, farrs_cons in Ha.
  pose proof (replaced_ptr _ _ _ _ Hr Hptr) as Hpc.
  apply NoDup_cons in Hn as [Hpn Hn]. apply NoDup_app in Hn as (Hnl & Hnd & Hn). apply NoDup_app in Hn as (Hnc & Hnd2 & Hnr).
  apply NoDup_app in Ha as (Has & Had & Ha). apply NoDup_app in Ha as (Hal & Had2 & Ha). apply NoDup_app in Ha as (Hac & Had3 & Har).
  rewrite Forall_app, Forall_cons in Hc. destruct Hc as (Fl & Fc & Fr).
  destruct (IH (conj Fc (conj Hnc Hac))) as [(Hh' & Hn' & Ha') Hch'].
  destruct Hch' as (L1 & L2 & C1 & C2 & C3 & C4).
  assert (Hlt : forall n, n ∈ a_nodes (AT p lx sl (l ++ c :: r)) -> n < length (h_nodes h)) by (intros n; by apply holds_node_lt).
  assert (Hlta : forall a, a ∈ a_arrs (AT p lx sl (l ++ c :: r)) -> a < length (h_arrs h)) by (intros a; by apply holds_arr_lt).
  rewrite nodes_AT, fnodes_app, fnodes_cons in Hlt. rewrite arrs_AT, farrs_app, farrs_cons in Hlta.
  assert (Fo : forall ks, Forall (holds h) ks -> (forall n, n ∈ fnodes ks -> n ∉ a_nodes c) ->
    (forall a, a ∈ farrs ks -> a ∉ a_arrs c) -> Forall (holds h') ks).
  { intros ks Fk N1 N2. apply (holds_all_agree h); [done|]. apply agree_eq.
    - intros n Hin. apply C1; [|by apply N1]. clear -Fk Hin. apply elem_of_list_In, in_concat in Hin as (x & Hx & Hin).
      apply in_map_iff in Hx as (k & <- & Hk). apply elem_of_list_In in Hk, Hin. rewrite Forall_forall in Fk.
      by apply (holds_node_lt h k n (Fk k Hk)).
    - intros n Hin. apply C2; [|by apply N2]. clear -Fk Hin. apply elem_of_list_In, in_concat in Hin as (x & Hx & Hin).
      apply in_map_iff in Hx as (k & <- & Hk). apply elem_of_list_In in Hk, Hin. rewrite Forall_forall in Fk.
      by apply (holds_arr_lt h k n (Fk k Hk)). }
  assert (Fl' : Forall (holds h') l).
  { apply Fo; [done| |].
    - intros n Hin Hc. apply (Hnd n Hin). rewrite elem_of_app. by left.
    - intros n Hin Hc. apply (Had2 n Hin). rewrite elem_of_app. by left. }
  assert (Fr' : Forall (holds h') r).
  { apply Fo; [done| |].
    - intros n Hin Hc. by apply (Hnd2 n Hc).
    - intros n Hin Hc. by apply (Had3 n Hc). }
  assert (Hplt : p < length (h_nodes h)) by (apply Hlt; by left).
  split.
  - split; [|split].
    + apply (holds_intro h' p lx par sl).
      * rewrite C1; [done|done|]. intros Hin. apply Hpn. rewrite !elem_of_app. auto.
      * rewrite map_app in *. cbn [map] in *. rewrite Hpc.
        apply (slice_is_agree h); [done|]. intros a Hin. apply C2.
        -- apply Hlta. rewrite !elem_of_app. auto.
        -- intros Hac'. apply (Had a Hin). rewrite !elem_of_app. auto.
      * by rewrite Forall_app, Forall_cons.
    + rewrite nodes_AT, fnodes_app, fnodes_cons. apply NoDup_cons. split; [|apply NoDup_app; split; [done|split; [|apply NoDup_app; split; [done|split; [|done]]]]].
      * rewrite !elem_of_app. intros [Hin|[Hin|Hin]].
        -- apply Hpn. rewrite !elem_of_app. auto.
        -- destruct (C3 p Hin) as [Hin'|Hge]; [|lia]. apply Hpn. rewrite !elem_of_app. auto.
        -- apply Hpn. rewrite !elem_of_app. auto.
      * intros n Hin. rewrite elem_of_app. intros [Hin'|Hin'].
        -- destruct (C3 n Hin') as [Hc|Hge]; [apply (Hnd n Hin); rewrite elem_of_app; auto|].
           specialize (Hlt n). rewrite elem_of_cons, !elem_of_app in Hlt. assert (n < length (h_nodes h)) by auto. lia.
        -- apply (Hnd n Hin). rewrite elem_of_app. auto.
      * intros n Hin Hin'. destruct (C3 n Hin) as [Hc|Hge]; [by apply (Hnd2 n Hc)|].
        specialize (Hlt n). rewrite elem_of_cons, !elem_of_app in Hlt. assert (n < length (h_nodes h)) by auto. lia.
    + rewrite arrs_AT, farrs_app, farrs_cons. apply NoDup_app. split; [done|]. split; [|apply NoDup_app; split; [done|split; [|apply NoDup_app; split; [done|split; [|done]]]]].
      * intros a Hin. rewrite !elem_of_app. intros [Hin'|[Hin'|Hin']].
        -- apply (Had a Hin). rewrite !elem_of_app. auto.
        -- destruct (C4 a Hin') as [Hc|Hge]; [apply (Had a Hin); rewrite !elem_of_app; auto|].
           specialize (Hlta a). rewrite !elem_of_app in Hlta. assert (a < length (h_arrs h)) by auto. lia.
        -- apply (Had a Hin). rewrite !elem_of_app. auto.
      * intros n Hin. rewrite elem_of_app. intros [Hin'|Hin'].
        -- destruct (C4 n Hin') as [Hc|Hge]; [apply (Had2 n Hin); rewrite elem_of_app; auto|].
           specialize (Hlta n). rewrite !elem_of_app in Hlta. assert (n < length (h_arrs h)) by auto. lia.
        -- apply (Had2 n Hin). rewrite elem_of_app. auto.
      * intros n Hin Hin'. destruct (C4 n Hin) as [Hc|Hge]; [by apply (Had3 n Hc)|].
        specialize (Hlta n). rewrite !elem_of_app in Hlta. assert (n < length (h_arrs h)) by auto. lia.
  - split; [done|]. split; [done|]. rewrite !nodes_AT, !arrs_AT, !fnodes_app, !farrs_app, !fnodes_cons, !farrs_cons.
    split; [|split; [|split]].
    + intros n Hn0 Hnin. apply C1; [done|]. intros Hin. apply Hnin. rewrite elem_of_cons, !elem_of_app. auto.
    + intros n Hn0 Hnin. apply C2; [done|]. intros Hin. apply Hnin. rewrite !elem_of_app. auto.
    + intros n. rewrite !elem_of_cons, !elem_of_app. intros [?|[?|[Hin|?]]]; auto.
      destruct (C3 n Hin); auto.
    + intros n. rewrite !elem_of_app. intros [?|[?|[Hin|?]]]; auto.
      destruct (C4 n Hin); auto.
Qed.
