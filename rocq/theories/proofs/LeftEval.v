(** The values of the trees the packrat parser builds for the math example: operators of one
    kind are taken from the left. *)
From Coq Require Import String.
From Verif.spec Require Import MathSpec.
From Verif.model Require Import Packrat.
From Verif.proofs Require Import Fuel LexTableProofs RunProofs LeftPos LeftInv MathProofs.
Local Open Scope nat_scope.
Local Open Scope list_scope.

Definition st1 : set := match load_grammar mx_g set_new with Ok s => s | _ => set_new end.
Definition st0_sealed : seal st1. Proof. by eexists. Qed.
Definition st0 : set := st0_sealed.(unseal).
Definition st0_eq : st0 = st1 := st0_sealed.(seal_eq).
Definition ix (k : gostring) : nat := fst (set_str st0 k).
Lemma st0_ok : load_grammar mx_g set_new = Ok st0. Proof. rewrite ?st0_eq; vm_compute. reflexivity. Qed.
Definition mkinds : list gostring := [kn; k1; k2; ko; kc].
Lemma ix_all : Forall (fun k => str2sym st0 !! k = Some (ix k)) (kE :: mkinds).
Proof. unfold ix. rewrite st0_eq. apply (bool_decide_unpack _). vm_compute. exact I. Qed.
Lemma ix_vals : ix kE = 0 /\ ix k2 = 1 /\ ix k1 = 2 /\ ix kn = 3 /\ ix ko = 5 /\ ix kc = 6.
Proof. unfold ix; rewrite ?st0_eq; vm_compute. repeat split. Qed.
Lemma ix_str k : k ∈ kE :: mkinds -> set_str st0 k = (ix k, st0).
Proof. intros Hk. pose proof ix_all as H. rewrite List.Forall_forall in H. unfold set_str. rewrite H; [done|by apply elem_of_list_In]. Qed.
Definition kname (t : nat) : gostring := name_of st0 t.
Lemma kname_vals : kname 0 = kE /\ kname 1 = k2 /\ kname 2 = k1 /\ kname 3 = kn /\ kname 4 = kP /\ kname 5 = ko /\ kname 6 = kc.
Proof. unfold kname, ix; rewrite ?st0_eq; vm_compute. repeat split. Qed.
Lemma st0_E : prods_of mx_g st0 0 = Some [[0; 1; 0]; [0; 2; 0]; [3]; [1; 3]; [4]]. Proof. unfold kname, ix; rewrite ?st0_eq; vm_compute. reflexivity. Qed.
Lemma st0_P : prods_of mx_g st0 4 = Some [[5; 0; 6]]. Proof. unfold kname, ix; rewrite ?st0_eq; vm_compute. reflexivity. Qed.
Lemma st0_t t : tmn t -> prods_of mx_g st0 t = None.
Proof. intros [->|[->|[->|[->| ->]]]]; unfold kname, ix; rewrite ?st0_eq; vm_compute; reflexivity. Qed.
Definition nts0 : list bool := mark_nonterms st0 (g_nts mx_g) (replicate (sym_count st0) false).
Lemma nts0_E : nts0 !! 0 = Some true. Proof. unfold nts0, kname, ix; rewrite ?st0_eq; vm_compute. reflexivity. Qed.
Lemma nts0_P : nts0 !! 4 = Some true. Proof. unfold nts0, kname, ix; rewrite ?st0_eq; vm_compute. reflexivity. Qed.
Lemma nts0_t t : tmn t -> nts0 !! t = Some false.
Proof. intros [->|[->|[->|[->| ->]]]]; unfold nts0, kname, ix; rewrite ?st0_eq; vm_compute; reflexivity. Qed.

Definition all_kinds (lxs : list lexeme) : Prop := forall x, x ∈ lxs -> lx_kind x ∈ mkinds.
Definition lxms_of (lxs : list lexeme) : list (nat * lexeme) := map (fun x => (ix (lx_kind x), x)) lxs.
Lemma load_same lxs : all_kinds lxs -> load_lexemes st0 lxs = (lxms_of lxs, st0).
Proof.
  induction lxs as [|x r IH]; intros H; [done|]. cbn [load_lexemes]. rewrite ix_str by (apply elem_of_list_further, H; left).
  rewrite IH by (intros y Hy; apply H; by right). done.
Qed.

Section E.
  Variable A : arith.
  Variable lxs : list lexeme.
  Hypothesis Hk : all_kinds lxs.
  Notation kinds := (map fst (lxms_of lxs)).
  Lemma kinds_at p t : kinds !! p = Some t <-> exists x, lxs !! p = Some x /\ ix (lx_kind x) = t.
  Proof using.
    unfold lxms_of. rewrite map_map.
    change (map (fun x => fst (ix (lx_kind x), x)) lxs) with ((fun x => ix (lx_kind x)) <$> lxs).
    rewrite list_lookup_fmap. destruct (lxs !! p) as [x|]; cbn [fmap option_fmap option_map].
    - split; [intros [= <-]; eauto|]. intros (y & [= <-] & <-). done.
    - split; [done|]. by intros (y & ? & _).
  Qed.
  Lemma kind_name x : lx_kind x ∈ mkinds -> tmn (ix (lx_kind x)) /\ kname (ix (lx_kind x)) = lx_kind x.
  Proof using.
    unfold mkinds. destruct ix_vals as (_ & E1 & E2 & E3 & E4 & E5). destruct kname_vals as (_ & F1 & F2 & F3 & _ & F4 & F5).
    rewrite !elem_of_cons, elem_of_nil. unfold tmn. intros [->|[->|[->|[->|[->|[]]]]]]; rewrite ?E1, ?E2, ?E3, ?E4, ?E5; split; auto 10.
  Qed.
  Lemma kinds_tmn p t : kinds !! p = Some t -> tmn t.
  Proof using Hk. rewrite kinds_at. intros (x & Hx & <-). apply kind_name, Hk. by eapply elem_of_list_lookup_2. Qed.
  Lemma kind_lx p t : kinds !! p = Some t -> exists x, lxs !! p = Some x /\ lx_kind x = kname t /\ x ∈ lxs /\ lxms_of lxs !! p = Some (t, x).
  Proof using Hk.
    rewrite kinds_at. intros (x & Hx & <-). assert (Hin : x ∈ lxs) by (by eapply elem_of_list_lookup_2). exists x. split; [done|]. split; [symmetry; by apply kind_name, Hk|].
    split; [done|]. unfold lxms_of. change (((fun x => (ix (lx_kind x), x)) <$> lxs) !! p = Some (ix (lx_kind x), x)). rewrite list_lookup_fmap, Hx. done.
  Qed.
  Lemma lx_kinds p x : lxs !! p = Some x -> kinds !! p = Some (ix (lx_kind x)).
  Proof using. intros H. apply kinds_at. eauto. Qed.

  (** * Segments *)
  Definition seg (b e : nat) : list lexeme := take (e - b) (drop b lxs).
  Lemma seg_one p x : lxs !! p = Some x -> seg p (S p) = [x].
  Proof using. intros H. unfold seg. replace (S p - p) with 1 by lia. rewrite (drop_S _ _ _ H). done. Qed.
  Lemma seg_app b k e : b <= k -> k <= e -> seg b e = seg b k ++ seg k e.
  Proof using.
    intros H1 H2. unfold seg. replace (e - b) with ((k - b) + (e - k)) by lia. rewrite <- take_take_drop. f_equal.
    rewrite drop_drop. by replace (b + (k - b)) with k by lia.
  Qed.
  Lemma seg_op b k e o : b <= k -> k < e -> lxs !! k = Some o -> seg b e = seg b k ++ o :: seg (S k) e.
  Proof using. intros H1 H2 H3. rewrite (seg_app b k e) by lia. rewrite (seg_app k (S k) e) by lia. by rewrite (seg_one k o). Qed.

  (** * Trees *)
  Variable m : gmap key tdef.
  Variable V : nat -> Prop.
  Hypothesis Hm : leftmemo kinds m V.
  Hypothesis Hops : ops_ok lxs.
  Definition tree (k : key) (t : pn) : Prop := exists F, forall n, F <= n -> to_pn n (lxms_of lxs) m (name_of st0) (mget m k) = Ok t.
  Lemma leaf_tree t p e : tmn t -> is_Some (m !! ((t, p), e)) -> exists x, tree ((t, p), e) (PN x []) /\ lxs !! p = Some x /\ lx_kind x = kname t
    /\ x ∈ lxs /\ kinds !! p = Some t /\ e = S p.
  Proof using Hk Hm.
    intros Ht [d Hd]. destruct (lm_leaf _ _ _ Hm _ _ _ _ Ht Hd) as (-> & -> & Hkd). destruct (kind_lx _ _ Hkd) as (x & H1 & H2 & H3 & H4).
    exists x. split; [|done]. exists 1. intros [|n] Hn; [lia|]. assert (mget m ((t, p), S p) = leaf t p) as -> by (unfold mget; by rewrite Hd).
    unfold leaf. cbn [to_pn td_key td_children rmap rbind].    rewrite H4, Nat.eqb_refl. done.
  Qed.
  Lemma node_tree x b e cs ts pr : (x = 0 \/ x = 4) -> m !! ((x, b), e) = Some (TDef ((x, b), e) cs pr) -> Forall2 tree cs ts ->
    exists lx, lx_kind lx = kname x /\ tree ((x, b), e) (PN lx ts).
  Proof using Hk Hm.
    intros Hx Hd Hts. assert (exists F, forall n, F <= n -> rmap (fun c => to_pn n (lxms_of lxs) m (name_of st0) (mget m c)) cs = Ok ts) as [F HF].
    { clear Hd. induction Hts as [|c t cs ts [F1 H1] _ [F2 H2]]; [by exists 0|]. exists (F1 + F2). intros n Hn. cbn [rmap]. rewrite H1 by lia. cbn [rbind].
      rewrite H2 by lia. done. }
    assert (Hown : forall lx, lxms_of lxs !! b = Some (x, lx) -> False).
    { intros lx Hl. assert (Hi : kinds !! b = Some x) by (change ((fst <$> lxms_of lxs) !! b = Some x); by rewrite list_lookup_fmap, Hl).
      apply kinds_tmn in Hi. unfold tmn in Hi. lia. }
    eexists (match ts with [] => lexeme_new (kname x) | c :: _ => Lx (lx_kind (lexeme_new (kname x))) (lx_val (lexeme_new (kname x))) (lx_line (pn_lexeme c)) (lx_col (pn_lexeme c)) end).
    split; [by destruct ts|]. exists (S F). intros [|n] Hn; [lia|]. assert (mget m ((x, b), e) = TDef ((x, b), e) cs pr) as -> by (unfold mget; by rewrite Hd).
    cbn [to_pn td_key td_children]. rewrite HF by lia. cbn [rbind].
    destruct (lxms_of lxs !! b) as [[k lx]|] eqn:El; [|done]. destruct (Nat.eqb_spec k x) as [->|_]; [destruct (Hown _ eq_refl)|done].
  Qed.
  Notation ev t x := (mx_eval A (raw_reduce mx_rdcr t) = Ok x).
  Definition plain (b e : nat) : Prop := forall k, kinds !! k = Some 1 -> Sq kinds b k -> Sq kinds (S k) e -> False.
  Lemma red_kind x t : lx_kind x = kname t -> tmn t -> raw_reduce mx_rdcr (PN x []) = PN x [].
  Proof using.
    intros H Ht. destruct kname_vals as (_ & F1 & F2 & F3 & _ & F4 & F5). apply red_leaf; rewrite H; destruct Ht as [->|[->|[->|[->| ->]]]];
      rewrite ?F1, ?F2, ?F3, ?F4, ?F5; discriminate.
  Qed.

  Lemma left_value w : forall b e, e - b < w -> V b -> Sq kinds b e -> exists t x, tree (ekey b e) t /\ ev t x
    /\ left_sum A (seg b e) x /\ (plain b e -> left_term A (seg b e) x) /\ (At kinds b e -> left_factor A (seg b e) x).
  Proof using Hk Hm Hops.
    destruct kname_vals as (N0 & N1 & N2 & N3 & N4 & N5 & N6).
    induction w as [|w IH]; intros b e Hw Hv Hs; [lia|].
    destruct (sq_first _ _ _ Hs) as (f & Hf & Hfe & Hcase). destruct (decide (f = e)) as [->|Hne].
    - destruct (lm_at _ _ _ Hm b e Hv Hf) as (d & Hd & Ha).
      assert (HH : exists t x, tree (ekey b e) t /\ ev t x /\ left_factor A (seg b e) x).
      { pose proof (fun ck => lm_kids _ _ _ Hm _ _ ck Hd) as Hc. destruct Ha as [b|b|b e]; cbn [td_children] in Hc.
        - destruct (leaf_tree 3 b (S b)) as (n & T & L1 & Lk & Li & _ & _); [unfold tmn; auto|apply Hc; left|]. rewrite N3 in Lk.
          destruct (node_tree 0 b (S b) _ [PN n []] _ (or_introl eq_refl) Hd) as (lx & Hlx & Ht); [by constructor|]. rewrite N0 in Hlx.
          exists (PN lx [PN n []]), (f_parse A (lx_val n)). split; [done|]. split; [|rewrite (seg_one _ _ L1); by constructor].
          rewrite red_e1 by done. rewrite (red_kind n 3) by (rewrite ?N3; unfold tmn; auto). by apply eval_num.
        - destruct (leaf_tree 1 b (S b)) as (o & T1 & L1 & Lk1 & Li1 & _ & _); [unfold tmn; auto|apply Hc; left|].
          destruct (leaf_tree 3 (S b) (S (S b))) as (n & T2 & L2 & Lk2 & Li2 & _ & _); [unfold tmn; auto|apply Hc; right; left|].
          rewrite N1 in Lk1. rewrite N3 in Lk2.
          destruct (node_tree 0 b (S (S b)) _ [PN o []; PN n []] _ (or_introl eq_refl) Hd) as (lx & Hlx & Ht); [by repeat constructor|]. rewrite N0 in Hlx.
          assert (HV : lx_val o = L "+" \/ lx_val o = L "-") by (by apply (Hops o)).
          assert (Hred : raw_reduce mx_rdcr (PN o []) = PN o []) by (apply (red_kind o 1); rewrite ?N1; unfold tmn; auto).
          eexists (PN lx [PN o []; PN n []]), _. split; [done|]. split.
          { rewrite red_e2 by (rewrite ?Hred; done). rewrite Hred, (red_kind n 3) by (rewrite ?N3; unfold tmn; auto). cbn [pn_lexeme]. by apply eval_un. }
          rewrite (seg_app b (S b)), (seg_one b o), (seg_one (S b) n) by (done || lia). cbn [app].
          destruct (decide (lx_val o = L "-")) as [E|E]; [by apply lfactor_minus|]. destruct HV as [HV|HV]; [|done]. by apply lfactor_plus.
        - destruct (Hc ((4, b), S e)) as [d' Hd']; [left|]. pose proof (fun ck => lm_kids _ _ _ Hm _ _ ck Hd') as Hc'.
          destruct (lm_P _ _ _ Hm _ _ _ Hd') as (e0 & [= <-] & ->). cbn [td_children PD] in Hc'.
          destruct (leaf_tree 5 b (S b)) as (o & T1 & L1 & Lk1 & _); [unfold tmn; auto|apply Hc'; left|].
          destruct (leaf_tree 6 e (S e)) as (c & T3 & L3 & Lk3 & _); [unfold tmn; auto 10|apply Hc'; right; right; left|].
          destruct (lm_E _ _ _ Hm (S b) e) as [Hv2 Hs2]; [apply Hc'; right; left|]. rewrite N5 in Lk1. rewrite N6 in Lk3.
          apply sq_lt in Hs2 as Hlt. destruct (IH (S b) e) as (t & x & Ht & Hx & Hsum & _); [lia|done|done|].
          destruct (node_tree 4 b (S e) _ [PN o []; t; PN c []] _ (or_intror eq_refl) Hd') as (lp & Hlp & Htp); [by repeat constructor|]. rewrite N4 in Hlp.
          destruct (node_tree 0 b (S e) _ [PN lp [PN o []; t; PN c []]] _ (or_introl eq_refl) Hd) as (lx & Hlx & Hte); [by repeat constructor|]. rewrite N0 in Hlx.
          eexists _, x. split; [exact Hte|]. split; [rewrite red_e1, red_p by done; done|].
          rewrite (seg_app b (S b)), (seg_one b o), (seg_app (S b) e), (seg_one e c) by (done || lia). cbn [app]. by apply lfactor_parens. }
      destruct HH as (t & x & H1 & H2 & H3). exists t, x. split; [done|]. split; [done|]. split; [by apply lsum_term, lterm_factor|].
      split; [intros _; by apply lterm_factor|done].
    - assert (Hna : ~ At kinds b e) by (intros Ha; apply Hne; by eapply at_fun).
      destruct (lm_bin _ _ _ Hm b e Hv Hs Hna) as (k & o & Hd & Hko & Ho & Hs1 & Hv2 & Hs2 & Hbest).
      apply sq_lt in Hs1 as Hl1. apply sq_lt in Hs2 as Hl2.
      pose proof (fun ck => lm_kids _ _ _ Hm _ _ ck Hd) as Hc. cbn [td_children C] in Hc.
      destruct (leaf_tree o k (S k)) as (ox & T2 & L2 & Lk2 & Li2 & _); [unfold tmn; naive_solver|apply Hc; right; left|].
      destruct (IH b k) as (t1 & y & T1 & E1 & U1 & U2 & _); [lia|done|done|].
      destruct (IH (S k) e) as (t3 & z & T3 & E3 & _ & W2 & W3); [lia|done|done|].
      destruct (node_tree 0 b e _ [t1; PN ox []; t3] _ (or_introl eq_refl) Hd) as (lx & Hlx & Ht); [by repeat constructor|]. rewrite N0 in Hlx.
      assert (Hred : raw_reduce mx_rdcr (PN ox []) = PN ox []) by (apply (red_kind ox o); [done|unfold tmn; naive_solver]).
      assert (Hi : isop kinds k) by (unfold isop; naive_solver).
      exists (PN lx [t1; PN ox []; t3]), (mx_apply A (lx_val ox) y z). split; [done|]. split; [|split; [|split; [|done]]].
      + rewrite red_e3 by (rewrite ?Hred; done). rewrite Hred. cbn [pn_lexeme]. apply eval_bin; [|done|done].
        destruct Ho as [->| ->]; [left|right]; congruence.
      + rewrite (seg_op b k e ox) by (done || lia). destruct Ho as [->| ->].
        * (* op1 *) rewrite N2 in Lk2.
          assert (Hp : plain b e).
          { intros k' H1 H2 H3. destruct (Hbest k') as [[H4 _]|[H4 _]]; [by right|done|done|congruence|congruence]. }
          apply lsum_term. apply (lterm_op A _ ox _ y z); [done| | |apply op1_value; by apply (Hops ox)].
          -- apply U2. intros k' H1 H2 H3. apply (Hp k'); [done|done|]. by eapply sq_app.
          -- apply W3. destruct (sq_first _ _ _ Hs2) as (f' & Hf' & Hle & [->|[Hif Hs3]]); [done|]. exfalso.
             apply at_lt in Hf' as Hlt. destruct (Hbest f') as [[_ H4]|[_ H4]]; [done| |done|congruence|lia].
             eapply sq_app; [exact Hs1|done|by apply sq_a].
        * rewrite N1 in Lk2. apply (lsum_op A _ ox _ y z); [done|done| |apply op2_value; by apply (Hops ox)].
          apply W2. intros k' H1 H2 H3. apply sq_lt in H2 as Hlt. destruct (Hbest k') as [[H4 _]|[_ H4]]; [by right| |done|congruence|lia].
          eapply sq_app; [exact Hs1|done|done].
      + intros Hp. rewrite (seg_op b k e ox) by (done || lia). destruct Ho as [->| ->]; [|destruct (Hp k Hko Hs1 Hs2)].
        rewrite N2 in Lk2. apply (lterm_op A _ ox _ y z); [done| | |apply op1_value; by apply (Hops ox)].
        -- apply U2. intros k' H1 H2 H3. apply (Hp k'); [done|done|]. by eapply sq_app.
        -- apply W3. destruct (sq_first _ _ _ Hs2) as (f' & Hf' & Hle & [->|[Hif Hs3]]); [done|]. exfalso.
           apply at_lt in Hf' as Hlt. destruct (Hbest f') as [[_ H4]|[_ H4]]; [done| |done|congruence|lia].
           eapply sq_app; [exact Hs1|done|by apply sq_a].
  Qed.
End E.

(** * Expressions are chains *)
Section W.
  Variable W : list lexeme.
  Notation kinds := (map fst (lxms_of W)).
  Notation Sq := (Sq kinds).
  Notation At := (At kinds).
  Lemma at_pos pre x post k : W = pre ++ x :: post -> lx_kind x = k -> kinds !! length pre = Some (ix k).
  Proof. intros -> <-. apply lx_kinds. by rewrite lookup_app_r, Nat.sub_diag. Qed.
  Lemma expr_sq u : is_expr u -> forall pre post, W = pre ++ u ++ post -> Sq (length pre) (length pre + length u).
  Proof.
    destruct ix_vals as (_ & E2 & E1 & En & Eo & Ec).
    induction 1 as [n Hn|o n Ho Hn|o u c Ho _ IH Hc|u o v Ho _ IH1 _ IH2]; intros pre post HW.
    - cbn [length]. replace (length pre + 1) with (S (length pre)) by lia. apply sq_a, at_n. rewrite <- En. by eapply at_pos.
    - cbn [length]. replace (length pre + 2) with (S (S (length pre))) by lia. apply sq_a, at_s; [rewrite <- E2; by eapply at_pos|].
      rewrite <- En. replace (S (length pre)) with (length (pre ++ [o])) by (rewrite app_length; cbn [length]; lia). eapply at_pos; [|exact Hn].
      rewrite HW. by rewrite <- app_assoc.
    - replace (length pre + length (o :: u ++ [c])) with (S (length (pre ++ o :: u))) by (rewrite !app_length; cbn [length]; rewrite app_length; cbn [length]; lia).
      apply sq_a, at_p; [rewrite <- Eo; eapply at_pos; [|exact Ho]; rewrite HW; by cbn [app]| |].
      + specialize (IH (pre ++ [o]) ([c] ++ post)). replace (length (pre ++ o :: u)) with (length (pre ++ [o]) + length u) by (rewrite !app_length; cbn [length]; lia).
        replace (S (length pre)) with (length (pre ++ [o])) by (rewrite app_length; cbn [length]; lia). apply IH. rewrite HW. rewrite <- !app_assoc. cbn [app]. by rewrite <- app_assoc.
      + rewrite <- Ec. eapply at_pos; [|exact Hc]. rewrite HW. rewrite <- !app_assoc. cbn [app]. by rewrite <- app_assoc.
    - assert (Hk : kinds !! length (pre ++ u) = Some (ix (lx_kind o))) by (eapply at_pos; [|done]; rewrite HW; by rewrite <- !app_assoc).
      apply (sq_app kinds _ (length (pre ++ u))).
      + rewrite app_length. apply (IH1 pre (o :: v ++ post)). rewrite HW. by rewrite <- app_assoc.
      + unfold isop. rewrite Hk. destruct Ho as [->| ->]; [left|right]; f_equal; assumption.
      + specialize (IH2 (pre ++ u ++ [o]) post).
        replace (length pre + length (u ++ o :: v)) with (length (pre ++ u ++ [o]) + length v) by (rewrite !app_length; cbn [length]; lia).
        replace (S (length (pre ++ u))) with (length (pre ++ u ++ [o])) by (rewrite !app_length; cbn [length]; lia). apply IH2. rewrite HW. by rewrite <- !app_assoc.
  Qed.

  (** * Values are unique *)
  Variable A : arith.
  Notation plain := (plain W).
  Lemma at_alone b e k : At b e -> Sq b k -> k < e -> False.
  Proof. intros Ha Hs Hl. destruct (sq_first _ _ _ Hs) as (f & Hf & Hle & _). rewrite (at_fun _ _ _ _ Ha Hf) in Hl. lia. Qed.
  Lemma at_plain b e : At b e -> plain b e.
  Proof. intros Ha k _ H1 H2. apply sq_lt in H2. by apply (at_alone b e k Ha H1); lia. Qed.
  Scheme left_sum_mut := Minimality for left_sum Sort Prop
    with left_term_mut := Minimality for left_term Sort Prop
    with left_factor_mut := Minimality for left_factor Sort Prop.
  Combined Scheme left_mut from left_sum_mut, left_term_mut, left_factor_mut.
  Definition inW (u : list lexeme) (Q : nat -> nat -> Prop) : Prop := forall pre post, W = pre ++ u ++ post -> Q (length pre) (length pre + length u).
  Lemma in_op (Q1 Q2 : nat -> nat -> Prop) u o v pre post : inW u Q1 -> inW v Q2 -> W = pre ++ (u ++ o :: v) ++ post ->
    exists k, k = length pre + length u /\ length pre + length (u ++ o :: v) = S k + length v /\ kinds !! k = Some (ix (lx_kind o)) /\ Q1 (length pre) k /\ Q2 (S k) (S k + length v).
  Proof.
    intros H1 H2 HW. exists (length pre + length u). split; [done|]. split; [rewrite app_length; cbn [length]; lia|]. split.
    { rewrite <- app_length. eapply at_pos; [|done]. rewrite HW. by rewrite <- !app_assoc. }
    split; [apply (H1 pre (o :: v ++ post)); rewrite HW; by rewrite <- app_assoc|].
    replace (S (length pre + length u)) with (length (pre ++ u ++ [o])) by (rewrite !app_length; cbn [length]; lia). apply (H2 _ post). rewrite HW. by rewrite <- !app_assoc.
  Qed.
  Lemma shapes : (forall u x, left_sum A u x -> inW u Sq) /\ (forall u x, left_term A u x -> inW u (fun b e => Sq b e /\ plain b e))
    /\ (forall u x, left_factor A u x -> inW u At).
  Proof.
    destruct ix_vals as (_ & E2 & E1 & En & Eo & Ec).
    apply (left_mut A (fun u _ => inW u Sq) (fun u _ => inW u (fun b e => Sq b e /\ plain b e)) (fun u _ => inW u At)).
    - intros u x _ IH pre post HW. by apply (IH pre post).
    - intros u o v x y z Ho _ IH1 _ IH2 _ pre post HW. destruct (in_op _ _ u o v pre post IH1 IH2 HW) as (k & _ & -> & Hk & H1 & H2 & _).
      eapply sq_app; [exact H1| |exact H2]. right. rewrite Hk, Ho. by f_equal.
    - intros u x _ IH pre post HW. specialize (IH pre post HW). split; [by apply sq_a|by apply at_plain].
    - intros u o v x y z Ho _ IH1 _ IH2 _ pre post HW. destruct (in_op _ _ u o v pre post IH1 IH2 HW) as (k & _ & -> & Hk & [H1 Hp] & H2).
      rewrite Ho in Hk. change (L "op1") with k1 in Hk. rewrite E1 in Hk. split.
      + eapply sq_app; [exact H1|by left|by apply sq_a].
      + intros k' H3 H4 H5. destruct (lt_eq_lt_dec k' k) as [[Hl| ->]|Hl]; [|congruence|].
        * destruct (sq_cut _ _ _ H1 _ H4 Hl) as [_ H6]. by apply (Hp k').
        * destruct (sq_cut _ _ _ H4 _ H1 Hl) as [_ H6]. apply sq_lt in H5. by apply (at_alone _ _ _ H2 H6); lia.
    - intros n Hn pre post HW. cbn [length]. replace (length pre + 1) with (S (length pre)) by lia. apply at_n. rewrite <- En. by eapply at_pos.
    - intros o n Ho _ Hn pre post HW. cbn [length]. replace (length pre + 2) with (S (S (length pre))) by lia. apply at_s; [rewrite <- E2; by eapply at_pos|].
      rewrite <- En. replace (S (length pre)) with (length (pre ++ [o])) by (rewrite app_length; cbn [length]; lia). eapply at_pos; [|exact Hn].
      rewrite HW. by rewrite <- app_assoc.
    - intros o n Ho _ Hn pre post HW. cbn [length]. replace (length pre + 2) with (S (S (length pre))) by lia. apply at_s; [rewrite <- E2; by eapply at_pos|].
      rewrite <- En. replace (S (length pre)) with (length (pre ++ [o])) by (rewrite app_length; cbn [length]; lia). eapply at_pos; [|exact Hn].
      rewrite HW. by rewrite <- app_assoc.
    - intros o u c x Ho _ IH Hc pre post HW.
      replace (length pre + length (o :: u ++ [c])) with (S (length (pre ++ o :: u))) by (rewrite !app_length; cbn [length]; rewrite app_length; cbn [length]; lia).
      apply at_p; [rewrite <- Eo; eapply at_pos; [|exact Ho]; rewrite HW; by cbn [app]| |].
      + specialize (IH (pre ++ [o]) ([c] ++ post)). replace (length (pre ++ o :: u)) with (length (pre ++ [o]) + length u) by (rewrite !app_length; cbn [length]; lia).
        replace (S (length pre)) with (length (pre ++ [o])) by (rewrite app_length; cbn [length]; lia). apply IH. rewrite HW. rewrite <- !app_assoc. cbn [app]. by rewrite <- app_assoc.
      + rewrite <- Ec. eapply at_pos; [|exact Hc]. rewrite HW. rewrite <- !app_assoc. cbn [app]. by rewrite <- app_assoc.
  Qed.
  Lemma op_fun v (x y z z' : fl A) : op_value A v x y z -> op_value A v x y z' -> z = z'.
  Proof. unfold op_value. intros [[-> ->]|[[-> ->]|[[-> ->]|[-> ->]]]] [[? ->]|[[? ->]|[[? ->]|[? ->]]]]; done. Qed.
  Definition inWf (u : list lexeme) (R : list lexeme -> fl A -> Prop) (x : fl A) : Prop := forall pre post, W = pre ++ u ++ post -> forall y, R u y -> x = y.
  Lemma left_fun : (forall u x, left_sum A u x -> inWf u (left_sum A) x) /\ (forall u x, left_term A u x -> inWf u (left_term A) x)
    /\ (forall u x, left_factor A u x -> inWf u (left_factor A) x).
  Proof.
    destruct ix_vals as (_ & E2 & E1 & En & Eo & Ec). destruct shapes as (SS & ST & SF).
    assert (TS : forall u x, left_term A u x -> forall a o b y z pre post, u = a ++ o :: b -> W = pre ++ u ++ post -> lx_kind o = k2 -> left_sum A a y -> left_term A b z -> False).
    { intros u x Hu a o b y z pre post -> HW Ho Ha Hb. destruct (in_op _ _ a o b pre post (SS _ _ Ha) (ST _ _ Hb) HW) as (k & _ & E & Hk & H1 & H2 & _).
      rewrite Ho, E2 in Hk. destruct (ST _ _ Hu pre post HW) as [_ Hp]. rewrite E in Hp. by apply (Hp k). }
    assert (FT : forall u x, left_factor A u x -> forall a o b y z pre post, u = a ++ o :: b -> W = pre ++ u ++ post -> left_term A a y -> left_factor A b z -> False).
    { intros u x Hu a o b y z pre post -> HW Ha Hb. destruct (in_op _ _ a o b pre post (ST _ _ Ha) (SF _ _ Hb) HW) as (k & _ & E & _ & [H1 _] & _).
      pose proof (SF _ _ Hu pre post HW) as H. rewrite E in H. by apply (at_alone _ _ _ H H1); lia. }
    apply (left_mut A (fun u x => inWf u (left_sum A) x) (fun u x => inWf u (left_term A) x) (fun u x => inWf u (left_factor A) x)).
    - intros u x Hu IH pre post HW y' Hy'. inversion Hy' as [? ? Ht|a o b ? ? ? Ho Ha Hb Hv]; subst; [by apply (IH pre post)|].
      exfalso. eapply TS; [exact Hu|reflexivity|exact HW|exact Ho|exact Ha|exact Hb].
    - intros u o v x y z Ho Hu IH1 Hv IH2 Hop pre post HW y' Hy'. inversion Hy' as [? ? Ht|a o' b x' z' ? Ho' Ha Hb Hv' Heq]; subst.
      { exfalso. eapply TS; [exact Ht|reflexivity|exact HW|exact Ho|exact Hu|exact Hv]. }
      destruct (in_op _ _ u o v pre post (SS _ _ Hu) (ST _ _ Hv) HW) as (k & Ek & El & Hk & H1 & H2 & H3).
      assert (HW' : W = pre ++ (a ++ o' :: b) ++ post) by (by rewrite Heq).
      destruct (in_op _ _ a o' b pre post (SS _ _ Ha) (ST _ _ Hb) HW') as (k' & Ek' & El' & Hk' & H1' & H2' & H3').
      rewrite Heq in El'. rewrite El in El'. rewrite <- El' in H2', H3'. rewrite Ho in Hk. rewrite Ho' in Hk'. change (L "op2") with k2 in Hk, Hk'. rewrite E2 in Hk, Hk'.
      destruct (lt_eq_lt_dec k k') as [[Hl|He]|Hl].
      + exfalso. destruct (sq_cut _ _ _ H1' _ H1 Hl) as [_ H6]. by apply (H3 k').
      + apply app_inj_1 in Heq as [-> [= -> ->]]; [|lia]. rewrite (IH1 pre (o :: v ++ post)) with (y := x') in Hop; [|rewrite HW; by rewrite <- app_assoc|done].
        rewrite (IH2 (pre ++ u ++ [o]) post) with (y := z') in Hop; [|rewrite HW; by rewrite <- !app_assoc|done]. by eapply op_fun.
      + exfalso. destruct (sq_cut _ _ _ H1 _ H1' Hl) as [_ H6]. by apply (H3' k).
    - intros u x Hu IH pre post HW y' Hy'. inversion Hy' as [? ? Ht|a o b ? ? ? Ho Ha Hb Hv]; subst; [by apply (IH pre post)|].
      exfalso. eapply FT; [exact Hu|reflexivity|exact HW|exact Ha|exact Hb].
    - intros u o v x y z Ho Hu IH1 Hv IH2 Hop pre post HW y' Hy'. inversion Hy' as [? ? Ht|a o' b x' z' ? Ho' Ha Hb Hv' Heq]; subst.
      { exfalso. eapply FT; [exact Ht|reflexivity|exact HW|exact Hu|exact Hv]. }
      destruct (in_op _ _ u o v pre post (ST _ _ Hu) (SF _ _ Hv) HW) as (k & Ek & El & Hk & [H1 _] & H2).
      assert (HW' : W = pre ++ (a ++ o' :: b) ++ post) by (by rewrite Heq).
      destruct (in_op _ _ a o' b pre post (ST _ _ Ha) (SF _ _ Hb) HW') as (k' & Ek' & El' & Hk' & [H1' _] & H2').
      rewrite Heq in El'. rewrite El in El'. rewrite <- El' in H2'. apply at_lt in H2 as Hl1. apply at_lt in H2' as Hl2.
      destruct (lt_eq_lt_dec k k') as [[Hl|He]|Hl].
      + exfalso. destruct (sq_cut _ _ _ H1' _ H1 Hl) as [_ H6]. by apply (at_alone _ _ _ H2 H6); lia.
      + apply app_inj_1 in Heq as [-> [= -> ->]]; [|lia]. rewrite (IH1 pre (o :: v ++ post)) with (y := x') in Hop; [|rewrite HW; by rewrite <- app_assoc|done].
        rewrite (IH2 (pre ++ u ++ [o]) post) with (y := z') in Hop; [|rewrite HW; by rewrite <- !app_assoc|done]. by eapply op_fun.
      + exfalso. destruct (sq_cut _ _ _ H1 _ H1' Hl) as [_ H6]. by apply (at_alone _ _ _ H2' H6); lia.
    - intros n Hn pre post HW y' Hy'. inversion Hy' as [? ? Hq|?|?|? u ? ? ? ? ? Hq]; subst; [done|]. by destruct u.
    - intros o n Ho Hov Hn pre post HW y' Hy'. inversion Hy' as [|? ? ? ? ?|? ? ? Hv ?|? u ? ? Ho' ? ? Hq]; subst; [done|exfalso; match goal with H1 : lx_val o = L "+", H2 : lx_val o = L "-" |- _ => rewrite H1 in H2; discriminate H2 end|]. exfalso. rewrite Ho in Ho'. discriminate Ho'.
    - intros o n Ho Hov Hn pre post HW y' Hy'. inversion Hy' as [|? ? ? ? ?|? ? ? Hv ?|? u ? ? Ho' ? ? Hq]; subst; [exfalso; match goal with H1 : lx_val o = L "+", H2 : lx_val o = L "-" |- _ => rewrite H1 in H2; discriminate H2 end|done|]. exfalso. rewrite Ho in Ho'. discriminate Ho'.
    - intros o u c x Ho Hu IH Hc pre post HW y' Hy'. inversion Hy' as [? ? Hq|? ? Ho' ? ? Hq|? ? Ho' ? ? Hq|? u' ? ? Ho' Hu' Hc' [Hq1 Hq2]]; subst.
      + by destruct u.
      + exfalso. rewrite Ho in Ho'. discriminate Ho'.
      + exfalso. rewrite Ho in Ho'. discriminate Ho'.
      + apply app_inj_tail in Hq2 as [-> ->]. apply (IH (pre ++ [o]) ([c] ++ post)); [|done]. rewrite HW. rewrite <- !app_assoc. cbn [app]. by rewrite <- app_assoc.
  Qed.
End W.
Lemma left_sum_fun A u x y : left_sum A u x -> left_sum A u y -> x = y.
Proof. intros H H'. apply (proj1 (left_fun u A) u x H [] []); [|done]. cbn [app]. by rewrite app_nil_r. Qed.

(** * The parser and the pipeline *)
Lemma expr_kinds u : is_expr u -> all_kinds u.
Proof.
  unfold mkinds. induction 1 as [n Hn|o n Ho Hn|o u c Ho _ IH Hc|u o v Ho _ IH1 _ IH2]; intros x; rewrite ?elem_of_cons, ?elem_of_app, ?elem_of_cons, ?elem_of_nil.
  - intros [->|[]]. rewrite Hn. left.
  - intros [->|[->|[]]]; [rewrite Ho; do 2 right; left|rewrite Hn; left].
  - intros [->|[H|[->|[]]]]; [rewrite Ho; do 3 right; left|by apply IH|rewrite Hc; do 4 right; left].
  - intros [H|[->|H]]; [by apply IH1| |by apply IH2]. destruct Ho as [-> | ->]; [right; left|do 2 right; left].
Qed.
Lemma left_parse A lxs : is_expr lxs -> ops_ok lxs -> exists t x, returns (fun n => packrat_parse n mx_g lxs) (Some t)
  /\ mx_eval A (raw_reduce mx_rdcr t) = Ok x /\ left_sum A lxs x.
Proof.
  intros Hx Hok. pose proof (expr_kinds _ Hx) as Hk.
  assert (Hs : Sq (map fst (lxms_of lxs)) 0 (length lxs)).
  { apply (expr_sq lxs lxs Hx [] []). cbn [app]. by rewrite app_nil_r. }
  destruct (left_run (prods_of mx_g st0) nts0 (map fst (lxms_of lxs)) st0_E st0_P st0_t nts0_E nts0_P nts0_t (kinds_tmn lxs Hk) (length lxs) Hs)
    as (sa & s' & V & F & H1 & H2 & Hm).
  { unfold isop. rewrite (lookup_ge_None_2 _ (length lxs)); [by intros []|]. unfold lxms_of. by rewrite !map_length. }
  destruct (left_value A lxs Hk (memo s') V Hm Hok (S (length lxs)) 0 (length lxs)) as (t & x & [G HG] & Hev & Hl & _); [lia|exact (lm_0 _ _ _ Hm)|done|].
  exists t, x. split; [|split; [done|]].
  - exists (F + G). intros n Hn. unfold packrat_parse. rewrite mx_nts. cbn [map fst mx_rows]. rewrite st0_ok. cbn [rbind]. rewrite (load_same _ Hk).
    rewrite ix_str by left. cbn [fst]. change (mark_nonterms st0 (kE :: [kP]) (replicate (sym_count st0) false)) with nts0.
    destruct ix_vals as [-> _]. rewrite H1 by lia. cbn [rbind]. rewrite H2 by lia. cbn [rbind].
    assert (td_end (mget (memo s') (0, 0, length lxs)) = length lxs) as ->; [|rewrite Nat.eqb_refl, HG by lia; done].
    destruct (sq_first _ _ _ Hs) as (f & Hf & Hfe & Hcase). destruct (decide (f = length lxs)) as [->|Hne].
    + destruct (lm_at _ _ _ Hm _ _ (lm_0 _ _ _ Hm) Hf) as (d & Hd & Ha). unfold mget. change (0, 0, length lxs) with (ekey 0 (length lxs)). rewrite Hd. by inversion Ha.
    + destruct (lm_bin _ _ _ Hm 0 (length lxs) (lm_0 _ _ _ Hm) Hs) as (k & o & Hd & _).
      { intros Ha. apply Hne. by eapply at_fun. }
      unfold mget. change (0, 0, length lxs) with (ekey 0 (length lxs)). rewrite Hd. done.
  - unfold seg in Hl. rewrite drop_0, firstn_all2 in Hl by lia. done.
Qed.

Section Run.
  Variable A : arith.
  Variable compile : compiler.
  Variable l0 l : slexer.
  Variable gg : gr.
  Variable texts : list gostring.
  Hypothesis HC : compiles compile mx_table.
  Hypothesis Hl0 : mx_lexer compile = Some l0.
  Hypothesis Hl : returns (sl_calls (map CLex texts) l0) l.
  Hypothesis Hgg : mx_grammar = Some gg.
  Lemma value_left s lxs : mx_tokens s lxs -> is_expr lxs -> exists x l', returns (mx_run A l gg s) ((x, None), l') /\ left_sum A lxs x.
  Proof using All.
    intros Hlx Hx. assert (gg = mx_gr) as -> by (pose proof mx_grammar_some; congruence). rewrite (mx_any texts) in Hlx.
    destruct (left_parse A lxs Hx (mx_ops texts s lxs Hlx)) as (t & y & Hp & Hev & Hy).
    destruct Hlx as (ps & Ht & HJ & Ha).
    assert (H1 : adds_first (mx_calls texts)) by exact (table_first mx_table [] texts mx_more).
    assert (H2 : regexps_in no_lookbehind (mx_calls texts)) by (apply table_regexps; exact mx_more).
    destruct (pipe_parse (mx_calls texts) l mx_g [mx_rdcr] s ps lxs H1 H2 (cs_length mx_table [] texts mx_length)
      (mx_lexer_after compile l0 l texts HC Hl0 Hl) Ht Ha (Some t) HJ Hp) as [l2 [F HF]].
    exists y, l2. split; [|done]. exists F. intros n Hn. unfold mx_run. fold mx_g. rewrite HF by lia. cbn [rbind reduced fold_left].
      rewrite Hev. reflexivity.
  Qed.
End Run.
