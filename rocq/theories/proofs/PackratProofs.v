From Verif.model Require Import Packrat.
From Verif.spec Require Import CFG PackratSpec.
From Verif.proofs Require Import Fuel PackratFuel PackratCore SetProofs.
From Coq Require Import Lia.

(** ** slices *)
Definition sl {A} (l : list A) (i j : nat) : list A := take (j - i) (drop i l).
Lemma sl_nil {A} (l : list A) i : sl l i i = [].
Proof. unfold sl. rewrite Nat.sub_diag. done. Qed.
Lemma sl_app {A} (l : list A) i k j : i <= k -> k <= j -> sl l i k ++ sl l k j = sl l i j.
Proof.
  intros. unfold sl. replace (j - i) with ((k - i) + (j - k)) by lia.
  rewrite <- (take_drop (k - i) (drop i l)) at 2.
  destruct (decide (k - i <= length (drop i l))) as [Hle|Hgt].
  - rewrite take_app_ge by (rewrite take_length; lia). f_equal. rewrite take_length, min_l by lia.
    rewrite drop_drop. replace (i + (k - i)) with k by lia. f_equal. lia.
  - assert (Hd : drop (k - i) (drop i l) = []) by (apply drop_ge; lia).
    rewrite Hd, app_nil_r. rewrite drop_drop in Hd. replace (i + (k - i)) with k in Hd by lia.
    rewrite Hd. rewrite take_nil, app_nil_r. rewrite !take_ge; auto; rewrite ?take_length; lia.
Qed.
Lemma sl_one {A} (l : list A) i x : l !! i = Some x -> sl l i (S i) = [x].
Proof.
  intros H. unfold sl. replace (S i - i) with 1 by lia. rewrite (drop_S _ _ _ H). done.
Qed.
Lemma sl_all {A} (l : list A) : sl l 0 (length l) = l.
Proof. unfold sl. rewrite Nat.sub_0_r, drop_0. apply take_ge. done. Qed.
Lemma sl_take {A} (l : list A) i : sl l 0 i = take i l.
Proof. unfold sl. by rewrite Nat.sub_0_r, drop_0. Qed.
Lemma sl_map {A B} (f : A -> B) l i j : map f (sl l i j) = sl (map f l) i j.
Proof. unfold sl. rewrite <- firstn_map, <- skipn_map. done. Qed.

(** ** the interned instance *)
Section Inst.
  Context (g : grammar) (lexemes : list lexeme) (st : set) (lxms : list (nat * lexeme)).
  Hypothesis Hg : g_wf g.
  Hypothesis Hterm : terminal_kinds g lexemes.
  Hypothesis Hst : set_wf st.
  Hypothesis Hknt : forall nt, nt ∈ g_nts g -> known st nt.
  Hypothesis Hkp : forall nt ps p x, g_prods g nt = Some ps -> p ∈ ps -> x ∈ p -> known st x.
  Hypothesis Hlx : map snd lxms = lexemes.
  Hypothesis Hlk : Forall (fun x => symb2str st !! fst x = Some (lx_kind (snd x))) lxms.

  Notation kinds := (map fst lxms).
  Notation nonterms := (mark_nonterms st (g_nts g) (replicate (sym_count st) false)).
  Notation prods := (prods_of g st).
  Notation idx x := (fst (set_str st x)).

  Lemma idx_str x : known st x -> symb2str st !! idx x = Some x.
  Proof using Hst.
    intros [i Hi]. rewrite (set_str_known _ _ _ Hi). simpl. by apply Hst.
  Qed.
  Lemma str_idx i x : symb2str st !! i = Some x -> idx x = i.
  Proof using Hst.
    intros Hi. apply Hst in Hi. rewrite (set_str_known _ _ _ Hi). done.
  Qed.
  Lemma str_known i x : symb2str st !! i = Some x -> known st x.
  Proof using Hst. intros Hi. exists i. by apply Hst. Qed.

  Lemma mark_len nts tbl : length (mark_nonterms st nts tbl) = length tbl.
  Proof using. revert tbl; induction nts as [|x nts IH]; intros tbl; simpl; [done|]. rewrite IH, insert_length. done. Qed.
  Lemma mark_true nts : forall tbl i, (forall x, x ∈ nts -> known st x) -> length tbl = sym_count st ->
    mark_nonterms st nts tbl !! i = Some true <->
    tbl !! i = Some true \/ exists x, x ∈ nts /\ symb2str st !! i = Some x.
  Proof using Hst.
    induction nts as [|x nts IH]; intros tbl i Hk Hl; simpl.
    - split; [auto|]. intros [H|(x & Hx & _)]; [done|inversion Hx].
    - rewrite IH; [|intros; apply Hk; right; done|by rewrite insert_length].
      assert (Hx : symb2str st !! idx x = Some x) by (apply idx_str, Hk; left).
      destruct (decide (i = idx x)) as [->|Hne].
      + rewrite list_lookup_insert by (rewrite Hl; eapply lookup_lt_Some; exact Hx).
        split; [|auto]. intros _. right. exists x. split; [left|done].
      + rewrite list_lookup_insert_ne by done. split.
        * intros [H|(y & Hy & H)]; [auto|]. right. exists y. split; [right; done|done].
        * intros [H|(y & Hy & H)]; [auto|]. apply elem_of_cons in Hy as [->|Hy]; [|eauto].
          exfalso. apply Hne. symmetry. by apply str_idx.
  Qed.

  Lemma inst_nt s : nonterms !! s = Some true <-> is_Some (prods s).
  Proof using Hg Hst Hknt.
    rewrite mark_true; [|done|by rewrite replicate_length]. unfold prods_of. split.
    - intros [H|(x & Hx & H)].
      + apply lookup_replicate_1 in H as [H _]. done.
      + rewrite H. apply Hg in Hx as [ps Hps]. rewrite Hps. simpl. eauto.
    - destruct (symb2str st !! s) as [x|] eqn:E; [|intros [? ?]; done].
      intros [ps Hps]. right. exists x. split; [|done]. apply Hg.
      destruct (g_prods g x); simpl in Hps; [eauto|done].
  Qed.

  Lemma nonterms_len : length nonterms = length (symb2str st).
  Proof using. rewrite mark_len, replicate_length. done. Qed.

  Lemma known_lt x : known st x -> is_Some (nonterms !! idx x).
  Proof using Hst.
    intros Hk. apply lookup_lt_is_Some. rewrite nonterms_len. eapply lookup_lt_Some, idx_str. done.
  Qed.

  Lemma prods_inv s ps : prods s = Some ps -> exists x qs,
    symb2str st !! s = Some x /\ g_prods g x = Some qs /\ ps = map (map (fun y => idx y)) qs.
  Proof using.
    unfold prods_of. destruct (symb2str st !! s) as [x|]; [|done].
    destruct (g_prods g x) as [qs|] eqn:E; simpl; [|done]. intros [= <-]. eauto.
  Qed.

  Lemma inst_sz s ps p x : prods s = Some ps -> p ∈ ps -> x ∈ p -> is_Some (nonterms !! x).
  Proof using Hkp Hst.
    intros Hp Hin Hx. apply prods_inv in Hp as (a & qs & Ha & Hq & ->).
    apply elem_of_list_fmap in Hin as (q & -> & Hq').
    apply elem_of_list_fmap in Hx as (y & -> & Hy). apply known_lt. eauto.
  Qed.

  Lemma nonterms_false s x : symb2str st !! s = Some x -> g_prods g x = None -> nonterms !! s = Some false.
  Proof using Hg Hst Hknt.
    intros Hs Hp. destruct (nonterms !! s) as [[]|] eqn:E; auto.
    - exfalso. apply inst_nt in E as [ps Hps]. apply prods_inv in Hps as (y & qs & Hy & Hq & _). congruence.
    - apply lookup_ge_None in E. rewrite nonterms_len in E. apply lookup_lt_Some in Hs. lia.
  Qed.

  Lemma kinds_isT k : k ∈ kinds -> nonterms !! k = Some false.
  Proof using Hg Hlk Hlx Hst Hterm Hknt.
    intros Hk. apply elem_of_list_fmap in Hk as ([k' lx] & -> & Hin). simpl.
    rewrite Forall_forall in Hlk. specialize (Hlk _ Hin). simpl in Hlk.
    eapply nonterms_false; [exact Hlk|]. apply Hterm. rewrite <- Hlx.
    apply elem_of_list_fmap. exists (k', lx). auto.
  Qed.

  Lemma isT_str s : isT nonterms s -> exists x, symb2str st !! s = Some x /\ g_prods g x = None.
  Proof using Hg Hst Hknt.
    intros HT. unfold isT in HT.
    assert (is_Some (symb2str st !! s)) as [x Hx].
    { apply lookup_lt_is_Some. rewrite <- nonterms_len. eapply lookup_lt_Some; exact HT. }
    exists x. split; [done|]. destruct (g_prods g x) eqn:E; [|done].
    assert (is_Some (prods s)) as H. { unfold prods_of. rewrite Hx, E. simpl. eauto. }
    apply inst_nt in H. congruence.
  Qed.

  Lemma lxms_lookup i k lx : lxms !! i = Some (k, lx) -> lexemes !! i = Some lx /\ symb2str st !! k = Some (lx_kind lx).
  Proof using Hlx Hlk.
    intros H. split.
    - rewrite <- Hlx, list_lookup_fmap, H. done.
    - rewrite Forall_lookup in Hlk. apply (Hlk _ _ H).
  Qed.
  Lemma len_lxms : length lxms = length lexemes.
  Proof using Hlx. rewrite <- Hlx, map_length. done. Qed.
  Lemma len_kinds : length kinds = length lexemes.
  Proof using Hlx. rewrite map_length, len_lxms. done. Qed.
  Lemma kinds_lookup i s : kinds !! i = Some s -> exists lx, lxms !! i = Some (s, lx).
  Proof using. intros H. rewrite list_lookup_fmap in H. destruct (lxms !! i) as [[k lx]|]; simpl in H; [|done]. injection H as ->. eauto. Qed.

  Notation DK := (dk prods nonterms kinds).
  Notation DKS := (dks prods nonterms kinds).

  (** derivations of strings are span derivations *)
  Lemma derives_dk :
    (forall a w, derives g a w -> known st a -> forall i j, j = i + length w -> j <= length lexemes ->
        w = sl (map lx_kind lexemes) i j -> DK (idx a) i j) /\
    (forall p w, derives_seq g p w -> (forall x, x ∈ p -> known st x) -> forall i j, j = i + length w -> j <= length lexemes ->
        w = sl (map lx_kind lexemes) i j -> DKS (map (fun y => idx y) p) i j).
  Proof using Hg Hst Hknt Hkp Hlx Hlk.
    assert (HH : forall a w, derives g a w -> known st a -> forall i j, j = i + length w -> j <= length lexemes ->
        w = sl (map lx_kind lexemes) i j -> DK (idx a) i j).
    2: split; [exact HH|]; intros p w Hd; induction Hd as [|s r u v Hs Hr IH]; simpl; intros Hk i j Hj Hle Hw.
    2:{ replace j with i by lia. constructor. }
    2:{ rewrite app_length in Hj.
        assert (Hsplit : sl (map lx_kind lexemes) i j = sl (map lx_kind lexemes) i (i + length u) ++ sl (map lx_kind lexemes) (i + length u) j).
        { rewrite sl_app; [done|lia|lia]. }
        rewrite Hsplit in Hw. apply app_inj_1 in Hw as [Hu Hv].
        2:{ unfold sl. rewrite take_length, drop_length, map_length. lia. }
        econstructor.
        - apply (HH _ _ Hs); [apply Hk; left|reflexivity|lia|exact Hu].
        - apply IH; [intros; apply Hk; right; done|lia|lia|exact Hv]. }
    fix IH 3. intros a w Hd. destruct Hd as [s Hs|s ps p w Hp Hin Hseq]; intros Hk i j Hj Hle Hw.
    - simpl in Hj. replace j with (S i) in * by lia.
      assert (is_Some (lxms !! i)) as [[k lx] Hi].
      { apply lookup_lt_is_Some. rewrite len_lxms. lia. }
      destruct (lxms_lookup _ _ _ Hi) as [Hl Hsym].
      assert (Hlk' : map lx_kind lexemes !! i = Some (lx_kind lx)) by (rewrite list_lookup_fmap, Hl; done).
      rewrite (sl_one _ _ _ Hlk') in Hw. injection Hw as ->. rewrite (str_idx _ _ Hsym).
      constructor.
      + unfold isT. eapply nonterms_false; eauto.
      + rewrite list_lookup_fmap, Hi. done.
    - eapply dk_nt.
      + unfold prods_of. rewrite (idx_str _ Hk), Hp. reflexivity.
      + apply elem_of_list_fmap. exists p. split; [reflexivity|done].
      + assert (Hkp' : forall x, x ∈ p -> known st x) by eauto. clear Hin Hp Hk.
        revert i j Hj Hle Hw. induction Hseq as [|s' r u v Hs Hr IHr]; simpl; intros i j Hj Hle Hw.
        * replace j with i by lia. constructor.
        * rewrite app_length in Hj.
          assert (Hsplit : sl (map lx_kind lexemes) i j = sl (map lx_kind lexemes) i (i + length u) ++ sl (map lx_kind lexemes) (i + length u) j).
          { rewrite sl_app; [done|lia|lia]. }
          rewrite Hsplit in Hw. apply app_inj_1 in Hw as [Hu Hv].
          2:{ unfold sl. rewrite take_length, drop_length, map_length. lia. }
          econstructor.
          -- apply (IH _ _ Hs); [apply Hkp'; left|reflexivity|lia|exact Hu].
          -- apply IHr; [intros; apply Hkp'; right; done|lia|lia|exact Hv].
  Qed.

  (** and the other way round *)
  Lemma dk_derives :
    (forall s i j, DK s i j -> forall x, symb2str st !! s = Some x -> derives g x (sl (map lx_kind lexemes) i j)) /\
    (forall ss i j, DKS ss i j -> forall p, ss = map (fun y => idx y) p -> (forall y, y ∈ p -> known st y) ->
       derives_seq g p (sl (map lx_kind lexemes) i j)).
  Proof using Hg Hst Hknt Hkp Hlx Hlk.
    apply dk_dks_ind.
    - intros s i HT Hk x Hx. destruct (isT_str _ HT) as (y & Hy & Hp). assert (y = x) as -> by congruence.
      destruct (kinds_lookup _ _ Hk) as [lx Hi]. destruct (lxms_lookup _ _ _ Hi) as [Hl Hs]. assert (x = lx_kind lx) as -> by congruence.
      rewrite (sl_one _ i (lx_kind lx)); [by constructor|]. rewrite list_lookup_fmap, Hl. done.
    - intros s i j ps p Hp Hin _ IH x Hx. destruct (prods_inv _ _ Hp) as (y & qs & Hy & Hq & ->). assert (y = x) as -> by congruence.
      apply elem_of_list_fmap in Hin as (q & -> & Hq'). eapply der_nt; [exact Hq|exact Hq'|]. apply IH; [done|]. intros z Hz. eauto.
    - intros i p E _. destruct p; [|done]. rewrite sl_nil. constructor.
    - intros s ss i k j Hd IHd Hds IHds p E Hk. destruct p as [|y p]; [done|]. simpl in E. injection E as -> ->.
      pose proof (proj1 (dk_le _ _ _) _ _ _ Hd). pose proof (proj2 (dk_le _ _ _) _ _ _ Hds).
      rewrite <- (sl_app _ i k j) by lia. constructor.
      + apply IHd. apply idx_str, Hk. left.
      + apply IHds; [done|]. intros z Hz. apply Hk. right; done.
  Qed.

  Lemma dk_end : (forall s i j, DK s i j -> i <= length lexemes -> j <= length lexemes) /\
    (forall ss i j, DKS ss i j -> i <= length lexemes -> j <= length lexemes).
  Proof using Hlx.
    apply dk_dks_ind; auto. intros s i _ Hk _. apply lookup_lt_Some in Hk. rewrite len_kinds in Hk. lia.
  Qed.
  Lemma dk_terminal : (forall s i j, DK s i j -> forall q k, i <= q -> q < j -> kinds !! q = Some k -> isT nonterms k) /\
    (forall ss i j, DKS ss i j -> forall q k, i <= q -> q < j -> kinds !! q = Some k -> isT nonterms k).
  Proof using.
    apply dk_dks_ind.
    - intros s i HT Hk q k H1 H2 Hq. replace q with i in Hq by lia. congruence.
    - eauto.
    - intros; lia.
    - intros s ss i k j _ IH1 _ IH2 q kd H1 H2 Hq. destruct (decide (q < k)); [by apply (IH1 q)|apply (IH2 q); [lia|done..]].
  Qed.
  Lemma inst_predicted s0 rest : g_nts g = s0 :: rest -> forall a i, predicted prods nonterms kinds (idx s0) a i ->
    exists x, symb2str st !! a = Some x /\ may_begin g x (take i (map lx_kind lexemes)) /\ i <= length lexemes.
  Proof using Hg Hst Hknt Hkp Hlx Hlk.
    intros Hn a i H. induction H as [|a i ps l b r j _ (x & Hx & Hb & Hi) Hp Hin Hd].
    - exists s0. split; [apply idx_str, Hknt; rewrite Hn; left|]. split; [rewrite take_0; by eapply mb_start|lia].
    - destruct (prods_inv _ _ Hp) as (x' & qs & Hx' & Hq & ->). assert (x' = x) as -> by congruence.
      apply elem_of_list_fmap in Hin as (q & E & Hq'). symmetry in E. apply map_eq_app in E as (l' & r' & -> & <- & E).
      apply map_eq_cons in E as (y & r'' & -> & <- & <-).
      assert (Hk : forall z, z ∈ l' ++ y :: r'' -> known st z) by (intros z Hz; eauto).
      assert (Hj : i <= j <= length lexemes). { split; [by apply (dk_le prods nonterms kinds) in Hd|]. by apply (proj2 dk_end) in Hd. }
      exists y. split; [apply idx_str, Hk, elem_of_app; right; left|]. split; [|lia].
      replace (take j (map lx_kind lexemes)) with (take i (map lx_kind lexemes) ++ sl (map lx_kind lexemes) i j).
      + eapply mb_step; [exact Hb|exact Hq|exact Hq'|]. apply (proj2 dk_derives _ _ _ Hd); [done|]. intros z Hz. apply Hk, elem_of_app. by left.
      + rewrite <- !(sl_take (map lx_kind lexemes)). apply sl_app; lia.
  Qed.
  Lemma inst_kd s0 rest : g_nts g = s0 :: rest -> not_mistaken g lexemes -> forall a i ps x y r j,
    predicted prods nonterms kinds (idx s0) a i -> kinds !! i = Some a -> prods a = Some ps -> (x :: y :: r) ∈ ps -> DK x i j -> False.
  Proof using Hg Hst Hknt Hkp Hlx Hlk.
    intros Hn Hnm a i ps x y r j Hpr Hk Hp Hin Hd. destruct (inst_predicted s0 rest Hn a i Hpr) as (nm & Hx & Hb & Hi).
    destruct (kinds_lookup _ _ Hk) as [lx Hl]. destruct (lxms_lookup _ _ _ Hl) as [Hl' Hs]. assert (nm = lx_kind lx) as -> by congruence.
    destruct (prods_inv _ _ Hp) as (x' & qs & Hx' & Hq & ->). assert (x' = lx_kind lx) as -> by congruence.
    apply elem_of_list_fmap in Hin as (q & E & Hq'). symmetry in E. apply map_eq_cons in E as (x1 & q1 & -> & <- & E).
    apply map_eq_cons in E as (y1 & q2 & -> & <- & <-).
    assert (i = j) as <-.
    { destruct (decide (i = j)) as [|Hne]; [done|]. exfalso. pose proof (proj1 (dk_le _ _ _) _ _ _ Hd).
      pose proof (proj1 dk_terminal _ _ _ Hd i a ltac:(lia) ltac:(lia) Hk) as HT. apply (isT_prods _ _ inst_nt) in HT. congruence. }
    apply (Hnm (take i lexemes) lx (drop (S i) lexemes) qs x1 y1 q2); [by rewrite take_drop_middle| |done|done|].
    - rewrite <- firstn_map. exact Hb.
    - assert (Hd' := proj1 dk_derives _ _ _ Hd x1). rewrite sl_nil in Hd'. apply Hd', idx_str. eapply Hkp; [exact Hq|exact Hq'|left].
  Qed.

  (** splits as children *)
  Definition parts_of (cs : list key) : list (list gostring) := map (fun c : key => sl (map lx_kind lexemes) (snd (fst c)) (snd c)) cs.
  Fixpoint keys_of (p : list gostring) (parts : list (list gostring)) (i : nat) : list key :=
    match p, parts with
    | y :: p, u :: parts => ((idx y, i), i + length u) :: keys_of p parts (i + length u)
    | _, _ => []
    end.
  Lemma sl_length {A} (l : list A) i j : i <= j -> j <= length l -> length (sl l i j) = j - i.
  Proof using. intros. unfold sl. rewrite take_length, drop_length. lia. Qed.
  Lemma keys_parts : forall p cs i j, spans (map (fun y => idx y) p) cs i j -> j <= length lexemes ->
    (forall c : key, c ∈ cs -> DK (fst (fst c)) (snd (fst c)) (snd c)) -> keys_of p (parts_of cs) i = cs /\ i <= j.
  Proof using.
    induction p as [|y p IH]; intros [|c cs] i j Hs Hj Hd; try done.
    - simpl in Hs. subst. auto.
    - cbn [map spans] in Hs. destruct Hs as [Hc Hs]. pose proof (proj1 (dk_le _ _ _) _ _ _ (Hd c ltac:(left))) as Hle. rewrite Hc in Hle. cbn [fst snd] in Hle.
      destruct (IH cs (snd c) j Hs Hj) as [E Hl]; [intros z Hz; apply Hd; right; done|]. split; [|lia].
      cbn [parts_of map keys_of]. rewrite Hc. cbn [fst snd]. rewrite sl_length; [|lia|rewrite map_length; lia].
      replace (i + (snd c - i)) with (snd c) by lia. f_equal; [destruct c; simpl in *; congruence|exact E].
  Qed.
  Lemma parts_keys : forall p parts i j, length p = length parts -> concat parts = sl (map lx_kind lexemes) i j -> i <= j -> j <= length lexemes ->
    parts_of (keys_of p parts i) = parts /\ spans (map (fun y => idx y) p) (keys_of p parts i) i j.
  Proof using.
    induction p as [|y p IH]; intros [|u parts] i j Hl Hc Hij Hj; try done.
    - simpl in Hc. assert (j = i). { assert (H : length (sl (map lx_kind lexemes) i j) = 0) by (rewrite <- Hc; done). rewrite sl_length in H; [lia|lia|rewrite map_length; lia]. }
      subst. done.
    - cbn [concat] in Hc. injection Hl as Hl.
      assert (Hu : i + length u <= j). { assert (H : length (u ++ concat parts) = j - i) by (rewrite Hc, sl_length; [done|lia|rewrite map_length; lia]). rewrite app_length in H. lia. }
      rewrite <- (sl_app _ i (i + length u) j) in Hc by lia. apply app_inj_1 in Hc as [H1 H2].
      2:{ rewrite sl_length; [lia|lia|rewrite map_length; lia]. }
      destruct (IH parts (i + length u) j Hl H2 ltac:(lia) Hj) as [E Hs]. cbn [keys_of parts_of map spans fst snd]. split; [|split; [done|exact Hs]].
      f_equal; [by symmetry|exact E].
  Qed.
  Lemma parts_split : forall p cs i j, spans (map (fun y => idx y) p) cs i j -> j <= length lexemes ->
    (forall c : key, c ∈ cs -> DK (fst (fst c)) (snd (fst c)) (snd c)) -> (forall y, y ∈ p -> known st y) ->
    splits g p (sl (map lx_kind lexemes) i j) (parts_of cs).
  Proof using Hg Hst Hknt Hkp Hlx Hlk.
    induction p as [|y p IH]; intros [|c cs] i j Hs Hj Hd Hk; try done.
    - simpl in Hs. subst. split; [by rewrite sl_nil|constructor].
    - pose proof (keys_parts _ _ _ _ Hs Hj Hd) as [_ Hij]. cbn [map spans] in Hs. destruct Hs as [Hc Hs].
      assert (Hd' : forall z : key, z ∈ cs -> DK (fst (fst z)) (snd (fst z)) (snd z)) by (intros z Hz; apply Hd; right; done).
      pose proof (Hd c ltac:(left)) as Hdc. pose proof (proj1 (dk_le _ _ _) _ _ _ Hdc) as Hle. rewrite Hc in Hle, Hdc. cbn [fst snd] in Hle, Hdc.
      pose proof (keys_parts _ _ _ _ Hs Hj Hd') as [_ Hle2].
      destruct (IH cs (snd c) j Hs Hj Hd') as [E HF]; [intros z Hz; apply Hk; right; done|].
      split.
      + cbn [parts_of map concat]. fold (parts_of cs). rewrite E, Hc. cbn [fst snd]. apply sl_app; lia.
      + cbn [parts_of map]. constructor; [|exact HF]. rewrite Hc. cbn [fst snd]. apply (proj1 dk_derives _ _ _ Hdc). apply idx_str, Hk. left.
  Qed.
  Lemma before_keys y u u2 i : known st y -> i + length u <= length lexemes -> u = sl (map lx_kind lexemes) i (i + length u) ->
    u2 = sl (map lx_kind lexemes) i (i + length u2) ->
    PackratSpec.before g y u u2 -> before prods nonterms kinds ((idx y, i), i + length u) ((idx y, i), i + length u2).
  Proof using Hg Hst Hknt Hkp Hlx Hlk.
    intros Hk Hle Hu Hu2 (ps & Hp & Ho). exists (map (map (fun y => idx y)) ps). cbn [fst snd].
    assert (HP : prods (idx y) = Some (map (map (fun y => idx y)) ps)) by (unfold prods_of; rewrite (idx_str _ Hk), Hp; reflexivity).
    split; [exact HP|]. split; [exact HP|]. intros q q2 p p2 Hl Hl2 Hd Hd2.
    apply list_lookup_fmap_inv in Hl as (p' & -> & Hl). apply list_lookup_fmap_inv in Hl2 as (p2' & -> & Hl2).
    apply (Ho q q2 p' p2' Hl Hl2).
    - rewrite Hu. apply (proj2 dk_derives _ _ _ Hd); [done|]. intros z Hz. eapply Hkp; [exact Hp|eapply elem_of_list_lookup_2; exact Hl|exact Hz].
    - rewrite Hu2. apply (proj2 dk_derives _ _ _ Hd2); [done|]. intros z Hz. eapply Hkp; [exact Hp|eapply elem_of_list_lookup_2; exact Hl2|exact Hz].
  Qed.
  Lemma keys_app a b pre r i : length a = length pre -> keys_of (a ++ b) (pre ++ r) i = keys_of a pre i ++ keys_of b r (i + length (concat pre)).
  Proof using.
    revert pre i. induction a as [|y a IH]; intros [|u pre] i Hl; try done; cbn [app keys_of concat].
    - by rewrite Nat.add_0_r.
    - injection Hl as Hl. rewrite (IH _ _ Hl), app_length, Nat.add_assoc. done.
  Qed.
  Lemma best_keys x qs k p i j parts : symb2str st !! x <> None -> g_prods g (name_of st x) = Some qs -> qs !! k = Some p -> i <= j -> j <= length lexemes ->
    best_split g p (sl (map lx_kind lexemes) i j) parts -> best prods nonterms kinds ((x, i), j) k (keys_of p parts i).
  Proof using Hg Hst Hknt Hkp Hlx Hlk.
    intros Hx Hq Hl Hij Hj [[Hsc Hsf] Hb] ps p' cs2 Hp Hl' Hs Hd. cbn [fst snd] in *.
    assert (Hps : ps = map (map (fun y => idx y)) qs).
    { destruct (prods_inv _ _ Hp) as (x' & qs' & Hx' & Hq' & ->). unfold name_of in Hq. rewrite Hx' in Hq. simpl in Hq. congruence. }
    subst ps. apply list_lookup_fmap_inv in Hl' as (p'' & -> & Hl'). assert (p'' = p) as -> by congruence.
    assert (Hk : forall y, y ∈ p -> known st y). { intros z Hz. eapply Hkp; [exact Hq|eapply elem_of_list_lookup_2; exact Hl|exact Hz]. }
    pose proof (keys_parts _ _ _ _ Hs Hj Hd) as [E _]. pose proof (parts_split _ _ _ _ Hs Hj Hd Hk) as Hsp2.
    destruct (Hb _ Hsp2) as [H|(a & y & b & pre & u & u2 & r & r2 & Ep & Hlen & E1 & E2 & Hne & Ho)].
    - left. rewrite <- E, H. done.
    - right. rewrite <- E, E2, E1, Ep. rewrite !keys_app by done. cbn [keys_of].
      eexists (keys_of a pre i), _, _, _, _. split; [reflexivity|]. split; [reflexivity|].
      assert (HU : forall v s, concat (pre ++ v :: s) = sl (map lx_kind lexemes) i j ->
        i + length (concat pre) + length v <= length lexemes /\ v = sl (map lx_kind lexemes) (i + length (concat pre)) (i + length (concat pre) + length v)).
      { intros v s Hv. assert (HL : length (concat (pre ++ v :: s)) = j - i) by (rewrite Hv, sl_length; [done|lia|rewrite map_length; lia]).
        rewrite concat_app in Hv, HL. cbn [concat] in Hv, HL. rewrite !app_length in HL. split; [lia|].
        rewrite <- (sl_app _ i (i + length (concat pre)) j) in Hv by lia. apply app_inj_1 in Hv as [_ Hv].
        2:{ rewrite sl_length; [lia|lia|rewrite map_length; lia]. }
        rewrite <- (sl_app _ (i + length (concat pre)) (i + length (concat pre) + length v) j) in Hv by lia. apply app_inj_1 in Hv as [Hv _]; [done|].
        rewrite sl_length; [lia|lia|rewrite map_length; lia]. }
      assert (Hky : known st y) by (apply Hk; rewrite Ep; apply elem_of_app; right; left).
      rewrite E1 in Hsc. destruct Hsp2 as [Hsc2 _]. rewrite E2 in Hsc2.
      destruct (HU _ _ Hsc) as [HL1 HU1]. destruct (HU _ _ Hsc2) as [HL2 HU2].
      split_and!.
      + intros El. apply (f_equal snd) in El. cbn [snd] in El. apply Hne. assert (length u = length u2) as El' by lia. rewrite HU1, HU2, El'. done.
      + apply before_keys; done.
  Qed.
  Lemma split_dk p parts i j : splits g p (sl (map lx_kind lexemes) i j) parts -> (forall y, y ∈ p -> known st y) -> i <= j -> j <= length lexemes ->
    forall c : key, c ∈ keys_of p parts i -> DK (fst (fst c)) (snd (fst c)) (snd c).
  Proof using Hg Hst Hknt Hkp Hlx Hlk.
    intros [Hc HF]. revert i Hc. induction HF as [|y u p parts Hd HF IH]; intros i Hc Hk Hij Hj c Hin; cbn [keys_of] in Hin; [inversion Hin|].
    cbn [concat] in Hc.
    assert (Hu : i + length u <= j). { assert (H : length (u ++ concat parts) = j - i) by (rewrite Hc, sl_length; [done|lia|rewrite map_length; lia]). rewrite app_length in H. lia. }
    rewrite <- (sl_app _ i (i + length u) j) in Hc by lia. apply app_inj_1 in Hc as [H1 H2].
    2:{ rewrite sl_length; [lia|lia|rewrite map_length; lia]. }
    apply elem_of_cons in Hin as [->|Hin].
    - cbn [fst snd]. apply (proj1 derives_dk _ _ Hd); [apply Hk; left|done|lia|done].
    - apply (IH _ H2); auto. intros z Hz. apply Hk. right; done.
  Qed.

  Section Tree.
  Variable m : gmap key tdef.
  Hypothesis Hm : memo_ok prods nonterms kinds m.
  Hypothesis Ha : acyc m.

  Notation nm k := (name_of st (fst (fst k))).

  (** a set of keys closed under children on which productions are minimal *)
  Definition closed_min (good : key -> Prop) : Prop :=
    forall k d, good k -> m !! k = Some d ->
      (forall c, c ∈ td_children d -> good c) /\
      (forall qs k' p', g_prods g (nm k) = Some qs -> k' < td_prio d -> qs !! k' = Some p' ->
          ~ derives_seq g p' (map lx_kind (sl lexemes (snd (fst k)) (snd k)))) /\
      (forall ps p cs, prods (fst (fst k)) = Some ps -> ps !! td_prio d = Some p -> spans p cs (snd (fst k)) (snd k) ->
          (forall c : key, c ∈ cs -> DK (fst (fst c)) (snd (fst c)) (snd c)) ->
          best prods nonterms kinds k (td_prio d) cs -> td_children d = cs).

  Definition tree_res (k : key) (t : pn) : Prop :=
    is_tree g (nm k) t (sl lexemes (snd (fst k)) (snd k)) /\ positioned g t /\
    (forall good, closed_min good -> good k -> ranked_tree g (nm k) t (sl lexemes (snd (fst k)) (snd k))).

  Lemma to_pn_ok : forall h fuel k d, hb m h k -> h <= fuel -> m !! k = Some d ->
    exists t, to_pn fuel lxms m (name_of st) d = Ok t /\ tree_res k t.
  Proof using Hg Hterm Hst Hknt Hkp Hlx Hlk Hm Ha.
    induction h as [|h IH]; intros fuel k d Hh Hf Hd; [destruct Hh|].
    destruct fuel as [|fuel]; [lia|]. destruct (Hm _ _ Hd) as (Kd & Od & Sd & Cd).
    cbn [to_pn]. rewrite Kd. destruct k as [[s i] j]. simpl in *. unfold def_ok in Od. rewrite Kd in Od; simpl in Od.
    destruct Od as [(T1 & Hc & Hp0 & Hl & Hj)|(ps & p & Hp & Hl & Hsp)].
    - (* a lexeme *)
      rewrite Hc. simpl. destruct (kinds_lookup _ _ Hl) as [lx Hi]. rewrite Hi, Nat.eqb_refl.
      exists (PN lx []). split; [done|]. subst j.
      destruct (lxms_lookup _ _ _ Hi) as [Hlx' Hs].
      destruct (isT_str _ T1) as (x & Hx & Hxp). assert (x = lx_kind lx) as -> by congruence.
      unfold tree_res. cbn [fst snd]. assert (Hn : name_of st s = lx_kind lx) by (unfold name_of; rewrite Hs; done). rewrite Hn, (sl_one _ _ _ Hlx'). simpl.
      split_and!; [by constructor|by constructor|]. intros; by constructor.
    - destruct (prods_inv _ _ Hp) as (x & qs & Hx & Hq & ->).
      assert (Hown : (match lxms !! i with Some (k, lx) => if k =? s then Some lx else None | None => None end) = None).
      { destruct (lxms !! i) as [[k lx]|] eqn:Ei; [|done]. destruct (Nat.eqb_spec k s) as [->|]; [|done].
        exfalso. assert (Hk : s ∈ kinds). { eapply elem_of_list_lookup_2. rewrite list_lookup_fmap, Ei. done. }
        apply kinds_isT in Hk. assert (is_Some (prods s)) as HS by eauto. apply inst_nt in HS. congruence. }
      rewrite Hown.
      apply list_lookup_fmap_inv in Hl as (q & -> & Hlq).
      assert (Hcs : exists cs, rmap (fun c => to_pn fuel lxms m (name_of st) (mget m c)) (td_children d) = Ok cs /\
         are_trees g q cs (sl lexemes i j) /\ Forall (positioned g) cs /\
         (forall good, closed_min good -> (forall c, c ∈ td_children d -> good c) ->
            ranked_trees g q cs (map (fun c : key => sl lexemes (snd (fst c)) (snd c)) (td_children d))) /\
         concat (map (fun c : key => sl lexemes (snd (fst c)) (snd c)) (td_children d)) = sl lexemes i j /\
         i <= j).
      { assert (Hqk : forall y, y ∈ q -> known st y).
        { intros y Hy. eapply Hkp; [exact Hq|eapply elem_of_list_lookup_2; exact Hlq|exact Hy]. }
        assert (HIH : forall c, c ∈ td_children d -> exists dc t, m !! c = Some dc /\
            to_pn fuel lxms m (name_of st) dc = Ok t /\ tree_res c t /\ kspan kinds c).
        { intros c Hc. destruct (Cd c Hc) as [dc Hdc]. destruct (IH fuel c dc) as (t & Ht & Hr); [by eapply Hh|lia|done|].
          exists dc, t. split_and!; auto. eapply Hm; eauto. }
        clear Hh Hd Sd Cd Kd Hlq Hp Hq Hx Hown IH Hf.
        revert i Hsp Hqk HIH. induction (td_children d) as [|c cs IHc] in q |- *; intros i Hsp Hqk HIH.
        - destruct q as [|y q]; [|done]. simpl in Hsp. subst j. exists [].
          rewrite sl_nil. split_and!; auto; constructor.
        - destruct q as [|y q]; [done|]. cbn [map spans] in Hsp. destruct Hsp as [Hc Hsp].
          destruct (HIH c ltac:(left)) as (dc & t & Hdc & Ht & (Hr1 & Hr2 & Hr3) & Hks).
          destruct (IHc q (snd c) Hsp) as (ts & Hts & Hts1 & Hts2 & Hts3 & Hcc & Hle).
          { intros z Hz. apply Hqk. right; done. }
          { intros z Hz. apply HIH. right; done. }
          exists (t :: ts). cbn [rmap]. unfold mget at 1. rewrite Hdc. cbn [default]. simpl. rewrite Ht. cbn [rbind]. rewrite Hts. cbn [rbind].
          assert (Hnm : nm c = y). { rewrite Hc. simpl. unfold name_of. rewrite idx_str by (apply Hqk; left). done. }
          assert (Hci : snd (fst c) = i) by (rewrite Hc; done). destruct Hks as [Hk1 Hk2].
          rewrite Hnm, Hci in *.
          rewrite <- (sl_app lexemes i (snd c) j) by lia.
          split_and!; auto.
          + by constructor.
          + intros good Hgood Hall. cbn [map]. rewrite ?Hci. constructor.
            * apply (Hr3 good); [done|]. apply Hall. left.
            * apply (Hts3 good); [done|]. intros z Hz. apply Hall. right; done.
          + cbn [map concat]. rewrite Hcc, ?Hci. done.
          + lia. }
      destruct Hcs as (cs & -> & Ht1 & Ht2 & Ht3 & Hcc & Hij). cbn [rbind].
      assert (Hname : name_of st s = x) by (unfold name_of; rewrite Hx; done).
      eexists. split; [reflexivity|]. unfold tree_res; simpl. rewrite Hname.
      set (lx := match cs with [] => lexeme_new x | c :: _ => _ end).
      assert (Hk : lx_kind lx = x) by (unfold lx; destruct cs; done).
      assert (Hv : lx_val lx = []) by (unfold lx; destruct cs; done).
      split_and!.
      + rewrite <- Hk. econstructor; [rewrite Hk; exact Hq|eapply elem_of_list_lookup_2; exact Hlq|exact Ht1].
      + destruct cs as [|c cs].
        * apply pos_empty; auto; try (rewrite Hk, Hq; eauto).
        * apply pos_inner; auto; try (rewrite Hk, Hq; eauto).
      + intros good Hgood Hgk. destruct (Hgood _ _ Hgk Hd) as (Hg1 & Hg2 & Hg3).
        rewrite <- Hcc. rewrite <- Hk. econstructor; [rewrite Hk; exact Hq|exact Hlq|by apply (Ht3 good)| |]; rewrite Hcc.
        * intros k' p' Hlt Hk'. apply (Hg2 qs k' p'); auto. simpl. rewrite Hname. done.
        * intros parts Hbs. rewrite sl_map in Hbs. destruct Sd as [_ Sd]. cbn [snd] in Sd. rewrite len_kinds in Sd.
          assert (Hkq : forall y, y ∈ q -> known st y). { intros z Hz. eapply Hkp; [exact Hq|eapply elem_of_list_lookup_2; exact Hlq|exact Hz]. }
          destruct Hbs as [Hsp' Hbs]. pose proof (proj1 Hsp') as Hcat.
          destruct (parts_keys q parts i j) as [Epk Hspk]; [by eapply Forall2_length, Hsp'|done|done|done|].
          rewrite map_map. erewrite map_ext; [|intros c; apply sl_map]. fold (parts_of (td_children d)).
          rewrite (Hg3 _ _ (keys_of q parts i) Hp ltac:(rewrite list_lookup_fmap, Hlq; reflexivity) Hspk); [exact Epk| |].
          -- eapply split_dk; eauto.
          -- eapply best_keys; eauto; [by rewrite Hx|by rewrite Hname|]. split; done.
  Qed.
  End Tree.

  Lemma nullable_str :
    forall s, nullable prods s -> forall x, symb2str st !! s = Some x -> derives g x [].
  Proof using Hst Hkp Hterm Hlx.
    fix IH 2. intros s Hn. destruct Hn as [s ps p Hp Hin Hns]. intros x Hx.
    destruct (prods_inv _ _ Hp) as (x' & qs & Hx' & Hq & ->). assert (x' = x) as -> by congruence.
    apply elem_of_list_fmap in Hin as (q & -> & Hin).
    econstructor; [exact Hq|exact Hin|].
    assert (Hk : forall y, y ∈ q -> known st y) by eauto.
    clear Hin Hp Hq Hx Hx'. remember (map (fun y => idx y) q) as l eqn:El.
    revert q El Hk. induction Hns as [|a ss Ha Hss IHn]; intros [|y q] El Hk; try done; [constructor|].
    simpl in El. injection El as -> ->.
    change (@nil gostring) with (@nil gostring ++ []). constructor.
    - apply (IH _ Ha). apply idx_str, Hk. left.
    - apply IHn; [done|]. intros z Hz. apply Hk. right; done.
  Qed.

  Lemma nullables_str q : nullables prods (map (fun y => idx y) q) -> (forall y, y ∈ q -> known st y) ->
    derives_seq g q [].
  Proof using Hst Hkp Hterm Hlx.
    induction q as [|y q IH]; intros Hn Hk; [constructor|]. simpl in Hn. inversion Hn as [|? ? Hn1 Hn2]; clear Hn.
    change (@nil gostring) with (@nil gostring ++ []). constructor.
    - apply (nullable_str _ Hn1). apply idx_str, Hk. left.
    - apply IH; [done|]. intros z Hz. apply Hk. right; done.
  Qed.

  Lemma ustep_str A B : ustep prods A B -> forall x, symb2str st !! A = Some x ->
    exists y, symb2str st !! B = Some y /\ unit_step g x y.
  Proof using Hst Hkp Hterm Hlx.
    intros (ps & p & a & b & Hp & Hin & He & Ha & Hb) x Hx.
    destruct (prods_inv _ _ Hp) as (x' & qs & Hx' & Hq & ->). assert (x' = x) as -> by congruence.
    apply elem_of_list_fmap in Hin as (q & -> & Hin).
    assert (Hk : forall y, y ∈ q -> known st y) by eauto.
    assert (exists qa y qb, q = qa ++ y :: qb /\ a = map (fun y => idx y) qa /\ B = idx y /\ b = map (fun y => idx y) qb) as (qa & y & qb & -> & -> & -> & ->).
    { clear -He. revert q He. induction a as [|z a IH]; intros [|w q] He; simpl in He; try done.
      - injection He as <- <-. exists [], w, q. done.
      - injection He as <- He. destruct (IH _ He) as (qa & y & qb & -> & -> & -> & ->).
        exists (w :: qa), y, qb. done. }
    exists y. split.
    - apply idx_str, Hk. apply elem_of_app; right; left.
    - exists qs, (qa ++ y :: qb), qa, qb. split_and!; auto.
      + apply nullables_str; [done|]. intros z Hz. apply Hk. apply elem_of_app; auto.
      + apply nullables_str; [done|]. intros z Hz. apply Hk. apply elem_of_app; right; right; done.
  Qed.

  Lemma inst_nocyc : acyclic_grammar g -> nocyc prods.
  Proof using Hst Hkp Hterm Hlx.
    intros Hac A Htc.
    assert (HG : forall A B, tc (ustep prods) A B -> forall x, symb2str st !! A = Some x ->
       exists y, symb2str st !! B = Some y /\ tc (unit_step g) x y).
    { clear Htc A. induction 1 as [A B H|A B C H _ IH]; intros x Hx.
      - destruct (ustep_str _ _ H _ Hx) as (y & Hy & Hs). exists y. split; [done|]. by apply tc_once.
      - destruct (ustep_str _ _ H _ Hx) as (y & Hy & Hs). destruct (IH _ Hy) as (z & Hz & Hs2).
        exists z. split; [done|]. eapply tc_l; eauto. }
    assert (exists x, symb2str st !! A = Some x) as [x Hx].
    { assert (exists B, ustep prods A B) as (B & ps & p & a & b & Hp & _).
      { inversion Htc; subst; eauto. }
      apply prods_inv in Hp as (x & qs & Hx & _). eauto. }
    destruct (HG _ _ Htc _ Hx) as (y & Hy & Hs). assert (y = x) as -> by congruence.
    apply (Hac x Hs).
  Qed.

  Lemma inst_closed_min s00 s : WF prods nonterms kinds s00 s -> Cl prods nonterms kinds s [] [] -> stack s = [] ->
    acyclic_grammar g -> closed_min (memo s) (fun k => fst k ∈ queued s).
  Proof using Hg Hterm Hst Hknt Hkp Hlx Hlk.
    intros Hw HC Hstk Hac k d Hq Hd. split_and!.
    - eapply saturated_children; eauto. apply inst_nt.
    - intros qs k' p' Hqs Hlt Hk' Hder.
      destruct (wf_memo _ _ _ _ _ Hw _ _ Hd) as (Kd & Od & [Hs1 Hs2] & Cd). rewrite len_kinds in Hs2.
      destruct k as [[a i] j]; simpl in *.
      assert (Hsym : exists x, symb2str st !! a = Some x).
      { apply lookup_lt_is_Some. rewrite <- nonterms_len.
        pose proof (def_ok_sym _ _ _ inst_nt _ Od) as H. rewrite Kd in H. exact H. }
      destruct Hsym as [x Hx]. assert (Hn : name_of st a = x) by (unfold name_of; rewrite Hx; done).
      rewrite Hn in Hqs.
      assert (Hp : prods a = Some (map (map (fun y => idx y)) qs)) by (unfold prods_of; rewrite Hx, Hqs; done).
      assert (HD : DKS (map (fun y => idx y) p') i j).
      { eapply (proj2 derives_dk); [exact Hder| | |lia|].
        - intros y Hy. eapply Hkp; [exact Hqs|eapply elem_of_list_lookup_2; exact Hk'|exact Hy].
        - rewrite map_length. unfold sl. rewrite take_length, drop_length. lia.
        - by rewrite sl_map. }
      assert (Hk2 : map (map (fun y => idx y)) qs !! k' = Some (map (fun y => idx y) p')).
      { rewrite list_lookup_fmap, Hk'. done. }
      destruct (saturated_prod _ _ _ _ inst_nt s a i _ k' _ j Hw HC Hstk Hq Hp Hk2 HD) as (cs & d' & Hd' & Hle).
      destruct (Hle (inst_nocyc Hac)) as [Hle' _]. assert (d' = d) as -> by congruence. lia.
    - intros ps p cs Hp Hl Hsp Hdk Hb.
      pose proof (saturated_split _ _ _ _ inst_nt s (fst (fst k)) (snd (fst k)) ps (td_prio d) p cs (snd k) Hw HC Hstk) as HS.
      destruct k as [[a i] j]; simpl in *. destruct (HS Hq Hp Hl Hsp Hdk) as (d' & Hd' & Hle).
      assert (d' = d) as -> by congruence. destruct (Hle (inst_nocyc Hac)) as [_ H]. by apply H.
  Qed.
End Inst.

Lemma ranked_earliest g : forall s t l, ranked_tree g s t l -> earliest_tree g s t l.
Proof.
  fix IH 4. intros s t l H. destruct H as [lx Hp|lx ps k p cs lxss Hp Hk Hcs He _]; [by constructor|].
  econstructor; [exact Hp|exact Hk| |exact He]. clear Hk Hp He.
  induction Hcs as [|s r c cs u v Hc Hcs IHc]; [constructor|]. cbn [concat]. constructor; [by apply IH|exact IHc].
Qed.

(** The node returned for an empty slice when the start symbol is not nullable. *)
Definition bogus (s0 : gostring) : pn := PN (lexeme_new s0) [].

Lemma terminal_not_mistaken g lexemes : terminal_kinds g lexemes -> not_mistaken g lexemes.
Proof.
  intros Ht u lx r ps X Y p E _ Hp. rewrite (Ht lx) in Hp; [done|]. rewrite E. apply elem_of_app. right. left.
Qed.

Theorem packrat_main g lexemes : g_wf g -> terminal_kinds g lexemes ->
  exists r, returns (fun n => packrat_parse n g lexemes) r /\
    (g_nts g = [] -> r = None) /\
    (forall s0 rest, g_nts g = s0 :: rest ->
       (exists t, r = Some t /\ is_tree g s0 t lexemes /\ positioned g t /\
          (acyclic_grammar g -> ranked_tree g s0 t lexemes)) \/
       (~ derives g s0 (map lx_kind lexemes) /\
          r = match lexemes with [] => Some (bogus s0) | _ => None end)).
Proof.
  intros Hg Hterm. destruct (g_nts g) as [|s0 rest] eqn:Hn.
  { exists None. split; [exists 0; intros; unfold packrat_parse; rewrite Hn; done|]. split; [done|]. done. }
  cut (exists F r, packrat_parse F g lexemes = Ok r /\
       ((exists t, r = Some t /\ is_tree g s0 t lexemes /\ positioned g t /\
          (acyclic_grammar g -> ranked_tree g s0 t lexemes)) \/
       (~ derives g s0 (map lx_kind lexemes) /\
          r = match lexemes with [] => Some (bogus s0) | _ => None end))).
  { intros (F & r & Hr & H). exists r. split; [eapply (returns_at (fun n => packrat_parse n g lexemes)); [apply packrat_parse_mono|exact Hr]|].
    split; [intros Hx; discriminate Hx|]. intros s0' rest' Hs. injection Hs as <- <-. exact H. }
  destruct (load_grammar_ok g Hg) as (set1 & Hl & Hw1 & Hk1 & Hk1').
  destruct (load_lexemes set1 lexemes) as [lxms st] eqn:El.
  destruct (load_lexemes_spec _ _ _ _ Hw1 El) as (Hst & Hle & Hlx & Hlk).
  assert (Hknt : forall nt, nt ∈ g_nts g -> known st nt).
  { intros nt Hnt. apply (known_le set1 st); auto. }
  assert (Hkp : forall nt ps p x, g_prods g nt = Some ps -> p ∈ ps -> x ∈ p -> known st x).
  { intros. apply (known_le set1 st); eauto. }
  set (prods := prods_of g st).
  set (nonterms := mark_nonterms st (g_nts g) (replicate (sym_count st) false)).
  set (kinds := map fst lxms).
  pose proof (inst_nt g st Hg Hst Hknt) as Hnt.
  pose proof (inst_sz g st Hst Hkp) as Hsz.
  pose proof (inst_kd g lexemes st lxms Hg Hst Hknt Hkp Hlx Hlk s0 rest Hn (terminal_not_mistaken g lexemes Hterm)) as Hkd.
  set (start := fst (set_str st s0)).
  assert (Hks0 : known st s0) by (apply Hknt; rewrite Hn; left).
  set (F := S (S (KU nonterms kinds)) + S (size (MU nonterms kinds)) + S (length (UL prods nonterms kinds))).
  assert (HF1 : S (S (KU nonterms kinds)) <= F) by (unfold F; lia).
  assert (HF2 : size (MU nonterms kinds) < F) by (unfold F; lia).
  assert (HF3 : length (UL prods nonterms kinds) < F) by (unfold F; lia).
  clearbody F.
  destruct (core_run prods nonterms kinds start Hnt Hsz Hkd F HF1) as (s1 & s2 & Hs1 & Hs2 & Hw & HC & Hstk & Hq); auto.
  { destruct (known_lt g st Hst s0 Hks0) as [b Hb]. eapply lookup_lt_Some; exact Hb. }
  exists F. unfold packrat_parse. rewrite Hn, Hl. cbn [rbind]. rewrite El. rewrite <- Hn.
  fold prods. fold nonterms. fold kinds. fold start. rewrite Hs1. cbn [rbind]. rewrite Hs2. cbn [rbind].
  pose proof (wf_memo _ _ _ _ _ Hw) as Hm. pose proof (wf_acyc _ _ _ _ _ Hw) as Ha.
  assert (Hname : name_of st start = s0). { unfold name_of, start. rewrite (idx_str st Hst s0 Hks0). done. }
  destruct (memo s2 !! ((start, 0), length lexemes)) as [d|] eqn:Ed.
  - destruct (Hm _ _ Ed) as (Kd & _). unfold mget. rewrite Ed. cbn [default from_option].
    unfold td_end. simpl. rewrite Kd. simpl. rewrite Nat.eqb_refl.
    destruct (to_pn_ok g lexemes st lxms Hg Hterm Hst Hknt Hkp Hlx Hlk (memo s2) Hm Ha (S (KU nonterms kinds)) F ((start, 0), length lexemes) d) as (t & Ht & Hr1 & Hr2 & Hr3).
    + eapply memo_hb; eauto.
    + lia.
    + exact Ed.
    + rewrite Ht. cbn [rbind]. eexists; split; [done|]. left. exists t. simpl in Hr1, Hr3.
      rewrite Hname, sl_all in *. split_and!; auto.
      intros Hac. apply (Hr3 (fun k => fst k ∈ queued s2)); [|done].
      eapply inst_closed_min; eauto.
  - assert (Hnd : ~ derives g s0 (map lx_kind lexemes)).
    { intros Hd. assert (HD : dk prods nonterms kinds start 0 (length lexemes)).
      { eapply (proj1 (derives_dk g lexemes st lxms Hg Hst Hknt Hkp Hlx Hlk)); [exact Hd|done| |done|].
        - rewrite map_length. done.
        - rewrite <- (map_length lx_kind lexemes). rewrite sl_all. done. }
      destruct (proj1 (saturated prods nonterms kinds start Hnt s2 Hw HC Hstk) _ _ _ HD Hq) as [d Hd'].
      - intros HT. exfalso. unfold isT in HT. assert (nonterms !! start = Some true); [|congruence].
        apply Hnt. unfold prods, prods_of, start. rewrite (idx_str st Hst s0 Hks0).
        assert (is_Some (g_prods g s0)) as [ps ->] by (apply Hg; rewrite Hn; left). simpl. eauto.
      - congruence. }
    unfold mget. rewrite Ed. cbn [default from_option]. simpl.
    destruct lexemes as [|lx lexemes]; simpl.
    + simpl in El. injection El as <- <-. destruct F as [|F]; [lia|]. cbn [to_pn]. simpl.
      eexists; split; [reflexivity|]. right. split; [done|].
      (* index 0 is the first non-terminal *)
      assert (Hstart : symb2str set1 !! 0 = Some s0).
      { revert Hl. unfold load_grammar. rewrite Hn. cbn [load_nts].
        assert (Hf : set_str set_new s0 = (0, snd (set_str set_new s0))) by done.
        destruct (set_str_spec _ _ _ _ set_new_wf Hf) as (Hwx & Hlx' & Hv & _).
        destruct (g_prods g s0) as [ps|]; [|done]. intros Hl.
        destruct (load_prods_spec ps _ Hwx) as (Hwy & [l1 Hl1] & _).
        destruct (load_nts_spec g rest (fold_left load_prod ps (snd (set_str set_new s0))) Hwy) as (s' & Hs' & _ & [l2 Hl2] & _).
        { intros nt Hnt'. apply Hg. rewrite Hn. right; done. }
        assert (s' = set1) as -> by congruence. rewrite Hl2, Hl1, <- app_assoc. apply lookup_app_l_Some. done. }
      unfold bogus, name_of. rewrite Hstart. done.
    + eexists; split; [reflexivity|]. right. done.
Qed.

(** A lexeme named like a non-terminal is no part of a derivation. *)
Theorem packrat_refuses g lexemes lx : g_wf g -> not_mistaken g lexemes -> lx ∈ lexemes -> g_prods g (lx_kind lx) <> None ->
  returns (fun n => packrat_parse n g lexemes) None.
Proof.
  intros Hg Hnm Hlx0 Hnt0. destruct (g_nts g) as [|s0 rest] eqn:Hn.
  { exists 0. intros. unfold packrat_parse. by rewrite Hn. }
  cut (exists F, packrat_parse F g lexemes = Ok None).
  { intros (F & Hr). eapply (returns_at (fun n => packrat_parse n g lexemes)); [apply packrat_parse_mono|exact Hr]. }
  destruct (load_grammar_ok g Hg) as (set1 & Hl & Hw1 & Hk1 & Hk1').
  destruct (load_lexemes set1 lexemes) as [lxms st] eqn:El.
  destruct (load_lexemes_spec _ _ _ _ Hw1 El) as (Hst & Hle & Hlx & Hlk).
  assert (Hknt : forall nt, nt ∈ g_nts g -> known st nt).
  { intros nt Hnt. apply (known_le set1 st); auto. }
  assert (Hkp : forall nt ps p x, g_prods g nt = Some ps -> p ∈ ps -> x ∈ p -> known st x).
  { intros. apply (known_le set1 st); eauto. }
  set (prods := prods_of g st).
  set (nonterms := mark_nonterms st (g_nts g) (replicate (sym_count st) false)).
  set (kinds := map fst lxms).
  pose proof (inst_nt g st Hg Hst Hknt) as Hnt.
  pose proof (inst_sz g st Hst Hkp) as Hsz.
  pose proof (inst_kd g lexemes st lxms Hg Hst Hknt Hkp Hlx Hlk s0 rest Hn Hnm) as Hkd.
  set (start := fst (set_str st s0)).
  assert (Hks0 : known st s0) by (apply Hknt; rewrite Hn; left).
  set (F := S (S (KU nonterms kinds)) + S (size (MU nonterms kinds)) + S (length (UL prods nonterms kinds))).
  assert (HF1 : S (S (KU nonterms kinds)) <= F) by (unfold F; lia).
  assert (HF2 : size (MU nonterms kinds) < F) by (unfold F; lia).
  assert (HF3 : length (UL prods nonterms kinds) < F) by (unfold F; lia).
  clearbody F.
  destruct (core_run prods nonterms kinds start Hnt Hsz Hkd F HF1) as (s1 & s2 & Hs1 & Hs2 & Hw & HC & Hstk & Hq); auto.
  { destruct (known_lt g st Hst s0 Hks0) as [b Hb]. eapply lookup_lt_Some; exact Hb. }
  exists F. unfold packrat_parse. rewrite Hn, Hl. cbn [rbind]. rewrite El. rewrite <- Hn.
  fold prods. fold nonterms. fold kinds. fold start. rewrite Hs1. cbn [rbind]. rewrite Hs2. cbn [rbind].
  destruct (memo s2 !! ((start, 0), length lexemes)) as [d|] eqn:Ed.
  - exfalso. pose proof (memo_dk _ _ _ _ (wf_memo _ _ _ _ _ Hw) (wf_acyc _ _ _ _ _ Hw) _ (ex_intro _ d Ed)) as Hdk. cbn [fst snd] in Hdk.
    apply elem_of_list_lookup in Hlx0 as [i Hi]. pose proof (lookup_lt_Some _ _ _ Hi) as Hlt.
    assert (is_Some (lxms !! i)) as [[k lx'] Hi']. { apply lookup_lt_is_Some. rewrite (len_lxms lexemes lxms Hlx). lia. }
    destruct (lxms_lookup lexemes st lxms Hlx Hlk _ _ _ Hi') as [Hi2 Hs]. assert (lx' = lx) as -> by congruence.
    assert (HT : isT nonterms k).
    { apply (proj1 (dk_terminal g st lxms) _ _ _ Hdk i k); [lia|lia|]. rewrite list_lookup_fmap, Hi'. done. }
    apply (isT_prods _ _ Hnt) in HT. unfold prods, prods_of in HT. rewrite Hs in HT. destruct (g_prods g (lx_kind lx)); done.
  - unfold mget. rewrite Ed. cbn [default from_option]. destruct lexemes as [|x r]; [inversion Hlx0|]. done.
Qed.
