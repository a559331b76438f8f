From Verif.spec Require Import AnalyzeSpec.
From Verif.proofs Require Import Fuel SetProofs AnalyzeProofs.
From Coq Require Import Lia.
Local Open Scope nat_scope.
Local Open Scope list_scope.

Definition falses (l : list bool) : nat := length (filter (fun b => b = false) l).
Lemma falses_set l : forall i, l !! i = Some false -> falses l = S (falses (<[i := true]> l)).
Proof.
  unfold falses. induction l as [|b l IH]; intros [|i]; try done.
  - intros [= ->]. done.
  - intros H. change (<[S i := true]> (b :: l)) with (b :: <[i := true]> l). rewrite !filter_cons. specialize (IH i H).
    destruct (decide (b = false)); cbn [length]; rewrite IH; done.
Qed.
Lemma falses_le l l' : length l = length l' -> (forall i, l !! i = Some true -> l' !! i = Some true) -> falses l' <= falses l.
Proof.
  unfold falses. revert l'. induction l as [|b l IH]; intros [|b' l'] Hl H; try done.
  rewrite !filter_cons. assert (falses l' <= falses l) as Hle.
  { apply IH; [by injection Hl|]. intros i Hi. apply (H (S i) Hi). }
  unfold falses in Hle. destruct b.
  - specialize (H 0 eq_refl). injection H as ->. done.
  - destruct (decide (false = false)); [|done]. destruct (decide (b' = false)); cbn [length]; lia.
Qed.

Section M.
  Variable g : grammar.
  Hypothesis Hg : g_wf g.
  Variable S0 : set.
  Hypothesis Hw : set_wf S0.
  Hypothesis Hknown : forall nt ps p x, g_prods g nt = Some ps -> p ∈ ps -> x ∈ p -> known S0 x.

  Definition nm (i : nat) (x : gostring) : Prop := symb2str S0 !! i = Some x.
  Definition ln : nat := length (symb2str S0).

  Lemma nm_inj i j x : nm i x -> nm j x -> i = j.
  Proof. unfold nm. intros H1 H2. apply Hw in H1, H2. congruence. Qed.
  Lemma nm_fun i x y : nm i x -> nm i y -> x = y.
  Proof. unfold nm. congruence. Qed.
  Lemma nm_lt i x : nm i x -> i < ln.
  Proof. apply lookup_lt_Some. Qed.

  Definition sound_firsts (x : gostring) (fs : list nat) : Prop :=
    forall j, j ∈ fs -> exists t, nm j t /\ terminal g t /\ leftmost g x t.

  Record ok (st : astate) : Prop := {
    ok_set : as_set st = S0;
    ok_done : length (as_done st) = ln;
    ok_firsts : length (as_firsts st) = ln;
    ok_nil : length (as_nil st) = ln;
    ok_terms : length (as_terms st) = ln;
    ok_sound : forall i x fs, nm i x -> as_firsts st !! i = Some fs -> sound_firsts x fs;
    ok_empty : forall i x, nm i x -> as_nil st !! i = Some true -> left_empty g x;
    ok_term : forall i x, nm i x -> as_terms st !! i = Some true -> terminal g x /\ exists z, leftmost g z x
  }.

  Record ext (st st' : astate) : Prop := {
    ext_done : forall i, as_done st !! i = Some true ->
      as_done st' !! i = Some true /\ as_firsts st' !! i = as_firsts st !! i /\ as_nil st' !! i = as_nil st !! i;
    ext_terms : forall i, as_terms st !! i = Some true -> as_terms st' !! i = Some true
  }.
  Lemma ext_refl st : ext st st.
  Proof. split; auto. Qed.
  Lemma ext_trans a b c : ext a b -> ext b c -> ext a c.
  Proof.
    intros H1 H2. split; [|eauto using ext_terms]. intros i Hi.
    destruct (ext_done _ _ H1 i Hi) as (A & B & C). destruct (ext_done _ _ H2 i A) as (A' & B' & C').
    split_and!; congruence.
  Qed.
  Definition undone (st : astate) : nat := falses (as_done st).
  Lemma ext_undone st st' : ok st -> ok st' -> ext st st' -> undone st' <= undone st.
  Proof.
    intros H H' He. apply falses_le; [rewrite (ok_done _ H), (ok_done _ H'); done|].
    intros i Hi. by apply (ext_done _ _ He).
  Qed.

  (** All of a symbol's firsts are known. *)
  Definition covers (x : gostring) (fs : list nat) (st : astate) : Prop :=
    forall t, terminal g t -> leftmost g x t -> exists j, j ∈ fs /\ nm j t /\ as_terms st !! j = Some true.
  Definition fin (k : nat) (y : gostring) (st : astate) : Prop :=
    (exists fs, as_firsts st !! k = Some fs /\ covers y fs st) /\ (left_empty g y -> as_nil st !! k = Some true).
  Definition tidy (P : list nat) (st : astate) : Prop :=
    forall k y, as_done st !! k = Some true -> nm k y -> fin k y st \/ k ∈ P.
  Lemma covers_ext x fs st st' : ext st st' -> covers x fs st -> covers x fs st'.
  Proof. intros He H t Ht Hx. destruct (H t Ht Hx) as (j & ? & ? & ?). exists j. split_and!; auto. by eapply ext_terms. Qed.
  Lemma fin_ext k y st st' : ext st st' -> as_done st !! k = Some true -> fin k y st -> fin k y st'.
  Proof.
    intros He Hd [(fs & H1 & H2) H3]. destruct (ext_done _ _ He k Hd) as (_ & Hf & Hn).
    split; [|by rewrite Hn]. exists fs. split; [by rewrite Hf|]. by eapply covers_ext.
  Qed.

  Definition good (rec : nat -> astate -> res (list nat * bool * astate)) (n : nat) : Prop :=
    forall i x st, ok st -> nm i x -> is_Some (g_prods g x) -> undone st < n ->
    exists fs nf st', rec i st = Ok (fs, nf, st') /\ ok st' /\ ext st st' /\ as_done st' !! i = Some true
      /\ sound_firsts x fs /\ (nf = true -> left_empty g x)
      /\ (forall P, left_acyclic g -> tidy P st -> (forall k, k ∈ P -> exists y, nm k y /\ tc (left_child g) y x) ->
           tidy P st' /\ covers x fs st' /\ (left_empty g x -> nf = true)).

  (** What is found among the symbols of (the rest of) a production. *)
  Definition seen (p : list gostring) (fs : list nat) (st : astate) : Prop :=
    forall a y b t, p = a ++ y :: b -> Forall (left_empty g) a -> terminal g t -> (y = t \/ leftmost g y t) ->
      exists j, j ∈ fs /\ nm j t /\ as_terms st !! j = Some true.

  Lemma term_put i x st : ok st -> nm i x -> terminal g x -> (exists z, leftmost g z x) ->
    exists ts, lput (as_terms st) i true = Ok ts /\
      let st' := AState (as_set st) (as_done st) (as_firsts st) (as_nil st) ts in
      ok st' /\ ext st st' /\ as_terms st' !! i = Some true.
  Proof.
    intros Ho Hi Hx Hz. pose proof (nm_lt _ _ Hi) as Hlt. unfold lput.
    destruct (lookup_lt_is_Some_2 (as_terms st) i) as [b Hb]; [rewrite (ok_terms _ Ho); done|].
    rewrite Hb. eexists. split; [done|]. cbn zeta. split_and!.
    - destruct Ho. split; cbn [as_set as_done as_firsts as_nil as_terms]; auto.
      + by rewrite insert_length.
      + intros k y Hk. destruct (decide (k = i)) as [->|Hne].
        * intros _. by rewrite (nm_fun _ _ _ Hk Hi).
        * rewrite list_lookup_insert_ne by done. eauto.
    - split; cbn [as_set as_done as_firsts as_nil as_terms]; auto.
      intros k Hk. destruct (decide (k = i)) as [->|Hne]; [|by rewrite list_lookup_insert_ne].
      apply list_lookup_insert. by apply lookup_lt_Some in Hb.
    - cbn [as_terms]. apply list_lookup_insert. by apply lookup_lt_Some in Hb.
  Qed.

  Lemma symbols_good rec n x ps : good rec n -> g_prods g x = Some ps ->
    forall p a fs nf st, (a ++ p) ∈ ps -> Forall (left_empty g) a -> ok st -> undone st < n ->
    sound_firsts x fs -> (nf = true -> left_empty g x) ->
    exists fs' nf' st', an_symbols rec g p fs nf st = Ok (fs', nf', st') /\ ok st' /\ ext st st'
      /\ sound_firsts x fs' /\ (nf' = true -> left_empty g x)
      /\ (forall j, j ∈ fs -> j ∈ fs') /\ (nf = true -> nf' = true)
      /\ (forall P, left_acyclic g -> tidy P st -> (forall k, k ∈ P -> exists y, nm k y /\ rtc (left_child g) y x) ->
           tidy P st' /\ seen p fs' st' /\ (forall y r, p = y :: r -> left_empty g y -> nf' = true)).
  Proof.
    intros Hrec Hx. induction p as [|y p IH]; intros a fs nf st Hin Ha Ho Hn Hfs Hnf; cbn [an_symbols].
    { exists fs, nf, st. split; [done|]. split; [done|]. split; [apply ext_refl|]. split; [done|]. split; [done|].
      split; [done|]. split; [done|]. intros P _ HP _. split; [done|]. split; [|done].
      intros a' y' b' t E. by destruct a'. }
    assert (Hc : left_child g x y) by (exists ps, a, p; done).
    destruct (Hknown x ps _ y Hx Hin) as [i Hi]; [set_solver|].
    assert (Hiy : nm i y) by by apply Hw.
    rewrite (ok_set _ Ho), (set_str_known _ _ _ Hi).
    assert (Hst : AState S0 (as_done st) (as_firsts st) (as_nil st) (as_terms st) = st).
    { rewrite <- (ok_set _ Ho). by destruct st. }
    rewrite Hst. clear Hst. destruct (g_prods g y) as [qs|] eqn:Hy.
    - assert (is_Some (g_prods g y)) as Hys by (rewrite Hy; eauto).
      destruct (Hrec i y st Ho Hiy Hys Hn) as (fs1 & dn & st1 & -> & Ho1 & He1 & Hd1 & Hs1 & Hn1 & Hc1).
      cbn [rbind].
      assert (Hfs1 : sound_firsts x (fs ++ fs1)).
      { intros j Hj. apply elem_of_app in Hj as [Hj|Hj]; [by apply Hfs|].
        destruct (Hs1 j Hj) as (t & ? & ? & ?). exists t. split; [done|]. split; [done|]. by eapply tc_l. }
      assert (Hnf1 : nf || dn = true -> left_empty g x).
      { intros E. apply orb_true_iff in E as [E|E]; [auto|]. destruct a as [|z a].
        - eapply le_left; [exact Hx|exact Hin|]. auto.
        - apply Forall_cons in Ha as [Hz _]. eapply le_left; [exact Hx|exact Hin|]. done. }
      destruct dn.
      + destruct (IH (a ++ [y]) (fs ++ fs1) (nf || true) st1) as (fs2 & nf2 & st2 & -> & Ho2 & He2 & Hs2 & Hn2 & Hm2 & Hmn & Hc2).
        { by rewrite <- app_assoc. }
        { apply Forall_app. split; [done|]. constructor; [auto|constructor]. }
        { done. }
        { eapply Nat.le_lt_trans; [by apply (ext_undone st)|done]. }
        { done. }
        { done. }
        exists fs2, nf2, st2. split; [done|]. split; [done|]. split; [by eapply ext_trans|]. split; [done|]. split; [done|].
        split; [intros j Hj; apply Hm2; apply elem_of_app; by left|].
        split; [intros _; apply Hmn; by rewrite orb_true_r|].
        intros P Hac HP HPx. destruct (Hc1 P Hac HP) as (HP1 & Hcov & _).
        { intros k Hk. destruct (HPx k Hk) as (z & Hz1 & Hz2). exists z. split; [done|].
          eapply tc_rtc_l; [exact Hz2|]. by apply tc_once. }
        destruct (Hc2 P Hac HP1 HPx) as (HP2 & Hse & _). split; [done|]. split.
        * intros a' y' b' t E Ha' Ht Hyt. destruct a' as [|z a']; injection E as <- ->.
          -- destruct Hyt as [->|Hyt]; [by rewrite Ht in Hy|].
             destruct (Hcov t Ht Hyt) as (j & Hj1 & Hj2 & Hj3). exists j.
             split; [apply Hm2, elem_of_app; by right|]. split; [done|]. by eapply ext_terms.
          -- apply Forall_cons in Ha' as [_ Ha']. by eapply Hse.
        * intros _ _ _ _. apply Hmn. by rewrite orb_true_r.
      + exists (fs ++ fs1), (nf || false), st1. split; [done|]. split; [done|]. split; [done|]. split; [done|]. split; [done|].
        split; [intros j Hj; apply elem_of_app; by left|]. split; [intros ->; done|].
        intros P Hac HP HPx. destruct (Hc1 P Hac HP) as (HP1 & Hcov & Hle).
        { intros k Hk. destruct (HPx k Hk) as (z & Hz1 & Hz2). exists z. split; [done|].
          eapply tc_rtc_l; [exact Hz2|]. by apply tc_once. }
        split; [done|]. split.
        * intros a' y' b' t E Ha' Ht Hyt. destruct a' as [|z a']; injection E as <- ->.
          -- destruct Hyt as [->|Hyt]; [by rewrite Ht in Hy|].
             destruct (Hcov t Ht Hyt) as (j & Hj1 & Hj2 & Hj3). exists j.
             split; [apply elem_of_app; by right|]. done.
          -- apply Forall_cons in Ha' as [Hz _]. by specialize (Hle Hz).
        * intros z r [= <- <-] Hz. by specialize (Hle Hz).
    - destruct (term_put i y st Ho Hiy Hy) as (ts & -> & Ho1 & He1 & Hts); [by exists x; apply tc_once|].
      cbn [rbind]. eexists _, nf, _. split; [done|]. split; [exact Ho1|]. split; [exact He1|].
      split.
      { intros j Hj. apply elem_of_app in Hj as [Hj|Hj]; [by apply Hfs|]. apply elem_of_list_singleton in Hj as ->.
        exists y. split; [done|]. split; [done|]. by apply tc_once. }
      split; [done|]. split; [intros j Hj; apply elem_of_app; by left|]. split; [done|].
      intros P Hac HP _. split; [|split].
      * intros k z Hk Hz. destruct (HP k z Hk Hz) as [Hf|Hf]; [left|by right]. by eapply fin_ext.
      * intros a' y' b' t E Ha' Ht Hyt. destruct a' as [|z a']; injection E as <- ->.
        -- destruct Hyt as [->|Hyt].
           ++ exists i. split; [apply elem_of_app; right; by left|]. done.
           ++ apply leftmost_nt in Hyt as [? Hyt]. congruence.
        -- apply Forall_cons in Ha' as [Hz _]. apply left_empty_nt in Hz as [? Hz]. congruence.
      * intros z r [= <- <-] Hz. apply left_empty_nt in Hz as [? Hz]. congruence.
  Qed.

  Lemma seen_mono p fs fs' st st' : (forall j, j ∈ fs -> j ∈ fs') -> ext st st' -> seen p fs st -> seen p fs' st'.
  Proof.
    intros Hm He H a y b t E Ha Ht Hy. destruct (H a y b t E Ha Ht Hy) as (j & ? & ? & ?).
    exists j. split_and!; auto. by eapply ext_terms.
  Qed.

  Lemma prods_good rec n x ps : good rec n -> g_prods g x = Some ps ->
    forall qs fs nf st, (forall q, q ∈ qs -> q ∈ ps) -> ok st -> undone st < n ->
    sound_firsts x fs -> (nf = true -> left_empty g x) ->
    exists fs' nf' st', an_prods rec g qs fs nf st = Ok (fs', nf', st') /\ ok st' /\ ext st st'
      /\ sound_firsts x fs' /\ (nf' = true -> left_empty g x)
      /\ (forall j, j ∈ fs -> j ∈ fs') /\ (nf = true -> nf' = true)
      /\ (forall P, left_acyclic g -> tidy P st -> (forall k, k ∈ P -> exists y, nm k y /\ rtc (left_child g) y x) ->
           tidy P st' /\ (forall q, q ∈ qs -> seen q fs' st')
           /\ ([] ∈ qs -> nf' = true) /\ (forall y r, (y :: r) ∈ qs -> left_empty g y -> nf' = true)).
  Proof.
    intros Hrec Hx. induction qs as [|q qs IH]; intros fs nf st Hin Ho Hn Hfs Hnf.
    { exists fs, nf, st. split; [done|]. split; [done|]. split; [apply ext_refl|]. split; [done|]. split; [done|].
      split; [done|]. split; [done|]. intros P _ HP _. split; [done|].
      split; [intros q Hq; by apply elem_of_nil in Hq|]. split; [intros Hq; by apply elem_of_nil in Hq|].
      intros y r Hq; by apply elem_of_nil in Hq. }
    destruct q as [|y q]; cbn [an_prods].
    - destruct (IH fs true st) as (fs2 & nf2 & st2 & -> & Ho2 & He2 & Hs2 & Hn2 & Hm2 & Hmn & Hc2).
      { intros q Hq. apply Hin. by right. }
      { done. }
      { done. }
      { done. }
      { intros _. eapply le_here; [exact Hx|]. apply Hin. left. }
      exists fs2, nf2, st2. split; [done|]. split; [done|]. split; [done|]. split; [done|]. split; [done|].
      split; [done|]. split; [intros _; by apply Hmn|].
      intros P Hac HP HPx. destruct (Hc2 P Hac HP HPx) as (HP2 & Hse & He & Hl). split; [done|]. split; [|split].
      * intros q Hq. apply elem_of_cons in Hq as [->|Hq]; [|auto]. intros a y b t E. by destruct a.
      * intros _. by apply Hmn.
      * intros y r Hq. apply elem_of_cons in Hq as [Hq|Hq]; [done|]. eauto.
    - destruct (symbols_good rec n x ps Hrec Hx (y :: q) [] fs nf st) as (fs1 & nf1 & st1 & -> & Ho1 & He1 & Hs1 & Hn1 & Hm1 & Hmn1 & Hc1).
      { apply Hin. left. }
      { constructor. }
      { done. }
      { done. }
      { done. }
      { done. }
      cbn [rbind].
      destruct (IH fs1 nf1 st1) as (fs2 & nf2 & st2 & -> & Ho2 & He2 & Hs2 & Hn2 & Hm2 & Hmn2 & Hc2).
      { intros r Hr. apply Hin. by right. }
      { done. }
      { eapply Nat.le_lt_trans; [by apply (ext_undone st)|done]. }
      { done. }
      { done. }
      exists fs2, nf2, st2. split; [done|]. split; [done|]. split; [by eapply ext_trans|]. split; [done|]. split; [done|].
      split; [auto|]. split; [auto|].
      intros P Hac HP HPx. destruct (Hc1 P Hac HP HPx) as (HP1 & Hse1 & Hl1).
      destruct (Hc2 P Hac HP1 HPx) as (HP2 & Hse & He & Hl). split; [done|]. split; [|split].
      * intros r Hr. apply elem_of_cons in Hr as [->|Hr]; [|auto]. by eapply seen_mono.
      * intros Hr. apply elem_of_cons in Hr as [Hr|Hr]; [done|]. auto.
      * intros z r Hr Hz. apply elem_of_cons in Hr as [Hr|Hr]; [|eauto]. injection Hr as <- <-.
        apply Hmn2. by eapply Hl1.
  Qed.

  Lemma firsts_good n : good (an_firsts n g) n.
  Proof.
    induction n as [|n IH]; intros i x st Ho Hi Hx Hn; [lia|]. cbn [an_firsts].
    pose proof (nm_lt _ _ Hi) as Hlt. unfold lget.
    destruct (lookup_lt_is_Some_2 (as_done st) i) as [d Hd]; [rewrite (ok_done _ Ho); done|].
    destruct (lookup_lt_is_Some_2 (as_firsts st) i) as [fs0 Hfs0]; [rewrite (ok_firsts _ Ho); done|].
    destruct (lookup_lt_is_Some_2 (as_nil st) i) as [nf0 Hnf0]; [rewrite (ok_nil _ Ho); done|].
    rewrite Hd. cbn [rbind]. destruct d.
    { rewrite Hfs0, Hnf0. cbn [rbind]. exists fs0, nf0, st. split; [done|]. split; [done|]. split; [apply ext_refl|].
      split; [done|]. split; [by eapply ok_sound|]. split; [intros ->; by eapply ok_empty|].
      intros P Hac HP HPx. split; [done|]. destruct (HP i x Hd Hi) as [[(fs & Hf & Hc) Hl]|Hf].
      - assert (fs = fs0) as -> by congruence. split; [done|]. intros E. specialize (Hl E). congruence.
      - exfalso. destruct (HPx i Hf) as (y & Hy & Hyx). rewrite (nm_fun _ _ _ Hy Hi) in Hyx. by apply Hac in Hyx. }
    unfold lput. rewrite Hd. cbn [rbind].
    assert (Hname : sym_string (as_set st) (Z.of_nat i) = Ok x).
    { unfold sym_string. rewrite (proj2 (Z.ltb_ge _ _)) by lia. rewrite Nat2Z.id, (ok_set _ Ho).
      unfold nm in Hi. by rewrite Hi. }
    rewrite Hname. cbn [rbind]. destruct (g_prods g x) as [ps|] eqn:Hps; [|by destruct Hx].
    set (st1 := AState (as_set st) (<[i:=true]> (as_done st)) (as_firsts st) (as_nil st) (as_terms st)).
    assert (Hdl : i < length (as_done st)) by (rewrite (ok_done _ Ho); done).
    assert (Hd1 : as_done st1 !! i = Some true) by (cbn [st1 as_done]; by apply list_lookup_insert).
    assert (Ho1 : ok st1).
    { destruct Ho. split; cbn [st1 as_set as_done as_firsts as_nil as_terms]; auto. by rewrite insert_length. }
    assert (He1 : ext st st1).
    { split; cbn [st1 as_set as_done as_firsts as_nil as_terms]; auto. intros k Hk. split_and!; auto.
      destruct (decide (k = i)) as [->|Hne]; [congruence|]. by rewrite list_lookup_insert_ne. }
    assert (Hn1 : undone st1 < n).
    { unfold undone in *. cbn [st1 as_done]. rewrite (falses_set _ _ Hd) in Hn. lia. }
    destruct (prods_good _ n x ps IH Hps ps [] false st1) as (fs & nf & st2 & -> & Ho2 & He2 & Hs2 & Hl2 & _ & _ & Hc2).
    { done. }
    { done. }
    { done. }
    { intros j Hj. by apply elem_of_nil in Hj. }
    { done. }
    cbn [rbind].
    destruct (lookup_lt_is_Some_2 (as_firsts st2) i) as [fs2 Hfs2]; [rewrite (ok_firsts _ Ho2); done|].
    destruct (lookup_lt_is_Some_2 (as_nil st2) i) as [nf2 Hnf2]; [rewrite (ok_nil _ Ho2); done|].
    rewrite Hfs2, Hnf2. cbn [rbind].
    set (st3 := AState (as_set st2) (as_done st2) (<[i:=fs]> (as_firsts st2)) (<[i:=nf]> (as_nil st2)) (as_terms st2)).
    assert (Hfl : i < length (as_firsts st2)) by (rewrite (ok_firsts _ Ho2); done).
    assert (Hnl : i < length (as_nil st2)) by (rewrite (ok_nil _ Ho2); done).
    assert (Hd2 : as_done st2 !! i = Some true) by by apply (ext_done _ _ He2).
    assert (Ho3 : ok st3).
    { destruct Ho2 as [a1 a2 a3 a4 a5 a6 a7 a8]. split; cbn [st3 as_set as_done as_firsts as_nil as_terms]; auto.
      - by rewrite insert_length.
      - by rewrite insert_length.
      - intros k y f Hk. destruct (decide (k = i)) as [->|Hne].
        + rewrite list_lookup_insert by done. intros [= <-]. by rewrite (nm_fun _ _ _ Hk Hi).
        + rewrite list_lookup_insert_ne by done. eauto.
      - intros k y Hk. destruct (decide (k = i)) as [->|Hne].
        + rewrite list_lookup_insert by done. intros [= E]. rewrite (nm_fun _ _ _ Hk Hi). auto.
        + rewrite list_lookup_insert_ne by done. eauto. }
    assert (He3 : ext st st3).
    { split; cbn [st3 as_set as_done as_firsts as_nil as_terms].
      - intros k Hk. assert (k <> i) as Hne by congruence.
        destruct (ext_done _ _ (ext_trans _ _ _ He1 He2) k Hk) as (A & B & C).
        rewrite !list_lookup_insert_ne by done. done.
      - intros k Hk. by apply (ext_terms _ _ (ext_trans _ _ _ He1 He2)). }
    exists fs, nf, st3. split; [done|]. split; [done|]. split; [done|]. split; [done|]. split; [done|]. split; [done|].
    intros P Hac HP HPx.
    destruct (Hc2 (i :: P) Hac) as (HP2 & Hse & Hle & Hll).
    { intros k y Hk Hy. destruct (decide (k = i)) as [->|Hne]; [right; left|].
      cbn [st1 as_done] in Hk. rewrite list_lookup_insert_ne in Hk by done.
      destruct (HP k y Hk Hy) as [Hf|Hf]; [left|right; by right]. by eapply fin_ext. }
    { intros k Hk. apply elem_of_cons in Hk as [->|Hk]; [by exists x|].
      destruct (HPx k Hk) as (y & Hy & Hyx). exists y. split; [done|]. by apply tc_rtc. }
    assert (Hcov : covers x fs st3).
    { intros t Ht Hxt. destruct (leftmost_inv _ _ _ Hxt) as (y & (ps' & a & b & Hp & Hq & Ha) & Hy).
      assert (ps' = ps) as -> by congruence. by apply (Hse _ Hq a y b t eq_refl Ha Ht Hy). }
    assert (Hemp : left_empty g x -> nf = true).
    { intros E. inversion E as [? ps' Hp Hq|? ps' y r Hp Hq Hy]; subst.
      - assert (ps' = ps) as -> by congruence. auto.
      - assert (ps' = ps) as -> by congruence. eauto. }
    split; [|done]. intros k y Hk Hy. destruct (decide (k = i)) as [->|Hne].
    - left. rewrite (nm_fun _ _ _ Hy Hi). split.
      + exists fs. split; [|done]. cbn [st3 as_firsts]. by apply list_lookup_insert.
      + intros E. cbn [st3 as_nil]. rewrite list_lookup_insert by done. f_equal. auto.
    - cbn [st3 as_done] in Hk. destruct (HP2 k y Hk Hy) as [[(f & Hf1 & Hf2) Hf3]|Hf].
      + left. split; [|cbn [st3 as_nil]; rewrite list_lookup_insert_ne by done; done].
        exists f. split; [cbn [st3 as_firsts]; by rewrite list_lookup_insert_ne|]. done.
      + apply elem_of_cons in Hf as [?|Hf]; [done|]. by right.
  Qed.
End M.
