(** What the order of a simple lexer's rules matters for. *)
From Coq Require Import String Lia.
From Verif.spec Require Import LexSpec LexOrderSpec.
From Verif.proofs Require Import Fuel SetProofs LexProofs LexProofs2 LexThms LexHist LexMain LexText LexWit.
Local Open Scope nat_scope.
Local Open Scope list_scope.

Definition same_piece (D1 D2 : list rdef) (x y : piece) : Prop :=
  match x, y with
  | Junk v, Junk w => v = w
  | Tok p v, Tok q w => v = w /\ exists d, D1 !! p = Some d /\ D2 !! q = Some d
  | _, _ => False
  end.
(** Both make the same choice at every place of [s]. *)
Definition agree (D1 D2 : list rdef) (s : gostring) : Prop := forall k,
  (forall p n d, best D1 (drop k s) p n -> D1 !! p = Some d -> exists q, best D2 (drop k s) q n /\ D2 !! q = Some d)
  /\ (stuck D1 (drop k s) <-> stuck D2 (drop k s)).
Lemma agree_drop D1 D2 s n : agree D1 D2 s -> agree D1 D2 (drop n s).
Proof. intros H k. rewrite drop_drop. apply H. Qed.
Lemma agree_tokenises D1 D2 s ps : tokenises D1 s ps -> agree D1 D2 s ->
  exists ps2, tokenises D2 s ps2 /\ Forall2 (same_piece D1 D2) ps ps2.
Proof.
  induction 1 as [|s p n ps Hb Hc IH|v s ps Hv Hst Hn Hc IH]; intros Ha.
  - exists []. split; constructor.
  - destruct (IH (agree_drop _ _ _ _ Ha)) as (ps2 & H2 & HF). destruct (Ha 0) as [H _]. rewrite drop_0 in H.
    destruct Hb as (Hpos & (d & Hd & Hm) & Hmax). destruct (H p n d) as (q & Hq & Hqd); [split_and!; eauto|done|].
    exists (Tok q (take n s) :: ps2). split; [by constructor|]. constructor; [|done]. split; [done|]. by exists d.
  - pose proof (agree_drop _ _ _ (length v) Ha) as Ha'. rewrite drop_app in Ha'. destruct (IH Ha') as (ps2 & H2 & HF).
    exists (Junk v :: ps2). split; [|by constructor]. constructor; [done| | |done].
    + intros k Hk. apply Ha. by apply Hst.
    + destruct Hn as [->|Hn]; [by left|right]. intros Hs. apply Hn. destruct (Ha' 0) as [_ H]. rewrite drop_0 in H. by apply H.
Qed.
Lemma same_text D1 D2 a b : Forall2 (same_piece D1 D2) a b -> text a = text b /\ tok_newlines a = tok_newlines b.
Proof.
  induction 1 as [|x y a b Hx H [IH1 IH2]]; [done|]. unfold text in *. cbn [flat_map]. rewrite IH1.
  change (tok_newlines (x :: a)) with (match x with Tok _ v => count_occ N.eq_dec v 10%N + tok_newlines a | Junk _ => tok_newlines a end).
  change (tok_newlines (y :: b)) with (match y with Tok _ v => count_occ N.eq_dec v 10%N + tok_newlines b | Junk _ => tok_newlines b end).
  rewrite IH2. destruct x, y; cbn in Hx; try done; [destruct Hx as [-> _]|subst]; done.
Qed.
Lemma same_emits D1 D2 err ps ps2 before before2 out : Forall2 (same_piece D1 D2) ps ps2 ->
  Forall2 (same_piece D1 D2) before before2 ->
  emits tok_newlines D1 err before ps out -> emits tok_newlines D2 err before2 ps2 out.
Proof.
  intros H. revert before before2 out. induction H as [|x y ps ps2 Hx H IH]; intros before before2 out Hb He.
  - inversion He; subst. constructor.
  - inversion He as [|? ? ? out1 rest Hs Hr]; subst. constructor.
    + destruct (same_text _ _ _ _ Hb) as [Ht Hl]. destruct x as [p v|v], y as [q w|w]; cbn in Hx; try done; cbn [shows] in *.
      * destruct Hx as [-> (d & H1 & H2)]. destruct Hs as (d' & Hd' & Hs). assert (d' = d) as -> by congruence. exists d. split; [done|].
        by rewrite <- Ht, <- Hl.
      * by subst.
    + eapply IH; [|done]. apply Forall2_app; [done|]. by constructor.
Qed.
Lemma lex_agree cs1 cs2 l1 l2 s xs l1' : adds_first cs1 -> regexps_in no_lookbehind cs1 -> st_length (settings_of cs1) = true ->
  adds_first cs2 -> regexps_in no_lookbehind cs2 -> settings_of cs1 = settings_of cs2 ->
  returns (sl_calls cs1 slexer_empty) l1 -> returns (sl_calls cs2 slexer_empty) l2 ->
  agree (rules_of cs1) (rules_of cs2) s ->
  returns (slex l1 s) (xs, l1') -> exists l2', returns (slex l2 s) (xs, l2').
Proof.
  intros Ha1 Hr1 Hm Ha2 Hr2 Hs Hl1 Hl2 Hag Hx.
  destruct (lex_longest cs1 l1 s Ha1 Hr1 Hm Hl1) as (l' & ps & pre & out & post & H1 & H2 & H3 & H4 & H5).
  rewrite Hs in Hm. destruct (lex_longest cs2 l2 s Ha2 Hr2 Hm Hl2) as (l2' & ps2 & pre2 & out2 & post2 & K1 & K2 & K3 & K4 & K5).
  pose proof (returns_fun _ _ _ Hx H1) as [= -> _]. exists l2'.
  destruct (agree_tokenises _ _ _ _ H4 Hag) as (ps2' & H6 & HF). rewrite (tokenises_unique _ _ _ _ Hr2 H6 K4) in HF.
  pose proof (same_emits _ _ _ _ _ [] [] _ HF ltac:(constructor) H5) as H7. rewrite Hs in H2, H3, H7.
  by rewrite (extra_fun _ _ _ H2 K2), (extra_fun _ _ _ H3 K3), (emits_fun _ _ _ _ _ _ H7 _ K5).
Qed.

(** * Order *)
Lemma kind_index D q q' d : NoDup (map rd_kind D) -> D !! q = Some d -> D !! q' = Some d -> q = q'.
Proof.
  intros Hn H1 H2. eapply NoDup_lookup; [done| |].
  - rewrite list_lookup_fmap, H1. reflexivity.
  - rewrite list_lookup_fmap, H2. reflexivity.
Qed.
Lemma order_agree D1 D2 s : NoDup (map rd_kind D2) -> (forall d, d ∈ D1 <-> d ∈ D2) -> no_ties D1 s -> agree D1 D2 s.
Proof.
  intros Hnd Hm Ht k. split.
  - intros p n d (Hpos & (d' & Hd' & Hat) & Hmax) Hd. assert (d' = d) as -> by congruence.
    assert (d ∈ D2) as Hd2 by (apply Hm; by eapply elem_of_list_lookup_2). apply elem_of_list_lookup_1 in Hd2 as [q Hq].
    exists q. split; [|done]. split; [done|]. split; [by exists d|]. intros q' e m Hq' Hat'.
    assert (e ∈ D1) as He by (apply Hm; by eapply elem_of_list_lookup_2).
    assert (Hle : forall f m', f ∈ D1 -> at_start (rd_re f) (drop k s) = Some m' -> m' <= n).
    { intros f m' (i & Hi)%elem_of_list_lookup_1 Hf. destruct (Hmax i f m' Hi Hf) as [?|[? _]]; lia. }
    destruct (decide (m = n)) as [->|Hne]; [|left; specialize (Hle e m He Hat'); lia]. right. split; [done|].
    assert (d = e) as <-. { eapply (Ht k); [by eapply elem_of_list_lookup_2|done|done|done|done|done]. }
    by rewrite (kind_index D2 q q' d).
  - split; intros H d n Hd; apply H; by apply Hm.
Qed.
Lemma lex_order cs1 cs2 l1 l2 s xs l1' : adds_first cs1 -> regexps_in no_lookbehind cs1 -> st_length (settings_of cs1) = true ->
  adds_first cs2 -> regexps_in no_lookbehind cs2 -> settings_of cs1 = settings_of cs2 ->
  returns (sl_calls cs1 slexer_empty) l1 -> returns (sl_calls cs2 slexer_empty) l2 ->
  (forall d, d ∈ rules_of cs1 <-> d ∈ rules_of cs2) -> no_ties (rules_of cs1) s ->
  returns (slex l1 s) (xs, l1') -> exists l2', returns (slex l2 s) (xs, l2').
Proof. intros. eapply (lex_agree cs1 cs2); try done. by apply order_agree; [apply rules_of_nodup|..]. Qed.

(** * Rules that never win *)
Lemma stuck_or_best D s : stuck D s \/ exists p n, best D s p n.
Proof.
  induction D as [|d D IH] using rev_ind; [left; intros d n Hd; inversion Hd|].
  assert (Hlast : forall q e, (D ++ [d]) !! q = Some e -> D !! q = Some e \/ (q = length D /\ e = d)).
  { intros q e H. apply lookup_app_Some in H as [H|[Hl H]]; [by left|right]. apply list_lookup_singleton_Some in H as [E ->]. split; [lia|done]. }
  assert (Hend : (D ++ [d]) !! length D = Some d) by (rewrite lookup_app_r, Nat.sub_diag by lia; done).
  destruct IH as [Hs|(p & n & Hpos & (e & He & Hat) & Hmax)].
  - destruct (at_start (rd_re d) s) as [[|m]|] eqn:E.
    + left. intros e n He Hn. apply elem_of_app in He as [He|He]; [by eapply Hs|]. apply elem_of_list_singleton in He as ->. congruence.
    + right. exists (length D), (S m). split; [lia|]. split; [by exists d|]. intros q e m' Hq Hat.
      apply Hlast in Hq as [Hq|[-> ->]]; [|right; split; [congruence|lia]]. left. apply elem_of_list_lookup_2 in Hq. rewrite (Hs e m' Hq Hat). lia.
    + left. intros e n He Hn. apply elem_of_app in He as [He|He]; [by eapply Hs|]. apply elem_of_list_singleton in He as ->. congruence.
  - right. assert (Hp : p < length D) by by eapply lookup_lt_Some.
    assert (Hkeep : (forall m, at_start (rd_re d) s = Some m -> m <= n) -> best (D ++ [d]) s p n).
    { intros Hle. split; [done|]. split; [exists e; split; [by apply lookup_app_l_Some|done]|]. intros q e' m Hq Hat'.
      apply Hlast in Hq as [Hq|[-> ->]]; [by eapply Hmax|]. specialize (Hle m Hat'). destruct (decide (m = n)) as [->|]; [right; split; [done|lia]|left; lia]. }
    destruct (at_start (rd_re d) s) as [m|] eqn:E; [|exists p, n; by apply Hkeep].
    destruct (le_lt_dec m n) as [Hle|Hlt]; [exists p, n; apply Hkeep; intros ? [= <-]; done|].
    exists (length D), m. split; [lia|]. split; [by exists d|]. intros q e' m' Hq Hat'.
    apply Hlast in Hq as [Hq|[-> ->]]; [|right; split; [congruence|lia]]. left. destruct (Hmax q e' m' Hq Hat') as [?|[? _]]; lia.
Qed.
Lemma unused_agree a d b s : (forall k n, ~ best (a ++ d :: b) (drop k s) (length a) n) -> agree (a ++ d :: b) (a ++ b) s.
Proof.
  intros Hno k. assert (Hup : forall q e, (a ++ b) !! q = Some e -> exists p, (a ++ d :: b) !! p = Some e /\ (p = q /\ q < length a \/ p = S q /\ length a <= q)).
  { intros q e H. apply lookup_app_Some in H as [H|[Hl H]].
    - exists q. split; [by apply lookup_app_l_Some|]. left. split; [done|by eapply lookup_lt_Some].
    - exists (S q). split; [|by right]. rewrite lookup_app_r by lia. by replace (S q - length a) with (S (q - length a)) by lia. }
  assert (Hdn : forall p n e, best (a ++ d :: b) (drop k s) p n -> (a ++ d :: b) !! p = Some e -> exists q, best (a ++ b) (drop k s) q n /\ (a ++ b) !! q = Some e).
  { intros p n e Hb He. destruct (decide (p = length a)) as [->|Hne]; [by apply Hno in Hb|].
    destruct Hb as (Hpos & (e' & He' & Hat) & Hmax). assert (e' = e) as -> by congruence.
    assert (exists q, (a ++ b) !! q = Some e /\ (p = q /\ q < length a \/ p = S q /\ length a <= q)) as (q & Hq & Hpq).
    { apply lookup_app_Some in He as [H|[Hl H]].
      - exists p. split; [by apply lookup_app_l_Some|]. left. split; [done|by eapply lookup_lt_Some].
      - exists (p - 1). split; [|right; lia]. rewrite lookup_app_r by lia. replace (p - length a) with (S (p - 1 - length a)) in H by lia. done. }
    exists q. split; [|done]. split; [done|]. split; [by exists e|]. intros q' f m Hq' Hat'. destruct (Hup q' f Hq') as (p' & Hp' & Hpq').
    destruct (Hmax p' f m Hp' Hat') as [?|[? ?]]; [by left|right]. split; [done|lia]. }
  split; [done|]. split.
  - intros H e n He. apply H. set_solver.
  - intros H. destruct (stuck_or_best (a ++ d :: b) (drop k s)) as [Hs|(p & n & Hb)]; [done|exfalso].
    pose proof Hb as (Hpos & (e & He & Hat) & _). destruct (Hdn p n e Hb He) as (q & Hq & Hqe).
    apply elem_of_list_lookup_2 in Hqe. specialize (H e n Hqe Hat). lia.
Qed.
Lemma lex_unused cs1 cs2 l1 l2 s xs l1' a d b : adds_first cs1 -> regexps_in no_lookbehind cs1 -> st_length (settings_of cs1) = true ->
  adds_first cs2 -> regexps_in no_lookbehind cs2 -> settings_of cs1 = settings_of cs2 ->
  returns (sl_calls cs1 slexer_empty) l1 -> returns (sl_calls cs2 slexer_empty) l2 ->
  rules_of cs1 = a ++ d :: b -> rules_of cs2 = a ++ b -> (forall k n, ~ best (rules_of cs1) (drop k s) (length a) n) ->
  returns (slex l1 s) (xs, l1') -> exists l2', returns (slex l2 s) (xs, l2').
Proof.
  intros Ha1 Hr1 Hm Ha2 Hr2 Hs Hl1 Hl2 E1 E2 Hno Hx. eapply (lex_agree cs1 cs2); try done. rewrite E1, E2. apply unused_agree. by rewrite <- E1.
Qed.

(** * Witnesses *)
Definition turned : list sl_call :=
  [CAdd (L "space") rx_space true; CAdd (L "num") rx_num false; CAdd (L "word") rx_word false; CAdd (L "if") rx_if false;
   CStart (L "begin") (L ""); CEnd (L "end") (L "$")].
Definition less : list sl_call :=
  [CAdd (L "word") rx_word false; CAdd (L "num") rx_num false;
   CAdd (L "space") rx_space true; CStart (L "begin") (L ""); CEnd (L "end") (L "$")].
Definition turned_lexer : slexer := match sl_calls turned slexer_empty 0 with Ok l => l | _ => slexer_empty end.
Definition less_lexer : slexer := match sl_calls less slexer_empty 0 with Ok l => l | _ => slexer_empty end.
Definition iffy : gostring := L "iffy 12".
Lemma turned_ok : adds_first turned /\ regexps_in no_lookbehind turned /\ returns (sl_calls turned slexer_empty) turned_lexer.
Proof.
  split_and!.
  - apply no_lex_adds_first. intros s. unfold turned. rewrite !elem_of_cons, elem_of_nil. intros H. repeat destruct H as [H|H]; done.
  - intros k r d H. unfold turned in H. rewrite !elem_of_cons, elem_of_nil in H. repeat destruct H as [H|H]; try done; injection H as -> -> ->; apply rx_of_ok.
  - exists 0. intros f _. vm_compute. reflexivity.
Qed.
Lemma less_ok : adds_first less /\ regexps_in no_lookbehind less /\ returns (sl_calls less slexer_empty) less_lexer.
Proof.
  split_and!.
  - apply no_lex_adds_first. intros s. unfold less. rewrite !elem_of_cons, elem_of_nil. intros H. repeat destruct H as [H|H]; done.
  - intros k r d H. unfold less in H. rewrite !elem_of_cons, elem_of_nil in H. repeat destruct H as [H|H]; try done; injection H as -> -> ->; apply rx_of_ok.
  - exists 0. intros f _. vm_compute. reflexivity.
Qed.
Lemma turned_rules : rules_of turned = [RDef (L "space") rx_space true; RDef (L "num") rx_num false; RDef (L "word") rx_word false; RDef (L "if") rx_if false].
Proof. vm_compute. reflexivity. Qed.
Lemma places k : drop k iffy ∈ [L "iffy 12"; L "ffy 12"; L "fy 12"; L "y 12"; L " 12"; L "12"; L "2"; []].
Proof.
  do 7 (destruct k as [|k]; [rewrite !elem_of_cons; vm_compute; tauto|]).
  replace (drop _ iffy) with (@nil N); [rewrite !elem_of_cons; tauto|]. destruct k; reflexivity.
Qed.
Lemma iffy_no_ties : no_ties (rules_of demo) iffy.
Proof.
  intros k d e n Hd He. generalize (places k). generalize (drop k iffy). intros w Hw H1 H2 Hn _. rewrite demo_rules in Hd, He.
  rewrite !elem_of_cons, elem_of_nil in Hd. rewrite !elem_of_cons, elem_of_nil in He. rewrite !elem_of_cons, elem_of_nil in Hw.
  destruct Hd as [->|[->|[->|[->|[]]]]], He as [->|[->|[->|[->|[]]]]]; try reflexivity; exfalso;
    destruct Hw as [->|[->|[->|[->|[->|[->|[->|[->|[]]]]]]]]]; vm_compute in H1, H2; congruence.
Qed.
Lemma order_example : adds_first demo /\ regexps_in no_lookbehind demo /\ st_length (settings_of demo) = true
  /\ adds_first turned /\ regexps_in no_lookbehind turned /\ settings_of demo = settings_of turned
  /\ returns (sl_calls demo slexer_empty) demo_lexer /\ returns (sl_calls turned slexer_empty) turned_lexer
  /\ (forall d, d ∈ rules_of demo <-> d ∈ rules_of turned) /\ no_ties (rules_of demo) iffy
  /\ exists l, returns (slex demo_lexer iffy) ([LTok (Lx (L "begin") [] (-1) 0); LTok (Lx (L "word") (L "iffy") 0 1); LTok (Lx (L "num") (L "12") 0 6);
       LTok (Lx (L "end") (L "$") (-1) 0)], l).
Proof.
  destruct turned_ok as (H1 & H2 & H3).
  split_and!; [apply demo_first|apply demo_regexps|done|done|done|done|apply demo_returns|done| |apply iffy_no_ties|].
  - intros d. rewrite demo_rules, turned_rules, !elem_of_cons. tauto.
  - eexists. apply (slex_returns _ _ 20). vm_compute. reflexivity.
Qed.
Lemma ties_matter : exists cs1 cs2 l1 l2 s xs1 xs2 l1' l2', adds_first cs1 /\ regexps_in no_lookbehind cs1 /\ st_length (settings_of cs1) = true
  /\ adds_first cs2 /\ regexps_in no_lookbehind cs2 /\ settings_of cs1 = settings_of cs2
  /\ returns (sl_calls cs1 slexer_empty) l1 /\ returns (sl_calls cs2 slexer_empty) l2
  /\ (forall d, d ∈ rules_of cs1 <-> d ∈ rules_of cs2)
  /\ returns (slex l1 s) (xs1, l1') /\ returns (slex l2 s) (xs2, l2') /\ xs1 <> xs2.
Proof.
  destruct order_example as (H1 & H2 & H3 & H4 & H5 & H6 & H7 & H8 & H9 & _).
  eexists demo, turned, demo_lexer, turned_lexer, (L "if"), _, _, _, _.
  do 9 (split; [done|]). split; [apply (slex_returns _ _ 20); vm_compute; reflexivity|]. split; [apply (slex_returns _ _ 20); vm_compute; reflexivity|].
  vm_compute. discriminate.
Qed.
Lemma unused_example : adds_first demo /\ regexps_in no_lookbehind demo /\ st_length (settings_of demo) = true
  /\ adds_first less /\ regexps_in no_lookbehind less /\ settings_of demo = settings_of less
  /\ returns (sl_calls demo slexer_empty) demo_lexer /\ returns (sl_calls less slexer_empty) less_lexer
  /\ rules_of demo = [] ++ RDef (L "if") rx_if false :: rules_of less /\ rules_of less = [] ++ rules_of less
  /\ (exists n, at_start rx_if iffy = Some n /\ 0 < n) /\ forall k n, ~ best (rules_of demo) (drop k iffy) 0 n.
Proof.
  destruct less_ok as (H1 & H2 & H3).
  split_and!; [apply demo_first|apply demo_regexps|done|done|done|done|apply demo_returns|done|vm_compute; reflexivity|done|exists 2; split; [vm_compute; reflexivity|lia]|].
  intros k n. generalize (places k). generalize (drop k iffy). intros w Hw (Hpos & (d & Hd & Hat) & Hmax). rewrite demo_rules in Hd, Hmax. injection Hd as <-.
  rewrite !elem_of_cons, elem_of_nil in Hw. destruct Hw as [->|Hw].
  - vm_compute in Hat. injection Hat as <-. destruct (Hmax 1 _ 4 eq_refl ltac:(vm_compute; reflexivity)) as [?|[? _]]; lia.
  - destruct Hw as [->|[->|[->|[->|[->|[->|[->|[]]]]]]]]; vm_compute in Hat; discriminate.
Qed.
