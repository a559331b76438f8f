(** Cuttings when regexps do not look behind. *)
From Coq Require Import Lia.
From Verif.spec Require Import StackSpec.
From Verif.proofs Require Import Fuel SetProofs LexProofs StackProofs StackProofs2 StackCuts.

(** * Searching from different places *)
Lemma shift_shift a c m : sshift a (sshift c m) = sshift (a + c) m.
Proof.
  unfold sshift. cbn [sm_i sm_j sm_groups]. rewrite !Nat.add_assoc. f_equal. rewrite map_map.
  apply map_ext. intros [[x y]|]; [|done]. by rewrite !Nat.add_assoc.
Qed.
Lemma shift_0 m : sshift 0 m = m.
Proof. destruct m as [i j g]. unfold sshift. cbn. f_equal. rewrite <- (map_id g) at 2. apply map_ext. intros [[x y]|]; done. Qed.
Lemma shift_inj k m m' : sshift k m = sshift k m' -> m = m'.
Proof.
  destruct m as [i j g], m' as [i' j' g']. unfold sshift. cbn. intros [= H1 H2 H3]. f_equal; [lia|lia|].
  revert g' H3. induction g as [|x g IH]; intros [|y g'] H3; try done. cbn in H3. injection H3 as Hx Hg. f_equal; [|auto].
  destruct x as [[? ?]|], y as [[? ?]|]; try done. injection Hx as ? ?. do 2 f_equal; lia.
Qed.
Lemma at_match_i r s m : at_match r s = Some m -> sm_i m = 0 /\ sx_find r s = Some m.
Proof. unfold at_match. destruct (sx_find r s) as [m'|]; [|done]. destruct (sm_i m') eqn:E; [|done]. intros [= <-]. done. Qed.

Section Rx.
Context (r : sregexp) (b : gostring).
Hypothesis Hr : s_no_lookbehind r.
Lemma find_at e m : sx_find r (drop e b) = Some m -> e <= length b ->
  exists m0, at_match r (drop (e + sm_i m) b) = Some m0 /\ m = sshift (sm_i m) m0 /\ e + sm_i m <= length b.
Proof.
  intros H He. destruct Hr as [Hw Hs]. specialize (Hs (drop e b)). rewrite H in Hs. destruct Hs as [(m0 & H1 & H2) _].
  pose proof (Hw _ _ H) as [Hij _]. rewrite drop_length in Hij. rewrite drop_drop in H1. exists m0. split; [done|]. split; [done|]. lia.
Qed.
Lemma find_before e m k : sx_find r (drop e b) = Some m -> e <= k < e + sm_i m -> at_match r (drop k b) = None.
Proof.
  intros H Hk. destruct Hr as [_ Hs]. specialize (Hs (drop e b)). rewrite H in Hs. destruct Hs as [_ Hn].
  specialize (Hn (k - e) ltac:(lia)). rewrite drop_drop in Hn. replace (e + (k - e)) with k in Hn by lia. done.
Qed.
Lemma find_none e k : sx_find r (drop e b) = None -> e <= k <= length b -> at_match r (drop k b) = None.
Proof.
  intros H Hk. destruct Hr as [_ Hs]. specialize (Hs (drop e b)). rewrite H in Hs.
  specialize (Hs (k - e)). rewrite drop_length, drop_drop in Hs. replace (e + (k - e)) with k in Hs by lia. apply Hs. lia.
Qed.
(** A match further on is also found when searching from there on. *)
Lemma find_later e e' m : sx_find r (drop e b) = Some m -> e <= e' <= e + sm_i m -> e' <= length b ->
  exists m', sx_find r (drop e' b) = Some m' /\ sshift e' m' = sshift e m.
Proof.
  intros H He Hb. destruct (find_at e m H ltac:(lia)) as (m0 & H1 & H2 & H3).
  destruct (sx_find r (drop e' b)) as [m'|] eqn:E'.
  - exists m'. split; [done|]. destruct (find_at e' m' E' ltac:(lia)) as (m0' & H1' & H2' & H3').
    assert (e' + sm_i m' = e + sm_i m) as Heq.
    { destruct (lt_eq_lt_dec (e' + sm_i m') (e + sm_i m)) as [[Hlt|Heq]|Hgt]; [|done|].
      - assert (at_match r (drop (e' + sm_i m') b) = None) by (eapply find_before; [exact H|lia]). congruence.
      - assert (at_match r (drop (e + sm_i m) b) = None) by (eapply find_before; [exact E'|lia]). congruence. }
    rewrite Heq in H1'. assert (m0' = m0) as -> by congruence.
    rewrite H2', H2, !shift_shift. by rewrite Heq.
  - exfalso. assert (at_match r (drop (e + sm_i m) b) = None) by (eapply find_none; [exact E'|lia]). congruence.
Qed.
Lemma find_none_later e e' : sx_find r (drop e b) = None -> e <= e' <= length b -> sx_find r (drop e' b) = None.
Proof.
  intros H He. destruct (sx_find r (drop e' b)) as [m'|] eqn:E'; [|done]. exfalso.
  destruct (find_at e' m' E' ltac:(lia)) as (m0' & H1' & _ & H3').
  assert (at_match r (drop (e' + sm_i m') b) = None) by (eapply find_none; [exact H|lia]). congruence.
Qed.
(** A match at [k] is found when searching from any place before it, unless there is one
    before. *)
Lemma match_found e k m : at_match r (drop k b) = Some m -> e <= k <= length b ->
  exists m', sx_find r (drop e b) = Some m' /\ e + sm_i m' <= k.
Proof.
  intros H Hk. destruct (sx_find r (drop e b)) as [m'|] eqn:E.
  - exists m'. split; [done|]. destruct (decide (e + sm_i m' <= k)); [done|]. exfalso.
    assert (at_match r (drop k b) = None) by (eapply find_before; [exact E|lia]). congruence.
  - exfalso. assert (at_match r (drop k b) = None) by (eapply find_none; [exact E|lia]). congruence.
Qed.
End Rx.

Lemma value_shift d s k m : value_of d (drop k s) m = value_of d s (sshift k m).
Proof.
  unfold value_of. destruct (sd_subs d) as [|x xs]; [apply cut_drop|].
  generalize (x :: xs). intros ys. induction ys as [|y ys IH]; [done|]. cbn [flat_map]. rewrite IH. f_equal.
  unfold part. destruct (_ =? _)%Z; [done|]. destruct (_ =? _)%Z; [apply cut_drop|].
  cbn [sshift sm_groups]. rewrite list_lookup_fmap. destruct (sm_groups m !! _) as [[[? ?]|]|]; cbn; [apply cut_drop|done|done].
Qed.

Section Cuts.
Context (env : gostring -> option (list sdef)) (bl : bool) (b : gostring).
Definition good (D : list sdef) : Prop := forall d, d ∈ D -> s_no_lookbehind (sd_re d).
Hypothesis good_env : forall n D, env n = Some D -> good D.
Lemma good_wf D d : good D -> d ∈ D -> s_well_formed (sd_re d).
Proof. intros H Hd. apply (H d Hd). Qed.

(** The table holds for each rule the first match from [e] on; matches at [e] were searched
    for there. *)
Definition fresh_at (e : nat) (D : list sdef) (C : cache) : Prop :=
  length C = length D /\
  forall p d, D !! p = Some d ->
    match C !! p with
    | Some (Some x) => snd x <= e /\ (sm_i (fst x) + snd x = e -> snd x = e)
         /\ exists m, sx_find (sd_re d) (drop e b) = Some m /\ sshift e m = sshift (snd x) (fst x)
    | Some None => sx_find (sd_re d) (drop e b) = None
    | None => False
    end.
Lemma gfresh_fresh cur D : fresh_at cur D (gfresh b cur D).
Proof.
  split; [apply map_length|]. intros p d Hd. unfold gfresh. rewrite list_lookup_fmap, Hd. cbn. unfold gsearch.
  destruct (sx_find _ _) as [m|] eqn:E; cbn; [|done]. split; [done|]. split; [done|]. eauto.
Qed.
Lemma gupdate_fresh e e' D C : good D -> fresh_at e D C -> e <= e' -> e' <= length b -> fresh_at e' D (gupdate b e' D C).
Proof.
  intros Hg [Hl H] He Hb. split. { unfold gupdate. rewrite zip_with_length. lia. }
  intros p d Hd. specialize (H p d Hd). unfold gupdate. rewrite lookup_zip_with, Hd. cbn.
  assert (Hn : s_no_lookbehind (sd_re d)) by (apply Hg; eapply elem_of_list_lookup_2; eauto).
  destruct (C !! p) as [[[m off]|]|]; [|cbn|done].
  - cbn [fst snd] in H. cbn. destruct H as (H1 & H2 & m' & H3 & H4).
    assert (Hi : e + sm_i m' = off + sm_i m) by (apply (f_equal sm_i) in H4; exact H4).
    destruct (Nat.leb_spec (sm_i m + off) e').
    + unfold gsearch. destruct (sx_find (sd_re d) (drop e' b)) as [m2|] eqn:E2; cbn [fst snd]; [|done].
      split; [done|]. split; [done|]. exists m2. done.
    + cbn. split; [lia|]. split; [lia|].
      destruct (find_later _ b Hn e e' m' H3 ltac:(lia) Hb) as (m2 & E2 & S2). exists m2. split; [done|]. congruence.
  - eapply find_none_later; eauto.
Qed.

(** Candidates at [cur]. *)
Lemma gat_matches e cur D C p x d : good D -> fresh_at e D C -> e <= cur <= length b -> gat C cur p x -> D !! p = Some d ->
  exists m, matches D (drop cur b) p m /\ sshift cur m = sshift (snd x) (fst x).
Proof.
  intros Hg [_ H] Hc [Hp Hi] Hd. specialize (H p d Hd). rewrite Hp in H. destruct H as (H1 & H2 & m' & H3 & H4).
  assert (Hn : s_no_lookbehind (sd_re d)) by (apply Hg; eapply elem_of_list_lookup_2; eauto).
  assert (Hi' : e + sm_i m' = snd x + sm_i (fst x)) by (apply (f_equal sm_i) in H4; exact H4).
  destruct (find_at _ b Hn e m' H3 ltac:(lia)) as (m0 & A & B & _).
  exists m0. replace (e + sm_i m') with cur in A by lia. split; [exists d; done|].
  rewrite <- H4, B, shift_shift. f_equal. destruct (at_match_i _ _ _ A) as [Hz _]. rewrite B in Hi'. cbn in Hi'. rewrite Hz in Hi'. lia.
Qed.
Lemma matches_gat cur D C p m : good D -> fresh_at cur D C -> cur <= length b -> matches D (drop cur b) p m ->
  exists x, gat C cur p x /\ snd x = cur /\ fst x = m.
Proof.
  intros Hg [_ H] Hc (d & Hd & Hm). specialize (H p d Hd). destruct (at_match_i _ _ _ Hm) as [Hi Hf].
  destruct (C !! p) as [[x|]|] eqn:Ep; [|congruence|done]. destruct H as (H1 & H2 & m' & H3 & H4).
  assert (m' = m) as -> by congruence.
  assert (Hi' : cur + sm_i m = snd x + sm_i (fst x)) by (apply (f_equal sm_i) in H4; exact H4).
  assert (Hs : snd x = cur) by (apply H2; lia). exists x. split; [split; [done|lia]|]. split; [done|].
  rewrite Hs in H4. symmetry. by eapply shift_inj.
Qed.
Lemma gat_off cur D C p x d : fresh_at cur D C -> gat C cur p x -> D !! p = Some d -> snd x = cur.
Proof. intros [_ H] [Hp Hi] Hd. specialize (H p d Hd). rewrite Hp in H. apply H. done. Qed.
Lemma gat_rule (D : list sdef) C cur p x : length C = length D -> gat C cur p x -> exists d, D !! p = Some d.
Proof. intros Hl [Hp _]. apply lookup_lt_Some in Hp. rewrite Hl in Hp. by apply lookup_lt_is_Some_2 in Hp. Qed.

Lemma gpick_preferred cur D C p x : good D -> fresh_at cur D C -> cur <= length b -> gpick bl C cur p x ->
  preferred bl D (drop cur b) p (fst x) /\ snd x = cur.
Proof.
  intros Hg Hf Hc [Hp Hb]. destruct (gat_rule D C cur p x (proj1 Hf) Hp) as [d Hd].
  assert (Ho := gat_off _ _ _ _ _ _ Hf Hp Hd). destruct (gat_matches cur cur D C p x d Hg Hf ltac:(lia) Hp Hd) as (m & Hm & Hs).
  rewrite Ho in Hs. apply shift_inj in Hs as ->. split; [|done]. split; [done|].
  intros q m' Hm'. destruct (matches_gat cur D C q m' Hg Hf Hc Hm') as (y & Hy & _ & <-).
  specialize (Hb _ _ Hy). unfold gbetter in Hb. exact Hb.
Qed.
Lemma preferred_gpick cur D C p m : good D -> fresh_at cur D C -> cur <= length b -> preferred bl D (drop cur b) p m ->
  exists x, gpick bl C cur p x /\ snd x = cur /\ fst x = m.
Proof.
  intros Hg Hf Hc [Hm Hb]. destruct (matches_gat cur D C p m Hg Hf Hc Hm) as (x & Hx & Ho & <-).
  exists x. split; [|done]. split; [done|]. intros q y Hy. destruct (gat_rule D C cur q y (proj1 Hf) Hy) as [d Hd].
  destruct (gat_matches cur cur D C q y d Hg Hf ltac:(lia) Hy Hd) as (m & Hm' & Hs).
  rewrite (gat_off _ _ _ _ _ _ Hf Hy Hd) in Hs. apply shift_inj in Hs as ->. specialize (Hb _ _ Hm'). exact Hb.
Qed.
Lemma gidle_idle cur D C : good D -> fresh_at cur D C -> cur <= length b -> gidle bl C cur -> idle bl D (drop cur b).
Proof.
  intros Hg Hf Hc Hi p m Hp. destruct (preferred_gpick cur D C p m Hg Hf Hc Hp) as (x & Hx & Ho & <-).
  specialize (Hi _ _ Hx). unfold gend in Hi. lia.
Qed.

Lemma best_exists C cur : (exists p x, gat C cur p x) -> exists p x, gpick bl C cur p x.
Proof.
  assert (H : forall n, (forall p x, p < n -> ~ gat C cur p x) \/ exists p x, gat C cur p x /\ forall q y, q < n -> gat C cur q y -> gbetter bl x p y q).
  { induction n as [|n IH]; [left; lia|].
    assert (Hd : (exists x, gat C cur n x) \/ forall x, ~ gat C cur n x).
    { destruct (C !! n) as [[x|]|] eqn:E.
      - destruct (decide (sm_i (fst x) + snd x = cur)); [left; exists x; done|]. right. intros y [Hy ?]. congruence.
      - right. intros y [Hy ?]. congruence.
      - right. intros y [Hy ?]. congruence. }
    destruct Hd as [[x Hx]|Hno].
    - right. destruct IH as [IH | (p & y & Hy & Hb)].
      + exists n, x. split; [done|]. intros q z Hq Hz. destruct (decide (q = n)) as [->|]; [|destruct (IH q z); [lia|done]].
        destruct Hx as [Hx _], Hz as [Hz _]. assert (z = x) as -> by congruence. unfold gbetter. destruct bl; lia.
      + assert (Hc : gbetter bl y p x n \/ gbetter bl x n y p). { unfold gbetter. destruct bl; lia. }
        destruct Hc as [Hc|Hc].
        * exists p, y. split; [done|]. intros q z Hq Hz. destruct (decide (q = n)) as [->|]; [|apply Hb; [lia|done]].
          destruct Hx as [Hx _], Hz as [Hz _]. assert (z = x) as -> by congruence. done.
        * exists n, x. split; [done|]. intros q z Hq Hz. destruct (decide (q = n)) as [->|].
          -- destruct Hx as [Hx _], Hz as [Hz _]. assert (z = x) as -> by congruence. unfold gbetter. destruct bl; lia.
          -- specialize (Hb q z ltac:(lia) Hz). unfold gbetter in *. destruct bl; lia.
    - destruct IH as [IH | (p & y & Hy & Hb)].
      + left. intros p x Hp. destruct (decide (p = n)) as [->|]; [done|]. apply IH. lia.
      + right. exists p, y. split; [done|]. intros q z Hq Hz. destruct (decide (q = n)) as [->|]; [by destruct (Hno z)|]. apply Hb; [lia|done]. }
  intros (p & x & Hx). destruct (H (length C)) as [Hno | (q & y & Hy & Hb)].
  - destruct (Hno p x); [|done]. destruct Hx as [Hx _]. by apply lookup_lt_Some in Hx.
  - exists q, y. split; [done|]. intros q' z Hz. apply Hb; [|done]. destruct Hz as [Hz _]. by apply lookup_lt_Some in Hz.
Qed.

(** Positions passed over. *)
Definition blank_at (D : list sdef) (e k : nat) : Prop :=
  (exists j q m, e <= j <= k /\ matches D (drop j b) q m /\ sm_j m = 0) \/ forall q m, ~ matches D (drop k b) q m.
Lemma gidle_blank e cur D C : good D -> fresh_at e D C -> e <= cur <= length b -> gidle bl C cur ->
  (forall k, e <= k < cur -> blank_at D e k) -> blank_at D e cur.
Proof.
  intros Hg Hf Hc Hi Hk.
  destruct (existsb (fun x : option sloc => match x with Some x => sm_i (fst x) + snd x =? cur | None => false end) C) eqn:Hex.
  { left. apply existsb_exists in Hex as (x & Hx & Hxc). destruct x as [x|]; [|done]. apply Nat.eqb_eq in Hxc.
    apply elem_of_list_In, elem_of_list_lookup in Hx as [q Hq].
    destruct (best_exists C cur) as (p & y & Hy); [exists q, x; done|].
    destruct (gat_rule D C cur p y (proj1 Hf) (proj1 Hy)) as [d Hd].
    destruct (gat_matches e cur D C p y d Hg Hf Hc (proj1 Hy) Hd) as (m & Hm & Hs).
    exists cur, p, m. split; [lia|]. split; [done|]. specialize (Hi _ _ Hy). unfold gend in Hi.
    apply (f_equal sm_j) in Hs. cbn in Hs. lia. }
  destruct (existsb (fun d => match at_match (sd_re d) (drop cur b) with Some _ => true | None => false end) D) eqn:Hm.
  2: { right. intros q m (d & Hd & Hdm). rewrite <- not_true_iff_false in Hm. apply Hm. apply existsb_exists.
    exists d. split; [eapply elem_of_list_In, elem_of_list_lookup_2; eauto|]. by rewrite Hdm. }
  apply existsb_exists in Hm as (d & Hd & Hdm). apply elem_of_list_In, elem_of_list_lookup in Hd as [q Hq].
  destruct (at_match (sd_re d) (drop cur b)) as [m|] eqn:Em; [|done]. clear Hdm.
  assert (Hn : s_no_lookbehind (sd_re d)) by (apply Hg; eapply elem_of_list_lookup_2; eauto).
  destruct (match_found _ b Hn e cur m Em Hc) as (m' & Hm' & Hle).
  destruct (decide (e + sm_i m' = cur)) as [He|He].
  - exfalso. rewrite <- not_true_iff_false in Hex. apply Hex. apply existsb_exists. destruct Hf as [_ Hf]. specialize (Hf q d Hq).
    destruct (C !! q) as [[x|]|] eqn:Ec; [|congruence|done]. exists (Some x).
    split; [eapply elem_of_list_In, elem_of_list_lookup_2; eauto|]. apply Nat.eqb_eq.
    destruct Hf as (_ & _ & m2 & H1 & H2). assert (m2 = m') as -> by congruence. apply (f_equal sm_i) in H2. cbn in H2. lia.
  - destruct (find_at _ b Hn e m' Hm' ltac:(lia)) as (m0 & A & _ & _).
    destruct (Hk (e + sm_i m') ltac:(lia)) as [(j & p & m2 & Hj & H1 & H2) | Hno].
    + left. exists j, p, m2. split; [lia|done].
    + exfalso. apply (Hno q m0). exists d. done.
Qed.

Lemma passed_ok D S v s e cur : drop e b = v ++ s -> length v = cur - e -> e <= cur <= length b ->
  (e = cur \/ (S = [] /\ idle bl D (drop e b) /\ forall k, e <= k < cur -> blank_at D e k)) -> passed bl D S v s.
Proof.
  intros E Hv Hc [-> | (-> & Hi & Hb)]; [left; destruct v; [done|cbn in Hv; lia]|].
  right. split; [done|]. rewrite <- E. split; [done|].
  intros k Hk. rewrite <- E. setoid_rewrite drop_drop.
  destruct (Hb (e + k) ltac:(lia)) as [(j & q & m & Hj & H1 & H2) | Hno].
  - left. exists (j - e), q, m. split; [lia|]. replace (e + (j - e)) with j by lia. done.
  - right. exact Hno.
Qed.

Lemma scuts_tok_parts D S C run cur p x d : good D -> cur <= length b ->
  (forall e, run = Some e -> e < cur /\ S = [] /\ idle bl D (drop e b) /\ forall k, e <= k < cur -> blank_at D e k) ->
  fresh_at (default cur run) D C -> gpick bl C cur p x -> D !! p = Some d -> gend x <> cur ->
  exists m, let v := run_text b run cur in let w := cut b cur (gend x) in let s := drop (gend x) b in
    drop (default cur run) b = v ++ w ++ s /\ w <> [] /\ passed bl D S v (w ++ s) /\ taken bl D v (w ++ s) p m
    /\ sm_j m = length w /\ gval b d x = value_of d (w ++ s) m /\ cur < gend x <= length b.
Proof.
  intros Hg Hc Hrun Hf Hp Hd He. set (e := default cur run) in *.
  assert (Hec : e <= cur). { unfold e. destruct run as [e'|]; cbn; [|done]. destruct (Hrun e' eq_refl). lia. }
  destruct (gat_matches e cur D C p x d Hg Hf ltac:(lia) (proj1 Hp) Hd) as (m & Hm & Hs).
  assert (Hend : gend x = cur + sm_j m). { unfold gend. apply (f_equal sm_j) in Hs. cbn in Hs. lia. }
  assert (Hle : cur + sm_j m <= length b).
  { destruct Hm as (d' & Hd' & Hm). destruct (at_match_i _ _ _ Hm) as [_ Hx].
    pose proof (good_wf D d' Hg ltac:(eapply elem_of_list_lookup_2; eauto) _ _ Hx) as [Hw _]. rewrite drop_length in Hw. lia. }
  exists m. cbn zeta. rewrite Hend in *. unfold e.
  assert (Hrun' : forall e, run = Some e -> e < cur) by (intros e' He'; apply Hrun; done).
  assert (Hsplit : cut b cur (cur + sm_j m) ++ drop (cur + sm_j m) b = drop cur b) by (symmetry; apply cut_drop_app; lia).
  rewrite Hsplit.
  assert (Hdrop : drop (default cur run) b = run_text b run cur ++ drop cur b).
  { rewrite (run_split b run cur (cur + sm_j m)) by (done || lia). by rewrite Hsplit. }
  assert (Hlen : length (run_text b run cur) = cur - e).
  { rewrite run_cut by done. apply cut_length; [exact Hec|lia]. }
  split; [done|]. split. { intros Hw. apply (f_equal length) in Hw. rewrite cut_length in Hw by lia. cbn in Hw. lia. }
  split. { eapply passed_ok; [exact Hdrop|exact Hlen|unfold e in Hec; lia|].
    destruct run as [e'|]; [|by left]. right. cbn. destruct (Hrun e' eq_refl) as (_ & H). exact H. }
  split.
  { unfold taken. destruct (run_text b run cur) as [|z zs] eqn:Ev; [|done].
    assert (e = cur) as Hecur by (cbn in Hlen; lia). rewrite Hecur in Hf.
    destruct (gpick_preferred cur D C p x Hg Hf Hc Hp) as [Hpr Ho]. rewrite Ho in Hs. apply shift_inj in Hs as ->. done. }
  split; [rewrite cut_length by lia; lia|]. split; [|lia].
  unfold gval. rewrite !value_shift. by rewrite Hs.
Qed.

Lemma gcuts_scuts D S C run cur ps ok : gcuts env bl b D S C run cur ps ok ->
  good D -> Forall good S -> cur <= length b -> (b <> [] -> cur < length b) ->
  (forall e, run = Some e -> e < cur /\ S = [] /\ idle bl D (drop e b) /\ forall k, e <= k < cur -> blank_at D e k) ->
  fresh_at (default cur run) D C ->
  scuts env bl D S (drop (default cur run) b) ps ok.
Proof.
  induction 1 as [D C run cur Hi He | D C run cur ps ok Hi He _ IH | D D' S' C run cur ps ok Hi _ IH
    | D S C run cur p x d Hp Hd He Hb | D S C run cur p x d Hp Hd He Hb Hf
    | D S C run cur p x d ps ok Hp Hd He Hb Hpo Hpu _ IH | D S C run cur p x d D' S' ps ok Hp Hd He Hb Hpu Hm _ IH];
    intros HD HS Hcur Hcur' Hrun HC.
  - destruct (decide (b = [])) as [->|Hb].
    { cbn [length] in *. unfold cut. rewrite drop_nil, take_nil. constructor. }
    specialize (Hcur' Hb). set (e := default cur run) in *.
    assert (Hec : e <= cur). { unfold e. destruct run as [e'|]; cbn; [|done]. destruct (Hrun e' eq_refl). lia. }
    assert (Hcut : cut b e (length b) = drop e b). { unfold cut. apply take_ge. rewrite drop_length. lia. }
    rewrite Hcut. assert (Hne : drop e b <> []). { intros H. apply (f_equal length) in H. rewrite drop_length in H. cbn in H. lia. }
    destruct (drop e b) as [|z zs] eqn:Ed; [done|]. cbn [junk]. rewrite <- Ed in *. apply sc_junk; [done|].
    eapply (passed_ok D [] (drop e b) [] e (length b)); [by rewrite app_nil_r|by rewrite drop_length|lia|].
    right. split; [done|].
    assert (Hcase : idle bl D (drop e b) /\ forall k, e <= k < cur -> blank_at D e k).
    { unfold e in *. destruct run as [e'|]; cbn in *.
      - destruct (Hrun e' eq_refl) as (_ & _ & H). exact H.
      - split; [by eapply gidle_idle|]. intros; lia. }
    destruct Hcase as [H1 H2]. split; [done|]. intros k Hk. destruct (decide (k < cur)); [apply H2; lia|].
    assert (k = cur) as -> by lia. eapply gidle_blank; eauto.
  - set (e := default cur run) in *. cbn [default from_option id] in IH.
    assert (Hec : e <= cur). { unfold e. destruct run as [e'|]; cbn; [|done]. destruct (Hrun e' eq_refl). lia. }
    assert (Hcase : idle bl D (drop e b) /\ forall k, e <= k < cur -> blank_at D e k).
    { unfold e in *. destruct run as [e'|]; cbn in *.
      - destruct (Hrun e' eq_refl) as (_ & _ & H). exact H.
      - split; [by eapply gidle_idle|]. intros; lia. }
    destruct Hcase as [H1 H2]. apply IH; [done|done|lia|lia| |done].
    intros e' [= <-]. split; [lia|]. split; [done|]. split; [done|]. intros k Hk. destruct (decide (k < cur)); [apply H2; lia|].
    assert (k = cur) as -> by lia. eapply gidle_blank; eauto.
  - assert (run = None) as ->. { destruct run as [e'|]; [|done]. destruct (Hrun e' eq_refl) as (_ & ? & _). done. }
    cbn [default from_option id] in *. apply Forall_cons in HS as [HD' HS'].
    destruct (decide (b = [])) as [Hb|Hb].
    { assert (IH' : scuts env bl D' S' (drop cur b) ps ok) by (apply IH; try done; apply gfresh_fresh).
      assert (Hnil : drop cur b = []) by (rewrite Hb; apply drop_nil). rewrite Hnil in *. inversion IH'; subst; try done.
      - constructor.
      - exfalso. destruct v; [|done]. cbn in *. done.
      - exfalso. destruct v; [|done]. destruct w; done.
      - exfalso. destruct v; [|done]. destruct w; done. }
    apply sc_leave.
    + specialize (Hcur' Hb). intros H. apply (f_equal length) in H. rewrite drop_length in H. cbn in H. lia.
    + by eapply gidle_idle.
    + apply IH; try done. apply gfresh_fresh.
  - destruct (scuts_tok_parts D S C run cur p x d HD Hcur Hrun HC Hp Hd He) as (m & H1 & H2 & H3 & H4 & H5 & H6 & H7). cbn zeta in *.
    rewrite H1, H6. rewrite (drop_ge b) in * by lia. rewrite app_nil_r in *. eapply sc_last; eauto.
  - destruct (scuts_tok_parts D S C run cur p x d HD Hcur Hrun HC Hp Hd He) as (m & H1 & H2 & H3 & H4 & H5 & H6 & H7). cbn zeta in *.
    rewrite H1, H6. eapply sc_fall; eauto.
    intros H. apply (f_equal length) in H. rewrite drop_length in H. cbn in H. lia.
  - destruct (scuts_tok_parts D S C run cur p x d HD Hcur Hrun HC Hp Hd He) as (m & H1 & H2 & H3 & H4 & H5 & H6 & H7). cbn zeta in *.
    rewrite H1, H6. eapply sc_tok; eauto.
    + intros H. apply (f_equal length) in H. rewrite drop_length in H. cbn in H. lia.
    + unfold moves. rewrite decide_False by lia. rewrite decide_True by done. done.
    + cbn [default from_option id] in IH. apply IH; [done|done|lia|lia|done|]. eapply gupdate_fresh; [done|exact HC| |lia].
      destruct run as [e'|]; cbn; [destruct (Hrun e' eq_refl)|]; lia.
  - destruct (scuts_tok_parts D S C run cur p x d HD Hcur Hrun HC Hp Hd He) as (m & H1 & H2 & H3 & H4 & H5 & H6 & H7). cbn zeta in *.
    destruct (moves_good env good good_env _ _ _ _ _ HD HS Hm) as [HD' HS'].
    rewrite H1, H6. eapply sc_tok; eauto.
    + intros H. apply (f_equal length) in H. rewrite drop_length in H. cbn in H. lia.
    + cbn [default from_option id] in IH. apply IH; [done|done|lia|lia|done|]. apply gfresh_fresh.
Qed.
End Cuts.
