(** Theorems about the simple lexer. *)
From Verif.spec Require Import LexSpec.
From Verif.proofs Require Import Fuel SetProofs LexProofs LexProofs2.

(** * Lex on a tidy lexer *)
Lemma slex_walk l D x b J ch no fuel : tidy l D x -> drives l D b J ch no ->
  J 0 (map (fun d => rx_find (rd_re d) b) D) -> S (length b) <= fuel ->
  exists ps out, walk ch no b 0 None ps /\ emits tok_newlines D (sl_error l) [] ps out
    /\ slex l b fuel = Ok (inserted (sl_start l) ++ out ++ inserted (sl_end l),
                          with_set l (after_junk (sl_set l) (sl_error l) ps)).
Proof.
  intros Ht Hdr HJ Hfuel. unfold slex. rewrite (populate_ok _ _ _ _ Ht). cbn [rbind].
  destruct (decide (b = [])) as [->|Hb].
  - exists [], []. split; [apply w_end|]. split; [constructor|].
    destruct fuel as [|fuel]; [cbn in Hfuel; lia|]. cbn [lex_loop]. unfold lex_round.
    cbn [so_next so_cur so_lines so_lxs so_set so_err].
    destruct (dr_find _ _ _ _ _ _ Hdr _ _ HJ) as [[Hf Hno] | (p & e & Hf & He & _)].
    2:{ cbn in He. lia. }
    rewrite Hf. cbn. done.
  - destruct (loop_ok l D x b J ch no Ht Hdr (length b) 0 None [] (inserted (sl_start l))
      (map (fun d => rx_find (rd_re d) b) D) (sl_set l) fuel) as (ps & out & op & Hw & Hem & Hfin & Hlx & Hset).
    { done. } { destruct b; [done|cbn; lia]. } { lia. } { lia. }
    { split; [apply Ht|]. intros p d Hd. rewrite (td_names _ _ _ Ht). apply lookup_app_l_Some.
      rewrite list_lookup_fmap, Hd. done. }
    { done. } { done. }
    exists ps, out. split; [done|]. split; [done|]. unfold finish in Hfin.
    cbn [tok_newlines foldr] in Hfin.
    destruct (lex_loop _ _ _ _) as [op1| |]; cbn [rbind] in *; try done.
    rewrite Hfin. cbn [rbind]. rewrite Hlx, Hset, <- app_assoc. done.
Qed.

Definition mode (b : bool) : Z -> Z -> Z -> Z -> bool := if b then length_then_priority else priority_then_length.

Definition seen_choose (D : list rdef) (b : gostring) (cur p e : nat) : Prop :=
  exists next, seen D b cur next /\ longest_here cur next p e.
Definition seen_none (D : list rdef) (b : gostring) (cur : nat) : Prop :=
  exists next, seen D b cur next /\ nothing_here cur next.
Lemma drives_seen l D x b : tidy l D x -> sl_compare l = length_then_priority ->
  Forall (fun d => well_formed (rd_re d)) D ->
  drives l D b (seen D b) (seen_choose D b) (seen_none D b).
Proof.
  intros Ht Hc HD. split.
  - intros cur next [H _]. done.
  - intros cur next HJ. pose proof (seen_in_text _ _ _ _ HD HJ) as Hin.
    destruct (find_by_length l D x b cur next Ht Hc) as [[H1 H2] | (p & e & H1 & H2)]; [destruct HJ; lia | done | |].
    + left. split; [done|]. exists next. done.
    + right. exists p, e. split; [done|]. destruct H2 as (H2 & H3 & H4).
      pose proof (Hin _ _ _ H3). split; [lia|]. split.
      * apply lookup_lt_Some in H3. destruct HJ; lia.
      * exists next. done.
  - intros cur cur' next HJ H1 H2. apply (seen_update D b cur); [done|lia|done].
Qed.
Definition fresh_choose (D : list rdef) (b : gostring) (cur p e : nat) : Prop :=
  exists next, fresh D b cur next /\ longest_here cur next p e.
Definition fresh_none (D : list rdef) (b : gostring) (cur : nat) : Prop :=
  exists next, fresh D b cur next /\ nothing_here cur next.
Lemma no_lookbehind_wf r : no_lookbehind r -> well_formed r.
Proof. intros H s i j E. specialize (H s). rewrite E in H. apply H. Qed.
Lemma drives_fresh l D x b : tidy l D x -> sl_compare l = length_then_priority ->
  Forall (fun d => no_lookbehind (rd_re d)) D ->
  drives l D b (fun c n => fresh D b c n /\ c <= length b) (fresh_choose D b) (fresh_none D b).
Proof.
  intros Ht Hc HD. 
  assert (HD' : Forall (fun d => well_formed (rd_re d)) D).
  { eapply Forall_impl; [exact HD|]. intros d. apply no_lookbehind_wf. }
  assert (Hseen : forall c n, fresh D b c n -> c <= length b -> seen D b c n).
  { intros c n -> Hcb. split; [apply map_length|]. intros p d Hd. exists c. split; [lia|]. split; [done|].
    rewrite list_lookup_fmap, Hd. done. }
  split.
  - intros cur next [-> _]. apply map_length.
  - intros cur next [HJ Hcb]. pose proof (seen_in_text _ _ _ _ HD' (Hseen _ _ HJ Hcb)) as Hin.
    destruct (find_by_length l D x b cur next Ht Hc) as [[H1 H2] | (p & e & H1 & H2)]; [rewrite HJ, map_length; lia | done | |].
    + left. split; [done|]. exists next. done.
    + right. exists p, e. split; [done|]. destruct H2 as (H2 & H3 & H4).
      pose proof (Hin _ _ _ H3). split; [lia|]. split.
      * apply lookup_lt_Some in H3. rewrite HJ, map_length in H3. done.
      * exists next. done.
  - intros cur cur' next [HJ _] H1 H2. split; [|lia]. apply (fresh_update D b cur); [done|done|lia|done].
Qed.
Lemma drives_priority l D x b : tidy l D x -> sl_compare l = priority_then_length ->
  drives l D b (fun _ n => length n = length D) (fun _ _ _ => False) (fun _ => True).
Proof.
  intros Ht Hc. split.
  - done.
  - intros cur next HJ. left. split; [|done]. eapply find_by_priority; [done|done|lia].
  - intros cur cur' next HJ _ _. by apply zip_with_length_eq.
Qed.

(** * What walks are *)
Lemma walk_le ch no b cur err ps : walk ch no b cur err ps -> cur <= length b.
Proof. induction 1; lia. Qed.
Lemma cut_end b i : i <= length b -> cut b i (length b) = drop i b.
Proof. intros. unfold cut. apply take_ge. rewrite drop_length. done. Qed.
Lemma cut_drop b i j : i <= j -> cut b i j ++ drop j b = drop i b.
Proof.
  intros. unfold cut. replace (drop j b) with (drop (j - i) (drop i b)).
  - apply take_drop.
  - rewrite drop_drop. f_equal. lia.
Qed.
Lemma cut_length b i j : i <= j -> j <= length b -> length (cut b i j) = j - i.
Proof. intros. unfold cut. rewrite take_length, drop_length. lia. Qed.
Lemma walk_text ch no b cur err ps : walk ch no b cur err ps ->
  (forall st, err = Some st -> st < cur) -> text ps = drop (err_start err cur) b.
Proof.
  induction 1; intros Herr; cbn [text flat_map piece_text err_start] in *.
  - by rewrite drop_all.
  - rewrite app_nil_r. apply cut_end. lia.
  - fold (text ps). rewrite IHwalk by done. apply cut_drop. lia.
  - fold (text ps). rewrite IHwalk by done. rewrite cut_drop by lia. apply cut_drop. lia.
  - apply IHwalk. intros st [= <-]. lia.
  - apply IHwalk. intros st' [= <-]. lia.
Qed.
Lemma walk_nonempty ch no b cur err ps : walk ch no b cur err ps ->
  (forall st, err = Some st -> st < cur) -> forall x, x ∈ ps -> piece_text x <> [].
Proof.
  assert (Hc : forall i j, i < j -> j <= length b -> cut b i j <> []).
  { intros i j Hi Hj E. apply (f_equal length) in E. rewrite cut_length in E by lia. cbn in E. lia. }
  induction 1; intros Herr x; rewrite ?elem_of_cons, ?elem_of_nil.
  - done.
  - intros [->|[]]. apply Hc; lia.
  - intros [->|Hx]; [apply Hc; lia|]. by apply IHwalk.
  - intros [->|[->|Hx]]; [apply Hc; lia| apply Hc; lia|]. by apply IHwalk.
  - apply IHwalk. intros st [= <-]. lia.
  - apply IHwalk. intros st' [= <-]. lia.
Qed.
(** Each token is a match the rule's regexp reported. *)
Lemma walk_tok ch no b cur err ps : walk ch no b cur err ps ->
  (forall st, err = Some st -> st < cur) ->
  forall pre p v post, ps = pre ++ Tok p v :: post ->
   exists c e, c = err_start err cur + length (text pre) /\ ch c p e /\ e = c + length v.
Proof.
  induction 1 as [|st Hst|cur p e ps Hce Hch Hw IH|cur st p e ps Hst Hce Hch Hw IH|cur ps Hcur Hno Hw IH|cur st ps Hst Hcur Hno Hw IH];
    intros Herr pre q v post E; cbn [err_start].
  - by destruct pre.
  - destruct pre as [|y [|z pre]]; done.
  - destruct pre as [|y pre]; cbn in E; injection E as E1 E2.
    + subst p v. exists cur, e. cbn. rewrite cut_length by lia. split; [lia|]. split; [done|lia].
    + subst. destruct (IH ltac:(done) _ _ _ _ eq_refl) as (c & e' & Hc & Hch' & He'). cbn [err_start] in Hc.
      exists c, e'. split; [|done]. cbn [text flat_map piece_text]. rewrite app_length, cut_length by lia.
      fold (text pre). lia.
  - destruct pre as [|y pre]; cbn in E; [done|]. injection E as E1 E2. destruct pre as [|z pre]; cbn in E2; injection E2 as E2 E3.
    + subst. exists cur, e. cbn [text flat_map piece_text]. rewrite app_nil_r, !cut_length by lia. split; [lia|].
      split; [done|lia].
    + subst. destruct (IH ltac:(done) _ _ _ _ eq_refl) as (c & e' & Hc & Hch' & He'). cbn [err_start] in Hc.
      exists c, e'. split; [|done]. cbn [text flat_map piece_text]. rewrite !app_length, !cut_length by lia.
      fold (text pre). lia.
  - destruct (IH ltac:(intros ? [= <-]; lia) _ _ _ _ E) as (c & e' & Hc & ?). exists c, e'. done.
  - destruct (IH ltac:(intros ? [= <-]; lia) _ _ _ _ E) as (c & e' & Hc & ?). exists c, e'. done.
Qed.

Lemma fresh_at D b cur p d n : D !! p = Some d -> no_lookbehind (rd_re d) ->
  (map (fun d => shift cur (rx_find (rd_re d) (drop cur b))) D) !! p = Some (Some (cur, n + cur))
  <-> at_start (rd_re d) (drop cur b) = Some n.
Proof.
  intros Hd Hr. rewrite list_lookup_fmap, Hd. cbn. unfold at_start.
  destruct (rx_find (rd_re d) (drop cur b)) as [[[|i] j]|]; cbn; split; intros H; simplify_eq; try done.
  all: try (f_equal; lia). all: try lia.
Qed.
Lemma fresh_choose_best D b cur p e : Forall (fun d => no_lookbehind (rd_re d)) D ->
  fresh_choose D b cur p e -> best D (drop cur b) p (e - cur).
Proof.
  intros HD (next & Hf & He & Hp & Hmax). unfold fresh in Hf. subst next.
  rewrite Forall_lookup in HD.
  assert (exists d, D !! p = Some d) as [d Hd].
  { rewrite list_lookup_fmap in Hp. destruct (D !! p); [eauto|done]. }
  split; [lia|]. split.
  - exists d. split; [done|]. apply (fresh_at D b cur p d); [done|by eapply HD|]. rewrite Hp. repeat f_equal. lia.
  - intros q e' m Hq Hm. apply (fresh_at D b cur q e') in Hm; [|done|by eapply HD].
    apply Hmax in Hm. lia.
Qed.
Lemma fresh_none_stuck D b cur : Forall (fun d => no_lookbehind (rd_re d)) D ->
  fresh_none D b cur -> stuck D (drop cur b).
Proof.
  intros HD (next & Hf & Hno) d n Hd Hn. unfold fresh in Hf. subst next.
  apply elem_of_list_lookup in Hd as [q Hq]. rewrite Forall_lookup in HD.
  apply (fresh_at D b cur q d) in Hn; [|done|by eapply HD]. apply Hno in Hn. lia.
Qed.
Lemma best_not_stuck D s p n : best D s p n -> ~ stuck D s.
Proof.
  intros (Hn & (d & Hd & Hm) & _) Hs. apply elem_of_list_lookup_2 in Hd. specialize (Hs _ _ Hd Hm). lia.
Qed.

Lemma walk_tokenises D b cur err ps : Forall (fun d => no_lookbehind (rd_re d)) D ->
  walk (fresh_choose D b) (fresh_none D b) b cur err ps ->
  match err with
  | None => tokenises D (drop cur b) ps
  | Some st => st < cur -> (forall k, st <= k < cur -> stuck D (drop k b)) -> tokenises D (drop st b) ps
  end.
Proof.
  intros HD. 
  assert (Htok : forall cur p e ps, cur < e <= length b -> fresh_choose D b cur p e -> tokenises D (drop e b) ps ->
    tokenises D (drop cur b) (Tok p (cut b cur e) :: ps)).
  { intros c p e ps' Hce Hch IH. unfold cut. apply cut_tok.
    - by apply fresh_choose_best.
    - rewrite drop_drop. by replace (c + (e - c)) with e by lia. }
  assert (Hjunk : forall st cur ps, st < cur -> cur <= length b -> (forall k, st <= k < cur -> stuck D (drop k b)) ->
     (drop cur b = [] \/ ~ stuck D (drop cur b)) -> tokenises D (drop cur b) ps ->
     tokenises D (drop st b) (Junk (cut b st cur) :: ps)).
  { intros st c ps' Hs Hcb Hstuck Hnext H. rewrite <- (cut_drop b st c) by lia. apply cut_junk.
    - intros E. apply (f_equal length) in E. rewrite cut_length in E by lia. cbn in E. lia.
    - intros k Hk. rewrite cut_length in Hk by lia. rewrite cut_drop by lia. rewrite drop_drop. apply Hstuck. lia.
    - done.
    - done. }
  induction 1 as [|st Hst|cur p e ps Hce Hch Hw IH|cur st p e ps Hst Hce Hch Hw IH|cur ps Hcur Hno Hw IH|cur st ps Hst Hcur Hno Hw IH].
  - rewrite drop_all. constructor.
  - intros _ Hs. apply Hjunk; [lia|lia|done| |]; rewrite drop_all; [by left|constructor].
  - by apply Htok.
  - intros _ Hs. apply Hjunk; [lia|lia|done| |].
    + right. eapply best_not_stuck. by apply fresh_choose_best.
    + by apply Htok.
  - apply IH; [lia|]. intros k Hk. assert (k = cur) as -> by lia. by apply fresh_none_stuck.
  - intros Hlt Hs. apply IH; [lia|]. intros k Hk. destruct (decide (k = cur)) as [->|].
    + by apply fresh_none_stuck.
    + apply Hs. lia.
Qed.

Lemma best_fun D s p n p' n' : best D s p n -> best D s p' n' -> p = p' /\ n = n'.
Proof.
  intros (H1 & (d & Hd & Hm) & H3) (H1' & (d' & Hd' & Hm') & H3').
  pose proof (H3 _ _ _ Hd' Hm'). pose proof (H3' _ _ _ Hd Hm). lia.
Qed.
Lemma stuck_dec_len D v s v' s' : v ++ s = v' ++ s' -> length v < length v' ->
  (forall k, k < length v' -> stuck D (drop k (v' ++ s'))) -> stuck D s.
Proof.
  intros E Hl H. specialize (H (length v) Hl). rewrite <- E, drop_app in H. done.
Qed.
Lemma best_not_end D p n : Forall (fun d => well_formed (rd_re d)) D -> ~ best D [] p n.
Proof.
  intros HD (H1 & (d & Hd & Hm) & _). rewrite Forall_lookup in HD. specialize (HD _ _ Hd).
  unfold at_start in Hm. destruct (rx_find (rd_re d) []) as [[[|i] j]|] eqn:E; try done.
  injection Hm as ->. apply HD in E. cbn in E. lia.
Qed.
Lemma tokenises_fun D s ps : Forall (fun d => well_formed (rd_re d)) D -> tokenises D s ps -> forall ps', tokenises D s ps' -> ps = ps'.
Proof.
  unfold tokenises. intros HD.
  induction 1 as [|s p n ps Hb Hc IH|v s ps Hv Hstuck Hnext Hc IH]; intros ps' H'.
  - inversion H' as [|s0 p0 n0 ps0 Hb0 Hc0|v0 s0 ps0 Hv0 Hst0 Hn0 Hc0]; subst; [done| |].
    + exfalso. by eapply best_not_end.
    + by destruct v0.
  - inversion H' as [|s0 p0 n0 ps0 Hb0 Hc0 E|v0 s0 ps0 Hv0 Hst0 Hn0 Hc0]; subst.
    + exfalso. by eapply best_not_end.
    + destruct (best_fun _ _ _ _ _ _ Hb Hb0) as [<- <-]. f_equal. by apply IH.
    + exfalso. specialize (Hst0 0). rewrite drop_0 in Hst0. apply (best_not_stuck _ _ _ _ Hb).
      apply Hst0. destruct v0; [done|cbn; lia].
  - inversion H' as [E|s0 p0 n0 ps0 Hb0 Hc0 E|v0 s0 ps0 Hv0 Hst0 Hn0 Hc0 E]; subst.
    + by destruct v.
    + exfalso. specialize (Hstuck 0). rewrite drop_0 in Hstuck. apply (best_not_stuck _ _ _ _ Hb0).
      apply Hstuck. destruct v; [done|cbn; lia].
    + destruct (Nat.lt_trichotomy (length v) (length v0)) as [Hlt|[Heq|Hgt]].
      * exfalso. pose proof (stuck_dec_len D v s v0 s0 (eq_sym E) Hlt Hst0) as Hs. destruct Hnext as [->|]; [|done].
        apply (f_equal length) in E. rewrite !app_length in E. cbn in E. lia.
      * apply app_inj_1 in E as [-> ->]; [|done]. f_equal. by apply IH.
      * exfalso. pose proof (stuck_dec_len D v0 s0 v s E Hgt Hstuck) as Hs. destruct Hn0 as [->|]; [|done].
        apply (f_equal length) in E. rewrite !app_length in E. cbn in E. lia.
Qed.
