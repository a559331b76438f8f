(** The statements of props/LexProps.v. *)
From Verif.spec Require Import LexSpec.
From Verif.proofs Require Import Fuel SetProofs LexProofs LexProofs2 LexThms LexHist.

Lemma slex_mono l s n m : rle (slex l s n) (slex l s (n + m)).
Proof.
  unfold slex. apply rle_bind; [apply rle_refl|]. intros nx. apply rle_bind; [|intros; apply rle_refl].
  generalize (SOp (inserted (sl_start l)) nx None 0 0 (sl_set l)). clear. induction n as [|n IHn]; intros op; [apply rle_oof|].
  cbn [lex_loop Nat.add]. apply rle_bind; [apply rle_refl|]. intros op1. destruct (_ <=? _); [apply rle_refl|].
  apply rle_bind; [apply rle_refl|]. intros nx. apply IHn.
Qed.
Lemma slex_returns l s n r : slex l s n = Ok r -> returns (slex l s) r.
Proof.
  intros H. exists n. intros f Hf. pose proof (slex_mono l s n (f - n)) as Hm. rewrite H in Hm.
  replace (n + (f - n)) with f in Hm by lia. inversion Hm; done.
Qed.

Lemma lex_lossless cs s : adds_first cs -> regexps_in well_formed cs ->
  exists l l' ps pre out post,
    returns (sl_calls cs slexer_empty) l /\ returns (slex l s) (pre ++ out ++ post, l')
    /\ extra (st_start (settings_of cs)) pre /\ extra (st_end (settings_of cs)) post
    /\ emits tok_newlines (rules_of cs) (st_error (settings_of cs)) [] ps out
    /\ text ps = s /\ (forall y, y ∈ ps -> piece_text y <> [])
    /\ (forall before p v after, ps = before ++ Tok p v :: after ->
          exists d c i j, rules_of cs !! p = Some d /\ rx_find (rd_re d) (drop c s) = Some (i, j)
             /\ c + i = length (text before) /\ c + j = length (text before) + length v).
Proof.
  intros Ha Hr. destruct (history cs Ha Hr) as (l & x & Hl & Ht & Hs & _).
  destruct (slex_tidy l _ x _ s (S (length s)) Ht Hs (rules_in _ _ Hr) ltac:(lia)) as (ps & out & Hem & Htext & Hne & Hrep & Hlex).
  exists l. eexists. exists ps, (inserted (sl_start l)), out, (inserted (sl_end l)).
  split; [done|]. split; [by eapply slex_returns|].
  rewrite <- (hs_start _ _ Hs), <- (hs_end _ _ Hs), <- (hs_error _ _ Hs).
  split; [apply inserted_extra|]. split; [apply inserted_extra|]. done.
Qed.

Lemma rules_wf cs : regexps_in no_lookbehind cs -> regexps_in well_formed cs.
Proof. intros H k r d Hd. eapply no_lookbehind_wf. by eapply H. Qed.
Lemma lex_longest cs l s : adds_first cs -> regexps_in no_lookbehind cs -> st_length (settings_of cs) = true ->
  returns (sl_calls cs slexer_empty) l ->
  exists l' ps pre out post,
    returns (slex l s) (pre ++ out ++ post, l')
    /\ extra (st_start (settings_of cs)) pre /\ extra (st_end (settings_of cs)) post
    /\ tokenises (rules_of cs) s ps
    /\ emits tok_newlines (rules_of cs) (st_error (settings_of cs)) [] ps out.
Proof.
  intros Ha Hr Hm Hl. destruct (history cs Ha (rules_wf _ Hr)) as (l1 & x & Hl1 & Ht & Hs & _).
  assert (l = l1) as -> by (by eapply returns_fun). pose proof (rules_in _ _ Hr) as HD.
  destruct (slex_walk l1 (rules_of cs) x s _ _ _ (S (length s)) Ht
     (drives_fresh l1 _ x s Ht ltac:(rewrite (hs_compare _ _ Hs), Hm; done) HD)
     ltac:(split; [apply fresh_start|lia]) ltac:(lia)) as (ps & out & Hw & Hem & Hlex).
  eexists. exists ps, (inserted (sl_start l1)), out, (inserted (sl_end l1)).
  split; [by eapply slex_returns|].
  rewrite <- (hs_start _ _ Hs), <- (hs_end _ _ Hs), <- (hs_error _ _ Hs).
  split; [apply inserted_extra|]. split; [apply inserted_extra|]. split; [|done].
  apply (walk_tokenises _ s 0 None); done.
Qed.
Lemma tokenises_unique cs s ps ps' : regexps_in no_lookbehind cs ->
  tokenises (rules_of cs) s ps -> tokenises (rules_of cs) s ps' -> ps = ps'.
Proof.
  intros Hr H H'. eapply tokenises_fun; [|done|done]. apply rules_in. by apply rules_wf.
Qed.

Lemma emits_fun line D err before ps out : emits line D err before ps out ->
  forall out', emits line D err before ps out' -> out = out'.
Proof.
  induction 1 as [|before x ps out rest Hs He IH]; intros out' H'; inversion H'; subst; [done|].
  f_equal; [|by apply IH]. destruct x as [p v|v]; cbn [shows] in *; [|congruence].
  destruct Hs as (d & Hd & Hs). 
  match goal with H : exists _, _ |- _ => destruct H as (d' & Hd' & Hs') end.
  assert (d' = d) as -> by congruence. destruct (rd_discard d); [congruence|].
  destruct Hs as (la & Hla & ->), Hs' as (lb & Hlb & ->). by rewrite (last_line_fun _ _ _ Hla Hlb).
Qed.

(** ByPriority *)
Lemma walk_all_junk b cur err ps : walk (fun _ _ _ => False) (fun _ => True) b cur err ps ->
  (forall st, err = Some st -> st < cur) ->
  ps = match drop (err_start err cur) b with [] => [] | v => [Junk v] end.
Proof.
  induction 1 as [|st Hst|cur p e ps Hce []|cur st p e ps Hst Hce []|cur ps Hcur _ Hw IH|cur st ps Hst Hcur _ Hw IH];
   intros Herr; cbn [err_start] in *.
  - by rewrite drop_all.
  - rewrite cut_end by lia. destruct (drop st b) eqn:E; [|done].
    apply (f_equal length) in E. rewrite drop_length in E. cbn in E. lia.
  - apply IH. intros st [= <-]. lia.
  - apply IH. intros st' [= <-]. lia.
Qed.
Lemma lex_by_priority cs l s : adds_first cs -> regexps_in well_formed cs -> st_length (settings_of cs) = false ->
  returns (sl_calls cs slexer_empty) l -> s <> [] ->
  exists l' pre post,
    returns (slex l s) (pre ++ [LErr (Lx (st_error (settings_of cs)) s (-1) 0)] ++ post, l')
    /\ extra (st_start (settings_of cs)) pre /\ extra (st_end (settings_of cs)) post.
Proof.
  intros Ha Hr Hm Hl Hne. destruct (history cs Ha Hr) as (l1 & x & Hl1 & Ht & Hs & _).
  assert (l = l1) as -> by (by eapply returns_fun). 
  destruct (slex_walk l1 (rules_of cs) x s _ _ _ (S (length s)) Ht
     (drives_priority l1 _ x s Ht ltac:(rewrite (hs_compare _ _ Hs), Hm; done))
     ltac:(apply map_length) ltac:(lia)) as (ps & out & Hw & Hem & Hlex).
  apply walk_all_junk in Hw; [|done]. cbn [err_start] in Hw. rewrite drop_0 in Hw.
  destruct s as [|c s]; [done|]. subst ps.
  assert (out = [LErr (Lx (sl_error l1) (c :: s) (-1) 0)]) as ->.
  { eapply emits_fun; [done|]. eapply (em_cons _ _ _ _ _ _ [_] []); [done|constructor]. }
  eexists. exists (inserted (sl_start l1)), (inserted (sl_end l1)).
  rewrite <- (hs_start _ _ Hs), <- (hs_end _ _ Hs), <- (hs_error _ _ Hs).
  split; [by eapply slex_returns|]. split; apply inserted_extra.
Qed.

(** Line numbers *)
Definition newlines_before (before : list piece) : nat := count_occ N.eq_dec (text before) 10%N.
Lemma count_occ_nin (v : gostring) : 10%N ∉ v -> count_occ N.eq_dec v 10%N = 0.
Proof. intros H. apply count_occ_not_In. by rewrite <- elem_of_list_In. Qed.
Lemma tok_newlines_all ps : (forall v, v ∈ junks ps -> 10%N ∉ v) -> tok_newlines ps = newlines_before ps.
Proof.
  unfold newlines_before. induction ps as [|[p v|v] ps IH]; intros H; [done| |]; cbn [text flat_map piece_text].
  - rewrite count_occ_app. fold (text ps). rewrite <- IH; [done|]. intros w Hw. by apply H.
  - rewrite count_occ_app. fold (text ps). rewrite <- IH.
    + cbn. rewrite count_occ_nin; [done|]. apply H. cbn. left.
    + intros w Hw. apply H. cbn. by right.
Qed.
Lemma emits_lines line line' D err before ps out : emits line D err before ps out ->
  (forall a b, ps = a ++ b -> b <> [] -> line (before ++ a) = line' (before ++ a)) -> emits line' D err before ps out.
Proof.
  induction 1 as [|before x ps out rest Hs He IH]; intros H; [constructor|]. constructor.
  - destruct x as [p v|v]; [|done]. cbn [shows] in *. destruct Hs as (d & Hd & Hs). exists d. split; [done|].
    pose proof (H [] (Tok p v :: ps) eq_refl ltac:(done)) as H0. rewrite app_nil_r in H0. by rewrite <- H0.
  - apply IH. intros a b -> Hb. rewrite <- app_assoc. cbn [app]. apply (H (x :: a) b); done.
Qed.
Lemma lex_lines cs l s : adds_first cs -> regexps_in no_lookbehind cs -> st_length (settings_of cs) = true ->
  returns (sl_calls cs slexer_empty) l ->
  forall ps, tokenises (rules_of cs) s ps -> (forall v, v ∈ junks ps -> 10%N ∉ v) ->
  exists l' pre out post,
    returns (slex l s) (pre ++ out ++ post, l')
    /\ extra (st_start (settings_of cs)) pre /\ extra (st_end (settings_of cs)) post
    /\ emits (fun before => count_occ N.eq_dec (text before) 10%N) (rules_of cs) (st_error (settings_of cs)) [] ps out.
Proof.
  intros Ha Hr Hm Hl ps Hps Hj. destruct (lex_longest cs l s Ha Hr Hm Hl) as (l' & ps' & pre & out & post & H1 & H2 & H3 & H4 & H5).
  rewrite (tokenises_unique _ _ _ _ Hr Hps H4) in *. exists l', pre, out, post. split; [done|]. split; [done|]. split; [done|].
  eapply emits_lines; [done|]. cbn [app]. intros a b E _. rewrite tok_newlines_all; [done|].
  intros v Hv. apply Hj. rewrite E, junks_app. set_solver.
Qed.

(** Errors *)
Lemma lex_errors_extra kv pre out kv' post : extra kv pre -> extra kv' post -> lex_errors (pre ++ out ++ post) = lex_errors out.
Proof.
  intros H H'. rewrite (extra_fun _ _ _ H (inserted_extra kv)), (extra_fun _ _ _ H' (inserted_extra kv')).
  apply lex_errors_inserted.
Qed.
Lemma lex_errors_exact cs l s xs l' ps : adds_first cs -> regexps_in no_lookbehind cs -> st_length (settings_of cs) = true ->
  returns (sl_calls cs slexer_empty) l -> returns (slex l s) (xs, l') -> tokenises (rules_of cs) s ps ->
  lex_errors xs = map (fun v => Lx (st_error (settings_of cs)) v (-1) 0) (junks ps).
Proof.
  intros Ha Hr Hm Hl Hx Hps. destruct (lex_longest cs l s Ha Hr Hm Hl) as (l1 & ps' & pre & out & post & H1 & H2 & H3 & H4 & H5).
  rewrite (tokenises_unique _ _ _ _ Hr Hps H4) in *. pose proof (returns_fun _ _ _ Hx H1) as [= -> ->].
  rewrite (lex_errors_extra _ _ _ _ _ H2 H3). by eapply emits_errors.
Qed.

(** Reuse: two lexers with the same rules and settings, whatever else their symbol sets hold. *)
Record same_op (D : list rdef) (a b : sop) : Prop := {
  so_1 : so_lxs a = so_lxs b; so_2 : so_next a = so_next b; so_3 : so_err a = so_err b;
  so_4 : so_cur a = so_cur b; so_5 : so_lines a = so_lines b;
  so_6 : names_ok D (so_set a); so_7 : names_ok D (so_set b)
}.
Definition same_res (D : list rdef) (a b : res sop) : Prop :=
  match a, b with
  | Ok a, Ok b => same_op D a b
  | Panic, Panic => True
  | OutOfFuel, OutOfFuel => True
  | _, _ => False
  end.
Lemma same_bind D (a b : res sop) (f g : sop -> res sop) :
  same_res D a b -> (forall x y, same_op D x y -> same_res D (f x) (g y)) -> same_res D (rbind a f) (rbind b g).
Proof. destruct a, b; cbn; try done. auto. Qed.
Lemma same_check D l l' b op op' : sl_error l = sl_error l' -> same_op D op op' ->
  same_res D (check_error l b op) (check_error l' b op').
Proof.
  intros He [H1 H2 H3 H4 H5 H6 H7]. unfold check_error. rewrite <- H3, <- H4, <- He.
  destruct (so_err op) as [st|] eqn:E; [|cbn; split; congruence].
  destruct (_ <? _); [cbn; split; congruence|]. destruct (go_slice _ _ _) as [v| |]; cbn [rbind]; try done.
  pose proof (names_ok_str D _ (sl_error l) H6) as K1. pose proof (names_ok_str D _ (sl_error l) H7) as K2.
  destruct (set_str (so_set op) (sl_error l)) as [k1 s1] eqn:E1, (set_str (so_set op') (sl_error l)) as [k2 s2] eqn:E2.
  destruct (set_str_spec _ _ _ _ (proj1 H6) E1) as (_ & _ & N1 & _). destruct (set_str_spec _ _ _ _ (proj1 H7) E2) as (_ & _ & N2 & _).
  apply sym_string_nat in N1, N2. rewrite N1, N2. cbn [rbind same_res].
  split; cbn [so_lxs so_next so_err so_cur so_lines so_set]; try done. by rewrite H1.
Qed.
Lemma same_find l l' b next cur : sl_rules l = sl_rules l' -> sl_compare l = sl_compare l' ->
  find_next_match l b next cur = find_next_match l' b next cur.
Proof.
  intros Hr Hc. unfold find_next_match. generalize (None : option nat, [] : gostring, cur, (-1)%Z).
  induction (imap pair next) as [|y ys IH]; intros st; [done|]. cbn [rfold].
  assert (find_step l b cur st y = find_step l' b cur st y) as ->.
  { unfold find_step. rewrite Hr, Hc. done. }
  destruct (find_step l' b cur st y); cbn [rbind]; [apply IH|done..].
Qed.
Lemma same_round D l l' x x' b op op' : tidy l D x -> tidy l' D x' -> sl_compare l = sl_compare l' -> sl_error l = sl_error l' ->
  same_op D op op' -> same_res D (lex_round l b op) (lex_round l' b op').
Proof.
  intros Ht Ht' Hc He Hop. assert (Hr : sl_rules l = sl_rules l') by (rewrite (td_rules _ _ _ Ht), (td_rules _ _ _ Ht'); done).
  unfold lex_round. rewrite <- (so_2 _ _ _ Hop), <- (so_4 _ _ _ Hop), <- (so_5 _ _ _ Hop), <- (so_3 _ _ _ Hop), <- (so_1 _ _ _ Hop).
  rewrite <- (same_find l l' b _ _ Hr Hc). destruct (find_next_match _ _ _ _) as [[[[k v] e] z]| |]; cbn [rbind]; try done.
  destruct (e =? so_cur op); [cbn; split; cbn; try done; apply Hop|].
  apply same_bind; [by apply same_check|]. intros o1 o2 Ho. destruct k as [k|]; [|done].
  rewrite <- Hr. destruct (rule_at (sl_rules l) k) as [r| |] eqn:Er; cbn [rbind]; try done.
  assert (exists d, D !! k = Some d) as [d Hd].
  { unfold rule_at in Er. rewrite (td_rules _ _ _ Ht), list_lookup_imap in Er. destruct (D !! k); [eauto|done]. }
  assert (N1 : sym_string (so_set o1) (Z.of_nat k) = Ok (rd_kind d)) by (apply sym_string_nat; by apply Ho).
  assert (N2 : sym_string (so_set o2) (Z.of_nat k) = Ok (rd_kind d)) by (apply sym_string_nat; by apply Ho).
  rewrite N1, N2. cbn [rbind same_res]. split; cbn [so_lxs so_next so_err so_cur so_lines so_set]; try done; try apply Ho.
  rewrite (so_1 _ _ _ Ho). done.
Qed.
Lemma same_loop D l l' x x' b : tidy l D x -> tidy l' D x' -> sl_compare l = sl_compare l' -> sl_error l = sl_error l' ->
  forall fuel op op', same_op D op op' -> same_res D (lex_loop fuel l b op) (lex_loop fuel l' b op').
Proof.
  intros Ht Ht' Hc He. assert (Hr : sl_rules l = sl_rules l') by (rewrite (td_rules _ _ _ Ht), (td_rules _ _ _ Ht'); done).
  induction fuel as [|fuel IH]; intros op op' Hop; [done|]. cbn [lex_loop].
  apply same_bind; [by eapply same_round|]. intros o1 o2 Ho. rewrite <- (so_4 _ _ _ Ho).
  destruct (_ <=? _); [done|]. rewrite <- Hr, <- (so_2 _ _ _ Ho). destruct (update_next _ _ _ _); cbn [rbind]; try done.
  apply IH. split; cbn [so_lxs so_next so_err so_cur so_lines so_set]; try done; apply Ho.
Qed.
Lemma tidy_names l D x : tidy l D x -> names_ok D (sl_set l).
Proof.
  intros Ht. split; [apply Ht|]. intros p d Hd. rewrite (td_names _ _ _ Ht). apply lookup_app_l_Some.
  rewrite list_lookup_fmap, Hd. done.
Qed.
Lemma lex_reuse cs cs' s : adds_first cs -> adds_first cs' ->
  regexps_in well_formed cs -> regexps_in well_formed cs' ->
  rules_of cs = rules_of cs' -> settings_of cs = settings_of cs' ->
  exists l l' xs l1 l1',
    returns (sl_calls cs slexer_empty) l /\ returns (sl_calls cs' slexer_empty) l'
    /\ returns (slex l s) (xs, l1) /\ returns (slex l' s) (xs, l1').
Proof.
  intros Ha Ha' Hr Hr' HD Ht. destruct (history cs Ha Hr) as (l & x & Hl & Htd & Hs & _).
  destruct (history cs' Ha' Hr') as (l' & x' & Hl' & Htd' & Hs' & _).
  rewrite <- HD in Htd'. rewrite <- Ht in Hs'. set (D := rules_of cs) in *.
  pose proof (rules_in _ _ Hr) as HDw. fold D in HDw.
  destruct (slex_tidy l D x _ s (S (length s)) Htd Hs HDw ltac:(lia)) as (ps & out & Hem & _ & _ & _ & Hlex).
  assert (Hc : sl_compare l = sl_compare l') by (rewrite (hs_compare _ _ Hs), (hs_compare _ _ Hs'); done).
  assert (He : sl_error l = sl_error l') by (rewrite (hs_error _ _ Hs), (hs_error _ _ Hs'); done).
  assert (H1 : sl_start l = sl_start l') by (rewrite (hs_start _ _ Hs), (hs_start _ _ Hs'); done).
  assert (H2 : sl_end l = sl_end l') by (rewrite (hs_end _ _ Hs), (hs_end _ _ Hs'); done).
  assert (Hlex' : exists l1', slex l' s (S (length s)) = Ok (inserted (sl_start l) ++ out ++ inserted (sl_end l), l1')).
  { unfold slex in *. rewrite (populate_ok _ _ _ _ Htd) in Hlex. rewrite (populate_ok _ _ _ _ Htd'). cbn [rbind] in *.
    set (o1 := SOp (inserted (sl_start l)) _ None 0 0 (sl_set l)) in *.
    set (o2 := SOp (inserted (sl_start l')) _ None 0 0 (sl_set l')) in *.
    assert (Ho : same_op D o1 o2).
    { unfold o1, o2. split; cbn [so_lxs so_next so_err so_cur so_lines so_set]; try done; [by rewrite H1| |]; by eapply tidy_names. }
    pose proof (same_loop D l l' x x' s Htd Htd' Hc He (S (length s)) o1 o2 Ho) as Hsim.
    destruct (lex_loop _ l s o1) as [p1| |], (lex_loop _ l' s o2) as [p2| |]; cbn [rbind] in *; try done.
    pose proof (same_check D l l' s p1 p2 He Hsim) as Hch.
    destruct (check_error l s p1) as [q1| |], (check_error l' s p2) as [q2| |]; cbn [rbind] in *; try done.
    eexists. rewrite <- H2, <- (so_1 _ _ _ Hch). injection Hlex as Hx _. rewrite Hx. done. }
  destruct Hlex' as [l1' Hlex']. exists l, l', (inserted (sl_start l) ++ out ++ inserted (sl_end l)).
  eexists. exists l1'. split; [done|]. split; [done|]. split; by eapply slex_returns.
Qed.

(** * Any history at all *)
Lemma check_error_set l b op op' : set_wf (so_set op) -> check_error l b op = Ok op' ->
  set_wf (so_set op') /\ set_le (so_set op) (so_set op').
Proof.
  intros Hw. unfold check_error. destruct (so_err op); [|intros [= <-]; split; [done|apply set_le_refl]].
  destruct (_ <? _); [intros [= <-]; split; [done|apply set_le_refl]|].
  destruct (go_slice _ _ _); cbn [rbind]; try done. destruct (set_str _ _) as [k s'] eqn:E.
  destruct (set_str_spec _ _ _ _ Hw E) as (? & ? & _). destruct (sym_string _ _); cbn [rbind]; try done.
  intros [= <-]. done.
Qed.
Lemma lex_round_set l b op op' : set_wf (so_set op) -> lex_round l b op = Ok op' ->
  set_wf (so_set op') /\ set_le (so_set op) (so_set op').
Proof.
  intros Hw. unfold lex_round. destruct (find_next_match _ _ _ _) as [[[[k v] e] z]| |]; cbn [rbind]; try done.
  destruct (_ =? _); [intros [= <-]; split; [done|apply set_le_refl]|].
  destruct (check_error l b op) as [o1| |] eqn:E; cbn [rbind]; try done. apply check_error_set in E; [|done].
  destruct k as [k|]; [|done]. destruct (rule_at _ _); cbn [rbind]; try done. destruct (sym_string _ _); cbn [rbind]; try done.
  intros [= <-]. done.
Qed.
Lemma lex_loop_set l b fuel : forall op op', set_wf (so_set op) -> lex_loop fuel l b op = Ok op' ->
  set_wf (so_set op') /\ set_le (so_set op) (so_set op').
Proof.
  induction fuel as [|fuel IH]; intros op op' Hw; [done|]. cbn [lex_loop].
  destruct (lex_round l b op) as [o1| |] eqn:E; cbn [rbind]; try done. apply lex_round_set in E as [H1 H2]; [|done].
  destruct (_ <=? _); [intros [= <-]; done|]. destruct (update_next _ _ _ _); cbn [rbind]; try done.
  intros H. apply IH in H as [H3 H4]; [|done]. split; [done|]. cbn [so_set] in H4. by eapply set_le_trans.
Qed.
Lemma slex_set l b fuel xs l' : set_wf (sl_set l) -> slex l b fuel = Ok (xs, l') ->
  exists s', l' = with_set l s' /\ set_wf s' /\ set_le (sl_set l) s'.
Proof.
  intros Hw. unfold slex. destruct (populate_next _ _); cbn [rbind]; try done.
  destruct (lex_loop _ _ _ _) as [o1| |] eqn:E; cbn [rbind]; try done. apply lex_loop_set in E as [H1 H2]; [|done].
  destruct (check_error _ _ _) as [o2| |] eqn:E2; cbn [rbind]; try done. apply check_error_set in E2 as [H3 H4]; [|done].
  intros [= <- <-]. exists (so_set o2). split; [done|]. split; [done|]. by eapply set_le_trans.
Qed.

Record sane (l : slexer) (D : list rdef) : Prop := {
  sn_wf : set_wf (sl_set l);
  sn_len : length (sl_rules l) <= length (symb2str (sl_set l));
  sn_counter : sl_counter l = length D;
  sn_kinds : forall name, name ∈ map rd_kind D <-> exists k r, symb2str (sl_set l) !! k = Some name /\ sl_rules l !! k = Some (Some r);
  sn_prio : forall k r, sl_rules l !! k = Some (Some r) -> lr_priority r < length D
}.
Lemma sane_set l D s' : sane l D -> set_wf s' -> set_le (sl_set l) s' -> sane (with_set l s') D.
Proof.
  intros Hn Hw [y Hle]. split; cbn [with_set sl_set sl_rules sl_counter]; try apply Hn; [done| |].
  - rewrite Hle, app_length. pose proof (sn_len _ _ Hn). lia.
  - intros name. rewrite (sn_kinds _ _ Hn). split; intros (k & r & H1 & H2); exists k, r; (split; [|done]).
    + rewrite Hle. by apply lookup_app_l_Some.
    + rewrite Hle in H1. rewrite lookup_app_l in H1; [done|].
      apply lookup_lt_Some in H2. pose proof (sn_len _ _ Hn). lia.
Qed.
Lemma sane_add_dup l D k r d : sane l D -> k ∈ map rd_kind D -> slexer_add l k r d = (l, false).
Proof.
  intros Hn Hk. apply (sn_kinds _ _ Hn) in Hk as (i & q & H1 & H2). unfold slexer_add.
  rewrite (set_str_old _ _ _ (sn_wf _ _ Hn) H1), with_set_id. unfold add_rule. rewrite H2. done.
Qed.
Lemma sane_add_new l D k r d : sane l D -> k ∉ map rd_kind D ->
  exists i l', slexer_add l k r d = (l', true) /\ symb2str (sl_set l') !! i = Some k
   /\ sl_rules l' !! i = Some (Some (LRule i r d (length D))) /\ sl_order l' = sl_order l ++ [i]
   /\ (forall j q, sl_rules l !! j = Some (Some q) -> j <> i /\ sl_rules l' !! j = Some (Some q) /\ lr_priority q < length D)
   /\ (forall j q, j <> i -> sl_rules l' !! j = Some (Some q) -> sl_rules l !! j = Some (Some q))
   /\ sane l' (D ++ [RDef k r d])
   /\ sl_compare l' = sl_compare l /\ sl_error l' = sl_error l /\ sl_start l' = sl_start l /\ sl_end l' = sl_end l.
Proof.
  intros Hn Hk. unfold slexer_add. destruct (set_str (sl_set l) k) as [i s'] eqn:Es.
  destruct (set_str_spec _ _ _ _ (sn_wf _ _ Hn) Es) as (Hw & [y Hle] & Hi & _ & _).
  assert (Hnone : forall q, sl_rules l !! i <> Some (Some q)).
  { intros q Hq. apply Hk. apply (sn_kinds _ _ Hn). exists i, q. split; [|done].
    rewrite Hle, lookup_app_l in Hi; [done|]. apply lookup_lt_Some in Hq. pose proof (sn_len _ _ Hn). lia. }
  unfold add_rule. cbn [with_set sl_rules].
  set (rs := sl_rules l ++ replicate (S i - length (sl_rules l)) None).
  assert (Hrs : length rs = max (length (sl_rules l)) (S i)).
  { unfold rs. rewrite app_length, replicate_length. lia. }
  set (l' := SLexer (sl_order l ++ [i]) (<[i := Some (LRule i r d (sl_counter l))]> rs) (sl_compare l) (S (sl_counter l)) (sl_error l) s' (sl_start l) (sl_end l)).
  assert (Hres : (match sl_rules l !! i with Some (Some _) => (with_set l s', false) | _ => (l', true) end) = (l', true)).
  { destruct (sl_rules l !! i) as [[q|]|] eqn:E; [|done|done]. by destruct (Hnone q). }
  exists i, l'. cbn [with_set sl_order sl_compare sl_counter sl_error sl_set sl_start sl_end] in *. fold l'.
  split; [exact Hres|]. split; [done|].
  assert (Hnew : sl_rules l' !! i = Some (Some (LRule i r d (length D)))).
  { cbn [l' sl_rules]. rewrite list_lookup_insert by lia. by rewrite (sn_counter _ _ Hn). }
  assert (Hold : forall j q, sl_rules l !! j = Some (Some q) -> j <> i /\ sl_rules l' !! j = Some (Some q) /\ lr_priority q < length D).
  { intros j q Hj. assert (j <> i) as Hji by (intros ->; by eapply Hnone). split; [done|].
    split; [|by eapply sn_prio]. cbn [l' sl_rules]. rewrite list_lookup_insert_ne by done. by apply lookup_app_l_Some. }
  assert (Hback : forall j q, j <> i -> sl_rules l' !! j = Some (Some q) -> sl_rules l !! j = Some (Some q)).
  { intros j q Hji. cbn [l' sl_rules]. rewrite list_lookup_insert_ne by done. intros H.
    apply lookup_app_Some in H as [H|[_ H]]; [done|]. apply lookup_replicate in H as [H _]. done. }
  split; [done|]. split; [done|]. split; [done|]. split; [done|]. split; [|done].
  split; cbn [l' sl_set sl_rules sl_counter].
  - done.
  - rewrite insert_length, Hrs. apply lookup_lt_Some in Hi. rewrite Hle, app_length in *. pose proof (sn_len _ _ Hn). lia.
  - rewrite (sn_counter _ _ Hn), app_length. cbn. lia.
  - intros name. rewrite map_app, elem_of_app. cbn [map rd_kind]. rewrite elem_of_list_singleton, (sn_kinds _ _ Hn). split.
    + intros [(j & q & H1 & H2) | ->].
      * destruct (Hold _ _ H2) as (_ & H3 & _). exists j, q. split; [|done]. rewrite Hle. by apply lookup_app_l_Some.
      * exists i, (LRule i r d (length D)). split; [done|]. exact Hnew.
    + intros (j & q & H1 & H2). destruct (decide (j = i)) as [->|Hji].
      * right. congruence.
      * left. apply Hback in H2; [|done]. exists j, q. split; [|done].
        rewrite Hle, lookup_app_l in H1; [done|]. apply lookup_lt_Some in H2. pose proof (sn_len _ _ Hn). lia.
  - intros j q Hq. rewrite app_length. cbn. destruct (decide (j = i)) as [->|Hji].
    + change (sl_rules l' !! i = Some (Some q)) in Hq. rewrite Hnew in Hq. injection Hq as <-. cbn. lia.
    + apply Hback in Hq; [|done]. apply (sn_prio _ _ Hn) in Hq. lia.
Qed.
Lemma sane_history cs fuel : forall l, sl_calls cs slexer_empty fuel = Ok l -> sane l (rules_of cs).
Proof.
  induction cs as [|c cs IH] using rev_ind; intros l.
  - intros [= <-]. split.
    + apply set_new_wf.
    + done.
    + done.
    + intros name. cbn. rewrite elem_of_nil. split; [done|]. intros (k & r & H & _). done.
    + intros k r H. done.
  - rewrite sl_calls_snoc, rules_of_snoc. destruct (sl_calls cs slexer_empty fuel) as [l0| |]; cbn [rbind]; try done.
    specialize (IH _ eq_refl).
    assert (Hsame : forall l', sl_set l' = sl_set l0 -> sl_rules l' = sl_rules l0 -> sl_counter l' = sl_counter l0 -> sane l' (rules_of cs)).
    { intros l' H1 H2 H3. split; rewrite ?H1, ?H2, ?H3; apply IH. }
    destruct c as [k r d|s| | |e|k v|k v]; cbn [sl_step add_def]; try (intros [= <-]; by apply Hsame).
    + intros [= <-]. destruct (decide _) as [Hin|Hnin].
      * rewrite (sane_add_dup _ _ _ _ _ IH Hin). done.
      * destruct (sane_add_new l0 _ k r d IH Hnin) as (i & l' & -> & _ & _ & _ & _ & _ & H & _). done.
    + destruct (slex l0 s fuel) as [[xs l']| |] eqn:E; cbn [rbind]; try done. intros [= <-].
      apply slex_set in E as (s' & -> & H1 & H2); [|apply IH]. by apply sane_set.
Qed.
Lemma add_exact cs l k r d : returns (sl_calls cs slexer_empty) l ->
  (k ∈ map rd_kind (rules_of cs) -> slexer_add l k r d = (l, false))
  /\ (k ∉ map rd_kind (rules_of cs) ->
      exists i l', slexer_add l k r d = (l', true)
       /\ set_str (sl_set l') k = (i, sl_set l')
       /\ sl_rules l' !! i = Some (Some (LRule i r d (length (rules_of cs))))
       /\ sl_order l' = sl_order l ++ [i]
       /\ (forall j q, j <> i -> sl_rules l' !! j = Some (Some q) <-> sl_rules l !! j = Some (Some q))
       /\ (forall j q, sl_rules l !! j = Some (Some q) -> j <> i /\ lr_priority q < length (rules_of cs))).
Proof.
  intros [F HF]. pose proof (sane_history _ _ _ (HF F ltac:(lia))) as Hn. split.
  - by apply sane_add_dup.
  - intros Hk. destruct (sane_add_new l _ k r d Hn Hk) as (i & l' & H1 & H2 & H3 & H4 & H5 & H6 & H7 & _).
    exists i, l'. split; [done|]. split; [apply set_str_old; [apply H7|done]|]. split; [done|]. split; [done|]. split.
    + intros j q Hj. split; [by apply H6|]. intros Hq. by apply H5.
    + intros j q Hq. destruct (H5 _ _ Hq) as (? & _ & ?). done.
Qed.

(** * New *)
Lemma rules_of_adds D : NoDup (map rd_kind D) -> rules_of (adds D) = D.
Proof.
  induction D as [|d D IH] using rev_ind; intros H; [done|]. rewrite map_app in H. apply NoDup_app in H as (H1 & H2 & _).
  unfold adds. rewrite map_app. cbn [map]. rewrite rules_of_snoc. fold (adds D). rewrite IH by done.
  cbn [add_def]. rewrite decide_False.
  - by destruct d.
  - intros Hd. apply (H2 _ Hd). cbn. apply elem_of_list_singleton. done.
Qed.
Lemma settings_of_adds D : settings_of (adds D) = default_settings.
Proof. unfold settings_of. generalize default_settings. induction D as [|d D IH]; intros t; [done|]. apply IH. Qed.
Lemma new_lines_spec compile lines : forall done l,
  sl_calls (adds done) slexer_empty 0 = Ok l -> NoDup (map rd_kind done) ->
  match new_lines compile lines l with
  | Some l' => sl_calls (adds (done ++ line_defs compile lines)) slexer_empty 0 = Ok l'
               /\ NoDup (map rd_kind (done ++ line_defs compile lines)) /\ (forall x, x ∈ lines -> rule_from_line compile x <> BadRule)
  | None => ~ (NoDup (map rd_kind (done ++ line_defs compile lines)) /\ (forall x, x ∈ lines -> rule_from_line compile x <> BadRule))
  end.
Proof.
  induction lines as [|x lines IH]; intros done l Hl Hnd; cbn [new_lines].
  - cbn. rewrite app_nil_r. split; [done|]. split; [done|]. intros y Hy. by apply elem_of_nil in Hy.
  - unfold line_defs in *. cbn [flat_map]. destruct (rule_from_line compile x) as [| |k r d] eqn:Ex.
    + specialize (IH done l Hl Hnd). cbn [app]. destruct (new_lines compile lines l).
      * destruct IH as (H1 & H2 & H3). split; [done|]. split; [done|]. intros y. rewrite elem_of_cons. intros [->|Hy]; [congruence|auto].
      * intros [H1 H2]. apply IH. split; [done|]. intros y Hy. apply H2. by right.
    + intros [_ H]. apply (H x); [left|done].
    + pose proof (sane_history _ _ _ Hl) as Hn. rewrite rules_of_adds in Hn by done.
      destruct (decide (k ∈ map rd_kind done)) as [Hin|Hnin].
      * rewrite (sane_add_dup _ _ _ _ _ Hn Hin). intros [H _]. rewrite map_app in H. apply NoDup_app in H as (_ & H & _).
        apply (H _ Hin). cbn. left.
      * destruct (sane_add_new l _ k r d Hn Hnin) as (i & l' & Hadd & _ & _ & _ & _ & _ & Hn' & _). rewrite Hadd.
        assert (Hl' : sl_calls (adds (done ++ [RDef k r d])) slexer_empty 0 = Ok l').
        { unfold adds. rewrite map_app. cbn [map]. rewrite sl_calls_snoc. fold (adds done). rewrite Hl. cbn [rbind sl_step rd_kind rd_re rd_discard].
          rewrite Hadd. done. }
        assert (Hnd' : NoDup (map rd_kind (done ++ [RDef k r d]))).
        { rewrite map_app. apply NoDup_app. split; [done|]. split; [|apply NoDup_singleton]. intros y Hy Hy'.
          cbn in Hy'. apply elem_of_list_singleton in Hy' as ->. done. }
        specialize (IH _ _ Hl' Hnd'). cbn [app]. rewrite <- app_assoc in IH. cbn [app] in IH.
        destruct (new_lines compile lines l').
        -- destruct IH as (H1 & H2 & H3). split; [done|]. split; [done|]. intros y. rewrite elem_of_cons. intros [->|Hy]; [congruence|auto].
        -- intros [H1 H2]. apply IH. split; [done|]. intros y Hy. apply H2. by right.
Qed.
Lemma adds_any_fuel D l f f' : sl_calls (adds D) l f = sl_calls (adds D) l f'.
Proof.
  revert l. induction D as [|d D IH]; intros l; [done|]. cbn. apply IH.
Qed.
Lemma adds_are_first D : adds_first (adds D).
Proof.
  intros pre s mid k r d post l xs l' E. exfalso.
  assert (H : CLex s ∈ adds D) by (rewrite E; set_solver). unfold adds in H. apply elem_of_list_fmap in H as (y & Hy & _). done.
Qed.
Lemma new_exact compile defs :
  let lines := flat_map (split1 c_nl) defs in
  let D := line_defs compile lines in
  (forall x, x ∈ lines -> rule_from_line compile x <> BadRule) /\ NoDup (map rd_kind D) ->
  exists l, slexer_new compile defs = Some l /\ returns (sl_calls (adds D) slexer_empty) l
    /\ rules_of (adds D) = D /\ settings_of (adds D) = default_settings /\ adds_first (adds D).
Proof.
  intros lines D [H1 H2]. pose proof (new_lines_spec compile lines [] slexer_empty eq_refl ltac:(constructor)) as H.
  unfold slexer_new. fold lines. cbn [app] in H. fold D in H. destruct (new_lines compile lines slexer_empty) as [l|].
  - exists l. split; [done|]. split; [|split; [by apply rules_of_adds|split; [apply settings_of_adds|apply adds_are_first]]].
    exists 0. intros f _. rewrite (adds_any_fuel _ _ _ 0). apply H.
  - destruct H; done.
Qed.
Lemma new_refuses compile defs :
  let lines := flat_map (split1 c_nl) defs in
  ~ ((forall x, x ∈ lines -> rule_from_line compile x <> BadRule) /\ NoDup (map rd_kind (line_defs compile lines))) ->
  slexer_new compile defs = None.
Proof.
  intros lines Hn. pose proof (new_lines_spec compile lines [] slexer_empty eq_refl ltac:(constructor)) as H.
  unfold slexer_new. fold lines. cbn [app] in H. destruct (new_lines compile lines slexer_empty) as [l|]; [|done].
  exfalso. apply Hn. destruct H as (_ & ? & ?). done.
Qed.
