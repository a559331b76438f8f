(** Rules added after junk leave a hole among the rules. *)
From Verif.spec Require Import LexSpec.
From Verif.proofs Require Import Fuel SetProofs LexProofs LexProofs2 LexThms LexHist LexMain.

Lemma lex_errors_app a b : lex_errors (a ++ b) = lex_errors a ++ lex_errors b.
Proof. induction a as [|[y|y] a IH]; cbn; [done|done|]. by rewrite IH. Qed.
Lemma errors_inserted kv : lex_errors (inserted kv) = [].
Proof. unfold inserted. by destruct (fst kv). Qed.

(** * An error puts its kind into the set *)
Definition err_known (l : slexer) (op : sop) : Prop := lex_errors (so_lxs op) <> [] -> sl_error l ∈ symb2str (so_set op).
Lemma check_known l b op op' : set_wf (so_set op) -> err_known l op -> check_error l b op = Ok op' -> err_known l op'.
Proof.
  intros Hw Hk. unfold check_error. destruct (so_err op); [|by intros [= <-]].
  destruct (_ <? _); [by intros [= <-]|]. destruct (go_slice _ _ _); cbn [rbind]; try done.
  destruct (set_str _ _) as [k s'] eqn:E. destruct (set_str_spec _ _ _ _ Hw E) as (_ & _ & Hk' & _).
  destruct (sym_string _ _); cbn [rbind]; try done. intros [= <-] _. cbn [so_set]. by apply elem_of_list_lookup_2 in Hk'.
Qed.
Lemma round_known l b op op' : set_wf (so_set op) -> err_known l op -> lex_round l b op = Ok op' -> err_known l op'.
Proof.
  intros Hw Hk. unfold lex_round. destruct (find_next_match _ _ _ _) as [[[[k v] e] z]| |]; cbn [rbind]; try done.
  destruct (e =? so_cur op); [by intros [= <-]|].
  destruct (check_error l b op) as [o1| |] eqn:E; cbn [rbind]; try done. apply (check_known _ _ _ _ Hw Hk) in E.
  destruct k as [k|]; [|done]. destruct (rule_at _ _); cbn [rbind]; try done.
  destruct (sym_string _ _); cbn [rbind]; try done. intros [= <-]. unfold err_known. cbn [so_lxs so_set].
  destruct (lr_discard _); [done|]. rewrite lex_errors_app, app_nil_r. exact E.
Qed.
Lemma loop_known l b fuel : forall op op', set_wf (so_set op) -> err_known l op -> lex_loop fuel l b op = Ok op' -> err_known l op'.
Proof.
  induction fuel as [|fuel IH]; intros op op' Hw Hk; [done|]. cbn [lex_loop].
  destruct (lex_round l b op) as [o1| |] eqn:E; cbn [rbind]; try done.
  pose proof (round_known _ _ _ _ Hw Hk E) as Hk1. apply lex_round_set in E as [Hw1 _]; [|done].
  destruct (_ <=? _); [by intros [= <-]|]. destruct (update_next _ _ _ _); cbn [rbind]; try done. by apply IH.
Qed.
Lemma slex_known l b fuel xs l' : set_wf (sl_set l) -> slex l b fuel = Ok (xs, l') -> lex_errors xs <> [] ->
  sl_error l ∈ symb2str (sl_set l').
Proof.
  intros Hw. unfold slex. destruct (populate_next _ _); cbn [rbind]; try done.
  destruct (lex_loop _ _ _ _) as [o1| |] eqn:E; cbn [rbind]; try done.
  assert (Hk : err_known l o1).
  { eapply loop_known; [|..|exact E]; [done|]. intros H. cbn [so_lxs] in H. by rewrite errors_inserted in H. }
  apply lex_loop_set in E as [Hw1 _]; [|done].
  destruct (check_error _ _ _) as [o2| |] eqn:E2; cbn [rbind]; try done. apply (check_known _ _ _ _ Hw1 Hk) in E2.
  intros [= <- <-]. rewrite lex_errors_app, errors_inserted, app_nil_r. exact E2.
Qed.

(** Lex adds no name but the error kind. *)
Definition few (l : slexer) (s : set) (op : sop) : Prop := forall x, x ∈ symb2str (so_set op) -> x ∈ symb2str s \/ x = sl_error l.
Lemma check_few l b s op op' : few l s op -> check_error l b op = Ok op' -> few l s op'.
Proof.
  intros Hf. unfold check_error. destruct (so_err op); [|by intros [= <-]].
  destruct (_ <? _); [by intros [= <-]|]. destruct (go_slice _ _ _); cbn [rbind]; try done.
  destruct (set_str _ _) as [k s'] eqn:Es. destruct (sym_string _ _); cbn [rbind]; try done. intros [= <-] x. cbn [so_set].
  unfold set_str in Es. destruct (str2sym (so_set op) !! sl_error l) as [v|] eqn:Ek; injection Es as <- <-; [apply Hf|].
  cbn [symb2str]. intros Hx. apply elem_of_app in Hx as [Hx|Hx]; [by apply Hf|]. apply elem_of_list_singleton in Hx as ->. by right.
Qed.
Lemma round_few l b s op op' : few l s op -> lex_round l b op = Ok op' -> few l s op'.
Proof.
  intros Hf. unfold lex_round. destruct (find_next_match _ _ _ _) as [[[[k v] e] z]| |]; cbn [rbind]; try done.
  destruct (e =? so_cur op); [by intros [= <-]|].
  destruct (check_error l b op) as [o1| |] eqn:E; cbn [rbind]; try done. apply (check_few _ _ _ _ _ Hf) in E.
  destruct k as [k|]; [|done]. destruct (rule_at _ _); cbn [rbind]; try done.
  destruct (sym_string _ _); cbn [rbind]; try done. by intros [= <-].
Qed.
Lemma loop_few l b s fuel : forall op op', few l s op -> lex_loop fuel l b op = Ok op' -> few l s op'.
Proof.
  induction fuel as [|fuel IH]; intros op op' Hf; [done|]. cbn [lex_loop].
  destruct (lex_round l b op) as [o1| |] eqn:E; cbn [rbind]; try done. apply (round_few _ _ _ _ _ Hf) in E.
  destruct (_ <=? _); [by intros [= <-]|]. destruct (update_next _ _ _ _); cbn [rbind]; try done. by apply IH.
Qed.
Lemma slex_few l b fuel xs l' : slex l b fuel = Ok (xs, l') -> forall x, x ∈ symb2str (sl_set l') -> x ∈ symb2str (sl_set l) \/ x = sl_error l.
Proof.
  unfold slex. destruct (populate_next _ _); cbn [rbind]; try done.
  destruct (lex_loop _ _ _ _) as [o1| |] eqn:E; cbn [rbind]; try done. apply (loop_few _ _ (sl_set l)) in E; [|by intros x Hx; left].
  destruct (check_error _ _ _) as [o2| |] eqn:E2; cbn [rbind]; try done. apply (check_few _ _ _ _ _ E) in E2.
  intros [= <- <-]. exact E2.
Qed.

(** * Histories of any kind *)
Lemma step_settings f l c l' t : has_settings l t -> set_wf (sl_set l) -> sl_step f l c = Ok l' -> has_settings l' (set_setting t c).
Proof.
  intros Hs Hw. destruct c as [k r d|s| | |e|k v|k v]; cbn [sl_step set_setting].
  - intros [= <-]. unfold slexer_add. destruct (set_str _ _) as [i s']. unfold add_rule.
    destruct (_ !! i) as [[q|]|]; split; apply Hs.
  - destruct (slex l s f) as [[xs l1]| |] eqn:E; cbn [rbind]; try done. intros [= <-].
    apply slex_set in E as (s' & -> & _ & _); [|done]. split; apply Hs.
  - intros [= <-]. split; try apply Hs. done.
  - intros [= <-]. split; try apply Hs. done.
  - intros [= <-]. split; try apply Hs. done.
  - intros [= <-]. split; try apply Hs. done.
  - intros [= <-]. split; try apply Hs. done.
Qed.
Lemma calls_settings cs fuel : forall l, sl_calls cs slexer_empty fuel = Ok l -> has_settings l (settings_of cs).
Proof.
  induction cs as [|c cs IH] using rev_ind; intros l.
  - intros [= <-]. done.
  - rewrite sl_calls_snoc, settings_of_snoc. destruct (sl_calls cs slexer_empty fuel) as [l0| |] eqn:E; cbn [rbind]; try done.
    apply step_settings; [by apply IH|]. exact (sn_wf _ _ (sane_history _ _ _ E)).
Qed.

(** What a call keeps. *)
Lemma step_grows f l D c l' : sane l D -> sl_step f l c = Ok l' ->
  set_le (sl_set l) (sl_set l') /\ length (sl_rules l) <= length (sl_rules l').
Proof.
  intros Hn. destruct c as [k r d|s| | |e|k v|k v]; cbn [sl_step]; try (intros [= <-]; split; [apply set_le_refl|done]).
  - intros [= <-]. unfold slexer_add. destruct (set_str _ _) as [i s'] eqn:E.
    destruct (set_str_spec _ _ _ _ (sn_wf _ _ Hn) E) as (_ & Hle & _). unfold add_rule. cbn [with_set sl_rules].
    destruct (sl_rules l !! i) as [[q|]|]; cbn [fst sl_set sl_rules with_set]; (split; [done|]);
      rewrite ?insert_length, ?app_length; lia.
  - destruct (slex l s f) as [[xs l1]| |] eqn:E; cbn [rbind]; try done. intros [= <-].
    apply slex_set in E as (s' & -> & _ & Hle); [|apply Hn]. cbn [with_set sl_set sl_rules]. done.
Qed.
Lemma calls_grow cs2 fuel : forall cs1 l1 l2, sl_calls cs1 slexer_empty fuel = Ok l1 -> sl_calls (cs1 ++ cs2) slexer_empty fuel = Ok l2 ->
  set_le (sl_set l1) (sl_set l2) /\ length (sl_rules l1) <= length (sl_rules l2).
Proof.
  induction cs2 as [|c cs2 IH] using rev_ind; intros cs1 l1 l2 H1.
  - rewrite app_nil_r, H1. intros [= <-]. split; [apply set_le_refl|done].
  - rewrite app_assoc, sl_calls_snoc. destruct (sl_calls (cs1 ++ cs2) slexer_empty fuel) as [l0| |] eqn:E; cbn [rbind]; try done.
    intros H. destruct (IH _ _ _ H1 E) as [A B]. destruct (step_grows _ _ _ _ _ (sane_history _ _ _ E) H) as [C D].
    split; [by eapply set_le_trans|lia].
Qed.
(** The names in a lexer's set: kinds of rules and error kinds. *)
Lemma calls_names cs fuel : forall l, sl_calls cs slexer_empty fuel = Ok l ->
  forall x, x ∈ symb2str (sl_set l) -> x ∈ map rd_kind (rules_of cs) \/ exists pre post, cs = pre ++ post /\ st_error (settings_of pre) = x.
Proof.
  induction cs as [|c cs IH] using rev_ind; intros l.
  - intros [= <-] x Hx. inversion Hx.
  - rewrite sl_calls_snoc, rules_of_snoc. destruct (sl_calls cs slexer_empty fuel) as [l0| |] eqn:E; cbn [rbind]; try done.
    pose proof (sane_history _ _ _ E) as Hn. specialize (IH _ eq_refl).
    assert (Hold : forall x, x ∈ symb2str (sl_set l0) -> x ∈ map rd_kind (add_def (rules_of cs) c)
       \/ exists pre post, cs ++ [c] = pre ++ post /\ st_error (settings_of pre) = x).
    { intros x Hx. destruct (IH x Hx) as [H|(pre & post & -> & H)].
      - left. destruct c; cbn [add_def]; try done. destruct (decide _); [done|]. rewrite map_app. apply elem_of_app. by left.
      - right. exists pre, (post ++ [c]). split; [by rewrite <- app_assoc|done]. }
    destruct c as [k r d|s| | |e|k v|k v]; cbn [sl_step]; try (intros [= <-]; exact Hold).
    + intros [= <-] x. unfold slexer_add. destruct (set_str _ _) as [i s'] eqn:Es.
      assert (Hs : symb2str (sl_set (fst (add_rule (with_set l0 s') i r d))) = symb2str s').
      { unfold add_rule. destruct (_ !! i) as [[q|]|]; done. }
      rewrite Hs. unfold set_str in Es. destruct (str2sym (sl_set l0) !! k) as [v|] eqn:Ek; injection Es as <- <-; [apply Hold|].
      cbn [symb2str]. intros Hx. apply elem_of_app in Hx as [Hx|Hx]; [by apply Hold|]. apply elem_of_list_singleton in Hx as ->.
      left. cbn [add_def]. destruct (decide _); [done|]. rewrite map_app. apply elem_of_app. right. cbn. left.
    + destruct (slex l0 s fuel) as [[xs l1]| |] eqn:El; cbn [rbind]; try done. intros [= <-] x Hx.
      destruct (slex_few _ _ _ _ _ El x Hx) as [H| ->]; [by apply Hold|].
      right. exists cs, [CLex s]. split; [done|]. by rewrite (hs_error _ _ (calls_settings _ _ _ E)).
Qed.

(** * The hole *)
Lemma calls_prefix cs2 fuel : forall cs1 l, sl_calls (cs1 ++ cs2) slexer_empty fuel = Ok l -> exists l1, sl_calls cs1 slexer_empty fuel = Ok l1.
Proof.
  induction cs2 as [|c cs2 IH] using rev_ind; intros cs1 l; [rewrite app_nil_r; eauto|].
  rewrite app_assoc, sl_calls_snoc. destruct (sl_calls (cs1 ++ cs2) slexer_empty fuel) as [l0| |] eqn:E; cbn [rbind]; try done.
  intros _. by eapply IH.
Qed.
Lemma populate_hole rs b : None ∈ rs -> populate_next rs b = Panic.
Proof.
  unfold populate_next. induction rs as [|[r|] rs IH]; intros H; [inversion H| |done].
  apply elem_of_cons in H as [H|H]; [done|]. cbn [rmap rbind]. by rewrite (IH H).
Qed.
Lemma add_fresh l k r d : set_wf (sl_set l) -> length (sl_rules l) <= length (symb2str (sl_set l)) -> k ∉ symb2str (sl_set l) ->
  length (symb2str (sl_set l)) < length (sl_rules (fst (slexer_add l k r d))).
Proof.
  intros Hw Hn Hk. unfold slexer_add. rewrite (set_str_new _ _ Hw Hk).
  unfold add_rule. cbn [with_set sl_rules]. rewrite lookup_ge_None_2 by done. cbn [fst sl_rules].
  rewrite insert_length, app_length, replicate_length. lia.
Qed.
Lemma junk_breaks pre s mid k r d post l0 xs l1 l :
  returns (sl_calls pre slexer_empty) l0 -> returns (slex l0 s) (xs, l1) -> lex_errors xs <> [] ->
  k ∉ map rd_kind (rules_of (pre ++ CLex s :: mid)) ->
  (forall p q, pre ++ CLex s :: mid = p ++ q -> st_error (settings_of p) <> k) ->
  st_error (settings_of pre) ∉ map rd_kind (rules_of (pre ++ CLex s :: mid ++ CAdd k r d :: post)) ->
  returns (sl_calls (pre ++ CLex s :: mid ++ CAdd k r d :: post) slexer_empty) l ->
  forall s', panics (slex l s').
Proof.
  intros [f0 H0] [f1 H1] Hx Hk Hp He [f2 H2] s'.
  set (f := f0 + f1 + f2).
  assert (G0 : sl_calls pre slexer_empty f = Ok l0) by (apply H0; unfold f; lia).
  assert (G1 : slex l0 s f = Ok (xs, l1)) by (apply H1; unfold f; lia).
  assert (G2 : sl_calls (pre ++ CLex s :: mid ++ CAdd k r d :: post) slexer_empty f = Ok l) by (apply H2; unfold f; lia).
  clearbody f. clear H0 H1 H2.
  pose proof (sane_history _ _ _ G0) as N0. pose proof (sane_history _ _ _ G2) as N.
  assert (E1 : sl_calls (pre ++ [CLex s]) slexer_empty f = Ok l1).
  { rewrite sl_calls_snoc, G0. cbn [rbind sl_step]. by rewrite G1. }
  pose proof (slex_known _ _ _ _ _ (sn_wf _ _ N0) G1 Hx) as Hin.
  rewrite (hs_error _ _ (calls_settings _ _ _ G0)) in Hin. set (e := st_error (settings_of pre)) in *.
  apply elem_of_list_lookup in Hin as [i Hi].
  assert (Ea : pre ++ CLex s :: mid = (pre ++ [CLex s]) ++ mid) by by rewrite <- app_assoc.
  assert (Eb : pre ++ CLex s :: mid ++ CAdd k r d :: post = ((pre ++ CLex s :: mid) ++ [CAdd k r d]) ++ post).
  { rewrite <- !app_assoc. done. }
  rewrite Eb in G2, N, He.
  assert (E2 : exists l2, sl_calls (pre ++ CLex s :: mid) slexer_empty f = Ok l2).
  { rewrite <- app_assoc in G2. by apply calls_prefix in G2. }
  destruct E2 as [l2 E2].
  assert (M1 : set_le (sl_set l1) (sl_set l2)).
  { rewrite Ea in E2. apply (calls_grow _ _ _ _ _ E1 E2). }
  pose proof (sane_history _ _ _ E2) as N2.
  assert (Hfresh : k ∉ symb2str (sl_set l2)).
  { intros H. destruct (calls_names _ _ _ E2 k H) as [H'|(p & q & H' & H'')]; [done|]. by apply (Hp p q). }
  destruct M1 as [y M1]. assert (Hi2 : symb2str (sl_set l2) !! i = Some e) by (rewrite M1; by apply lookup_app_l_Some).
  assert (E3 : exists l3, sl_calls ((pre ++ CLex s :: mid) ++ [CAdd k r d]) slexer_empty f = Ok l3 /\ i < length (sl_rules l3)).
  { rewrite sl_calls_snoc, E2. cbn [rbind sl_step]. eexists. split; [done|].
    pose proof (add_fresh l2 k r d (sn_wf _ _ N2) (sn_len _ _ N2) Hfresh). apply lookup_lt_Some in Hi2. lia. }
  destruct E3 as (l3 & E3 & Hlt). destruct (calls_grow _ _ _ _ _ E3 G2) as [_ Hlen].
  exists 0. intros fuel _. unfold slex. rewrite populate_hole; [done|].
  destruct (sl_rules l !! i) as [[q|]|] eqn:Eq.
  - exfalso. apply He. apply (sn_kinds _ _ N). exists i, q. split; [|done].
    rewrite <- app_assoc in G2. destruct (calls_grow _ _ _ _ _ E2 G2) as [[w ->] _]. by apply lookup_app_l_Some.
  - by apply elem_of_list_lookup_2 in Eq.
  - apply lookup_ge_None in Eq. lia.
Qed.
