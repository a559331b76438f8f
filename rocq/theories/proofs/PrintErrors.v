(** LexemeString, and the messages of lex errors. *)
From Coq Require Import String.
From Coq Require Import Lia.
From Verif.spec Require Import PrintSpec.
From Verif.proofs Require Import PrintProofs LexMain RunProofs StackMain Fuel.
Local Open Scope nat_scope.
Local Open Scope list_scope.

(** * LexemeString *)
Definition item (x : lexeme) : gostring := match lx_val x with [] => lx_kind x | v => lx_kind x ++ L ": " ++ v end.
Lemma string_items ls : lexemes_string ls = match ls with [] => [] | [x] => item x | _ => L "[" ++ strjoin (L ", ") (map item ls) ++ L "]" end.
Proof. destruct ls as [|x [|y ls]]; done. Qed.
Lemma item_no x : nameable x -> 44%N ∉ item x.
Proof.
  intros (_ & H1 & _ & H2). unfold item. destruct (lx_val x) as [|a v]; [done|]. rewrite !elem_of_app. intros [H|[H|H]]; [done| |done].
  change (L ": ") with [58; 32]%N in H. apply elem_of_cons in H as [?|H]; [done|]. by apply elem_of_list_singleton in H.
Qed.
Lemma item_inj x y : nameable x -> nameable y -> item x = item y -> same_token x y.
Proof.
  intros (_ & _ & Hx & _) (_ & _ & Hy & _) E. unfold item in E.
  destruct (lx_val x) as [|a v] eqn:Vx, (lx_val y) as [|b w] eqn:Vy.
  - split; congruence.
  - exfalso. by apply (cut_none 58%N) in E.
  - exfalso. symmetry in E. by apply (cut_none 58%N) in E.
  - apply (cut_first 58%N) in E as [Ek E]; [|done..]. apply (app_inv_head (L " ")) in E. split; congruence.
Qed.
Lemma item_head x : nameable x -> exists c r, item x = c :: r /\ c <> 91%N.
Proof. intros ((c & r & Hk & Hc) & _). unfold item. rewrite Hk. exists c. destruct (lx_val x) as [|a v]; eexists; (split; [reflexivity|done]). Qed.
Lemma string_apart xs ys : Forall nameable xs -> Forall nameable ys -> lexemes_string xs = lexemes_string ys -> Forall2 same_token xs ys.
Proof.
  intros Hx Hy E. rewrite !string_items in E.
  assert (Hn : forall l, Forall nameable l -> forall z, z ∈ map item l -> 44%N ∉ z).
  { intros l Hl z Hz. apply elem_of_list_fmap in Hz as (u & -> & Hu). apply item_no. exact (proj1 (list.Forall_forall _ _) Hl u Hu). }
  assert (Hh : forall x, Forall nameable [x] -> exists c r, item x = c :: r /\ c <> 91%N).
  { intros x H. inversion H; subst. by apply item_head. }
  destruct xs as [|x [|x2 xs]], ys as [|y [|y2 ys]].
  - constructor.
  - exfalso. destruct (Hh y Hy) as (c & r & Er & _). by rewrite Er in E.
  - done.
  - exfalso. destruct (Hh x Hx) as (c & r & Er & _). by rewrite Er in E.
  - constructor; [|constructor]. inversion Hx; subst. inversion Hy; subst. by apply item_inj.
  - exfalso. destruct (Hh x Hx) as (c & r & Er & Hc). rewrite Er in E. injection E as -> _. done.
  - done.
  - exfalso. destruct (Hh y Hy) as (c & r & Er & Hc). rewrite Er in E. injection E as <- _. done.
  - apply app_inv_head in E. apply app_inv_tail in E. apply (join_inj 44%N (L " ")) in E; [|done|done|by apply Hn|by apply Hn].
    apply (rows_inj item nameable); [apply item_inj|done|done|done].
Qed.

(** * Messages *)
Lemma message_ok x : error_message (lx_line x) (lx_col x) (lx_val x) (lex_error_text x).
Proof. exists (int_text (lx_line x)), (int_text (lx_col x)). split; [apply int_decimal|]. split; [apply int_decimal|]. done. Qed.
Lemma simple_text k v : lex_error_text (Lx k v (-1) 0) = L "Lex Error -1:0) " ++ v.
Proof. done. Qed.
Lemma errors_texts cs l s xs l' ps : adds_first cs -> regexps_in no_lookbehind cs -> st_length (settings_of cs) = true ->
  returns (sl_calls cs slexer_empty) l -> returns (slex l s) (xs, l') -> tokenises (rules_of cs) s ps ->
  map lex_error_text (lex_errors xs) = map (fun v => L "Lex Error -1:0) " ++ v) (junks ps).
Proof.
  intros H1 H2 H3 H4 H5 H6. rewrite (lex_errors_exact cs l s xs l' ps H1 H2 H3 H4 H5 H6), map_map. apply map_ext. intros v. apply simple_text.
Qed.
Lemma run_text cs l g rs s ps lxs v vs : adds_first cs -> regexps_in no_lookbehind cs -> st_length (settings_of cs) = true ->
  returns (sl_calls cs slexer_empty) l -> tokenises (rules_of cs) s ps -> all_lexemes cs ps lxs -> junks ps = v :: vs ->
  exists e l', returns (pipeline l g rs s) (None, Some e, l') /\ run_error_text e = L "Lex Error -1:0) " ++ v.
Proof.
  intros H1 H2 H3 H4 H5 H6 H7. destruct (pipe_error cs l g rs s ps lxs H1 H2 H3 H4 H5 H6 v vs H7) as (l' & H).
  eexists _, l'. split; [exact H|]. apply simple_text.
Qed.
(** Nowhere is a column 0. *)
Lemma message_zero a0 line col v : 58%N ∉ a0 -> (0 < col)%Z -> ~ error_message line col v (L "Lex Error " ++ a0 ++ L ":0) " ++ v).
Proof.
  intros H1 Hc (a & b & (ds & [Hds _] & _ & Ea) & (ds' & [Hds' _] & Hn & Eb) & E).
  assert (Ha : 58%N ∉ a).
  { rewrite Ea. intros H. destruct (line <? 0)%Z; [apply elem_of_app in H as [H|H]; [by apply elem_of_list_singleton in H|]|]; apply Hds in H; lia. }
  assert (Hb : b = ds') by (rewrite Eb; by destruct (Z.ltb_spec col 0); [lia|]). clear Eb. subst b.
  change (L ":0) " ++ v) with (58%N :: (L "0" ++ 41%N :: (32%N :: v))) in E.
  apply app_inv_head in E.
  apply (cut_first 58%N) in E as [_ E]; [|exact H1|done].
  apply (cut_first 41%N) in E as [E _].
  - rewrite <- E in Hn. change (number_of (L "0")) with 0%Z in Hn. lia.
  - change (L "0") with [48]%N. rewrite !elem_of_cons, elem_of_nil. by intros [?|?].
  - intros H. apply Hds' in H. lia.
Qed.
Lemma message_not line col v : (0 < col)%Z -> ~ error_message line col v (L "Lex Error -1:0) " ++ v).
Proof. apply (message_zero (L "-1")). change (L "-1") with [45; 49]%N. rewrite !elem_of_cons, elem_of_nil. intros [?|[?|?]]; done. Qed.

Lemma extra_no kv xs : extra kv xs -> lex_errors xs = [].
Proof. by intros [[_ ->]|[_ ->]]. Qed.
Lemma lex_errors_app a b : lex_errors (a ++ b) = lex_errors a ++ lex_errors b.
Proof. induction a as [|[x|x] a IH]; [done|exact IH|]. cbn [app lex_errors]. by rewrite IH. Qed.
Lemma emits_messages err before ps out : semits true_places err before ps out -> messages before ps (map lex_error_text (lex_errors out)).
Proof.
  induction 1 as [|before x ps out rest Hs Hem IH]; [constructor|]. rewrite lex_errors_app, map_app. destruct x as [d v val|v]; cbn [sshows] in Hs.
  - constructor. destruct (sd_discard d); [subst out; exact IH|]. destruct Hs as (c & _ & ->). exact IH.
  - destruct Hs as (c & Hc & ->). cbn [lex_errors map app]. apply (ms_junk _ _ _ c); [exact Hc| |exact IH].
    exact (message_ok (Lx err v (Z.of_nat (1 + newlines (stext before))) c)).
Qed.
Lemma stack_texts compile definitions cs l s : engine s_no_lookbehind compile -> built compile definitions cs l -> all_groups_ok l ->
  forall D, first_frame l = Some D ->
  exists ps ok, scuts (env_of l) (st_length (st_settings cs)) D [] s ps ok
    /\ if ok : bool then straight ps -> exists xs l', returns (st_lex l s) (xs, l') /\ messages [] ps (map lex_error_text (lex_errors xs))
       else panics (st_lex l s).
Proof.
  intros He Hb Hg D HD. destruct (lex_positions compile definitions cs l s He Hb Hg D HD) as (ps & ok & Hc & Hx).
  exists ps, ok. split; [done|]. destruct ok; [|done]. intros Hs. destruct (Hx Hs) as (l' & pre & out & post & Hr & H1 & H2 & Hem).
  eexists _, l'. split; [exact Hr|]. rewrite !lex_errors_app, (extra_no _ _ H1), (extra_no _ _ H2), app_nil_r. by apply (emits_messages (st_error (st_settings cs))).
Qed.
