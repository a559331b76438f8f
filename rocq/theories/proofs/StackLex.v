(** Lex as a whole. *)
From Coq Require Import Lia.
From Verif.spec Require Import StackSpec.
From Verif.proofs Require Import Fuel SetProofs LexProofs StackProofs StackProofs2 StackLoop StackCuts StackCuts2.

Lemma gcuts_env env env' bl b D S C run cur ps ok : (forall n, env n = env' n) ->
  gcuts env bl b D S C run cur ps ok -> gcuts env' bl b D S C run cur ps ok.
Proof.
  intros Hn. assert (Hm : forall d D S D' S', moves env d D S D' S' -> moves env' d D S D' S').
  { intros d D0 S0 D' S'. unfold moves. by rewrite Hn. }
  assert (Hf : forall d S, falls env d S -> falls env' d S).
  { intros d S0. unfold falls. by rewrite Hn. }
  induction 1.
  - by apply g_junk_end.
  - by apply g_junk.
  - by apply g_leave.
  - by eapply g_last.
  - eapply g_fall; eauto.
  - by eapply g_stay.
  - eapply g_move; eauto.
Qed.

(** The lexer once the error kind is interned. *)
Definition grown (l l' : stlexer) : Prop :=
  stl_subs l' = stl_subs l /\ stl_lexers l' = stl_lexers l /\ stl_first l' = stl_first l
  /\ set_wf (stl_set l') /\ exists more, symb2str (stl_set l') = symb2str (stl_set l) ++ more.
Lemma defs_in_more st st' sl more : sane st sl -> symb2str st' = symb2str st ++ more -> defs_in st' sl = defs_in st sl.
Proof.
  intros H E. unfold defs_in.
  assert (Ho : forall k, k ∈ su_order sl -> exists r, su_rules sl !! k = Some (Some r)).
  { intros k Hk. apply elem_of_list_lookup in Hk as [p Hp]. destruct (sn_order _ _ H _ _ Hp) as (r & Hr & _). eauto. }
  induction (su_order sl) as [|k ks IH]; [done|]. cbn. rewrite IH by (intros; apply Ho; by right).
  destruct (Ho k ltac:(left)) as [r Hr]. rewrite Hr. pose proof (sn_set _ _ H _ _ Hr) as Hk.
  rewrite E, lookup_app_l by done. done.
Qed.
Record tied (l : stlexer) : Prop := {
  ti_sane : forall id sl, stl_subs l !! id = Some sl -> sane (stl_set l) sl;
  ti_names : forall n id, stl_lexers l !! n = Some id -> id < length (stl_subs l);
  ti_first : forall id, stl_first l = Some id -> id < length (stl_subs l);
  ti_set : set_wf (stl_set l)
}.
Lemma grown_tied l l' : tied l -> grown l l' -> tied l'.
Proof.
  intros [H1 H2 H3 H4] (E1 & E2 & E3 & Hw & more & E4). split.
  - rewrite E1. intros id sl Hs. eapply sane_more; [by eapply H1|]. rewrite E4, app_length. lia.
  - rewrite E1, E2. done.
  - rewrite E1, E3. done.
  - done.
Qed.
Lemma grown_frame l l' id : tied l -> grown l l' -> frame l' id = frame l id.
Proof.
  intros H (E1 & _ & _ & _ & more & E4). unfold frame. rewrite E1. destruct (stl_subs l !! id) as [sl|] eqn:E; [|done].
  f_equal. eapply defs_in_more; [by eapply ti_sane|done].
Qed.
Lemma grown_env l l' n : tied l -> grown l l' -> env_of l' n = env_of l n.
Proof.
  intros H Hg. unfold env_of. rewrite (proj1 (proj2 Hg)). destruct (stl_lexers l !! n); [|done]. by apply grown_frame.
Qed.
Lemma grown_first l l' : tied l -> grown l l' -> first_frame l' = first_frame l.
Proof.
  intros H Hg. unfold first_frame. rewrite (proj1 (proj2 (proj2 Hg))). destruct (stl_first l); [|done]. by apply grown_frame.
Qed.
Definition with_error (l : stlexer) : stlexer :=
  StLexer (stl_subs l) (stl_lexers l) (stl_first l) (snd (set_str (stl_set l) (stl_error l)))
          (stl_error l) (stl_compare l) (stl_start l) (stl_end l).
Lemma with_error_grown l : tied l -> grown l (with_error l).
Proof.
  intros H. unfold with_error. destruct (set_str (stl_set l) (stl_error l)) as [k st] eqn:E.
  destruct (set_str_spec _ _ _ _ (ti_set _ H) E) as (Hw & Hl & _). split; [done|]. split; [done|]. split; [done|]. split; [done|].
  exact Hl.
Qed.
Lemma tied_ok l : tied l -> (forall id D d, frame l id = Some D -> d ∈ D -> s_well_formed (sd_re d)) -> all_groups_ok l -> ok_lexer l.
Proof. intros [H1 H2 H3 H4] Hr Hg. split; [done|done|]. intros id D d Hf Hd. split; [by eapply Hr|by eapply Hg]. Qed.

Lemma lex_cuts l s bl D : ok_lexer l -> tied l -> stl_compare l = by_flag bl -> first_frame l = Some D ->
  exists ps ok, gcuts (env_of l) bl s D [] (gfresh s 0 D) None 0 ps ok
    /\ if ok : bool then exists out, returns (st_lex l s) (inserted (stl_start l) ++ out ++ inserted (stl_end l), with_error l)
                                  /\ semits code_places (stl_error l) [] ps out
       else panics (st_lex l s).
Proof.
  intros Hok Ht Hcmp HD. pose proof (with_error_grown l Ht) as Hg. set (l' := with_error l) in *.
  assert (Ht' : tied l') by (by eapply grown_tied).
  assert (Hok' : ok_lexer l').
  { split; [apply Ht'|apply Ht'|]. intros id D' d. rewrite (grown_frame l) by done. apply Hok. }
  unfold first_frame in HD. destruct (stl_first l) as [id|] eqn:Ef; [|done].
  assert (HD' : frame l' id = Some D) by (by rewrite (grown_frame l)). unfold frame in HD'.
  destruct (stl_subs l' !! id) as [sl|] eqn:Esl; [|done]. injection HD' as HD'.
  assert (Hsane : sane (stl_set l') sl) by (by eapply ti_sane).
  assert (Hpop : st_populate l' sl s 0 = Ok (table sl (gfresh s 0 D) (sym_count (stl_set l')))) by (rewrite populate_table by done; do 3 f_equal; exact HD').
  set (op := StOp id [] (inserted (stl_start l)) (table sl (gfresh s 0 D) (sym_count (stl_set l'))) None 0 1).
  destruct (loop_cuts l' s bl Hok' Hcmp (S (2 * (length s - 0) + 0)) op D [] (gfresh s 0 D) None 0 []) as (ps & ok & Hc & He).
  - cbn [length]. lia.
  - split; cbn [op sp_sub sp_next sp_stack sp_err sp_cur].
    + exists sl. split; [done|]. split; [symmetry; exact HD'|done].
    + constructor.
    + apply fresh_ok. lia.
    + done.
    + done.
  - destruct s; [right; done|left; cbn; lia].
  - done.
  - cbn. done.
  - cbn. done.
  - done.
  - exists ps, ok. split; [eapply gcuts_env; [|exact Hc]; intros n; by apply grown_env|].
    assert (Elex : forall fuel, st_lex l s fuel =
      (op1 <-! st_loop fuel l' s op; op' <-! st_check_error l' s (st_consume s op1); Ok (sp_lxs op' ++ inserted (stl_end l), l'))).
    { intros fuel. unfold st_lex. rewrite Ef. unfold sub_at. change (stl_subs l) with (stl_subs l'). rewrite Esl. cbn [rbind].
      assert (E' : StLexer (stl_subs l') (stl_lexers l) (Some id) (snd (set_str (stl_set l) (stl_error l)))
        (stl_error l) (stl_compare l) (stl_start l) (stl_end l) = l') by (unfold l', with_error; by rewrite Ef).
      rewrite E', Hpop. cbn [rbind]. done. }
    unfold ends_with in He. destruct ok.
    + destruct He as (op1 & op2 & out & [F H1] & H2 & H3 & H4). exists out. split; [|exact H4].
      exists F. intros fuel Hf. rewrite Elex, (H1 fuel Hf). cbn [rbind]. rewrite H2. cbn [rbind]. rewrite H3. cbn [sp_lxs op].
      by rewrite <- app_assoc.
    + destruct He as [F He]. exists F. intros fuel Hf. rewrite Elex, (He fuel Hf). done.
Qed.
Lemma lex_nothing l s : first_frame l = None -> tied l -> panics (st_lex l s).
Proof.
  intros Hf Ht. exists 0. intros fuel _. unfold st_lex. unfold first_frame in Hf. destruct (stl_first l) as [id|] eqn:E; [|done].
  exfalso. pose proof (ti_first _ Ht _ E) as Hlt. apply lookup_lt_is_Some_2 in Hlt as [sl Hsl].
  unfold frame in Hf. by rewrite Hsl in Hf.
Qed.

(** Fuel. *)
Lemma loop_mono l b n : forall m op, rle (st_loop n l b op) (st_loop (n + m) l b op).
Proof.
  induction n as [|n IH]; intros m op; [apply rle_oof|]. cbn [Nat.add st_loop]. apply rle_bind; [apply rle_refl|].
  intros [[] op1]; [apply rle_refl|apply IH].
Qed.
Lemma st_lex_mono l s : fuel_mono (st_lex l s).
Proof.
  intros n m' Hle. replace m' with (n + (m' - n)) by lia. generalize (m' - n). clear m' Hle. intros m. unfold st_lex. destruct (stl_first l); [|apply rle_refl]. apply rle_bind; [apply rle_refl|]. intros sl.
  apply rle_bind; [apply rle_refl|]. intros nx. apply rle_bind; [apply loop_mono|]. intros; apply rle_refl.
Qed.
Lemma st_lex_after l s fuel xs l' : st_lex l s fuel = Ok (xs, l') -> l' = with_error l.
Proof.
  unfold st_lex, with_error. destruct (stl_first l); [|done]. destruct (sub_at _ _); [|done|done]. cbn [rbind].
  destruct (st_populate _ _ _ _); [|done|done]. cbn [rbind]. destruct (st_loop _ _ _ _); [|done|done]. cbn [rbind].
  destruct (st_check_error _ _ _); [|done|done]. cbn [rbind]. intros [= _ <-]. done.
Qed.
