(** Every run of the stack lexer's loop is a cutting. *)
From Coq Require Import Lia.
From Verif.spec Require Import StackSpec.
From Verif.proofs Require Import Fuel SetProofs LexProofs StackProofs StackProofs2.

Lemma loop_ret l b op op1 op' : st_round l b op = Ok (false, op1) ->
  returns (fun n => st_loop n l b op1) op' -> returns (fun n => st_loop n l b op) op'.
Proof. intros E [F H]. exists (S F). intros [|f] Hf; [lia|]. cbn [st_loop]. rewrite E. cbn [rbind]. apply H. lia. Qed.
Lemma loop_panic l b op op1 : st_round l b op = Ok (false, op1) ->
  panics (fun n => st_loop n l b op1) -> panics (fun n => st_loop n l b op).
Proof. intros E [F H]. exists (S F). intros [|f] Hf; [lia|]. cbn [st_loop]. rewrite E. cbn [rbind]. apply H. lia. Qed.
Lemma loop_stop l b op op1 : st_round l b op = Ok (true, op1) -> returns (fun n => st_loop n l b op) op1.
Proof. intros E. exists 1. intros [|f] Hf; [lia|]. cbn [st_loop]. rewrite E. done. Qed.
Lemma loop_crash l b op : st_round l b op = Panic -> panics (fun n => st_loop n l b op).
Proof. intros E. exists 1. intros [|f] Hf; [lia|]. cbn [st_loop]. rewrite E. done. Qed.

Definition ends_with (l : stlexer) (b : gostring) (op : stop) (before : list spiece) (ps : list spiece) (ok : bool) : Prop :=
  if ok then
    exists op' op'' out, returns (fun n => st_loop n l b op) op' /\ st_check_error l b (st_consume b op') = Ok op''
      /\ sp_lxs op'' = sp_lxs op ++ out /\ semits code_places (stl_error l) before ps out
  else panics (fun n => st_loop n l b op).

Lemma ends_step l b op op1 before pre ps out ok : st_round l b op = Ok (false, op1) ->
  sp_lxs op1 = sp_lxs op ++ out ->
  (forall rest, semits code_places (stl_error l) (before ++ pre) ps rest ->
     semits code_places (stl_error l) before (pre ++ ps) (out ++ rest)) ->
  ends_with l b op1 (before ++ pre) ps ok -> ends_with l b op before (pre ++ ps) ok.
Proof.
  intros E Hx Hem. unfold ends_with. destruct ok; [|apply loop_panic; done].
  intros (op' & op'' & o & H1 & H2 & H3 & H4). exists op', op'', (out ++ o).
  split; [eapply loop_ret; eauto|]. split; [done|]. split; [rewrite H3, Hx; by rewrite app_assoc|]. by apply Hem.
Qed.

Section Loop.
Context (l : stlexer) (b : gostring) (bl : bool).
Hypothesis Hl : ok_lexer l.
Hypothesis Hcmp : stl_compare l = by_flag bl.

Lemma loop_cuts : forall N op D S C run cur before,
  2 * (length b - cur) + length S < N ->
  at_state l b op D S C run cur ->
  (cur < length b \/ (b = [] /\ cur = 0)) ->
  (forall e, run = Some e -> e < cur /\ S = []) ->
  sp_lines op = 1 + newlines (take (default cur run) b) ->
  stext before = take (default cur run) b -> not_junk before ->
  exists ps ok, gcuts (env_of l) bl b D S C run cur ps ok /\ ends_with l b op before ps ok.
Proof.
  induction N as [|N IH]; [lia|]. intros op D S C run cur before HN Hst Hcur Hrun Hlines Hbefore Hnj.
  assert (Hle : cur <= length b) by (destruct Hcur as [?|[-> ->]]; [lia|done]).
  destruct (next_match_ok l b bl op D S C run cur Hl Hcmp Hst Hle) as (sl & Hsub & HD & Hnext & Hsane & Hcase).
  pose proof (as_cur _ _ _ _ _ _ _ _ Hst) as Hopc. pose proof (as_err _ _ _ _ _ _ _ _ Hst) as Hope.
  pose proof (as_stack _ _ _ _ _ _ _ _ Hst) as Hstk. pose proof (as_cache _ _ _ _ _ _ _ _ Hst) as Hca.
  assert (Hstack : sp_stack op = [] <-> S = []).
  { split; intros E.
    - rewrite E in Hstk. cbn in Hstk. by apply Forall2_nil_inv_l in Hstk.
    - rewrite E in Hstk. apply Forall2_nil_inv_r in Hstk. destruct (sp_stack op) as [|x s]; [done|].
      rewrite reverse_cons in Hstk. by destruct (reverse s). }
  (* nothing found, or the empty string *)
  assert (Hidle : gidle bl C cur ->
     (forall f lines, st_next_match l sl b op = Ok (f, lines) -> lines = sp_lines op
         /\ match f with Some (_, e, _) => e = cur | None => True end) ->
     (exists f lines, st_next_match l sl b op = Ok (f, lines)) ->
     exists ps ok, gcuts (env_of l) bl b D S C run cur ps ok /\ ends_with l b op before ps ok).
  { intros Hid Hnm (f & lines & E). destruct (Hnm _ _ E) as [-> Hf]. clear Hnm.
    assert (Eend : (match f with Some (_, e, _) => e | None => sp_cur op end =? sp_cur op) = true).
    { apply Nat.eqb_eq. rewrite Hopc. destruct f as [[[? ?] ?]|]; done. }
    destruct S as [|D' S'].
    - assert (Eround : st_round l b op = Ok (length b <=? Datatypes.S cur, st_set_error op (Datatypes.S cur))).
      { unfold st_round. rewrite Hsub. cbn [rbind]. rewrite E. cbn [rbind]. rewrite Eend.
        rewrite (proj2 Hstack eq_refl). rewrite Hopc. f_equal. unfold st_set_error. cbn. rewrite Hopc. rewrite (proj2 Hstack eq_refl). done. }
      destruct (Nat.leb_spec (length b) (Datatypes.S cur)) as [Hend|Hend].
      + exists (junk (cut b (default cur run) (length b))), true. split; [by apply g_junk_end|].
        unfold ends_with. exists (st_set_error op (Datatypes.S cur)).
        destruct (decide (b = [])) as [->|Hb].
        * exists (st_set_error op (Datatypes.S cur)), []. cbn [length] in *.
          split; [by apply loop_stop|]. assert (cur = 0) as -> by lia.
          split. { unfold st_consume. cbn [length sp_cur st_set_error Nat.leb]. unfold st_check_error. cbn.
                   destruct (sp_err op); done. }
          rewrite app_nil_r. split; [done|]. unfold cut. rewrite drop_nil, take_nil. constructor.
        * assert (Hcl : length b = Datatypes.S cur). { destruct b; [done|]. cbn [length] in *. destruct Hcur as [?|[? ?]]; [lia|done]. }
          destruct (check_error_ok l b (st_set_error op (Datatypes.S cur)) (Some (default cur run)) (length b)
                      (1 + newlines (take (default cur run) b)) before (cut b (default cur run) (length b)))
            with (after := @nil spiece) as (op'' & out & H1 & H2 & _ & _ & _ & _ & _ & _ & _ & _ & H3).
          -- unfold st_set_error. cbn. rewrite Hope, Hopc. by destruct run.
          -- cbn. lia.
          -- lia.
          -- intros e [= <-]. destruct run as [e|]; cbn; [|lia]. destruct (Hrun e eq_refl). lia.
          -- exact Hbefore.
          -- done.
          -- done.
          -- cbn. lia.
          -- done.
          -- exists op'', out. split; [by apply loop_stop|]. split.
             { unfold st_consume. cbn [sp_cur st_set_error]. rewrite Hcl, Nat.leb_refl. done. }
             split; [exact H2|]. rewrite <- (app_nil_r (junk _)), <- (app_nil_r out). apply H3. constructor.
      + destruct (IH (st_set_error op (Datatypes.S cur)) D [] C (Some (default cur run)) (Datatypes.S cur) before) as (ps & ok & Hg & He).
        * cbn [length] in *. lia.
        * split; [|exact Hstk| |cbn; rewrite Hope, Hopc; by destruct run|done].
          -- exists sl. cbn. split; [|done]. unfold sub_at in Hsub. destruct (stl_subs l !! sp_sub op); congruence.
          -- destruct Hca as [HC1 HC2]. split; [done|]. intros p x Hx. destruct (HC2 _ _ Hx) as (d & ? & ? & ?). exists d. split; [done|]. split; [done|lia].
        * left. lia.
        * intros e [= <-]. split; [|done]. destruct run as [e|]; cbn; [|lia]. destruct (Hrun e eq_refl). lia.
        * exact Hlines.
        * exact Hbefore.
        * done.
        * exists ps, ok. split; [by apply g_junk|].
          change ps with ([] ++ ps). eapply (ends_step _ _ _ _ _ [] ps []); [exact Eround|cbn; by rewrite app_nil_r|rewrite app_nil_r; done|].
          by rewrite app_nil_r.
    - assert (run = None) as ->. { destruct run as [e|]; [|done]. destruct (Hrun e eq_refl). done. }
      pose proof (pop_ok l b 1 op (D' :: S') Hl ltac:(lia) Hstk ltac:(lia)) as (op' & D1 & sl' & Hpop). cbn [length] in Hpop.
      replace (min 1 (Datatypes.S (length S')) - 1) with 0 in Hpop by lia. replace (min 1 (Datatypes.S (length S'))) with 1 in Hpop by lia.
      cbn zeta in Hpop. destruct Hpop as (HD1 & Epop & Hsl' & HD1' & Hn' & Hst' & He' & Hc' & Hl' & Hx'). cbn in HD1. injection HD1 as <-.
      assert (Eround : st_round l b op = Ok (false, op')).
      { unfold st_round. rewrite Hsub. cbn [rbind]. rewrite E. cbn [rbind]. rewrite Eend.
        destruct (sp_stack op) as [|i st] eqn:Es; [discriminate (proj1 Hstack eq_refl)|].
        rewrite <- Es. replace (StOp _ _ _ _ _ _ _) with op by (destruct op; done). rewrite Epop. done. }
      destruct (IH op' D' S' (gfresh b cur D') None cur before) as (ps & ok & Hg & He).
      * cbn [length] in HN. lia.
      * split.
        -- exists sl'. split; [done|]. split; [done|]. rewrite Hn', Hopc. done.
        -- exact Hst'.
        -- by apply fresh_ok.
        -- by rewrite He'.
        -- by rewrite Hc'.
      * done.
      * done.
      * by rewrite Hl'.
      * done.
      * done.
      * exists ps, ok. split; [by apply g_leave|].
        change ps with ([] ++ ps). eapply (ends_step _ _ _ _ _ [] ps []); [exact Eround|rewrite Hx'; by rewrite app_nil_r|rewrite app_nil_r; done|].
        by rewrite app_nil_r. }
  destruct Hcase as [[E Hno] | (p & x & n & r & c & Hp & Hd & Hf & Hend & Hcol & E)].
  { apply Hidle.
    - intros p x [Hg _]. destruct (Hno _ _ Hg).
    - intros f lines. rewrite E. intros [= <- <-]. done.
    - eauto. }
  destruct (decide (gend x = cur)) as [Heq|Hne].
  { apply Hidle.
    - intros q y Hq. destruct (gpick_fun _ _ _ _ _ _ _ Hp Hq) as [_ <-]. done.
    - intros f lines. rewrite E. intros [= <- <-]. split; [|done]. rewrite Heq. unfold cut. rewrite Nat.sub_diag, take_0. unfold newlines. cbn [count_occ]. lia.
    - eauto. }
  clear Hidle.
  (* a match *)
  set (d := def_of n r) in *. set (w := cut b cur (gend x)) in *. set (tok := STok d w (gval b d x)).
  set (v := run_text b run cur).
  set (op0 := StOp (sp_sub op) (sp_stack op) (sp_lxs op) (sp_next op) (sp_err op) (sp_cur op) (sp_lines op + newlines w)).
  assert (Hrun' : forall e, run = Some e -> e < cur) by (intros e He; apply Hrun; done).
  assert (Hce : forall rest : list spiece, exists op1 out, st_check_error l b op0 = Ok op1 /\ sp_lxs op1 = sp_lxs op ++ out
      /\ sp_err op1 = None /\ sp_cur op1 = cur /\ sp_sub op1 = sp_sub op /\ sp_stack op1 = sp_stack op /\ sp_next op1 = sp_next op
      /\ sp_lines op1 = sp_lines op + newlines w + newlines v
      /\ stext (before ++ junk v) = take cur b
      /\ pl_line code_places (before ++ junk v) = sp_lines op
      /\ forall rest', semits code_places (stl_error l) (before ++ junk v) (tok :: rest) rest' ->
         semits code_places (stl_error l) before (junk v ++ tok :: rest) (out ++ rest')).
  { intros rest. eapply (check_error_ok l b op0 run cur (sp_lines op) before v) with (after := tok :: rest); try done. }
  assert (Htok : forall rest rest', stext (before ++ junk v) = take cur b -> pl_line code_places (before ++ junk v) = sp_lines op ->
     semits code_places (stl_error l) (before ++ junk v ++ [tok]) rest rest' ->
     semits code_places (stl_error l) (before ++ junk v) (tok :: rest)
       ((if sr_discard r then [] else [LTok (Lx n (gval b d x) (Z.of_nat (sp_lines op)) c)]) ++ rest')).
  { intros rest rest' Ht Hpl Hr. constructor; [|rewrite <- app_assoc; exact Hr].
    unfold tok. cbn [sshows]. change (sd_discard d) with (sr_discard r). destruct (sr_discard r); [done|].
    exists c. rewrite Ht. split; [done|]. rewrite Hpl. done. }
  set (op2_of := fun op1 : stop => StOp (sp_sub op1) (sp_stack op1)
         (if sr_discard r then sp_lxs op1 else sp_lxs op1 ++ [LTok (Lx n (gval b d x) (Z.of_nat (sp_lines op)) c)])
         (sp_next op1) (sp_err op1) (gend x) (sp_lines op1)).
  assert (Eround : forall op1, st_check_error l b op0 = Ok op1 -> st_round l b op =
     let op2 := op2_of op1 in
     if length b <=? gend x then Ok (true, op2)
        else if 0 <? sr_pop r then op3 <-! st_pop l b (sr_pop r) op2; Ok (false, op3)
        else if bool_decide (sr_push r <> []) then op3 <-! st_push l b (sr_push r) op2; Ok (false, op3)
        else
          next <-! st_update sl b (gend x) (sp_next op2);
          Ok (false, StOp (sp_sub op2) (sp_stack op2) (sp_lxs op2) next (sp_err op2) (gend x) (sp_lines op2))).
  { intros op1 E1. unfold st_round. rewrite Hsub. cbn [rbind]. rewrite E. cbn [rbind].
    destruct (Nat.eqb_spec (gend x) (sp_cur op)); [lia|]. fold op0. rewrite E1. done. }
  assert (Hlx2 : forall op1 out, sp_lxs op1 = sp_lxs op ++ out -> sp_lxs (op2_of op1)
     = sp_lxs op ++ out ++ (if sr_discard r then [] else [LTok (Lx n (gval b d x) (Z.of_nat (sp_lines op)) c)])).
  { intros op1 out H. cbn. rewrite H. destruct (sr_discard r); rewrite ?app_nil_r, <- ?app_assoc; done. }
  assert (Hw : newlines (take (gend x) b) = newlines (take cur b) + newlines w).
  { rewrite (take_cut b cur (gend x)) by lia. unfold newlines. by rewrite count_occ_app. }
  assert (Hlines' : sp_lines op + newlines w + newlines v = 1 + newlines (take (gend x) b)).
  { rewrite Hw, Hlines. unfold v. destruct run as [e|]; cbn [run_text default from_option id].
    - specialize (Hrun' e eq_refl). rewrite (take_cut b e cur) by lia. unfold newlines. rewrite count_occ_app. lia.
    - cbn. lia. }
  assert (Hafter : forall op1, sp_lines op1 = sp_lines op + newlines w + newlines v -> sp_lines (op2_of op1) = 1 + newlines (take (gend x) b)).
  { intros op1 H. cbn. lia. }
  assert (Hnext_before : stext (before ++ junk v) = take cur b -> stext (before ++ junk v ++ [tok]) = take (gend x) b).
  { intros H. rewrite app_assoc. unfold stext. rewrite flat_map_app. fold (stext (before ++ junk v)). rewrite H. cbn. rewrite app_nil_r.
    symmetry. apply take_cut. lia. }
  assert (Hnj' : not_junk (before ++ junk v ++ [tok])). { intros z. rewrite app_assoc, last_snoc. done. }
  destruct (Nat.leb_spec (length b) (gend x)) as [Hlast|Hlast].
  - (* the input ends *)
    exists (junk v ++ [tok]), true. split; [by eapply g_last|].
    destruct (Hce []) as (op1 & out & H1 & H2 & H3 & H4 & H5 & H6 & H7 & H8 & H9 & H10 & H11).
    specialize (Eround _ H1). cbn zeta in Eround.
    unfold ends_with. exists (op2_of op1), (op2_of op1). eexists. split; [by apply loop_stop|].
    split. { unfold st_consume. cbn [sp_cur op2_of]. destruct (Nat.leb_spec (length b) (gend x)); [|lia].
             unfold st_check_error. cbn [sp_err op2_of]. rewrite H3. done. }
    split; [apply Hlx2, H2|]. apply H11.
    rewrite <- (app_nil_r (if sr_discard r then [] else _)). apply Htok; [done|done|constructor].
  - assert (Hmk : forall rest ok op1 op3, st_check_error l b op0 = Ok op1 -> st_round l b op = Ok (false, op3) ->
       sp_lxs op3 = sp_lxs (op2_of op1) ->
       (stext (before ++ junk v ++ [tok]) = take (gend x) b -> ends_with l b op3 (before ++ junk v ++ [tok]) rest ok) ->
       ends_with l b op before (junk v ++ tok :: rest) ok).
    { intros rest ok op1 op3 H1 Er Hx3 He. destruct (Hce rest) as (op1' & out & H1' & H2 & _ & _ & _ & _ & _ & _ & H9 & H10 & H11).
      assert (op1' = op1) as -> by congruence. 
      replace (junk v ++ tok :: rest) with ((junk v ++ [tok]) ++ rest) by (rewrite <- app_assoc; done).
      eapply ends_step; [exact Er|rewrite Hx3; apply Hlx2, H2| |apply He, Hnext_before, H9].
      intros rest' Hr. rewrite <- !app_assoc. cbn [app]. apply H11. apply Htok; [done|done|exact Hr]. }
    destruct (Hce []) as (op1 & out & H1 & H2 & H3 & H4 & H5 & H6 & H7 & H8 & H9 & _).
    specialize (Eround _ H1). cbn zeta in Eround.
    destruct (Nat.leb_spec (length b) (gend x)) as [|_] in Eround; [lia|].
    assert (Hsl : stl_subs l !! sp_sub op = Some sl). { unfold sub_at in Hsub. destruct (stl_subs l !! sp_sub op); congruence. }
    destruct (Nat.ltb_spec 0 (sr_pop r)) as [Hpop|Hpop].
    + pose proof (pop_ok l b (sr_pop r) (op2_of op1) S Hl) as Hpk. cbn [sp_cur op2_of] in Hpk. specialize (Hpk ltac:(lia)).
      cbn [sp_stack op2_of] in Hpk. rewrite H6 in Hpk. specialize (Hpk Hstk Hpop).
      destruct S as [|F S'].
      * exists (junk v ++ [tok]), false. split.
        { eapply g_fall; eauto. left. split; [exact Hpop|done]. }
        unfold ends_with. apply loop_crash. rewrite Eround, Hpk. done.
      * destruct Hpk as (op3 & D' & sl' & HD' & Epop & Hsl' & HDd & Hn' & Hst' & He' & Hc' & Hl' & Hx'). fold (op2_of op1) in *.
        rewrite Epop in Eround. cbn [rbind] in Eround.
        set (k := min (sr_pop r) (length (F :: S'))) in *.
        destruct (IH op3 D' (drop k (F :: S')) (gfresh b (gend x) D') None (gend x) (before ++ junk v ++ [tok])) as (ps & ok & Hg & He).
        -- rewrite drop_length. unfold gend in *. lia.
        -- split.
           ++ exists sl'. split; [done|]. split; [done|]. exact Hn'.
           ++ exact Hst'.
           ++ apply fresh_ok. lia.
           ++ rewrite He'. exact H3.
           ++ rewrite Hc'. done.
        -- left. lia.
        -- done.
        -- rewrite Hl'. apply Hafter. done.
        -- by apply Hnext_before.
        -- done.
        -- exists (junk v ++ tok :: ps), ok. split.
           ++ eapply g_move; [exact Hp|exact Hd|done|done|left; exact Hpop| |exact Hg].
              unfold moves. rewrite decide_True by exact Hpop. split; [done|]. split; [exact HD'|done].
           ++ eapply Hmk; [exact H1|exact Eround|exact Hx'|intros _; exact He].
    + destruct (decide (sr_push r = [])) as [Hpush|Hpush].
      * rewrite bool_decide_eq_false_2 in Eround by (intros H; by apply H).
        cbn [sp_next op2_of] in Eround. rewrite H7, Hnext in Eround.
        rewrite (update_table l sl b (gend x) C Hsane) in Eround by (rewrite <- HD; exact (proj1 Hca)). cbn [rbind] in Eround.
        rewrite <- HD in Eround.
        match type of Eround with _ = Ok (false, ?o) => set (op3 := o) in * end.
        destruct (IH op3 D S (gupdate b (gend x) D C) None (gend x) (before ++ junk v ++ [tok])) as (ps & ok & Hg & He).
        -- lia.
        -- split.
           ++ exists sl. cbn. rewrite H5. split; [done|]. split; done.
           ++ cbn. rewrite H6. exact Hstk.
           ++ eapply update_ok; [exact Hca|lia|lia].
           ++ exact H3.
           ++ done.
        -- left. lia.
        -- done.
        -- apply Hafter. done.
        -- by apply Hnext_before.
        -- done.
        -- exists (junk v ++ tok :: ps), ok. split.
           ++ eapply g_stay; [exact Hp|exact Hd|done|done| |exact Hpush|exact Hg]. change (sd_pop d) with (sr_pop r). lia.
           ++ eapply Hmk; [exact H1|exact Eround|done|intros _; exact He].
      * rewrite bool_decide_eq_true_2 in Eround by done.
        assert (Hfr : frame l (sp_sub (op2_of op1)) = Some D). { cbn. rewrite H5. unfold frame. rewrite Hsl. by rewrite HD. }
        pose proof (push_ok l b (sr_push r) (op2_of op1) D S Hl ltac:(cbn; lia) Hfr) as Hpk. cbn [sp_stack op2_of] in Hpk. rewrite H6 in Hpk.
        specialize (Hpk Hstk). destruct (env_of l (sr_push r)) as [D'|] eqn:Een.
        -- destruct Hpk as (op3 & sl' & Epush & Hsl' & HDd & Hn' & Hst' & He' & Hc' & Hl' & Hx').
           rewrite Epush in Eround. cbn [rbind] in Eround.
           destruct (IH op3 D' (D :: S) (gfresh b (gend x) D') None (gend x) (before ++ junk v ++ [tok])) as (ps & ok & Hg & He).
           ++ cbn [length]. lia.
           ++ split.
              ** exists sl'. split; [done|]. split; [done|]. exact Hn'.
              ** exact Hst'.
              ** apply fresh_ok. lia.
              ** rewrite He'. exact H3.
              ** rewrite Hc'. done.
           ++ left. lia.
           ++ done.
           ++ rewrite Hl'. apply Hafter. done.
           ++ by apply Hnext_before.
           ++ done.
           ++ exists (junk v ++ tok :: ps), ok. split.
              ** eapply g_move; [exact Hp|exact Hd|done|done|right; exact Hpush| |exact Hg].
                 unfold moves. change (sd_pop d) with (sr_pop r). change (sd_push d) with (sr_push r).
                 rewrite decide_False by lia. rewrite decide_False by done. done.
              ** eapply Hmk; [exact H1|exact Eround|exact Hx'|intros _; exact He].
        -- exists (junk v ++ [tok]), false. split.
           { eapply g_fall; eauto. right. change (sd_pop d) with (sr_pop r). split; [lia|]. split; [exact Hpush|exact Een]. }
           unfold ends_with. apply loop_crash. rewrite Eround, Hpk. done.
Qed.
End Loop.
