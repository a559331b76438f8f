(** The simple lexer's loop as a walk over the input. *)
From Verif.spec Require Import LexSpec.
From Verif.proofs Require Import Fuel SetProofs LexProofs.

Definition cut (b : gostring) (i j : nat) : gostring := take (j - i) (drop i b).

(** From position [cur] on, with junk pending since [err], the pieces are these. *)
Inductive walk (choose : nat -> nat -> nat -> Prop) (none : nat -> Prop) (b : gostring)
  : nat -> option nat -> list piece -> Prop :=
| w_end : walk choose none b (length b) None []
| w_end_err st : st < length b -> walk choose none b (length b) (Some st) [Junk (cut b st (length b))]
| w_tok cur p e ps : cur < e <= length b -> choose cur p e -> walk choose none b e None ps ->
    walk choose none b cur None (Tok p (cut b cur e) :: ps)
| w_tok_err cur st p e ps : st < cur -> cur < e <= length b -> choose cur p e -> walk choose none b e None ps ->
    walk choose none b cur (Some st) (Junk (cut b st cur) :: Tok p (cut b cur e) :: ps)
| w_junk cur ps : cur < length b -> none cur -> walk choose none b (S cur) (Some cur) ps ->
    walk choose none b cur None ps
| w_junk_err cur st ps : st < cur -> cur < length b -> none cur -> walk choose none b (S cur) (Some st) ps ->
    walk choose none b cur (Some st) ps.

Record drives (l : slexer) (D : list rdef) (b : gostring) (J : nat -> list (option (nat * nat)) -> Prop)
  (choose : nat -> nat -> nat -> Prop) (none : nat -> Prop) : Prop := {
  dr_len : forall cur next, J cur next -> length next = length D;
  dr_find : forall cur next, J cur next ->
    (find_next_match l b next cur = Ok (None, [], cur, (-1)%Z) /\ none cur)
    \/ (exists p e, find_next_match l b next cur = Ok (Some p, cut b cur e, e, Z.of_nat p)
        /\ cur < e <= length b /\ p < length D /\ choose cur p e);
  dr_update : forall cur cur' next, J cur next -> cur <= cur' -> cur' < length b ->
    J cur' (zip_with (updated b cur') D next)
}.

Definition after_junk (st : set) (err : gostring) (ps : list piece) : set :=
  match junks ps with [] => st | _ => snd (set_str st err) end.
Definition err_start (err : option nat) (cur : nat) : nat := match err with Some st => st | None => cur end.
Definition names_ok (D : list rdef) (st : set) : Prop :=
  set_wf st /\ forall p d, D !! p = Some d -> symb2str st !! p = Some (rd_kind d).

Lemma names_ok_str D st e : names_ok D st -> names_ok D (snd (set_str st e)).
Proof.
  intros [Hw Hn]. destruct (set_str st e) as [k s'] eqn:E. cbn [snd].
  destruct (set_str_spec _ _ _ _ Hw E) as (Hw' & [x Hle] & _). split; [done|].
  intros p d Hd. rewrite Hle. apply lookup_app_l_Some. eauto.
Qed.
Lemma set_str_twice st e : set_wf st -> set_str (snd (set_str st e)) e = (fst (set_str st e), snd (set_str st e)).
Proof.
  intros Hw. destruct (set_str st e) as [k s'] eqn:E. cbn [fst snd].
  destruct (set_str_spec _ _ _ _ Hw E) as (_ & _ & _ & H & _). by apply set_str_known.
Qed.
Lemma after_junk_twice st e ps : set_wf st -> after_junk (snd (set_str st e)) e ps = snd (set_str st e).
Proof. intros Hw. unfold after_junk. destruct (junks ps); [done|]. rewrite set_str_twice by done. done. Qed.

Lemma cut_app b i j : i <= j -> take i b ++ cut b i j = take j b.
Proof.
  intros. unfold cut. rewrite take_drop_commute. replace (i + (j - i)) with j by lia.
  replace (take i b) with (take i (take j b)).
  - apply take_drop.
  - rewrite take_take. f_equal. lia.
Qed.
Lemma tok_newlines_app a b : tok_newlines (a ++ b) = tok_newlines a + tok_newlines b.
Proof. induction a as [|[p v|v] a IH]; cbn in *; rewrite ?IH; [done| unfold tok_newlines in *; lia | done]. Qed.
Lemma text_app a b : text (a ++ b) = text a ++ text b.
Proof. unfold text. apply flat_map_app. Qed.
Lemma junks_app a b : junks (a ++ b) = junks a ++ junks b.
Proof. unfold junks. apply flat_map_app. Qed.
Lemma walk_err_junks ch no b cur err ps : walk ch no b cur err ps ->
  forall st, err = Some st -> junks ps <> [].
Proof. induction 1; intros st0 E; simplify_eq; try done; eauto. Qed.

Lemma check_none l b lxs next cur lines st :
  check_error l b (SOp lxs next None cur lines st) = Ok (SOp lxs next None cur lines st).
Proof. done. Qed.
Lemma check_some l b lxs next s cur lines st : set_wf st -> s <= cur -> cur <= length b ->
  check_error l b (SOp lxs next (Some s) cur lines st)
  = Ok (SOp (lxs ++ [LErr (Lx (sl_error l) (cut b s cur) (-1) 0)]) next None cur lines (snd (set_str st (sl_error l)))).
Proof.
  intros Hw Hs Hc. unfold check_error. cbn [so_err so_cur so_set so_lxs so_next so_lines].
  destruct (Nat.ltb_spec (length b) cur); [lia|]. rewrite slice_ok by lia. cbn [rbind].
  destruct (set_str st (sl_error l)) as [k s'] eqn:E. destruct (set_str_spec _ _ _ _ Hw E) as (_ & _ & Hk & _).
  apply sym_string_nat in Hk. rewrite Hk. done.
Qed.

Definition finish (l : slexer) (b : gostring) (fuel : nat) (op : sop) : res sop :=
  op1 <-! lex_loop fuel l b op; check_error l b op1.

Lemma loop_ok l D x b J ch no : tidy l D x -> drives l D b J ch no ->
  forall n cur err before lxs next st fuel,
  J cur next -> cur < length b -> length b - cur <= n -> n <= fuel -> names_ok D st ->
  (forall s, err = Some s -> s < cur) ->
  text before = take (err_start err cur) b ->
  exists ps out op, walk ch no b cur err ps
    /\ emits tok_newlines D (sl_error l) before ps out
    /\ finish l b fuel (SOp lxs next err cur (tok_newlines before) st) = Ok op
    /\ so_lxs op = lxs ++ out /\ so_set op = after_junk st (sl_error l) ps.
Proof.
  intros Ht Hdr. induction n as [|n IH]; intros cur err before lxs next st fuel HJ Hcur Hn Hfuel Hst Herr Htext; [lia|].
  destruct fuel as [|fuel]; [lia|]. unfold finish. cbn [lex_loop]. unfold lex_round.
  cbn [so_next so_cur so_lines so_lxs so_set so_err].
  destruct (dr_find _ _ _ _ _ _ Hdr _ _ HJ) as [[Hf Hno] | (p & e & Hf & He & HpD & Hch)]; rewrite Hf; cbn [rbind].
  - (* junk *)
    rewrite Nat.eqb_refl. cbn [rbind so_cur so_next so_lxs so_err so_lines so_set count_newlines].
    rewrite Nat.add_0_r.
    set (err' := match err with Some y => Some y | None => Some cur end).
    assert (Hst' : err_start err' (S cur) = err_start err cur) by (by destruct err).
    assert (Herr' : forall s, err' = Some s -> s < S cur).
    { intros s Hs. destruct err as [y|]; simplify_eq; [specialize (Herr _ eq_refl)|]; lia. }
    destruct (Nat.leb_spec (length b) (S cur)) as [Hend|Hmore].
    + cbn [rbind].
      assert (S cur = length b) as Hlen by lia.
      exists [Junk (cut b (err_start err cur) (length b))],
        ([LErr (Lx (sl_error l) (cut b (err_start err cur) (length b)) (-1) 0)] ++ []).
      destruct err' as [s|] eqn:Es; [|by destruct err].
      assert (s = err_start err cur) as ->. { destruct err; cbn in *; congruence. }
      specialize (Herr' _ eq_refl).
      eexists. split.
      { destruct err as [s|]; cbn [err_start].
        - apply w_junk_err; [by apply Herr|lia|done|]. rewrite Hlen. apply w_end_err. specialize (Herr _ eq_refl). lia.
        - apply w_junk; [lia|done|]. rewrite Hlen. apply w_end_err. lia. }
      split. { eapply em_cons; [|constructor]. done. }
      split. { rewrite check_some; [done| apply Hst | lia | lia]. }
      cbn [so_lxs so_set]. rewrite Hlen. split; done.
    + rewrite (update_ok _ _ _ _ _ _ Ht (dr_len _ _ _ _ _ _ Hdr _ _ HJ)). cbn [rbind].
      destruct (IH (S cur) err' before lxs (zip_with (updated b (S cur)) D next) st fuel)
        as (ps & out & op & Hw & Hem & Hfin & Hlx & Hset).
      { eapply dr_update; eauto. } { lia. } { lia. } { lia. } { done. } { done. } { by rewrite Hst'. }
      exists ps, out, op. split.
      { destruct err as [s|]; [apply w_junk_err|apply w_junk]; auto. }
      done.
  - (* token *)
    destruct (Nat.eqb_spec e cur) as [->|_]; [lia|].
    destruct (lookup_lt_is_Some_2 D p HpD) as [d Hd].
    set (toks := match err with Some s => [Junk (cut b s cur); Tok p (cut b cur e)] | None => [Tok p (cut b cur e)] end).
    set (lxs1 := match err with Some s => lxs ++ [LErr (Lx (sl_error l) (cut b s cur) (-1) 0)] | None => lxs end).
    set (st1 := match err with Some s => snd (set_str st (sl_error l)) | None => st end).
    assert (Hchk : check_error l b (SOp lxs next err cur (tok_newlines before) st)
                   = Ok (SOp lxs1 next None cur (tok_newlines before) st1)).
    { destruct err as [s|]; [|done]. apply check_some; [apply Hst| specialize (Herr _ eq_refl); lia | lia]. }
    rewrite Hchk. cbn [rbind so_set so_lxs so_next so_err].
    rewrite (tidy_rule _ _ _ _ _ Ht Hd). cbn [rbind lr_discard].
    assert (Hst1 : names_ok D st1). { destruct err; [by apply names_ok_str|done]. }
    assert (Hname : sym_string st1 (Z.of_nat p) = Ok (rd_kind d)).
    { apply sym_string_nat. by apply Hst1. }
    rewrite Hname. cbn [rbind so_cur so_next so_lxs so_err so_lines so_set].
    assert (Htb : text before ++ text toks = take e b).
    { subst toks. destruct err as [s|]; cbn [text flat_map piece_text err_start] in *; rewrite Htext, ?app_nil_r.
      - specialize (Herr _ eq_refl). rewrite app_assoc, cut_app by lia. apply cut_app. lia.
      - apply cut_app. lia. }
    assert (Htcur : exists mid, text (before ++ mid) = take cur b /\ tok_newlines (before ++ mid) = tok_newlines before
              /\ mid = (match err with Some s => [Junk (cut b s cur)] | None => [] end)).
    { destruct err as [s|]; eexists; (split; [|split; [|reflexivity]]).
      - rewrite text_app, Htext. cbn. rewrite app_nil_r. apply cut_app. specialize (Herr _ eq_refl). lia.
      - rewrite tok_newlines_app. cbn. lia.
      - by rewrite app_nil_r, Htext.
      - by rewrite app_nil_r. }
    destruct Htcur as (mid & Hmid & Hmidn & Hmideq).
    destruct (last_line_ex (take cur b)) as (last & Hlast & Hcol).
    rewrite take_length, Nat.min_l in Hcol by lia. rewrite Hcol.
    set (out1 := if rd_discard d then [] else
       [LTok (Lx (rd_kind d) (cut b cur e) (Z.of_nat (tok_newlines before)) (Z.of_nat (1 + length last)))]).
    assert (Hshow : shows tok_newlines D (sl_error l) (before ++ mid) (Tok p (cut b cur e)) out1).
    { exists d. split; [done|]. unfold out1. destruct (rd_discard d); [done|]. exists last. rewrite Hmid, Hmidn. done. }
    assert (Hnl : tok_newlines (before ++ toks) = tok_newlines before + count_newlines (cut b cur e)).
    { rewrite tok_newlines_app, count_newlines_occ. f_equal. subst toks. destruct err; cbn; lia. }
    assert (Hemit : forall ps out, emits tok_newlines D (sl_error l) (before ++ toks) ps out ->
      emits tok_newlines D (sl_error l) before (toks ++ ps)
       ((match err with Some s => [LErr (Lx (sl_error l) (cut b s cur) (-1) 0)] | None => [] end) ++ out1 ++ out)).
    { intros ps out Hem. subst toks. destruct err as [s|]; cbn [app].
      - eapply (em_cons _ _ _ before (Junk _) _ [_]); [done|]. eapply em_cons; [by rewrite Hmideq in Hshow|].
        by rewrite <- app_assoc.
      - eapply em_cons; [|done]. by rewrite Hmideq, app_nil_r in Hshow. }
    assert (Hlxs : forall rest, (if rd_discard d then lxs1 else lxs1 ++ [LTok (Lx (rd_kind d) (cut b cur e)
        (Z.of_nat (tok_newlines before)) (Z.of_nat (1 + length last)))]) ++ rest
      = lxs ++ (match err with Some s => [LErr (Lx (sl_error l) (cut b s cur) (-1) 0)] | None => [] end) ++ out1 ++ rest).
    { intros rest. unfold lxs1, out1. destruct err, (rd_discard d); rewrite <- ?app_assoc; done. }
    assert (Hset : forall ps, after_junk st1 (sl_error l) ps = after_junk st (sl_error l) (toks ++ ps)).
    { intros ps. subst toks st1. destruct err as [s|]; [|done]. rewrite after_junk_twice by apply Hst. done. }
    assert (Hwalk : forall ps, walk ch no b e None ps -> walk ch no b cur err (toks ++ ps)).
    { intros ps Hw. subst toks. destruct err as [s|]; cbn [app].
      - apply w_tok_err; [by apply Herr|lia|done|done].
      - apply w_tok; [lia|done|done]. }
    destruct (Nat.leb_spec (length b) e) as [Hend|Hmore].
    + cbn [rbind]. assert (e = length b) as Hlen by lia.
      exists (toks ++ []), ((match err with Some s => [LErr (Lx (sl_error l) (cut b s cur) (-1) 0)] | None => [] end) ++ out1 ++ []).
      eexists. split. { apply Hwalk. rewrite Hlen. apply w_end. }
      split. { apply Hemit. constructor. }
      split. { rewrite check_none. reflexivity. }
      cbn [so_lxs so_set]. rewrite <- Hset, <- Hlxs, app_nil_r. done.
    + rewrite (update_ok _ _ _ _ _ _ Ht (dr_len _ _ _ _ _ _ Hdr _ _ HJ)). cbn [rbind].
      destruct (IH e None (before ++ toks)
        (if rd_discard d then lxs1 else lxs1 ++ [LTok (Lx (rd_kind d) (cut b cur e)
        (Z.of_nat (tok_newlines before)) (Z.of_nat (1 + length last)))])
        (zip_with (updated b e) D next) st1 fuel)
        as (ps & out & op & Hw & Hem & Hfin & Hlx & Hset').
      { eapply dr_update; eauto. lia. } { lia. } { lia. } { lia. } { done. } { done. }
      { rewrite text_app. cbn [err_start]. done. }
      exists (toks ++ ps), ((match err with Some s => [LErr (Lx (sl_error l) (cut b s cur) (-1) 0)] | None => [] end) ++ out1 ++ out), op.
      split. { by apply Hwalk. }
      split. { by apply Hemit. }
      split. { rewrite <- Hnl. apply Hfin. }
      rewrite Hlx, Hset', Hset, Hlxs. done.
Qed.
