(** Histories of calls on a simple lexer. *)
From Verif.spec Require Import LexSpec.
From Verif.proofs Require Import Fuel SetProofs LexProofs LexProofs2 LexThms.

Record has_settings (l : slexer) (t : settings) : Prop := {
  hs_compare : sl_compare l = mode (st_length t);
  hs_error : sl_error l = st_error t;
  hs_start : sl_start l = st_start t;
  hs_end : sl_end l = st_end t
}.
Lemma inserted_extra kv : extra kv (inserted kv).
Proof. unfold inserted, extra. destruct kv as [[|k ks] v]; cbn; [left|right]; done. Qed.
Lemma extra_fun kv a b : extra kv a -> extra kv b -> a = b.
Proof. intros [[? ->]|[? ->]] [[? ->]|[? ->]]; congruence. Qed.

(** What Lex does to a tidy lexer, in either mode. *)
Lemma slex_tidy l D x t b fuel : tidy l D x -> has_settings l t -> Forall (fun d => well_formed (rd_re d)) D ->
  S (length b) <= fuel ->
  exists ps out, emits tok_newlines D (sl_error l) [] ps out
    /\ text ps = b /\ (forall y, y ∈ ps -> piece_text y <> [])
    /\ (forall pre p v post, ps = pre ++ Tok p v :: post ->
          exists d c i j, D !! p = Some d /\ rx_find (rd_re d) (drop c b) = Some (i, j)
             /\ c + i = length (text pre) /\ c + j = length (text pre) + length v)
    /\ slex l b fuel = Ok (inserted (sl_start l) ++ out ++ inserted (sl_end l),
                          with_set l (after_junk (sl_set l) (sl_error l) ps)).
Proof.
  intros Ht Hs HD Hfuel. destruct (st_length t) eqn:Em.
  - destruct (slex_walk l D x b _ _ _ fuel Ht (drives_seen l D x b Ht ltac:(rewrite (hs_compare _ _ Hs), Em; done) HD) (seen_start D b) Hfuel)
      as (ps & out & Hw & Hem & Hl).
    exists ps, out. split; [done|]. split; [by apply (walk_text _ _ _ _ _ _ Hw)|].
    split; [by apply (walk_nonempty _ _ _ _ _ _ Hw)|]. split; [|done].
    intros pre p v post E.
    destruct (walk_tok _ _ _ _ _ _ Hw ltac:(done) _ _ _ _ E) as (c & e & Hc & (next & (Hlen & Hseen) & Hce & Hn & _) & He).
    cbn in Hc. assert (exists d, D !! p = Some d) as [d Hd].
    { apply lookup_lt_is_Some_2. rewrite <- Hlen. by eapply lookup_lt_Some. }
    destruct (Hseen _ _ Hd) as (c0 & Hc0 & _ & Hn'). rewrite Hn in Hn'. injection Hn' as Hn'.
    destruct (rx_find (rd_re d) (drop c0 b)) as [[i j]|] eqn:Ef; [|done]. cbn in Hn'. injection Hn' as Hi Hj.
    exists d, c0, i, j. split; [done|]. split; [done|]. lia.
  - destruct (slex_walk l D x b _ _ _ fuel Ht (drives_priority l D x b Ht ltac:(rewrite (hs_compare _ _ Hs), Em; done)) ltac:(apply map_length) Hfuel)
      as (ps & out & Hw & Hem & Hl).
    exists ps, out. split; [done|]. split; [by apply (walk_text _ _ _ _ _ _ Hw)|].
    split; [by apply (walk_nonempty _ _ _ _ _ _ Hw)|]. split; [|done].
    intros pre p v post E.
    destruct (walk_tok _ _ _ _ _ _ Hw ltac:(done) _ _ _ _ E) as (c & e & Hc & [] & He).
Qed.

(** * Adding rules *)
Lemma set_str_new s k : set_wf s -> k ∉ symb2str s ->
  set_str s k = (length (symb2str s), MkSet (<[k := length (symb2str s)]> (str2sym s)) (symb2str s ++ [k])).
Proof.
  intros Hw Hk. unfold set_str. destruct (str2sym s !! k) as [i|] eqn:E; [|done].
  exfalso. apply Hk. apply elem_of_list_lookup. exists i. by apply Hw.
Qed.
Lemma set_str_old s k i : set_wf s -> symb2str s !! i = Some k -> set_str s k = (i, s).
Proof. intros Hw Hk. apply set_str_known. by apply Hw. Qed.

Lemma with_set_id l : with_set l (sl_set l) = l.
Proof. by destruct l. Qed.

Lemma tidy_add_dup l D x k r d : tidy l D x -> k ∈ map rd_kind D -> slexer_add l k r d = (l, false).
Proof.
  intros Ht Hk. apply elem_of_list_lookup in Hk as [p Hp]. unfold slexer_add.
  assert (Hp' : symb2str (sl_set l) !! p = Some k).
  { rewrite (td_names _ _ _ Ht). by apply lookup_app_l_Some. }
  rewrite (set_str_old _ _ _ (td_wf _ _ _ Ht) Hp'). unfold add_rule. rewrite with_set_id.
  rewrite (td_rules _ _ _ Ht), list_lookup_imap. rewrite list_lookup_fmap in Hp.
  destruct (D !! p); done.
Qed.
Lemma tidy_add_new l D x k r d : tidy l D x -> k ∉ map rd_kind D -> (x = [] \/ exists x', x = k :: x') ->
  exists l', slexer_add l k r d = (l', true) /\ tidy l' (D ++ [RDef k r d]) (tail x)
   /\ sl_compare l' = sl_compare l /\ sl_error l' = sl_error l /\ sl_start l' = sl_start l /\ sl_end l' = sl_end l.
Proof.
  intros Ht Hk Hx. unfold slexer_add.
  assert (Hs : exists s', set_str (sl_set l) k = (length D, s') /\ set_wf s' /\ symb2str s' = map rd_kind (D ++ [RDef k r d]) ++ tail x).
  { destruct Hx as [-> | [x' ->]].
    - rewrite (set_str_new _ _ (td_wf _ _ _ Ht)).
      2:{ rewrite (td_names _ _ _ Ht), app_nil_r. done. }
      rewrite (td_names _ _ _ Ht), app_nil_r, map_length. eexists. split; [done|].
      assert (E : set_str (sl_set l) k = (length D, MkSet (<[k := length D]> (str2sym (sl_set l))) (map rd_kind D ++ [k]))).
      { rewrite (set_str_new _ _ (td_wf _ _ _ Ht)); rewrite (td_names _ _ _ Ht), app_nil_r; [|done]. by rewrite map_length. }
      destruct (set_str_spec _ _ _ _ (td_wf _ _ _ Ht) E) as (Hw & _). split; [done|].
      cbn [symb2str tail]. rewrite map_app, app_nil_r. done.
    - rewrite (set_str_old _ _ (length D) (td_wf _ _ _ Ht)).
      2:{ rewrite (td_names _ _ _ Ht), lookup_app_r; rewrite map_length; [|lia]. by rewrite Nat.sub_diag. }
      eexists. split; [done|]. split; [apply Ht|]. rewrite (td_names _ _ _ Ht), map_app, <- app_assoc. done. }
  destruct Hs as (s' & Hs & Hw & Hnames). rewrite Hs. unfold add_rule. cbn [sl_rules with_set].
  assert (Hlen : length (sl_rules l) = length D) by (rewrite (td_rules _ _ _ Ht); apply imap_length).
  assert (Hnone : sl_rules l !! length D = None) by (apply lookup_ge_None_2; lia).
  rewrite Hnone. eexists. split; [done|]. split; [|done].
  split; cbn [sl_rules sl_order sl_counter sl_set with_set].
  - rewrite Hlen. replace (S (length D) - length D) with 1 by lia. cbn [replicate].
    rewrite insert_app_r_alt by lia. rewrite Hlen, Nat.sub_diag. cbn.
    rewrite imap_app. cbn. rewrite Nat.add_0_r, (td_rules _ _ _ Ht), (td_counter _ _ _ Ht). done.
  - rewrite (td_order _ _ _ Ht), app_length. cbn [length]. rewrite Nat.add_1_r, seq_S. done.
  - rewrite (td_counter _ _ _ Ht), app_length. cbn. lia.
  - done.
  - done.
Qed.

Lemma tidy_set l D x s' x' : tidy l D x -> set_wf s' -> symb2str s' = map rd_kind D ++ x' -> tidy (with_set l s') D x'.
Proof. intros Ht Hw Hn. split; try apply Ht; done. Qed.

(** * Histories *)
Lemma rules_of_snoc cs c : rules_of (cs ++ [c]) = add_def (rules_of cs) c.
Proof. unfold rules_of. rewrite fold_left_app. done. Qed.
Lemma settings_of_snoc cs c : settings_of (cs ++ [c]) = set_setting (settings_of cs) c.
Proof. unfold settings_of. rewrite fold_left_app. done. Qed.
Lemma sl_calls_snoc cs c l fuel : sl_calls (cs ++ [c]) l fuel = (l' <-! sl_calls cs l fuel; sl_step fuel l' c).
Proof. apply rfold_snoc. Qed.
Lemma adds_first_prefix cs c : adds_first (cs ++ [c]) -> adds_first cs.
Proof.
  intros H pre s mid k r d post l xs l' E. apply (H pre s mid k r d (post ++ [c]) l xs l').
  rewrite E, <- app_assoc. cbn. by rewrite <- app_assoc.
Qed.
Lemma rules_in P cs : regexps_in P cs -> Forall (fun d => P (rd_re d)) (rules_of cs).
Proof.
  induction cs as [|c cs IH] using rev_ind; intros H; [constructor|]. rewrite rules_of_snoc.
  assert (IH' : Forall (fun d => P (rd_re d)) (rules_of cs)).
  { apply IH. intros k r d Hd. apply (H k r d). set_solver. }
  destruct c; cbn [add_def]; try done. destruct (decide _); [done|].
  apply Forall_app. split; [done|]. constructor; [|constructor]. cbn. apply (H kind r discard). set_solver.
Qed.
Lemma rules_of_nodup cs : NoDup (map rd_kind (rules_of cs)).
Proof.
  induction cs as [|c cs IH] using rev_ind; [constructor|]. rewrite rules_of_snoc.
  destruct c; cbn [add_def]; try done. destruct (decide _) as [|Hn]; [done|]. rewrite map_app.
  apply NoDup_app. split; [done|]. split; [|apply NoDup_singleton].
  intros y Hy Hy'. cbn in Hy'. apply elem_of_list_singleton in Hy' as ->. done.
Qed.

Lemma emits_errors line D err before ps out : emits line D err before ps out ->
  lex_errors out = map (fun v => Lx err v (-1) 0) (junks ps).
Proof.
  assert (Happ : forall a b, lex_errors (a ++ b) = lex_errors a ++ lex_errors b).
  { induction a as [|[y|y] a IH]; intros b; cbn; [done|done|]. by rewrite IH. }
  induction 1 as [|before y ps out rest Hs He IH]; [done|]. rewrite Happ, IH.
  destruct y as [p v|v]; cbn [shows junks flat_map] in *.
  - destruct Hs as (d & _ & Hs). destruct (rd_discard d); [by subst|]. destruct Hs as (last & _ & ->). done.
  - subst. done.
Qed.
Lemma lex_errors_inserted kv xs kv' : lex_errors (inserted kv ++ xs ++ inserted kv') = lex_errors xs.
Proof.
  assert (Happ : forall a b, lex_errors (a ++ b) = lex_errors a ++ lex_errors b).
  { induction a as [|[y|y] a IH]; intros b; cbn; [done|done|]. by rewrite IH. }
  rewrite !Happ. unfold inserted. destruct (fst kv), (fst kv'); cbn; by rewrite ?app_nil_r.
Qed.

Definition was_junk (cs : list sl_call) (e : gostring) : Prop :=
  exists pre s mid l0 xs l1, cs = pre ++ CLex s :: mid /\ returns (sl_calls pre slexer_empty) l0
    /\ returns (slex l0 s) (xs, l1) /\ lex_errors xs <> [] /\ st_error (settings_of pre) = e.

Lemma was_junk_snoc cs c e : was_junk cs e -> was_junk (cs ++ [c]) e.
Proof.
  intros (pre & s & mid & l0 & xs & l1 & -> & H). exists pre, s, (mid ++ [c]), l0, xs, l1.
  split; [by rewrite <- app_assoc|done].
Qed.
Lemma names_nodup (s : set) : set_wf s -> NoDup (symb2str s).
Proof.
  intros Hw. apply NoDup_alt. intros i j x Hi Hj. apply Hw in Hi, Hj. congruence.
Qed.

Lemma history cs : adds_first cs -> regexps_in well_formed cs ->
  exists l x, returns (sl_calls cs slexer_empty) l /\ tidy l (rules_of cs) x /\ has_settings l (settings_of cs)
   /\ (forall e, e ∈ x -> was_junk cs e).
Proof.
  induction cs as [|c cs IH] using rev_ind; intros Ha Hr.
  - exists slexer_empty, []. split; [exists 0; done|]. split; [|split; [done|]].
    + split; try done.
    + intros e He. inversion He.
  - destruct IH as (l & x & [F HF] & Ht & Hs & Hx).
    { by eapply adds_first_prefix. } { intros k r d Hd. apply (Hr k r d). set_solver. }
    assert (Hext : forall e, e ∈ x -> was_junk (cs ++ [c]) e) by (intros e He; apply was_junk_snoc; auto).
    assert (Hstep : forall l', (forall f, sl_step f l c = Ok l') -> returns (sl_calls (cs ++ [c]) slexer_empty) l').
    { intros l' Hl'. exists F. intros f Hf. rewrite sl_calls_snoc, HF by done. apply Hl'. }
    rewrite rules_of_snoc, settings_of_snoc.
    assert (Hsimple : forall l', (forall f, sl_step f l c = Ok l') -> sl_order l' = sl_order l -> sl_rules l' = sl_rules l ->
       sl_counter l' = sl_counter l -> sl_set l' = sl_set l -> tidy l' (rules_of cs) x).
    { intros l' _ H1 H2 H3 H4. split; rewrite ?H1, ?H2, ?H3, ?H4; apply Ht. }
    destruct c as [k r d|s| | |e|k v|k v].
    + (* Add *)
      cbn [add_def set_setting]. destruct (decide _) as [Hin|Hnin].
      * exists l, x. split; [|split; [done|split; [done|done]]].
        apply Hstep. intros f. cbn [sl_step]. rewrite (tidy_add_dup _ _ _ _ _ _ Ht Hin). done.
      * assert (Hnd : NoDup (map rd_kind (rules_of cs) ++ x)).
        { rewrite <- (td_names _ _ _ Ht). apply names_nodup. apply Ht. }
        assert (Hk : forall e, e ∈ x -> e = k).
        { intros e He. destruct (Hx e He) as (pre & s & mid & l0 & xs & l1 & Ecs & Hl0 & Hlx & Herr & Hse).
          assert (E : cs ++ [CAdd k r d] = pre ++ CLex s :: mid ++ CAdd k r d :: []) by (rewrite Ecs, <- app_assoc; done).
          destruct (Ha _ _ _ _ _ _ _ _ _ _ E Hl0 Hlx) as [H|[H|H]].
          - done.
          - exfalso. apply Hnin. by rewrite Ecs.
          - rewrite <- Ecs, Hse in H. apply elem_of_cons in H as [->|H]; [done|].
            exfalso. apply NoDup_app in Hnd as (_ & Hnd & _). by apply (Hnd e). }
        assert (Hx' : x = [] \/ exists x', x = k :: x').
        { destruct x as [|e x']; [by left|]. right. exists x'. by rewrite (Hk e ltac:(left)). }
        destruct (tidy_add_new l _ _ k r d Ht Hnin Hx') as (l' & Hl' & Ht' & H1 & H2 & H3 & H4).
        exists l', (tail x). split; [|split; [done|split]].
        { apply Hstep. intros f. cbn [sl_step]. rewrite Hl'. done. }
        { split; rewrite ?H1, ?H2, ?H3, ?H4; apply Hs. }
        intros e He. apply Hext. destruct x; [done|]. by right.
    + (* Lex *)
      cbn [add_def set_setting].
      assert (HD : Forall (fun d => well_formed (rd_re d)) (rules_of cs)).
      { apply rules_in. intros k r d Hd. apply (Hr k r d). set_solver. }
      destruct (slex_tidy l _ x _ s (S (length s)) Ht Hs HD ltac:(lia)) as (ps0 & out0 & Hem0 & _ & _ & _ & Hl0).
      set (res := (inserted (sl_start l) ++ out0 ++ inserted (sl_end l), with_set l (after_junk (sl_set l) (sl_error l) ps0))) in *.
      assert (Hret : returns (slex l s) res).
      { exists (S (length s)). intros f Hf.
        assert (Hmono : forall n m, rle (slex l s n) (slex l s (n + m))).
        { intros n m. unfold slex. apply rle_bind; [apply rle_refl|]. intros nx. apply rle_bind; [|intros; apply rle_refl].
          generalize (SOp (inserted (sl_start l)) nx None 0 0 (sl_set l)). clear. induction n as [|n IHn]; intros op; [apply rle_oof|].
          cbn [lex_loop Nat.add]. apply rle_bind; [apply rle_refl|]. intros op1. destruct (_ <=? _); [apply rle_refl|].
          apply rle_bind; [apply rle_refl|]. intros nx. apply IHn. }
        specialize (Hmono (S (length s)) (f - S (length s))). rewrite Hl0 in Hmono.
        replace (S (length s) + (f - S (length s))) with f in Hmono by lia. inversion Hmono; done. }
      assert (Hret' : returns (sl_calls (cs ++ [CLex s]) slexer_empty) (snd res)).
      { destruct Hret as [F' HF']. exists (max F F'). intros f Hf. rewrite sl_calls_snoc, HF by lia. cbn [rbind sl_step].
        rewrite HF' by lia. done. }
      exists (snd res). subst res. cbn [snd] in *.
      assert (Hs' : forall st, has_settings (with_set l st) (settings_of cs)) by (intros st; split; apply Hs).
      unfold after_junk in *. destruct (junks ps0) as [|v0 vs0] eqn:Ej.
      * exists x. split; [done|]. rewrite with_set_id. split; [done|]. split; [done|]. done.
      * assert (Herrs : lex_errors (inserted (sl_start l) ++ out0 ++ inserted (sl_end l)) <> []).
        { rewrite lex_errors_inserted, (emits_errors _ _ _ _ _ _ Hem0), Ej. done. }
        destruct (set_str (sl_set l) (sl_error l)) as [k st'] eqn:Es. cbn [snd].
        destruct (set_str_spec _ _ _ _ (td_wf _ _ _ Ht) Es) as (Hw & [y Hle] & _ & _ & _).
        destruct (decide (sl_error l ∈ map rd_kind (rules_of cs))) as [Hin|Hnin].
        -- apply elem_of_list_lookup in Hin as [p Hp].
           assert (Hp' : symb2str (sl_set l) !! p = Some (sl_error l)).
           { rewrite (td_names _ _ _ Ht). by apply lookup_app_l_Some. }
           rewrite (set_str_old _ _ _ (td_wf _ _ _ Ht) Hp') in Es. injection Es as <- <-.
           exists x. cbn [snd] in *.
           rewrite with_set_id in *. split; [done|]. split; [done|]. split; [done|]. done.
        -- exists (x ++ y). split; [done|]. split.
           { apply (tidy_set l _ x); [done|done|]. rewrite Hle, (td_names _ _ _ Ht), app_assoc. done. }
           split; [apply Hs'|]. intros e He. apply elem_of_app in He as [He|He]; [by apply Hext|].
           exists cs, s, [], l, (inserted (sl_start l) ++ out0 ++ inserted (sl_end l)), (with_set l st').
           split; [done|]. split; [exists F; done|]. split; [exact Hret|]. split; [done|].
           rewrite <- (hs_error _ _ Hs). unfold set_str in Es.
           destruct (str2sym (sl_set l) !! sl_error l); injection Es as <- <-; cbn [symb2str] in Hle.
           ++ rewrite <- (app_nil_r (symb2str (sl_set l))) in Hle at 1. apply app_inv_head in Hle. subst y. inversion He.
           ++ apply app_inv_head in Hle. subst y. by apply elem_of_list_singleton in He.
    + exists (by_length l), x. split; [by apply Hstep|]. split; [by apply Hsimple|]. split; [|done].
      split; try apply Hs. done.
    + exists (by_priority l), x. split; [by apply Hstep|]. split; [by apply Hsimple|]. split; [|done].
      split; try apply Hs. done.
    + exists (set_error l e), x. split; [by apply Hstep|]. split; [by apply Hsimple|]. split; [|done].
      split; try apply Hs. done.
    + exists (insert_start l k v), x. split; [by apply Hstep|]. split; [by apply Hsimple|]. split; [|done].
      split; try apply Hs. done.
    + exists (insert_end l k v), x. split; [by apply Hstep|]. split; [by apply Hsimple|]. split; [|done].
      split; try apply Hs. done.
Qed.
