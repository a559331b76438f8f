(** Lexers made by New and used in any way. *)
From Coq Require Import String.
From Coq Require Import Lia.
Local Open Scope nat_scope.
Local Open Scope list_scope.
From Verif.spec Require Import StackSpec.
From Verif.proofs Require Import Fuel SetProofs LexProofs LexThms LexHist StackProofs StackProofs2 StackLex StackNew.

(** * Fuel *)
Lemma add_rule_mono n : forall m id r subs, rle (st_add_rule n id r subs) (st_add_rule (n + m) id r subs).
Proof.
  induction n as [|n IH]; intros m id r subs; [apply rle_oof|]. cbn [Nat.add st_add_rule].
  destruct (subs !! id) as [sl|]; [|apply rle_refl].
  destruct (_ !! sr_kind r) as [[q|]|]; [apply rle_refl| |]; (apply rle_rfold; intros; apply IH).
Qed.
Lemma add_match_mono compile n m id c st : rle (add_match compile n id c st) (add_match compile (n + m) id c st).
Proof.
  unfold add_match. destruct (compile _); [|apply rle_refl]. destruct (set_str _ _). apply rle_bind; [apply add_rule_mono|].
  intros; apply rle_refl.
Qed.
Lemma parse_mono compile lexers defs n : forall m id st, rle (st_parse n compile lexers defs id st) (st_parse (n + m) compile lexers defs id st).
Proof.
  induction n as [|n IH]; intros m id st; [apply rle_oof|]. cbn [Nat.add st_parse].
  destruct (_ !! id) as [sl|]; [|apply rle_refl]. destruct (decide _); [apply rle_refl|]. destruct (decide _); [apply rle_refl|].
  apply rle_bind; [|intros; apply rle_refl].
  match goal with |- rle (parse_lines _ _ _ _ _ ?ls ?s0) _ => generalize ls, s0 end.
  intros ls. induction ls as [|line ls IHl]; intros s0; [apply rle_refl|].
  cbn [parse_lines]. destruct (find_sub _ _) as [[[i mm] c]|]; [|apply IHl]. apply rle_bind.
  - destruct (lexers !! _) as [from|]; [|apply add_match_mono]. unfold add_heir. apply rle_bind; [apply IH|].
    intros [st1 [e|]]; [apply rle_refl|]. destruct (ps_subs st1 !! from); [|apply rle_refl].
    apply rle_bind; [|intros; apply rle_refl]. apply rle_rfold. intros s1 [r|]; [apply add_rule_mono|apply rle_refl].
  - intros [st1 [e|]]; [apply rle_refl|apply IHl].
Qed.
Lemma parse_all_mono compile lexers defs n m order : forall st, rle (parse_all n compile lexers defs order st) (parse_all (n + m) compile lexers defs order st).
Proof.
  induction order as [|x order IH]; intros st; [apply rle_refl|]. cbn [parse_all]. destruct (lexers !! x); [|apply rle_refl].
  apply rle_bind; [apply parse_mono|]. intros; apply IH.
Qed.
Lemma st_new_mono compile order definitions : fuel_mono (st_new compile order definitions).
Proof.
  intros n m Hle. replace m with (n + (m - n)) by lia. unfold st_new. apply rle_bind; [apply parse_all_mono|]. intros; apply rle_refl.
Qed.

(** * New *)
Record fit (P : sregexp -> Prop) (l : stlexer) : Prop := {
  ft_tied : tied l;
  ft_good : forall id D d, frame l id = Some D -> d ∈ D -> P (sd_re d)
}.
Lemma new_returns P compile definitions order : engine P compile -> order ≡ₚ elements (names_of definitions) ->
  exists l, returns (st_new compile order definitions) (l, None) /\ fit P l
    /\ stl_lexers l = sh_lexers (shell_of definitions) /\ stl_first l = sh_first (shell_of definitions)
    /\ stl_error l = L "Error" /\ stl_compare l = st_length_then_priority /\ stl_start l = ([], []) /\ stl_end l = ([], [])
    /\ map su_name (stl_subs l) = map su_name (sh_subs (shell_of definitions)).
Proof.
  intros Hc Ho. set (h := shell_of definitions). pose proof (shell_of_ok definitions) as Hh. fold h in Hh.
  set (st0 := PSt (sh_subs h) set_new ∅ ∅).
  assert (H0 : inv P (sh_subs h) st0).
  { split; cbn [ps_subs ps_set ps_done ps_stack st0].
    - done.
    - apply set_new_wf.
    - intros id sl Hs. destruct (sk_empty _ Hh sl) as [-> _]; [by eapply elem_of_list_lookup_2|]. apply empty_sane.
    - intros id sl k r Hs Hr. destruct (sk_empty _ Hh sl) as [E _]; [by eapply elem_of_list_lookup_2|]. rewrite E in Hr. done.
    - intros id sl Hs Hb. destruct (sk_empty _ Hh sl) as [E _]; [by eapply elem_of_list_lookup_2|]. rewrite E in Hb. done. }
  destruct (parse_all_ok compile P (sh_lexers h) (sh_defs h) (dom (sh_lexers h)) (sh_subs h) Hc
     ltac:(intros sl Hs; by apply (sk_empty _ Hh)) (sk_lexers _ Hh)
     (2 + size (dom (sh_lexers h) ∖ (∅ : gset gostring))) order st0) as (st & E & Hst).
  - intros n Hn. rewrite Ho in Hn. apply elem_of_elements in Hn. unfold names_of in Hn. by apply elem_of_dom in Hn.
  - done.
  - unfold enough. cbn [ps_done st0]. done.
  - eexists. split.
    { eapply returns_at; [apply st_new_mono|]. unfold st_new. fold h st0. rewrite E. cbn [rbind]. done. }
    split; [|cbn; repeat split; try done; apply Hst].
    assert (Hlen : length (ps_subs st) = length (sh_subs h)).
    { rewrite <- (map_length su_name (ps_subs st)), (iv_names _ _ _ Hst). by rewrite map_length. }
    split.
    + split; cbn.
      * apply Hst.
      * intros n id Hn. rewrite Hlen. destruct (sk_lexers _ Hh _ _ Hn) as (sl & Hs & _). by eapply lookup_lt_Some.
      * intros id Hid. rewrite Hlen. by apply (sk_first _ Hh).
      * apply Hst.
    + intros id D d. unfold frame. cbn. destruct (ps_subs st !! id) as [sl|] eqn:Es; [|done]. intros [= <-] Hd.
      apply elem_of_list_lookup in Hd as [p Hp]. pose proof (iv_sane _ _ _ Hst _ _ Es) as Hsn.
      destruct (defs_rule _ _ _ _ Hsn Hp) as (k & r & n & _ & Hr & _ & _ & _ & ->). cbn. by eapply (iv_good _ _ _ Hst).
Qed.

(** * Calls *)
Record like (P : sregexp -> Prop) (t : settings) (l0 l : stlexer) : Prop := {
  lk_fit : fit P l;
  lk_grown : grown l0 l;
  lk_error : stl_error l = st_error t;
  lk_compare : stl_compare l = by_flag (st_length t);
  lk_start : stl_start l = st_start t;
  lk_end : stl_end l = st_end t
}.
Lemma fit_grown P l l' : fit P l -> grown l l' -> fit P l'.
Proof.
  intros [H1 H2] Hg. split; [by eapply grown_tied|]. intros id D d. rewrite (grown_frame l) by done. apply H2.
Qed.
Lemma grown_refl l : tied l -> grown l l.
Proof. intros H. repeat split; try done; [apply H..|]. exists []. by rewrite app_nil_r. Qed.
Lemma grown_trans a b c : grown a b -> grown b c -> grown a c.
Proof.
  intros (A1 & A2 & A3 & A4 & m1 & A5) (B1 & B2 & B3 & B4 & m2 & B5). repeat split; try congruence; [apply B4..|].
  exists (m1 ++ m2). by rewrite B5, A5, app_assoc.
Qed.
Lemma step_like P t l0 l c fuel l' : like P t l0 l -> st_step fuel l c = Ok l' -> like P (st_setting t c) l0 l'.
Proof.
  intros H. pose proof (ft_tied _ _ (lk_fit _ _ _ _ H)) as Ht.
  assert (Hsame : forall l', stl_subs l' = stl_subs l -> stl_lexers l' = stl_lexers l -> stl_first l' = stl_first l -> stl_set l' = stl_set l ->
     fit P l' /\ grown l0 l').
  { intros l1 E1 E2 E3 E4. assert (Hg : grown l l1).
    { repeat split; try done; rewrite ?E4; try apply Ht. exists []. by rewrite app_nil_r. }
    split; [by eapply fit_grown; [apply H|]|]. eapply grown_trans; [apply H|done]. }
  destruct c; cbn [st_step st_setting].
  - destruct (st_lex l s fuel) as [[xs l1]| |] eqn:E; [|done|done]. cbn [rbind]. intros [= <-].
    apply st_lex_after in E as ->. pose proof (with_error_grown l Ht) as Hg. destruct H as [H1 H2 H3 H4 H5 H6].
    split; try done; [by eapply fit_grown|by eapply grown_trans].
  - intros [= <-]. destruct H as [H1 H2 H3 H4 H5 H6]. split; cbn; try done; apply Hsame; done.
  - intros [= <-]. destruct H as [H1 H2 H3 H4 H5 H6]. split; cbn; try done; apply Hsame; done.
  - intros [= <-]. destruct H as [H1 H2 H3 H4 H5 H6]. split; cbn; try done; apply Hsame; done.
  - intros [= <-]. destruct H as [H1 H2 H3 H4 H5 H6]. split; cbn; try done; apply Hsame; done.
  - intros [= <-]. destruct H as [H1 H2 H3 H4 H5 H6]. split; cbn; try done; apply Hsame; done.
Qed.
Lemma calls_like P cs fuel l0 : forall t l l', like P t l0 l -> st_calls cs l fuel = Ok l' -> like P (fold_left st_setting cs t) l0 l'.
Proof.
  unfold st_calls. induction cs as [|c cs IH]; intros t l l' H; cbn [rfold fold_left]; [intros [= <-]; done|].
  destruct (st_step fuel l c) as [l1| |] eqn:E; [|done|done]. cbn [rbind]. apply IH. by eapply step_like.
Qed.
Lemma built_like P compile definitions cs l : engine P compile -> built compile definitions cs l ->
  exists order l0, order ≡ₚ elements (names_of definitions) /\ returns (st_new compile order definitions) (l0, None)
    /\ stl_lexers l0 = sh_lexers (shell_of definitions) /\ stl_first l0 = sh_first (shell_of definitions)
    /\ map su_name (stl_subs l0) = map su_name (sh_subs (shell_of definitions)) /\ tied l0
    /\ like P (st_settings cs) l0 l.
Proof.
  intros Hc (order & l0 & Ho & Hnew & [F Hcs]). exists order, l0. split; [done|]. split; [done|].
  destruct (new_returns P compile definitions order Hc Ho) as (l1 & H1 & H2 & H3 & H4 & H5 & H6 & H7 & H8 & H9).
  pose proof (returns_fun _ _ _ Hnew H1) as [= ->]. do 3 (split; [done|]). split; [apply H2|].
  eapply (calls_like P cs F l1 default_settings); [|apply Hcs; lia].
  split; try done. apply grown_refl, H2.
Qed.

Lemma built_env P compile definitions cs l : engine P compile -> built compile definitions cs l ->
  forall n, env_of l n = None <-> n ∉ names_of definitions.
Proof.
  intros Hc Hb n. destruct (built_like P _ _ _ _ Hc Hb) as (order & l0 & _ & _ & H1 & _ & H3 & H4 & H5).
  rewrite (grown_env l0) by (done || apply H5). unfold env_of, names_of. rewrite H1, not_elem_of_dom.
  destruct (sh_lexers (shell_of definitions) !! n) as [id|] eqn:E; [|done].
  pose proof (ti_names _ H4 n id ltac:(by rewrite H1)) as Hlt. apply lookup_lt_is_Some_2 in Hlt as [sl Hsl].
  unfold frame. rewrite Hsl. done.
Qed.
Lemma read_headings_first hs : forall rest cur h, (sh_first h = None -> sh_lexers h = ∅) ->
  sh_first (read_headings hs rest cur h) = None -> sh_lexers (read_headings hs rest cur h) = ∅.
Proof.
  induction hs as [|[[i len] n] hs IH]; intros rest cur h H; cbn [read_headings].
  - destruct cur; done.
  - apply IH. cbn. destruct (sh_first h); done.
Qed.
Lemma shell_first definitions : sh_first (shell_of definitions) = None <-> names_of definitions = ∅.
Proof.
  split.
  - intros E. unfold names_of. assert (sh_lexers (shell_of definitions) = ∅) as ->; [|apply dom_empty_L]. revert E. unfold shell_of.
    assert (H : sh_first (Shell [] ∅ None ∅) = None -> sh_lexers (Shell [] ∅ None ∅) = ∅) by done.
    revert H. generalize (Shell [] ∅ None ∅). induction definitions as [|d ds IH]; intros h H; [done|].
    cbn [fold_left]. apply IH. by apply read_headings_first.
  - intros E. pose proof (shell_of_ok definitions) as Hk. destruct (sh_first (shell_of definitions)) as [id|] eqn:Ef; [|done].
    pose proof (sk_first _ Hk _ Ef) as Hlt. apply lookup_lt_is_Some_2 in Hlt as [sl Hsl].
    destruct (sk_empty _ Hk sl) as [_ Hx]; [by eapply elem_of_list_lookup_2|]. unfold names_of in E. rewrite E in Hx. set_solver.
Qed.
Lemma built_first P compile definitions cs l : engine P compile -> built compile definitions cs l ->
  first_frame l = None <-> names_of definitions = ∅.
Proof.
  intros Hc Hb. destruct (built_like P _ _ _ _ Hc Hb) as (order & l0 & _ & _ & _ & H2 & _ & H4 & H5).
  rewrite (grown_first l0) by (done || apply H5). unfold first_frame. rewrite H2, <- shell_first.
  destruct (sh_first (shell_of definitions)) as [id|] eqn:E; [|done].
  pose proof (ti_first _ H4 id ltac:(by rewrite H2)) as Hlt. apply lookup_lt_is_Some_2 in Hlt as [sl Hsl].
  unfold frame. by rewrite Hsl.
Qed.
