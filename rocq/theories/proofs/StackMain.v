(** The statements of props/StackProps.v. *)
From Coq Require Import String Lia.
From Verif.model Require Import RegexPos.
From Verif.spec Require Import StackSpec.
From Verif.proofs Require Import Fuel SetProofs LexProofs LexThms LexHist StackProofs StackProofs2 StackLoop StackCuts StackCuts2 StackLex StackNew StackBuilt.
Local Open Scope nat_scope.
Local Open Scope list_scope.

Lemma gcuts_fall env bl b D S C run cur ps ok : gcuts env bl b D S C run cur ps ok -> ok = false ->
  exists before d w val S', ps = before ++ [STok d w val] /\ falls env d S'.
Proof.
  induction 1 as [D C run cur Hi He | D C run cur ps ok Hi He _ IH | D D' S' C run cur ps ok Hi _ IH
    | D S C run cur p x d Hp Hd He Hb | D S C run cur p x d Hp Hd He Hb Hf
    | D S C run cur p x d ps ok Hp Hd He Hb Hpo Hpu _ IH | D S C run cur p x d D' S' ps ok Hp Hd He Hb Hpu Hm _ IH]; intros Hok; try done.
  - by apply IH.
  - by apply IH.
  - eauto 10.
  - destruct (IH Hok) as (before & d' & w & val & S1 & -> & Hf). eexists (_ ++ _ :: before), d', w, val, S1.
    split; [|done]. by rewrite <- app_assoc.
  - destruct (IH Hok) as (before & d' & w & val & S1 & -> & Hf). eexists (_ ++ _ :: before), d', w, val, S1.
    split; [|done]. by rewrite <- app_assoc.
Qed.

(** A lexer whose rules can always be carried out. *)
Lemma gcuts_safe env bl b D0 (good : list sdef -> Prop) D S C run cur ps ok : gcuts env bl b D S C run cur ps ok ->
  (forall n D, env n = Some D -> good D) ->
  (forall D d, good D -> d ∈ D -> sd_push d <> [] -> env (sd_push d) <> None) ->
  (forall d, d ∈ D0 -> sd_pop d = 0) -> good D -> Forall good S ->
  last (D :: S) = Some D0 -> ok = true.
Proof.
  intros H Hge Hpu0 Hp0. induction H as [D C run cur Hi He | D C run cur ps ok Hi He _ IH | D D' S' C run cur ps ok Hi _ IH
    | D S C run cur p x d Hp Hd He Hb | D S C run cur p x d Hp Hd He Hb Hf
    | D S C run cur p x d ps ok Hp Hd He Hb Hpo Hpu _ IH | D S C run cur p x d D' S' ps ok Hp Hd He Hb Hpu Hm _ IH]; intros HD HS Hl; try done.
  - by apply IH.
  - apply Forall_cons in HS as [HD' HS']. by apply IH.
  - exfalso. apply elem_of_list_lookup_2 in Hd. destruct Hf as [[Hpop ->]|(_ & Hpush & Hnone)].
    + cbn in Hl. injection Hl as ->. specialize (Hp0 _ Hd). lia.
    + by apply (Hpu0 D d).
  - by apply IH.
  - destruct (moves_good env good Hge _ _ _ _ _ HD HS Hm) as [HD' HS']. apply IH; try done.
    unfold moves in Hm. destruct (decide (0 < sd_pop d)).
    + destruct Hm as (Hne & Hlk & ->). set (k := min (sd_pop d) (length S)) in *.
      assert (Hk : drop (k - 1) S = D' :: drop k S).
      { assert (Hk1 : 0 < length S) by (destruct S; [done|cbn; lia]). rewrite (drop_S _ _ _ Hlk). do 2 f_equal. lia. }
      assert (E : D' :: drop k S = drop (k - 1) S) by done.
      rewrite E. rewrite <- Hl. destruct S as [|F S]; [done|]. change (last (D :: F :: S)) with (last (F :: S)).
      rewrite <- (take_drop (k - 1) (F :: S)) at 2. rewrite last_app. rewrite Hk.
      destruct (last (D' :: drop k (F :: S))) eqn:El; [done|]. by apply last_None in El.
    + destruct (decide (sd_push d = [])); destruct Hm as [Hm ->]; [by subst|]. change (last (D' :: D :: S)) with (last (D :: S)). done.
Qed.


Section Built.
Context (compile : scompiler) (definitions : list gostring) (cs : list st_call) (l : stlexer).
Hypothesis Hb : built compile definitions cs l.
Hypothesis Hg : all_groups_ok l.

Lemma built_ok : engine s_well_formed compile -> ok_lexer l /\ tied l /\ like s_well_formed (st_settings cs) l l.
Proof.
  intros He. destruct (built_like _ _ _ _ _ He Hb) as (order & l0 & _ & _ & _ & _ & _ & _ & Hl).
  pose proof (lk_fit _ _ _ _ Hl) as [Ht Hgood]. split; [by apply tied_ok|]. split; [done|]. destruct Hl. split; try done. by apply grown_refl.
Qed.

Lemma lexes_cuts s D : engine s_well_formed compile -> first_frame l = Some D ->
  exists ps ok, gcuts (env_of l) (st_length (st_settings cs)) s D [] (gfresh s 0 D) None 0 ps ok
    /\ if ok : bool then lexes code_places (st_settings cs) l s ps else panics (st_lex l s).
Proof.
  intros He HD. destruct (built_ok He) as (Hok & Ht & Hl).
  destruct (lex_cuts l s _ D Hok Ht (lk_compare _ _ _ _ Hl) HD) as (ps & ok & Hc & Hx). exists ps, ok. split; [done|].
  destruct ok; [|done]. destruct Hx as (out & Hr & Hs). eexists _, _, out, _. split; [exact Hr|].
  rewrite (lk_start _ _ _ _ Hl), (lk_end _ _ _ _ Hl). split; [apply inserted_extra|]. split; [apply inserted_extra|].
  by rewrite <- (lk_error _ _ _ _ Hl).
Qed.

Definition framed (D : list sdef) : Prop := exists id, frame l id = Some D.
Lemma env_framed n D : env_of l n = Some D -> framed D.
Proof. unfold env_of. destruct (stl_lexers l !! n) as [id|]; [|done]. intros H. by exists id. Qed.
Lemma first_framed D : first_frame l = Some D -> framed D.
Proof. unfold first_frame. destruct (stl_first l) as [id|]; [|done]. intros H. by exists id. Qed.

Lemma cuts_text s D ps ok : engine s_well_formed compile -> first_frame l = Some D ->
  gcuts (env_of l) (st_length (st_settings cs)) s D [] (gfresh s 0 D) None 0 ps ok ->
  honest s framed ps 0 /\ if ok : bool then stext ps = s else exists rest, rest <> [] /\ stext ps ++ rest = s.
Proof.
  intros He HD Hc. destruct (built_ok He) as (Hok & Ht & Hl).
  eapply (gcuts_text (env_of l) _ s framed) in Hc; try done.
  - intros D' d [id Hid] Hd. by eapply (ol_regexps _ Hok).
  - apply env_framed.
  - by apply first_framed.
  - apply fresh_ok. lia.
  - lia.
  - intros Hne. destruct s; [done|cbn; lia].
Qed.

Lemma lex_lossless s : engine s_well_formed compile -> names_of definitions <> ∅ ->
  exists ps, reported l s ps /\
   ((stext ps = s /\ lexes code_places (st_settings cs) l s ps)
    \/ (panics (st_lex l s) /\ exists before d w val rest,
          ps = before ++ [STok d w val] /\ rest <> [] /\ stext ps ++ rest = s
          /\ (0 < sd_pop d \/ (sd_push d <> [] /\ sd_push d ∉ names_of definitions)))).
Proof.
  intros He Hn. destruct (first_frame l) as [D|] eqn:HD.
  2: { exfalso. apply Hn. by eapply (built_first _ _ _ _ _ He Hb). }
  destruct (lexes_cuts s D He HD) as (ps & ok & Hc & Hx). destruct (built_ok He) as (Hok & Ht & Hl).
  destruct (cuts_text s D ps ok He HD Hc) as [[H1 H2] H3]. exists ps. split.
  { split; [done|]. intros before d w val after E. destruct (H2 _ _ _ _ _ E) as (D' & c & m & [id Hid] & Hd & Hf & Hi & Hj & Hv).
      exists id, D', c, m. done. }
  destruct ok; [left; done|]. right. split; [done|].
  destruct (gcuts_fall _ _ _ _ _ _ _ _ _ _ Hc eq_refl) as (before & d & w & val & S' & E & Hf).
    destruct H3 as (rest & Hr & H3). exists before, d, w, val, rest. split; [done|]. split; [done|]. split; [done|].
    destruct Hf as [[Hp _]|(Hp & Hpu & Hnone)]; [by left|right]. split; [done|]. by apply (built_env _ _ _ _ _ He Hb).
Qed.

Lemma lex_scuts s D : engine s_no_lookbehind compile -> first_frame l = Some D ->
  exists ps ok, scuts (env_of l) (st_length (st_settings cs)) D [] s ps ok
    /\ if ok : bool then lexes code_places (st_settings cs) l s ps else panics (st_lex l s).
Proof.
  intros He HD. assert (He' : engine s_well_formed compile) by (intros src r Hr; by apply (He src)).
  destruct (lexes_cuts s D He' HD) as (ps & ok & Hc & Hx). exists ps, ok. split; [|done].
  destruct (built_like _ _ _ _ _ He Hb) as (order & l0 & _ & _ & _ & _ & _ & _ & Hl).
  assert (Hgood : forall D, framed D -> good D). { intros D' [id Hid] d Hd. by eapply (ft_good _ _ (lk_fit _ _ _ _ Hl)). }
  change (scuts (env_of l) (st_length (st_settings cs)) D [] s ps ok).
  assert (E : s = drop (default 0 (None : option nat)) s) by done. rewrite E.
  eapply (gcuts_scuts (env_of l)); [|exact Hc|..].
  - intros n D' Hn. apply Hgood. by eapply env_framed.
  - by apply Hgood, first_framed.
  - constructor.
  - lia.
  - intros Hne. destruct s; [done|cbn; lia].
  - done.
  - apply gfresh_fresh.
Qed.

Lemma lex_safe s : engine s_well_formed compile -> names_of definitions <> ∅ -> pushes_known l ->
  (forall D d, first_frame l = Some D -> d ∈ D -> sd_pop d = 0) ->
  exists ps, stext ps = s /\ lexes code_places (st_settings cs) l s ps.
Proof.
  intros He Hn Hpk Hp. destruct (first_frame l) as [D|] eqn:HD.
  2: { exfalso. apply Hn. by eapply (built_first _ _ _ _ _ He Hb). }
  destruct (lexes_cuts s D He HD) as (ps & ok & Hc & Hx). destruct (built_ok He) as (Hok & Ht & Hl).
  assert (ok = true) as ->.
  { eapply (gcuts_safe _ _ _ D framed); [exact Hc|apply env_framed| |intros d; by apply Hp|by apply first_framed|constructor|done].
    intros D' d [id Hid]. by eapply Hpk. }
  exists ps. split; [|done].
  destruct (cuts_text s D ps true He HD Hc) as [_ H3]. done.
Qed.
End Built.

Lemma lex_none compile definitions cs l s : engine (fun _ => True) compile -> built compile definitions cs l ->
  names_of definitions = ∅ -> panics (st_lex l s).
Proof.
  intros He Hb Hn. destruct (built_like _ _ _ _ _ He Hb) as (order & l0 & _ & _ & _ & _ & _ & _ & Hl).
  apply lex_nothing; [by eapply (built_first _ _ _ _ _ He Hb)|apply (lk_fit _ _ _ _ Hl)].
Qed.
Lemma new_total compile definitions order : order ≡ₚ elements (names_of definitions) ->
  exists l, returns (st_new compile order definitions) (l, None).
Proof.
  intros Ho. destruct (new_returns (fun _ => True) compile definitions order ltac:(done) Ho) as (l & H & _). by exists l.
Qed.

(** Positions *)
Lemma newlines_app a b : newlines (a ++ b) = newlines a + newlines b.
Proof. apply count_occ_app. Qed.
Lemma newlines_0 v : 10%N ∉ v -> newlines v = 0.
Proof. intros H. apply count_occ_not_In. by rewrite <- elem_of_list_In. Qed.
Lemma column_back s v c : 10%N ∉ v -> column (s ++ v) (c + Z.of_nat (length v)) -> column s c.
Proof.
  intros Hv (la & Hla & Hc). destruct (last_line_ex s) as (lb & [Hb Hs] & _).
  assert (Hlb : is_last_line (s ++ v) (lb ++ v)).
  { split; [set_solver|]. destruct Hs as [->|[pre ->]]; [by left|]. right. exists pre. by rewrite <- app_assoc. }
  rewrite (last_line_fun _ _ _ Hla Hlb), app_length in Hc. exists lb. split; [done|]. lia.
Qed.
Lemma semits_true err before ps out : straight (before ++ ps) -> semits code_places err before ps out -> semits true_places err before ps out.
Proof.
  intros Hs H. induction H as [|before x ps out rest Hx _ IH]; [constructor|]. constructor.
  - clear IH. destruct Hs as [Hs1 Hs2]. destruct x as [d v val|v]; cbn [sshows] in *.
    + destruct (sd_discard d); [done|]. destruct Hx as (c & Hc & ->). exists c. split; [done|]. do 3 f_equal.
      cbn [pl_line code_places true_places]. destruct (last before) as [[|w]|] eqn:El; try lia.
      rewrite (newlines_0 w); [lia|]. apply Hs1. apply last_Some_elem_of in El. set_solver.
    + destruct Hx as (c & Hc & ->). exists c. cbn in Hc. split; [eapply column_back; [|exact Hc]; apply Hs1; set_solver|].
      do 3 f_equal. cbn [pl_err_line code_places true_places]. destruct ps as [|[d w val|w] ps]; try lia.
      rewrite (newlines_0 w); [lia|]. by eapply Hs2.
  - apply IH. by rewrite <- app_assoc.
Qed.
Lemma lexes_true t l s ps : straight ps -> lexes code_places t l s ps -> lexes true_places t l s ps.
Proof.
  intros Hs (l' & pre & out & post & H1 & H2 & H3 & H4). exists l', pre, out, post. do 3 (split; [done|]). by apply semits_true.
Qed.
Lemma lex_positions compile definitions cs l s : engine s_no_lookbehind compile -> built compile definitions cs l -> all_groups_ok l ->
  forall D, first_frame l = Some D ->
  exists ps ok, scuts (env_of l) (st_length (st_settings cs)) D [] s ps ok
    /\ if ok : bool then straight ps -> lexes true_places (st_settings cs) l s ps else panics (st_lex l s).
Proof.
  intros He Hb Hg D HD. destruct (lex_scuts compile definitions cs l Hb Hg s D He HD) as (ps & ok & Hc & Hx).
  exists ps, ok. split; [done|]. destruct ok; [|done]. intros Hs. by apply lexes_true.
Qed.

(** Where lexing starts *)
Lemma read_headings_names hs : forall rest cur h,
  map su_name (sh_subs (read_headings hs rest cur h)) = map su_name (sh_subs h) ++ map snd hs.
Proof.
  induction hs as [|[[i len] n] hs IH]; intros rest cur h; cbn [read_headings map].
  - destruct cur; by rewrite app_nil_r.
  - rewrite IH. cbn [sh_subs]. rewrite map_app, <- app_assoc. done.
Qed.
Lemma shell_names definitions : map su_name (sh_subs (shell_of definitions)) = heading_names definitions.
Proof.
  unfold shell_of, heading_names. change (flat_map _ definitions) with (map su_name (sh_subs (Shell [] ∅ None ∅)) ++ flat_map (fun d => map snd (headings (S (length d)) d)) definitions).
  generalize (Shell [] ∅ None ∅). induction definitions as [|d ds IH]; intros h; cbn [fold_left flat_map]; [by rewrite app_nil_r|].
  rewrite IH. unfold read_definition. rewrite read_headings_names. by rewrite app_assoc.
Qed.
Lemma read_headings_first0 hs : forall rest cur h, (forall id, sh_first h = Some id -> id = 0) -> (sh_first h = None -> sh_subs h = []) ->
  let h' := read_headings hs rest cur h in (forall id, sh_first h' = Some id -> id = 0) /\ (sh_first h' = None -> sh_subs h' = []).
Proof.
  induction hs as [|[[i len] n] hs IH]; intros rest cur h H1 H2; cbn [read_headings].
  - destruct cur; done.
  - apply IH; cbn.
    + destruct (sh_first h) as [x|] eqn:E; [done|]. intros id [= <-]. by rewrite H2.
    + destruct (sh_first h); done.
Qed.
Lemma shell_first0 definitions id : sh_first (shell_of definitions) = Some id -> id = 0.
Proof.
  unfold shell_of. assert (H : (forall id, sh_first (Shell [] ∅ None ∅) = Some id -> id = 0) /\ (sh_first (Shell [] ∅ None ∅) = None -> sh_subs (Shell [] ∅ None ∅) = [])) by done.
  revert H. generalize (Shell [] ∅ None ∅). induction definitions as [|d ds IH]; intros h [H1 H2]; cbn [fold_left]; [by apply H1|].
  apply IH. apply (read_headings_first0 _ _ _ h H1 H2).
Qed.
Lemma read_headings_last hs : forall rest cur h, (forall n, is_Some (sh_lexers h !! n) <-> n ∈ map su_name (sh_subs h)) ->
  forall n, is_Some (sh_lexers (read_headings hs rest cur h) !! n) <-> n ∈ map su_name (sh_subs (read_headings hs rest cur h)).
Proof.
  induction hs as [|[[i len] m] hs IH]; intros rest cur h H; cbn [read_headings].
  - destruct cur; done.
  - apply IH. cbn [sh_lexers sh_subs]. intros n. rewrite lookup_insert_is_Some, map_app, elem_of_app, <- H. cbn [map].
    rewrite elem_of_list_singleton. cbn [su_name]. destruct (decide (m = n)) as [->|]; [tauto|].
    split; [intros [?|[_ ?]]; [done|by left]|intros [?|?]; [by right|congruence]].
Qed.
Lemma names_headings definitions n : n ∈ names_of definitions <-> n ∈ heading_names definitions.
Proof.
  unfold names_of. rewrite elem_of_dom, <- shell_names. unfold shell_of.
  assert (H : forall n, is_Some (sh_lexers (Shell [] ∅ None ∅) !! n) <-> n ∈ map su_name (sh_subs (Shell [] ∅ None ∅))).
  { intros m. cbn. rewrite lookup_empty. split; [by intros [? ?]|by intros ?%elem_of_nil]. }
  revert n H. generalize (Shell [] ∅ None ∅). induction definitions as [|d ds IH]; intros h n H; cbn [fold_left]; [apply H|].
  apply IH. by apply read_headings_last.
Qed.
Lemma built_starts compile definitions cs l n names : engine (fun _ => True) compile -> built compile definitions cs l ->
  heading_names definitions = n :: names -> n ∉ names -> first_frame l = env_of l n.
Proof.
  intros He Hb Hn Hnot. destruct (built_like _ _ _ _ _ He Hb) as (order & l0 & _ & _ & H1 & H2 & H3 & H4 & H5).
  rewrite (grown_first l0), (grown_env l0) by (done || apply H5). unfold first_frame, env_of. rewrite H1, H2.
  pose proof (shell_names definitions) as Hnm. rewrite Hn in Hnm.
  destruct (sh_first (shell_of definitions)) as [id|] eqn:E.
  2: { pose proof (sk_none _ (shell_of_ok definitions) E) as Hz. rewrite Hz in Hnm. done. }
  rewrite (shell_first0 _ _ E).
  assert (Hin : n ∈ names_of definitions) by (apply names_headings; rewrite Hn; left).
  unfold names_of in Hin. apply elem_of_dom in Hin as [k Hk]. rewrite Hk.
  destruct (sk_lexers _ (shell_of_ok definitions) _ _ Hk) as (sl & Hsl & Hname).
  destruct k as [|k]; [done|]. exfalso. apply Hnot. pose proof (f_equal (fun x => x !! S k) Hnm) as Hx. cbn in Hx.
  rewrite list_lookup_fmap, Hsl in Hx. cbn in Hx. rewrite Hname in Hx. symmetry in Hx. by eapply elem_of_list_lookup_2.
Qed.
