(** Format on texts. *)
From Coq Require Import String.
From Verif.spec Require Import JsonSpec.
From Verif.proofs Require StackProofs RgParse.
From Verif.proofs Require TopdownThms LexMain.
From Verif.proofs Require Import Fuel LexMain LexText LexTableProofs RunProofs RgText RgMust RdParse RdText JsonLex JsonText JsonParse JsonPrint.
Local Open Scope nat_scope.
Local Open Scope list_scope.

Lemma js_lines : omap line_src (split1 c_nl js_lexer_text) = map row_src js_table.
Proof. vm_compute. reflexivity. Qed.
Lemma js_length : st_length (settings_of []) = true. Proof. reflexivity. Qed.
Lemma js_lexer_some compile : compiles compile js_table ->
  exists l, js_lexer compile = Some l /\ returns (sl_calls (js_calls []) slexer_empty) l.
Proof.
  intros HC. destruct (table_lexer compile js_lexer_text js_table HC js_lines js_nodup) as (l0 & Hl & Hr).
  exists l0. split; [exact Hl|]. eapply table_calls_from; [exact Hr|]. exists 0. intros n _. reflexivity.
Qed.
Lemma js_lexer_after compile l0 l (texts : list gostring) : compiles compile js_table -> js_lexer compile = Some l0 ->
  returns (sl_calls (map CLex texts) l0) l -> returns (sl_calls (js_calls texts) slexer_empty) l.
Proof.
  intros HC H0 Hl. destruct (js_lexer_some compile HC) as (l1 & H1 & Hr). rewrite H0 in H1. injection H1 as <-.
  destruct Hr as [F HF], Hl as [G HG]. exists (F + G). intros n Hn. unfold js_calls, table_calls in *.
  rewrite app_nil_l. unfold sl_calls in *. rewrite !app_nil_r in HF. rewrite StackProofs.rfold_app, HF by lia. apply HG. lia.
Qed.
Lemma js_any texts s lxs : lexes_to (js_calls []) s lxs <-> lexes_to (js_calls texts) s lxs.
Proof. unfold lexes_to, all_lexemes, js_calls. rewrite !(table_rules js_table [] _ js_more js_nodup), !(table_settings js_table []). done. Qed.
Lemma js_not_any texts s v : lexes_not (js_calls []) s v <-> lexes_not (js_calls texts) s v.
Proof. unfold lexes_not, js_calls. rewrite !(table_rules js_table [] _ js_more js_nodup). done. Qed.
Lemma js_kinds texts s lxs : lexes_to (js_calls texts) s lxs -> Forall (fun x => lx_kind x ∈ js_terms) lxs.
Proof.
  intros H. apply Forall_forall. intros x Hx. destruct (table_lexemes js_table [] texts js_more js_nodup s lxs x H Hx) as [Hr|[[Hi _]|[Hi _]]]; [|done|done].
  destruct Hr as (r & s' & n & Hr & _ & Hk & _). rewrite Hk. unfold js_terms. apply elem_of_list_fmap. by exists r.
Qed.

Section Run.
  Variables (l : slexer) (texts : list gostring) (rd : reducer).
  Hypothesis Hl : returns (sl_calls (js_calls texts) slexer_empty) l.
  Lemma lex_now s ps lxs : tokenises (rules_of (js_calls texts)) s ps -> all_lexemes (js_calls texts) ps lxs ->
    exists xs l', returns (slex l s) (xs, l') /\ map olex_lx xs = lxs
    /\ lex_errors xs = map (fun v => Lx (L "Error") v (-1) 0) (junks ps).
  Proof using Hl.
    intros Ht Ha. destruct (pipe_lex (js_calls texts) l js_g [] s ps lxs) as (xs & l' & H1 & H2 & H3); try assumption.
    - exact (table_first js_table [] texts js_more).
    - exact (table_regexps js_table [] texts js_more).
    - exact (cs_length js_table [] texts js_length).
    - exists xs, l'. split; [exact H1|]. split; [exact H2|]. rewrite H3. unfold js_calls. rewrite (table_settings js_table []). reflexivity.
  Qed.
  Lemma run_parse s lxs r : lexes_to (js_calls texts) s lxs -> returns (fun n => td_parse n js_g lxs) r ->
    exists l', returns (js_run l js_gr rd s) (match r with Some t => (Some (raw_reduce rd t), None, l') | None => (None, Some ErrCouldNotParse, l') end).
  Proof using Hl.
    intros (ps & Ht & HJ & Ha) [G HG]. destruct (lex_now s ps lxs Ht Ha) as (xs & l' & [F HF] & Hm & He). exists l', (F + G). intros n Hn.
    unfold js_run, runner_run, runner_new, run. cbn [rn_lexer rn_parser rn_reducers]. unfold simple_lexer. rewrite (HF n) by lia. cbn [rbind]. rewrite He, HJ. cbn [map].
    unfold topdown_parser. fold js_g. rewrite Hm, (HG n) by lia. cbn [rbind]. destruct r as [t|]; reflexivity.
  Qed.
  Lemma run_error s v : lexes_not (js_calls texts) s v ->
    exists l', returns (js_run l js_gr rd s) (None, Some (ErrLex (Lx (L "Error") v (-1) 0)), l').
  Proof using Hl.
    intros (ps & vs & Ht & HJ).
    destruct (LexMain.lex_longest (js_calls texts) l s (table_first js_table [] texts js_more) (table_regexps js_table [] texts js_more)
      (cs_length js_table [] texts js_length) Hl) as (l1 & ps' & pre & out & post & _ & H1 & H2 & Ht' & He).
    assert (ps' = ps) as -> by (eapply tokenises_unique; [apply (table_regexps js_table [] texts js_more)|exact Ht'|exact Ht]).
    destruct (lex_now s ps (map olex_lx (pre ++ out ++ post)) Ht) as (xs & l' & [F HF] & Hm & Hx).
    { exists pre, out, post. done. }
    exists l', F. intros n Hn. unfold js_run, runner_run, runner_new, run. cbn [rn_lexer rn_parser rn_reducers]. unfold simple_lexer. rewrite (HF n) by lia.
    cbn [rbind]. rewrite Hx, HJ. reflexivity.
  Qed.
End Run.
Lemma run_lexer l0 l g rd (texts : list gostring) s x l' : returns (sl_calls (map CLex texts) l0) l ->
  returns (js_format l g rd s) (x, l') -> returns (sl_calls (map CLex (texts ++ [s])) l0) l'.
Proof.
  intros [G HG] [F HF]. exists (F + G). intros n Hn.
  unfold sl_calls in *. rewrite map_app, StackProofs.rfold_app, HG by lia. cbn [rbind map rfold sl_step].
  specialize (HF n ltac:(lia)). unfold js_format, js_run, runner_run, runner_new, run in HF. cbn [rn_lexer rn_parser rn_reducers] in HF. unfold simple_lexer in HF.
  destruct (slex l s n) as [[xs l1]| |]; cbn [rbind] in *; [|discriminate HF|discriminate HF].
  destruct (lex_errors xs) as [|e es]; cbn [rbind] in HF; [|congruence].
  unfold topdown_parser in HF. destruct (td_parse n (gr_view g) (map olex_lx xs)) as [t| |]; cbn [rbind] in HF; [|discriminate HF|discriminate HF].
  destruct t as [t|]; cbn [rbind] in HF; [|congruence]. cbn [run_reducers rbind] in HF. unfold tree_reducer in HF. cbn [rbind] in HF.
  destruct (pretty (raw_reduce rd t) []) as [x0| |]; cbn [rbind] in HF; congruence.
Qed.

(** * The package's variables *)
Definition js_reducers (rd : reducer) : Prop := exists ks1 ks2 described,
  orders ks1 js_made_red /\ orders ks2 described /\ reducer_means described js_D /\ rd = js_rdcr ks1 ks2 js_made_red described.
Lemma js_made_runs compile l0 l gg (texts : list gostring) :
  compiles compile rg_table -> rg_lexer compile = Some l0 -> returns (sl_calls (map CLex texts) l0) l -> rg_grammar = Some gg ->
  exists l', returns (js_made l gg) (js_gr, js_made_red, l').
Proof.
  intros HC Hl0 Hl Hgg. destruct (must_runs _ _ _ js_op_some compile l0 l gg texts HC Hl0 Hl Hgg) as (l' & F & HF). destruct js_new as [G HG].
  exists l', (F + G). intros n Hn. unfold js_made. rewrite HF by lia. cbn [rbind]. rewrite js_gr_is. fold js_g. specialize (HG n ltac:(lia)). cbn beta in HG. rewrite HG. cbn [rbind].
  rewrite js_bl_is. reflexivity.
Qed.
Lemma js_described_runs compile l0 g rd l (texts : list gostring) : rd_package compile l0 g rd -> returns (sl_calls (map CLex texts) l0) l ->
  exists r l', returns (js_described l g rd) (r, l') /\ reducer_means r js_D.
Proof.
  intros Hp Hl. destruct (text_ok compile l0 g rd l texts js_reduce_text js_D Hp Hl js_describes) as (r & l' & [F HF] & Hm).
  exists r, l'. split; [|exact Hm]. exists F. intros n Hn. unfold js_described. rewrite HF by lia. reflexivity.
Qed.
Lemma js_package_is compile l0 g rd : js_package compile l0 g rd ->
  compiles compile js_table /\ js_lexer compile = Some l0 /\ g = js_gr /\ js_reducers rd.
Proof.
  intros (lr0 & lr & lr' & rtexts & gg & made & ld0 & ld & ld' & dtexts & dg & drd & described & ks1 & ks2
    & HC & Hr0 & Hr & Hgg & Hm & Hp & Hd0 & Hd & H1 & H2 & -> & HC2 & Hl0).
  destruct (js_made_runs compile lr0 lr gg rtexts HC Hr0 Hr Hgg) as (l2 & Hm2).
  pose proof (returns_fun _ _ _ Hm Hm2) as E. apply pair_equal_spec in E as [E _]. apply pair_equal_spec in E as [-> ->].
  destruct (js_described_runs compile ld0 dg drd ld dtexts Hp Hd0) as (r & l3 & Hr3 & Hmean).
  pose proof (returns_fun _ _ _ Hd Hr3) as E. apply pair_equal_spec in E as [-> _].
  split; [exact HC2|]. split; [exact Hl0|]. split; [reflexivity|]. exists ks1, ks2, r. split; [exact H1|]. split; [exact H2|]. split; [exact Hmean|reflexivity].
Qed.
Lemma orders_exist (r : reducer) : exists ks, orders ks r.
Proof.
  exists (map fst (map_to_list r)). intros k. split.
  - intros H. apply elem_of_list_fmap in H as ([k' v] & -> & Hin). apply elem_of_map_to_list in Hin. by exists v.
  - intros [v Hv]. apply elem_of_list_fmap. exists (k, v). split; [done|]. by apply elem_of_map_to_list.
Qed.
Lemma js_package_ready compile : compiles compile rg_table -> compiles compile rd_table -> compiles compile js_table ->
  exists l0 g rd, js_package compile l0 g rd.
Proof.
  intros HC HC2 HC3. destruct (rg_lexer_some compile HC) as (lr & Hlr & _). destruct (js_lexer_some compile HC3) as (l0 & Hl0 & _).
  assert (Hr : returns (sl_calls (map CLex []) lr) lr) by (exists 0; intros n _; reflexivity).
  destruct (js_made_runs compile lr lr RgParse.rg_gr [] HC Hlr Hr RgParse.rg_grammar_some) as (l' & Hm).
  destruct (package_ready compile HC HC2) as (ld & dg & drd & Hp).
  assert (Hd : returns (sl_calls (map CLex []) ld) ld) by (exists 0; intros n _; reflexivity).
  destruct (js_described_runs compile ld dg drd ld [] Hp Hd) as (r & l2 & Hr2 & _).
  destruct (orders_exist js_made_red) as [ks1 H1]. destruct (orders_exist r) as [ks2 H2].
  exists l0, js_gr, (js_rdcr ks1 ks2 js_made_red r), lr, lr, l', [], RgParse.rg_gr, js_made_red, ld, ld, l2, [], dg, drd, r, ks1, ks2.
  split; [exact HC|]. split; [exact Hlr|]. split; [exact Hr|]. split; [exact RgParse.rg_grammar_some|]. split; [exact Hm|]. split; [exact Hp|].
  split; [exact Hd|]. split; [exact Hr2|]. split; [exact H1|]. split; [exact H2|]. split; [reflexivity|]. split; [exact HC3|exact Hl0].
Qed.

(** * Format *)
Section Format.
  Variables (compile : compiler) (l0 l : slexer) (g : gr) (rd : reducer) (texts : list gostring).
  Hypothesis Hpkg : js_package compile l0 g rd.
  Hypothesis Hl : returns (sl_calls (map CLex texts) l0) l.
  Lemma format_ok J s : js_doc J s -> exists l', returns (js_format l g rd s) ((layout 0 J, None), l').
  Proof using All.
    intros H. apply js_package_is in Hpkg as (HC & Hl0 & -> & ks1 & ks2 & d & H1 & H2 & Hd & ->).
    pose proof (js_lexer_after compile l0 l texts HC Hl0 Hl) as Hla.
    apply (doc_lexes texts) in H as (lxs & Hlx & Hw). destruct (parse_doc lxs J Hw) as (t & Ht & Hv).
    destruct (run_parse l texts (js_rdcr ks1 ks2 js_made_red d) Hla s lxs (Some t) Hlx Ht) as (l' & [F HF]).
    exists l', F. intros n Hn. unfold js_format. rewrite HF by lia. cbn [rbind].
    rewrite (prints J _ (proj1 (tree_reduces ks1 ks2 d H1 H2 Hd) J t Hv)). reflexivity.
  Qed.
  Lemma format_junk s v : lexes_not (js_calls []) s v ->
    exists l', returns (js_format l g rd s) (([], Some (ErrLex (Lx (L "Error") v (-1) 0))), l').
  Proof using All.
    intros H. apply js_package_is in Hpkg as (HC & Hl0 & -> & _). rewrite (js_not_any texts) in H.
    destruct (run_error l texts rd (js_lexer_after compile l0 l texts HC Hl0 Hl) s v H) as (l' & [F HF]).
    exists l', F. intros n Hn. unfold js_format. rewrite HF by lia. reflexivity.
  Qed.
  Lemma format_bad s lxs : lexes_to (js_calls []) s lxs -> (forall J, ~ js_doc J s) ->
    exists l', returns (js_format l g rd s) (([], Some ErrCouldNotParse), l').
  Proof using All.
    intros Hlx Hn. apply js_package_is in Hpkg as (HC & Hl0 & -> & _). rewrite (js_any texts) in Hlx.
    assert (Hw : forall J, ~ wv J (pairs lxs)).
    { intros J HJ. apply (Hn J). apply (doc_lexes texts). exists lxs. split; [exact Hlx|exact HJ]. }
    destruct (run_parse l texts rd (js_lexer_after compile l0 l texts HC Hl0 Hl) s lxs None Hlx (parse_not lxs (js_kinds texts s lxs Hlx) Hw)) as (l' & [F HF]).
    exists l', F. intros n Hn'. unfold js_format. rewrite HF by lia. reflexivity.
  Qed.
  Lemma format_cases s : (exists J, js_doc J s) \/ (exists v, lexes_not (js_calls []) s v)
    \/ ((exists lxs, lexes_to (js_calls []) s lxs) /\ forall J, ~ js_doc J s).
  Proof using.
    destruct (table_lexes js_table [] [] js_more js_nodup js_length s) as [[lxs Hlx]|H]; [|by right; left].
    destruct (js_answers lxs) as [[t|] Ht].
    - left. destruct (TopdownThms.topdown_sound js_g lxs t js_wf Ht) as (s0 & rest & E & Hs). rewrite js_nts in E. injection E as <- _.
      destruct (tree_doc t lxs Hs (js_kinds [] s lxs Hlx)) as [J HJ]. exists J. apply (doc_lexes []). by exists lxs.
    - right; right. split; [by exists lxs|]. intros J HJ. apply (doc_lexes []) in HJ as (lxs' & Hlx' & Hw).
      rewrite (table_unique js_table [] [] js_more _ _ _ Hlx' Hlx) in Hw. destruct (parse_doc lxs J Hw) as (t & Ht' & _).
      pose proof (returns_fun _ _ _ Ht Ht') as E. discriminate E.
  Qed.
  Lemma format_total s : exists x l', returns (js_format l g rd s) (x, l').
  Proof using All.
    destruct (format_cases s) as [[J H]|[[v H]|[[lxs H] Hn]]].
    - destruct (format_ok J s H) as [l' Hf]. eauto.
    - destruct (format_junk s v H) as [l' Hf]. eauto.
    - destruct (format_bad s lxs H Hn) as [l' Hf]. eauto.
  Qed.
  Lemma format_error s : (forall J, ~ js_doc J s) -> exists e l', returns (js_format l g rd s) (([], Some e), l').
  Proof using All.
    intros Hn. destruct (format_cases s) as [[J H]|[[v H]|[[lxs H] _]]].
    - destruct (Hn J H).
    - destruct (format_junk s v H) as [l' Hf]. eauto.
    - destruct (format_bad s lxs H Hn) as [l' Hf]. eauto.
  Qed.
  Lemma format_only s o l' : returns (js_format l g rd s) ((o, None), l') -> exists J, js_doc J s /\ o = layout 0 J.
  Proof using All.
    intros H. destruct (format_cases s) as [[J HJ]|[[v Hv]|[[lxs Hx] Hn]]].
    - destruct (format_ok J s HJ) as [l1 Hf]. pose proof (returns_fun _ _ _ H Hf) as E. injection E as -> _. by exists J.
    - destruct (format_junk s v Hv) as [l1 Hf]. pose proof (returns_fun _ _ _ H Hf) as E. discriminate E.
    - destruct (format_bad s lxs Hx Hn) as [l1 Hf]. pose proof (returns_fun _ _ _ H Hf) as E. discriminate E.
  Qed.
End Format.
