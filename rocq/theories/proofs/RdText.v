(** reducer.Parse on texts. *)
From Coq Require Import String.
From Verif.spec Require Import ReducerSpec ReSpec.
From Verif.proofs Require Import Fuel GramRows ReProofs RunProofs LexText LexTableProofs RgText RgMust RdParse RdEval.
Local Open Scope nat_scope.
Local Open Scope list_scope.

Lemma rd_more : no_adds []. Proof. intros k r d H. by apply elem_of_nil in H. Qed.
Lemma rd_nodup : NoDup (map lw_kind rd_table).
Proof. apply (bool_decide_unpack _). vm_compute. exact I. Qed.
Lemma rd_lines : omap line_src (split1 c_nl rd_lexer_text) = map row_src rd_table.
Proof. vm_compute. reflexivity. Qed.
Lemma rd_length : st_length (settings_of []) = true. Proof. reflexivity. Qed.
Lemma rd_lexer_some compile : compiles compile rd_table ->
  exists l, rd_lexer compile = Some l /\ returns (sl_calls (rd_calls []) slexer_empty) l.
Proof.
  intros HC. destruct (table_lexer compile rd_lexer_text rd_table HC rd_lines rd_nodup) as (l0 & Hl & Hr).
  exists l0. split; [exact Hl|]. eapply table_calls_from; [exact Hr|]. exists 0. intros n _. reflexivity.
Qed.
Lemma rd_lexer_after compile l0 l (texts : list gostring) : compiles compile rd_table -> rd_lexer compile = Some l0 ->
  returns (sl_calls (map CLex texts) l0) l -> returns (sl_calls (rd_calls texts) slexer_empty) l.
Proof.
  intros HC H0 Hl. destruct (rd_lexer_some compile HC) as (l1 & H1 & Hr). rewrite H0 in H1. injection H1 as <-.
  destruct Hr as [F HF], Hl as [G HG]. exists (F + G). intros n Hn. unfold rd_calls, table_calls in *.
  rewrite app_nil_l. unfold sl_calls in *. rewrite !app_nil_r in HF. rewrite StackProofs.rfold_app, HF by lia. apply HG. lia.
Qed.
Lemma rd_any texts s lxs : lexes_to (rd_calls []) s lxs <-> lexes_to (rd_calls texts) s lxs.
Proof.
  unfold lexes_to, all_lexemes, rd_calls. rewrite !(table_rules rd_table [] _ rd_more rd_nodup), !(table_settings rd_table []). done.
Qed.
Lemma rd_not_any texts s v : lexes_not (rd_calls []) s v <-> lexes_not (rd_calls texts) s v.
Proof. unfold lexes_not, rd_calls. rewrite !(table_rules rd_table [] _ rd_more rd_nodup). done. Qed.
Definition rd_tokens : list gostring := Eval vm_compute in map lw_kind (filter (fun r => lw_discard r = false) rd_table).
Lemma rd_row_kinds r : r ∈ rd_table -> lw_discard r = false -> lw_kind r ∈ rd_tokens.
Proof.
  intros Hr Hd. assert (H : Forall (fun r => implb (negb (lw_discard r)) (bool_decide (lw_kind r ∈ rd_tokens)) = true) rd_table).
  { apply (bool_decide_unpack _). vm_compute. exact I. }
  rewrite Forall_forall in H. specialize (H r Hr). rewrite Hd in H. cbn [negb implb] in H. by apply bool_decide_eq_true in H.
Qed.
Lemma rd_row_string r w : r ∈ rd_table -> lw_kind r = L "string" -> in_re (lw_re r) w -> exists v, w = quoted v.
Proof.
  intros Hr Hk. apply elem_of_list_lookup in Hr as [i Hi]. assert (i = 14) as ->.
  { apply (NoDup_lookup (map lw_kind rd_table) i 14 (L "string") rd_nodup); [|reflexivity].
    change (map lw_kind rd_table) with (lw_kind <$> rd_table). rewrite list_lookup_fmap, Hi. cbn. by rewrite Hk. }
  cbn in Hi. injection Hi as <-. cbn [lw_re]. intros H.
  apply in_cat_inv in H as (a & b & -> & Ha & Hb). apply in_cat_inv in Hb as (c & d & -> & Hc & Hd).
  apply in_set_inv in Ha as (x & -> & Hx), Hd as (y & -> & Hy). apply N.eqb_eq in Hx, Hy. subst x y. exists c. reflexivity.
Qed.
Lemma rd_lexeme texts s lxs x : lexes_to (rd_calls texts) s lxs -> x ∈ lxs -> lx_kind x ∈ rd_tokens /\ tok_ok x.
Proof.
  intros H Hx. destruct (table_lexemes rd_table [] texts rd_more rd_nodup s lxs x H Hx) as [Hr|[[Hi _]|[Hi _]]]; [|done|done].
  destruct Hr as (r & s' & n & Hr & Hd & Hk & Hm & Hn & Hv). apply hd_len_in in Hm. rewrite Hk. split; [by apply rd_row_kinds|].
  intros E. rewrite Hk in E. destruct (rd_row_string r _ Hr E Hm) as [v Ev]. exists v. by rewrite Hv.
Qed.
Lemma rd_toks texts s lxs : lexes_to (rd_calls texts) s lxs -> Forall tok_ok lxs.
Proof. intros H. apply Forall_forall. intros x Hx. by apply (rd_lexeme texts s lxs x H). Qed.
Lemma rd_terminals texts s lxs : lexes_to (rd_calls texts) s lxs -> terminal_kinds rd_g lxs.
Proof.
  intros H x Hx. apply (rd_lexeme texts s lxs x H) in Hx as [Hx _]. apply tok_none. revert Hx. generalize (lx_kind x). apply Forall_forall.
  apply (bool_decide_unpack _). vm_compute. exact I.
Qed.
Lemma rd_first : exists rest, g_nts rd_g = L "Rules" :: rest.
Proof. rewrite rd_nts. eexists. reflexivity. Qed.

Section Parse.
  Variable compile : compiler.
  Variable l0 l : slexer.
  Variable texts : list gostring.
  Hypothesis HC : compiles compile rd_table.
  Hypothesis Hl0 : rd_lexer compile = Some l0.
  Hypothesis Hl : returns (sl_calls (map CLex texts) l0) l.
  Lemma parse_ok s D : describes s D -> exists r l', returns (rd_parse l rd_gr rd_red s) (inl r, l') /\ reducer_means r D.
  Proof using All.
    intros (lxs & Hlx & Hw). rewrite (rd_any texts) in Hlx. destruct rd_first as [rest Hf].
    assert (exists t l', returns (pipeline l rd_g [rd_red] s) (Some (reduced [rd_red] t), None, l') /\ is_tree rd_g (L "Rules") t lxs) as (t & l' & [F HF] & Ht).
    { destruct (decide (lxs = [])) as [->|Hne].
      - pose proof (rd_terminals texts s [] Hlx) as HT. pose proof Hlx as (ps & Hps & HJ & Ha).
        destruct (PackratThms.packrat_empty rd_g (L "Rules") rest rd_wf Hf) as (t & Hr & [[_ Ht]|[Hd _]]).
        + assert (exists l', returns (pipeline l rd_g [rd_red] s) (Some (reduced [rd_red] t), None, l')) as [l' Hp].
          { apply (pipe_parse (rd_calls texts) l rd_g [rd_red] s ps []) with (r := Some t); try assumption.
            - exact (table_first rd_table [] texts rd_more).
            - exact (table_regexps rd_table [] texts rd_more).
            - exact (cs_length rd_table [] texts rd_length).
            - exact (rd_lexer_after compile l0 l texts HC Hl0 Hl). }
          exists t, l'. split; [exact Hp|exact Ht].
        + destruct (Hd (written_derives D [] Hw)).
      - destruct (tpipe_ok rd_table [] texts rd_more rd_nodup rd_length rd_g [rd_red] rd_wf l
          (rd_lexer_after compile l0 l texts HC Hl0 Hl) s lxs (L "Rules") rest Hlx (rd_terminals texts s lxs Hlx) Hf
          (written_derives D lxs Hw)) as (t & l' & Hp & Ht & _).
        exists t, l'. split; [exact Hp|exact Ht]. }
    destruct (tree_shows t lxs Ht (rd_toks texts s lxs Hlx)) as (D' & Hsh & Hsp).
    assert (D' = D) as -> by (eapply writes_unique; eauto).
    destruct (rules_mean _ D Hsh) as (r & Er & Mr). exists r, l'. split; [|exact Mr].
    exists F. intros n Hn. unfold rd_parse. fold rd_g. rewrite HF by lia. cbn [rbind reduced fold_left]. rewrite Er. reflexivity.
  Qed.
  Lemma parse_junk s v : lexes_not (rd_calls []) s v ->
    exists l', returns (rd_parse l rd_gr rd_red s) (inr (ErrLex (Lx (L "Error") v (-1) 0)), l').
  Proof using All.
    intros H. rewrite (rd_not_any texts) in H.
    destruct (tpipe_error rd_table [] texts rd_more rd_nodup rd_length rd_g [rd_red] l
      (rd_lexer_after compile l0 l texts HC Hl0 Hl) s v H) as (l' & [F HF]).
    exists l'. exists F. intros n Hn. unfold rd_parse. fold rd_g. rewrite HF by lia. reflexivity.
  Qed.
  Lemma parse_bad s lxs : lexes_to (rd_calls []) s lxs -> (forall D, ~ writes D lxs) ->
    exists l', returns (rd_parse l rd_gr rd_red s) (inr ErrCouldNotParse, l').
  Proof using All.
    intros Hlx HR. rewrite (rd_any texts) in Hlx.
    destruct (tpipe_bad rd_table [] texts rd_more rd_nodup rd_length rd_g [rd_red] rd_wf l
      (rd_lexer_after compile l0 l texts HC Hl0 Hl) s lxs Hlx (rd_terminals texts s lxs Hlx)) as (l' & [F HF]).
    { intros ->. apply (HR []). constructor. }
    { intros (s0 & rest & Hn & Hd). destruct rd_first as [rest' Hf]. rewrite Hf in Hn. injection Hn as <- _.
      destruct (proj1 (derives_tree rd_g) _ _ Hd lxs eq_refl) as [t Ht].
      destruct (tree_shows t lxs Ht (rd_toks texts s lxs Hlx)) as (D & _ & Hsp). by apply (HR D). }
    exists l'. exists F. intros n Hn. unfold rd_parse. fold rd_g. rewrite HF by lia. reflexivity.
  Qed.
End Parse.
Lemma parse_lexer l0 l g rd (texts : list gostring) s x l' : returns (sl_calls (map CLex texts) l0) l ->
  returns (rd_parse l g rd s) (x, l') -> returns (sl_calls (map CLex (texts ++ [s])) l0) l'.
Proof.
  intros [G HG] [F HF]. exists (F + G). intros n Hn.
  unfold sl_calls in *. rewrite map_app, StackProofs.rfold_app, HG by lia. cbn [rbind map rfold sl_step].
  specialize (HF n ltac:(lia)). unfold rd_parse, pipeline, run, simple_lexer in HF.
  destruct (slex l s n) as [[xs l1]| |]; cbn [rbind] in *; [|discriminate HF|discriminate HF].
  destruct (lex_errors xs) as [|e es]; cbn [rbind] in HF; [|congruence].
  unfold packrat_parser in HF. destruct (packrat_parse n (gr_view g) (map olex_lx xs)) as [t| |]; cbn [rbind] in HF; [|discriminate HF|discriminate HF].
  destruct t as [t|]; cbn [rbind] in HF; [|congruence]. cbn [map run_reducers tree_reducer rbind] in HF.
  destruct (rfold rd_rule (pn_children (raw_reduce rd t)) ∅) as [x0| |]; cbn [rbind] in HF; congruence.
Qed.
Lemma parse_cases s : (exists v, lexes_not (rd_calls []) s v) \/ exists lxs, lexes_to (rd_calls []) s lxs.
Proof. destruct (table_lexes rd_table [] [] rd_more rd_nodup rd_length s) as [H|H]; [by right|by left]. Qed.

(** The package's variables. *)
Lemma rd_made_runs compile l0 l gg (texts : list gostring) :
  compiles compile rg_table -> rg_lexer compile = Some l0 -> returns (sl_calls (map CLex texts) l0) l -> rg_grammar = Some gg ->
  exists l', returns (rd_made l gg) (rd_gr, rd_made_red, l').
Proof.
  intros HC Hl0 Hl Hgg. destruct (must_runs _ _ _ rd_op_some compile l0 l gg texts HC Hl0 Hl Hgg) as (l' & F & HF).
  exists l', F. intros n Hn. unfold rd_made. rewrite HF by lia. cbn [rbind]. rewrite rd_bl_is. reflexivity.
Qed.
Lemma package_is compile l0 g rd : rd_package compile l0 g rd ->
  compiles compile rd_table /\ rd_lexer compile = Some l0 /\ g = rd_gr /\ rd = rd_red.
Proof.
  intros (lr0 & lr & lr' & rtexts & gg & made & ks1 & ks2 & HC & Hl0 & Hl & Hgg & Hm & H1 & H2 & -> & HC2 & Hl2).
  destruct (rd_made_runs compile lr0 lr gg rtexts HC Hl0 Hl Hgg) as (l2 & Hm2).
  pose proof (returns_fun _ _ _ Hm Hm2) as E. apply pair_equal_spec in E as [E _]. apply pair_equal_spec in E as [-> ->]. split; [exact HC2|]. split; [exact Hl2|]. split; [reflexivity|].
  exact (rd_red_any ks1 ks2 H1 H2).
Qed.
Lemma package_ready compile : compiles compile rg_table -> compiles compile rd_table ->
  exists l0 g rd, rd_package compile l0 g rd.
Proof.
  intros HC HC2. destruct (rg_lexer_some compile HC) as (lr & Hlr & _). destruct (rd_lexer_some compile HC2) as (l0 & Hl0 & _).
  assert (Hr : returns (sl_calls (map CLex []) lr) lr) by (exists 0; intros n _; reflexivity).
  destruct (rd_made_runs compile lr lr RgParse.rg_gr [] HC Hlr Hr RgParse.rg_grammar_some) as (l' & Hm).
  exists l0, rd_gr, rd_red, lr, lr, l', [], RgParse.rg_gr, rd_made_red, (map fst rd_bl), (map fst rd_own_rows).
  split; [exact HC|]. split; [exact Hlr|]. split; [exact Hr|]. split; [exact RgParse.rg_grammar_some|]. split; [exact Hm|].
  split; [exact rd_keys1|]. split; [exact rd_keys2|]. split; [reflexivity|]. split; [exact HC2|exact Hl0].
Qed.
Theorem text_ok compile l0 g rd l texts s D : rd_package compile l0 g rd -> returns (sl_calls (map CLex texts) l0) l ->
  describes s D -> exists r l', returns (rd_parse l g rd s) (inl r, l') /\ reducer_means r D.
Proof. intros H Hl. apply package_is in H as (HC & Hl0 & -> & ->). exact (parse_ok compile l0 l texts HC Hl0 Hl s D). Qed.
Theorem text_junk compile l0 g rd l texts s v : rd_package compile l0 g rd -> returns (sl_calls (map CLex texts) l0) l ->
  lexes_not (rd_calls []) s v -> exists l', returns (rd_parse l g rd s) (inr (ErrLex (Lx (L "Error") v (-1) 0)), l').
Proof. intros H Hl. apply package_is in H as (HC & Hl0 & -> & ->). exact (parse_junk compile l0 l texts HC Hl0 Hl s v). Qed.
Theorem text_bad compile l0 g rd l texts s lxs : rd_package compile l0 g rd -> returns (sl_calls (map CLex texts) l0) l ->
  lexes_to (rd_calls []) s lxs -> (forall D, ~ writes D lxs) -> exists l', returns (rd_parse l g rd s) (inr ErrCouldNotParse, l').
Proof. intros H Hl. apply package_is in H as (HC & Hl0 & -> & ->). exact (parse_bad compile l0 l texts HC Hl0 Hl s lxs). Qed.
Theorem text_keys compile l0 g rd l texts s lxs D : rd_package compile l0 g rd -> returns (sl_calls (map CLex texts) l0) l ->
  lexes_to (rd_calls []) s lxs -> writes D lxs -> exists r l', returns (rd_parse l g rd s) (inl r, l')
    /\ forall k, is_Some (r !! k) <-> k ∈ map fst D.
Proof.
  intros H Hl H1 H2. destruct (text_ok compile l0 g rd l texts s D H Hl) as (r & l' & Hr & Hk & _); [by exists lxs|]. by exists r, l'.
Qed.
