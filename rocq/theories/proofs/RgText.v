(** regexgram.New on texts. *)
From Coq Require Import String.
From Verif.spec Require Import RegexGramText ReSpec.
From Verif.proofs Require Import Fuel GramRows ReProofs LexText LexTableProofs RgParse RgUnamb RegexGramThms RegexGramNames.
Local Open Scope nat_scope.
Local Open Scope list_scope.

Definition rg_more : list sl_call := [CStart (L "nl") [c_nl]].
Lemma rg_more_adds : no_adds rg_more.
Proof. intros k r d H. unfold rg_more in H. apply elem_of_list_singleton in H. done. Qed.
Lemma rg_nodup : NoDup (map lw_kind rg_table).
Proof. apply (bool_decide_unpack _). vm_compute. exact I. Qed.
Lemma rg_lines : omap line_src (split1 c_nl rg_lexer_text) = map row_src rg_table.
Proof. vm_compute. reflexivity. Qed.

Lemma rg_lexer_some compile : compiles compile rg_table ->
  exists l, rg_lexer compile = Some l /\ returns (sl_calls (rg_calls []) slexer_empty) l.
Proof.
  intros HC. destruct (table_lexer compile rg_lexer_text rg_table HC rg_lines rg_nodup) as (l0 & Hl & Hr).
  exists (insert_start l0 (L "nl") [c_nl]). split.
  - unfold rg_lexer. by rewrite Hl.
  - eapply table_calls_from; [exact Hr|]. exists 0. intros n _. reflexivity.
Qed.
Lemma rg_lexer_after compile l0 l texts : compiles compile rg_table -> rg_lexer compile = Some l0 ->
  returns (sl_calls (map CLex texts) l0) l -> returns (sl_calls (rg_calls texts) slexer_empty) l.
Proof.
  intros HC Hl0 [G HG]. destruct (table_lexer compile rg_lexer_text rg_table HC rg_lines rg_nodup) as (l1 & Hl & Hr).
  unfold rg_lexer in Hl0. rewrite Hl in Hl0. injection Hl0 as <-.
  eapply table_calls_from; [exact Hr|]. exists G. intros n Hn. unfold sl_calls in *. cbn [app rfold sl_step rbind].
  by apply HG.
Qed.
Lemma rg_lexes_any texts s lxs : lexes_to (rg_calls []) s lxs <-> lexes_to (rg_calls texts) s lxs.
Proof.
  unfold lexes_to, all_lexemes, rg_calls.
  rewrite !(table_rules rg_table rg_more _ rg_more_adds rg_nodup), !(table_settings rg_table rg_more). done.
Qed.
Lemma rg_lexes_not_any texts s v : lexes_not (rg_calls []) s v <-> lexes_not (rg_calls texts) s v.
Proof.
  unfold lexes_not, rg_calls. rewrite !(table_rules rg_table rg_more _ rg_more_adds rg_nodup). done.
Qed.
Lemma rg_length : st_length (settings_of rg_more) = true. Proof. reflexivity. Qed.

Lemma rg_lexeme texts s lxs x : lexes_to (rg_calls texts) s lxs -> x ∈ lxs ->
  lx_kind x ∈ rg_tokens /\ (lx_kind x = L "symbol" -> is_word (lx_val x)).
Proof.
  intros H Hx. destruct (table_lexemes rg_table rg_more texts rg_more_adds rg_nodup s lxs x H Hx) as [Hr|[[_ ->]|[Hi _]]].
  - destruct Hr as (r & s' & n & Hr & Hd & Hk & Hm & Hn & ->). rewrite Hk. clear Hk H Hx.
    apply hd_len_in in Hm. unfold rg_table in Hr. rewrite !elem_of_cons, elem_of_nil in Hr.
    repeat destruct Hr as [->|Hr]; try done; cbn [lw_kind lw_re] in *;
      (split; [apply (bool_decide_unpack _); vm_compute; exact I|]); try (intros E; discriminate E).
    intros _. apply in_plus_set in Hm. exact Hm.
  - split; [apply (bool_decide_unpack _); vm_compute; exact I|]. intros E. discriminate E.
  - exfalso. apply Hi. reflexivity.
Qed.
Lemma rg_lexes_ne texts s lxs : lexes_to (rg_calls texts) s lxs -> lxs <> [].
Proof.
  intros (ps & _ & _ & pre & out & post & H1 & _ & _ & ->). unfold rg_calls in H1.
  rewrite (table_settings rg_table rg_more) in H1. destruct H1 as [[H _]|[_ ->]]; [discriminate H|]. done.
Qed.
Lemma rg_terminals texts s lxs : lexes_to (rg_calls texts) s lxs -> terminal_kinds rg_g lxs.
Proof. intros H x Hx. apply tok_none. by apply (rg_lexeme texts s lxs x H Hx). Qed.
Lemma rg_first : exists rest, g_nts rg_g = L "Grammar" :: rest.
Proof. rewrite rg_nts. eexists. reflexivity. Qed.

Section New.
  Variable compile : compiler.
  Variable l0 l : slexer.
  Variable gg : gr.
  Variable texts : list gostring.
  Hypothesis HC : compiles compile rg_table.
  Hypothesis Hl0 : rg_lexer compile = Some l0.
  Hypothesis Hl : returns (sl_calls (map CLex texts) l0) l.
  Hypothesis Hgg : rg_grammar = Some gg.

  Lemma gg_is : gg = rg_gr.
  Proof using Hgg. pose proof rg_grammar_some. congruence. Qed.

  Lemma new_ok s R : reads s R ->
    exists t g r l', shows_grammar t R /\ returns (eval_grammar t) (g, r) /\ returns (rg_new l gg s) (inl (g, r), l').
  Proof using All.
    intros (lxs & Hlx & Hs). rewrite gg_is. rewrite (rg_lexes_any texts) in Hlx.
    destruct rg_first as [rest Hf].
    destruct (tpipe_ok rg_table rg_more texts rg_more_adds rg_nodup rg_length rg_g [rg_rdcr] rg_wf l
      (rg_lexer_after compile l0 l texts HC Hl0 Hl) s lxs (L "Grammar") rest Hlx (rg_terminals texts s lxs Hlx) Hf
      (spelled_derives R lxs Hs)) as (t & l' & Hp & Ht & _).
    destruct (tree_shows t lxs Ht) as (R' & Hsh & Hsp).
    assert (R' = R) as -> by (eapply spells_unique; eauto).
    destruct (RegexGramThms.evaluates (raw_reduce rg_rdcr t) R Hsh) as (g & r & He).
    exists (raw_reduce rg_rdcr t), g, r, l'. split; [exact Hsh|]. split; [exact He|].
    destruct Hp as [F HF], He as [G HG]. exists (F + G). intros n Hn. unfold rg_new. fold rg_g.
    rewrite HF by lia. cbn [rbind reduced fold_left]. rewrite HG by lia. reflexivity.
  Qed.
  Lemma new_junk s v : lexes_not (rg_calls []) s v ->
    exists l', returns (rg_new l gg s) (inr (ErrLex (Lx (L "Error") v (-1) 0)), l').
  Proof using All.
    intros H. rewrite gg_is. rewrite (rg_lexes_not_any texts) in H.
    destruct (tpipe_error rg_table rg_more texts rg_more_adds rg_nodup rg_length rg_g [rg_rdcr] l
      (rg_lexer_after compile l0 l texts HC Hl0 Hl) s v H) as (l' & [F HF]).
    exists l'. exists F. intros n Hn. unfold rg_new. fold rg_g. rewrite HF by lia. reflexivity.
  Qed.
  Lemma new_bad s lxs : lexes_to (rg_calls []) s lxs -> (forall R, ~ spells R lxs) ->
    exists l', returns (rg_new l gg s) (inr ErrCouldNotParse, l').
  Proof using All.
    intros Hlx HR. rewrite gg_is. rewrite (rg_lexes_any texts) in Hlx.
    destruct (tpipe_bad rg_table rg_more texts rg_more_adds rg_nodup rg_length rg_g [rg_rdcr] rg_wf l
      (rg_lexer_after compile l0 l texts HC Hl0 Hl) s lxs Hlx (rg_terminals texts s lxs Hlx) (rg_lexes_ne texts s lxs Hlx)) as (l' & [F HF]).
    { intros (s0 & rest & Hn & Hd). destruct rg_first as [rest' Hf]. rewrite Hf in Hn. injection Hn as <- _.
      destruct (proj1 (derives_tree rg_g) _ _ Hd lxs eq_refl) as [t Ht].
      apply tree_shows in Ht as (R & _ & Hsp). by apply (HR R). }
    exists l'. exists F. intros n Hn. unfold rg_new. fold rg_g. rewrite HF by lia. reflexivity.
  Qed.
End New.
