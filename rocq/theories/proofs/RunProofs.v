From Coq Require Import String.
From Verif.spec Require Import RunSpec.
From Verif.proofs Require Import Fuel PackratFuel PackratProofs PackratThms LexMain.
From Verif.proofs Require TopdownThms.
From Coq Require Import Lia.

Lemma errors_first xs e r : lex_errors xs = e :: r -> first_error xs e.
Proof.
  induction xs as [|[x|x] xs IH]; cbn [lex_errors]; [done| |].
  - intros H. destruct (IH H) as (a & b & -> & Hn). exists (LTok x :: a), b. split; [done|].
    intros y Hy. apply elem_of_cons in Hy as [Hy|Hy]; [done|]. by apply Hn in Hy.
  - intros [= -> _]. exists [], xs. split; [done|]. intros y Hy. by apply elem_of_nil in Hy.
Qed.
Lemma errors_none xs : lex_errors xs = [] <-> no_error xs.
Proof.
  unfold no_error. induction xs as [|[x|x] xs IH]; cbn [lex_errors].
  - split; [|done]. intros _ y Hy. by apply elem_of_nil in Hy.
  - rewrite IH. split; intros H y Hy.
    + apply elem_of_cons in Hy as [Hy|Hy]; [done|]. by apply H in Hy.
    + apply (H y). by right.
  - split; [done|]. intros H. exfalso. apply (H x). left.
Qed.
Lemma first_errors xs e : first_error xs e -> exists r, lex_errors xs = e :: r.
Proof.
  intros (a & b & -> & Hn). induction a as [|[x|x] a IH].
  - eexists; done.
  - cbn [app lex_errors]. apply IH. intros y Hy. apply (Hn y). by right.
  - exfalso. apply (Hn x). left.
Qed.

Section T.
  Context {W N : Type}.
  Implicit Types (rs : list (option (reducer_fn W N))).

  Lemma run_reducers_spec rs : forall t w o e w',
    run_reducers rs t w = Ok (o, e, w') <->
    reduces rs t w o w' /\ e = match o with None => Some ErrCouldNotReduce | Some _ => None end.
  Proof.
    induction rs as [|[f|] rs IH]; intros t w o e w'; cbn [run_reducers].
    - split.
      + intros [= <- <- <-]. split; [constructor|done].
      + intros [H ->]. inversion H; subst. done.
    - destruct (f t w) as [[[t1|] w1]| |] eqn:E; cbn [rbind].
      + rewrite IH. split; intros [H ->]; split; try done.
        * by eapply red_next.
        * inversion H; subst; [congruence|]. assert (t1 = t2 /\ w1 = w2) as [-> ->] by (split; congruence). done.
      + split.
        * intros [= <- <- <-]. split; [by constructor|done].
        * intros [H ->]. inversion H; subst; [|congruence]. congruence.
      + split; [done|]. intros [H _]. inversion H; subst; congruence.
      + split; [done|]. intros [H _]. inversion H; subst; congruence.
    - rewrite IH. split; intros [H ->]; split; try done.
      + by constructor.
      + by inversion H; subst.
  Qed.

  Lemma run_reducers_panic rs : forall t w,
    run_reducers rs t w = Panic <-> reduce_breaks rs t w.
  Proof.
    induction rs as [|[f|] rs IH]; intros t w; cbn [run_reducers].
    - split; [done|]. intros H; inversion H.
    - destruct (f t w) as [[[t1|] w1]| |] eqn:E; cbn [rbind].
      + rewrite IH. split; intros H.
        * by eapply rb_next.
        * inversion H; subst; [congruence|]. assert (t1 = t2 /\ w1 = w2) as [-> ->] by (split; congruence). done.
      + split; [done|]. intros H; inversion H; subst; congruence.
      + split; [|done]. intros _. by constructor.
      + split; [done|]. intros H; inversion H; subst; congruence.
    - rewrite IH. split; intros H; [by constructor|by inversion H].
  Qed.

  Variables (input : gostring) (lexer : lexer_fn W) (parser : parser_fn W N).

  Lemma run_exact rs w o e w' :
    run input lexer parser rs w = Ok (o, e, w') <-> ran input lexer parser rs w o e w'.
  Proof.
    unfold run. split.
    - destruct (lexer input w) as [[[xs|] w1]| |] eqn:El; cbn [rbind]; try done.
      + destruct (lex_errors xs) as [|x r] eqn:Ee.
        * apply errors_none in Ee.
          destruct (parser xs w1) as [[[t|] w2]| |] eqn:Ep; cbn [rbind]; try done.
          -- rewrite run_reducers_spec. intros [H ->]. destruct o as [t'|].
             ++ by eapply ran_ok.
             ++ by eapply ran_noreduce.
          -- intros [= <- <- <-]. by eapply ran_noparse.
        * apply errors_first in Ee. intros [= <- <- <-]. by eapply ran_error.
      + intros [= <- <- <-]. by constructor.
    - intros H. inversion H as [w1 El|xs w1 x El Ee|xs w1 w2 El Ee Ep|xs w1 t w2 w3 El Ee Ep Hr|xs w1 t w2 t' w3 El Ee Ep Hr]; subst;
        rewrite El; cbn [rbind]; try done.
      + destruct (first_errors _ _ Ee) as [r ->]. done.
      + apply errors_none in Ee. rewrite Ee, Ep. done.
      + apply errors_none in Ee. rewrite Ee, Ep. cbn [rbind]. by apply run_reducers_spec.
      + apply errors_none in Ee. rewrite Ee, Ep. cbn [rbind]. by apply run_reducers_spec.
  Qed.

  Lemma run_panic rs w : run input lexer parser rs w = Panic <-> breaks input lexer parser rs w.
  Proof.
    unfold run. split.
    - destruct (lexer input w) as [[[xs|] w1]| |] eqn:El; cbn [rbind]; try done.
      + destruct (lex_errors xs) as [|x r] eqn:Ee; [|done]. apply errors_none in Ee.
        destruct (parser xs w1) as [[[t|] w2]| |] eqn:Ep; cbn [rbind]; try done.
        * rewrite run_reducers_panic. intros H. by eapply br_reducer.
        * intros _. by eapply br_parser.
      + intros _. by constructor.
    - intros [El|xs w1 El Ee Ep|xs w1 t w2 El Ee Ep H]; rewrite El; cbn [rbind]; try done.
      + apply errors_none in Ee. rewrite Ee, Ep. done.
      + apply errors_none in Ee. rewrite Ee, Ep. cbn [rbind]. by apply run_reducers_panic.
  Qed.

  Lemma run_one rs w o e w' : run input lexer parser rs w = Ok (o, e, w') -> (o = None <-> e <> None).
  Proof. rewrite run_exact. intros H. inversion H; done. Qed.
End T.

Lemma tree_reducers_run rs : forall t l,
  run_reducers (map (fun r => Some (tree_reducer r)) rs) t l = Ok (Some (reduced rs t), None, l).
Proof. induction rs as [|r rs IH]; intros t l; [done|]. cbn [map run_reducers tree_reducer rbind]. apply IH. Qed.

Section E.
  Variables (cs : list sl_call) (l : slexer) (g : grammar) (rs : list reducer) (s : gostring) (ps : list piece) (lxs : list lexeme).
  Hypothesis Hadds : adds_first cs.
  Hypothesis Hre : regexps_in no_lookbehind cs.
  Hypothesis Hlen : st_length (settings_of cs) = true.
  Hypothesis Hl : returns (sl_calls cs slexer_empty) l.
  Hypothesis Hps : tokenises (rules_of cs) s ps.
  Hypothesis Hlxs : all_lexemes cs ps lxs.

  Lemma extra_fun kv a b : extra kv a -> extra kv b -> a = b.
  Proof. intros [[? ->]|[? ->]] [[? ->]|[? ->]]; done. Qed.

  Lemma pipe_lex : exists xs l', returns (slex l s) (xs, l') /\ map olex_lx xs = lxs
    /\ lex_errors xs = map (fun v => Lx (st_error (settings_of cs)) v (-1) 0) (junks ps).
  Proof using All.
    destruct (lex_longest cs l s Hadds Hre Hlen Hl) as (l' & ps' & pre & out & post & Hr & H1 & H2 & Ht & He).
    assert (ps' = ps) as -> by (eapply tokenises_unique; eauto).
    destruct Hlxs as (pre' & out' & post' & H1' & H2' & He' & ->).
    rewrite (extra_fun _ _ _ H1' H1), (extra_fun _ _ _ H2' H2), (emits_fun _ _ _ _ _ _ He' _ He).
    eexists _, l'. split; [exact Hr|]. split; [done|].
    eapply lex_errors_exact; eauto.
  Qed.

  Lemma pipe_error v vs : junks ps = v :: vs ->
    exists l', returns (pipeline l g rs s) (None, Some (ErrLex (Lx (st_error (settings_of cs)) v (-1) 0)), l').
  Proof using All.
    intros Hj. destruct pipe_lex as (xs & l' & [F HF] & _ & He). exists l'. exists F. intros n Hn.
    unfold pipeline, run, simple_lexer. rewrite (HF n Hn). cbn [rbind]. rewrite He, Hj. done.
  Qed.

  Lemma pipe_parse r : junks ps = [] -> returns (fun n => packrat_parse n g lxs) r ->
    exists l', returns (pipeline l g rs s)
      (match r with Some t => (Some (reduced rs t), None, l') | None => (None, Some ErrCouldNotParse, l') end).
  Proof using All.
    intros Hj [G HG]. destruct pipe_lex as (xs & l' & [F HF] & Hm & He). exists l'. exists (F + G). intros n Hn.
    unfold pipeline, run, simple_lexer. rewrite (HF n) by lia. cbn [rbind]. rewrite He, Hj. cbn [map].
    unfold packrat_parser. rewrite Hm, (HG n) by lia. cbn [rbind]. destruct r as [t|]; [|done].
    apply tree_reducers_run.
  Qed.

  Hypothesis Hg : g_wf g.
  Hypothesis Htk : terminal_kinds g lxs.

  Lemma pipe_ok s0 rest : junks ps = [] -> g_nts g = s0 :: rest -> derives g s0 (map lx_kind lxs) ->
    exists t l', returns (pipeline l g rs s) (Some (reduced rs t), None, l')
      /\ is_tree g s0 t lxs /\ (acyclic_grammar g -> earliest_tree g s0 t lxs).
  Proof using All.
    intros Hj Hn Hd. destruct (packrat_main g lxs Hg Htk) as (r & Hr & _ & H1).
    destruct (H1 s0 rest Hn) as [(t & -> & Ht & _ & Hea)|[Hnd _]]; [|done].
    destruct (pipe_parse (Some t) Hj Hr) as [l' Hp]. exists t, l'. split; [exact Hp|]. split; [done|].
    intros Hac. by apply ranked_earliest, Hea.
  Qed.

  Lemma pipe_bad : junks ps = [] -> lxs <> [] -> ~ generates g (map lx_kind lxs) ->
    exists l', returns (pipeline l g rs s) (None, Some ErrCouldNotParse, l').
  Proof using All.
    intros Hj Hne Hnd. destruct (packrat_total g lxs Hg Htk) as [r Hr].
    destruct r as [t|].
    - exfalso. apply Hnd. destruct (packrat_sound g lxs Hg Htk t Hne Hr) as (s0 & rest & Hn & Ht).
      exists s0, rest. split; [done|]. by apply (proj1 (TopdownThms.is_tree_derives g)) in Ht.
    - exact (pipe_parse None Hj Hr).
  Qed.
End E.
