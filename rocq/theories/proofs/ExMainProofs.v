(** The commands of the arithmetic and JSON examples. *)
From Coq Require Import String.
From Verif.model Require Import ExMains.
From Verif.spec Require Import MathSpec JsonSpec ScalcMainSpec.
From Verif.proofs Require MathProofs LeftEval JsonThms.
From Verif.proofs Require Import LexTableProofs Fuel.
Local Open Scope nat_scope.
Local Open Scope list_scope.

Lemma no_calls (l : slexer) : returns (sl_calls (map CLex []) l) l.
Proof. by exists 0. Qed.

Lemma spaced_join args w : spaced args w -> strjoin (L " ") args = w.
Proof.
  induction 1 as [|w|w l r H IH Hl]; [done|done|]. destruct l as [|x l]; [done|].
  change (strjoin (L " ") (w :: x :: l)) with (w ++ L " " ++ strjoin (L " ") (x :: l)). by rewrite IH.
Qed.
(** The empty text has no tokens and no junk. *)
Lemma no_text ps : tokenises (rules_of (mx_calls [])) [] ps -> ps = [].
Proof.
  intros H. apply (LexMain.tokenises_unique (mx_calls []) [] ps []); [|done|constructor].
  exact (table_regexps mx_table [] [] MathProofs.mx_more).
Qed.
Lemma no_tokens lxs : mx_tokens [] lxs -> lxs = [].
Proof.
  intros (ps & Hp & _ & (pre & out & post & H1 & H2 & He & ->)). apply no_text in Hp as ->. inversion He; subst.
  destruct H1 as [[_ ->]|[H _]]; [|done]. destruct H2 as [[_ ->]|[H _]]; [|done]. done.
Qed.
Lemma no_junk v : ~ lexes_not (mx_calls []) [] v.
Proof. intros (ps & vs & Hp & Hj). apply no_text in Hp as ->. done. Qed.

Section M.
  Variables (A : arith) (show : fl A -> gostring) (compile : compiler) (l : slexer) (gg : gr).
  Hypothesis Hc : compiles compile mx_table.
  Hypothesis Hl : mx_lexer compile = Some l.
  Hypothesis Hg : mx_grammar = Some gg.
  Variables (args : list gostring) (w : gostring).
  Hypothesis Hw : spaced args w.

  Lemma math_main_run v e l' : w <> [] -> returns (mx_run A l gg w) ((v, e), l') ->
    returns (math_main A show l gg args) (match e with Some e => ([], run_error_text e) | None => (show v ++ [newline], []) end).
  Proof using Hw.
    intros Hn [F HF]. exists F. intros n Hn'. unfold math_main. rewrite (spaced_join args w Hw). destruct w as [|x r]; [done|].
    rewrite (HF n Hn'). cbn [rbind]. by destruct e.
  Qed.
  Lemma math_main_none : w = [] -> returns (math_main A show l gg args) ([], L "Please provide input to parse" ++ [newline]).
  Proof using Hw. intros ->. exists 0. intros n _. unfold math_main. by rewrite (spaced_join args [] Hw). Qed.
  Lemma math_main_value lxs : mx_tokens w lxs -> is_expr lxs ->
    exists x l', returns (mx_run A l gg w) ((x, None), l') /\ left_sum A lxs x /\ returns (math_main A show l gg args) (show x ++ [newline], []).
  Proof using Hw Hc Hl Hg.
    intros Ht He. destruct (LeftEval.value_left A compile l l gg [] Hc Hl (no_calls l) Hg w lxs Ht He) as (x & l' & H & Hs).
    exists x, l'. split; [done|]. split; [done|]. apply (math_main_run x None l'); [|done]. intros E. rewrite E in Ht.
    apply no_tokens in Ht as ->. by apply (MathProofs.expr_nonempty [] He).
  Qed.
  Lemma math_main_junk v : lexes_not (mx_calls []) w v -> returns (math_main A show l gg args) ([], L "Lex Error -1:0) " ++ v).
  Proof using Hw Hc Hl Hg.
    intros H. destruct (MathProofs.value_junk A compile l l gg [] Hc Hl (no_calls l) Hg w v H) as (l' & Hr).
    refine (math_main_run _ (Some _) l' _ Hr). intros E. rewrite E in H. by apply (no_junk v).
  Qed.
  Lemma math_main_bad lxs : mx_tokens w lxs -> lxs <> [] -> ~ is_expr lxs -> returns (math_main A show l gg args) ([], L "Could Not Parse").
  Proof using Hw Hc Hl Hg.
    intros Ht Hn He. destruct (MathProofs.value_bad A compile l l gg [] Hc Hl (no_calls l) Hg w lxs Ht Hn He) as (l' & Hr).
    refine (math_main_run _ (Some _) l' _ Hr). intros E. rewrite E in Ht. by apply no_tokens in Ht.
  Qed.
  Lemma math_main_blank : w <> [] -> mx_tokens w [] -> returns (math_main A show l gg args) (show (f_zero A) ++ [newline], []).
  Proof using Hw Hc Hl Hg.
    intros Hn Ht. destruct (MathProofs.value_blank A compile l l gg [] Hc Hl (no_calls l) Hg w Ht) as (l' & Hr).
    exact (math_main_run _ None l' Hn Hr).
  Qed.
  (** Not an expression, and not blank: one message, on standard error only. *)
  Lemma math_main_error : ~ (w <> [] /\ mx_tokens w []) -> ~ (exists lxs, mx_tokens w lxs /\ is_expr lxs) ->
    exists m, returns (math_main A show l gg args) ([], m)
      /\ ((w = [] /\ m = L "Please provide input to parse" ++ [newline])
          \/ (exists v, lexes_not (mx_calls []) w v /\ m = L "Lex Error -1:0) " ++ v)
          \/ (exists lxs, mx_tokens w lxs /\ lxs <> [] /\ m = L "Could Not Parse")).
  Proof using Hw Hc Hl Hg.
    intros Hb He. destruct (decide (w = [])) as [E|E].
    - eexists. split; [by apply math_main_none|]. by left.
    - destruct (MathProofs.value_cases w) as [[v Hv]|[lxs Ht]].
      + eexists. split; [by apply math_main_junk|]. right. left. by exists v.
      + assert (lxs <> []) by (intros ->; by apply Hb). eexists. split.
        * apply (math_main_bad lxs); [done|done|]. intros He'. apply He. by exists lxs.
        * right. right. by exists lxs.
  Qed.
End M.

Section J.
  Variables (compile : compiler) (l : slexer) (g : gr) (rd : reducer).
  Hypothesis Hp : js_package compile l g rd.
  Variables (args : list gostring) (w : gostring).
  Hypothesis Hw : spaced args w.
  Lemma json_main_run o e l' : returns (js_format l g rd w) ((o, e), l') ->
    returns (json_main l g rd args) (match e with Some e => ([], run_error_text e ++ [newline]) | None => (o ++ [newline], []) end).
  Proof using Hw.
    intros [F HF]. exists F. intros n Hn. unfold json_main. rewrite (spaced_join args w Hw), (HF n Hn). cbn [rbind]. by destruct e.
  Qed.
  Lemma json_main_document J : js_doc J w -> returns (json_main l g rd args) (layout 0 J ++ [newline], []).
  Proof using Hp Hw.
    intros H. destruct (JsonThms.format_ok compile l l g rd [] Hp (no_calls l) J w H) as (l' & Hr). exact (json_main_run _ None l' Hr).
  Qed.
  Lemma json_main_junk v : lexes_not (js_calls []) w v -> returns (json_main l g rd args) ([], L "Lex Error -1:0) " ++ v ++ [newline]).
  Proof using Hp Hw.
    intros H. destruct (JsonThms.format_junk compile l l g rd [] Hp (no_calls l) w v H) as (l' & Hr). exact (json_main_run _ (Some _) l' Hr).
  Qed.
  Lemma json_main_bad lxs : lexes_to (js_calls []) w lxs -> (forall J, ~ js_doc J w) -> returns (json_main l g rd args) ([], L "Could Not Parse" ++ [newline]).
  Proof using Hp Hw.
    intros H H'. destruct (JsonThms.format_bad compile l l g rd [] Hp (no_calls l) w lxs H H') as (l' & Hr). exact (json_main_run _ (Some _) l' Hr).
  Qed.
  Lemma json_main_cases : (exists J, js_doc J w) \/ (exists v, lexes_not (js_calls []) w v)
    \/ ((exists lxs, lexes_to (js_calls []) w lxs) /\ forall J, ~ js_doc J w).
  Proof using. exact (JsonThms.format_cases w). Qed.
End J.
