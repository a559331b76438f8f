(** C58, C68, C90: examples/parlexmath. [compile] stands for regexp.Compile, [A] for float64,
    [l0] for the package's lexer when it is made, [l] for the same lexer after Eval has been
    called on [texts]. *)
From Coq Require Import String.
From Verif.spec Require Import MathSpec.
From Verif.proofs Require MathProofs MathWit LeftEval.

(** The package's lexer and grammar are made without an error, and calls leave the lexer as
    lexing their texts does. *)
Theorem c58_ready compile : compiles compile mx_table -> exists l0 gg, mx_lexer compile = Some l0 /\ mx_grammar = Some gg.
Proof. exact (MathProofs.mx_ready compile). Qed.
Print Assumptions c58_ready.
Theorem c58_calls A l0 l gg (texts : list gostring) s x l' : returns (sl_calls (map CLex texts) l0) l ->
  returns (mx_run A l gg s) (x, l') -> returns (sl_calls (map CLex (texts ++ [s])) l0) l'.
Proof. exact (fun H => MathProofs.value_lexer A l0 l gg texts H s x l'). Qed.
Print Assumptions c58_calls.
(** An expression's value is a value of its tokens read as a sum of terms of factors. *)
Theorem c58_value A compile l0 l gg texts s lxs :
  compiles compile mx_table -> mx_lexer compile = Some l0 -> returns (sl_calls (map CLex texts) l0) l -> mx_grammar = Some gg ->
  mx_tokens s lxs -> is_expr lxs ->
  exists x l', returns (mx_run A l gg s) ((x, None), l') /\ is_sum A lxs x
    /\ ((exists a o b, lxs = a ++ o :: b /\ lx_kind o = L "op2" /\ is_expr a /\ is_expr b) ->
        exists a o b y z, lxs = a ++ o :: b /\ lx_kind o = L "op2" /\ is_sum A a y /\ is_sum A b z /\ op_value A (lx_val o) y z x).
Proof. intros H1 H2 H3 H4. exact (MathProofs.value_ok A compile l0 l gg texts H1 H2 H3 H4 s lxs). Qed.
Print Assumptions c58_value.
Example c58_example : compiles MathWit.mx_compiler mx_table /\ mx_tokens (L "1 - 2*3 - 4") MathWit.demo_tokens /\ is_expr MathWit.demo_tokens
  /\ exists a o b, MathWit.demo_tokens = (a ++ o :: b)%list /\ lx_kind o = L "op2" /\ is_expr a /\ is_expr b.
Proof. exact (conj MathWit.mx_compiles (conj MathWit.demo_lexes MathWit.demo_expr)). Qed.
Example c58_example_runs :
  MathWit.run_eval (L "1 - 2*3 - (4 - 5)*6") = Some (1%Z, None)
  /\ MathWit.run_eval (L "100/10/5*-3+7") = Some (1%Z, None)
  /\ MathWit.run_eval (L "9-4-3-1") = Some (1%Z, None)
  /\ MathWit.run_eval (L "-(1)") = Some (0%Z, Some ErrCouldNotParse)
  /\ MathWit.run_eval (L "1 + x") = Some (0%Z, Some (ErrLex (Lx (L "Error") (L "x") (-1) 0)))
  /\ MathWit.run_eval (L "  ") = Some (0%Z, None).
Proof. exact MathWit.runs. Qed.

(** Operators of equal precedence are taken from the left. *)
Theorem c90_left A compile l0 l gg texts s lxs :
  compiles compile mx_table -> mx_lexer compile = Some l0 -> returns (sl_calls (map CLex texts) l0) l -> mx_grammar = Some gg ->
  mx_tokens s lxs -> is_expr lxs ->
  exists x l', returns (mx_run A l gg s) ((x, None), l') /\ left_sum A lxs x.
Proof. intros H1 H2 H3 H4. exact (LeftEval.value_left A compile l0 l gg texts H1 H2 H3 H4 s lxs). Qed.
Print Assumptions c90_left.
(** Read that way, tokens have one value. *)
Theorem c90_one A lxs x y : left_sum A lxs x -> left_sum A lxs y -> x = y.
Proof. exact (LeftEval.left_sum_fun A lxs x y). Qed.
Print Assumptions c90_one.
Example c90_example : mx_tokens (L "1 - 2*3 - 4") MathWit.demo_tokens /\ is_expr MathWit.demo_tokens
  /\ left_sum MathWit.z_arith MathWit.demo_tokens (-9)%Z.
Proof. exact (conj MathWit.demo_lexes (conj (proj1 MathWit.demo_expr) MathWit.demo_left)). Qed.
Example c90_example_runs :
  MathWit.run_eval (L "10-4-3+2") = Some (5%Z, None) /\ MathWit.run_eval (L "100/10/5*2") = Some (4%Z, None)
  /\ MathWit.run_eval (L "2-3*4/6--1-(5-2-1)") = Some ((-1)%Z, None).
Proof. exact MathWit.left_runs. Qed.

(** Eval gives a text without tokens the value 0 and no error. *)
Theorem c68_blank_refuted : exists compile l gg s lxs A x l',
  compiles compile mx_table /\ mx_lexer compile = Some l /\ mx_grammar = Some gg /\
  mx_tokens s lxs /\ ~ is_expr lxs /\ returns (mx_run A l gg s) ((x, None), l').
Proof. exact MathWit.blank_refuted. Qed.
Print Assumptions c68_blank_refuted.
(** Every text has junk or tokens. *)
Theorem c68_cases s : (exists v, lexes_not (mx_calls []) s v) \/ exists lxs, mx_tokens s lxs.
Proof. exact (MathProofs.value_cases s). Qed.
Print Assumptions c68_cases.
Theorem c68_junk A compile l0 l gg texts s v :
  compiles compile mx_table -> mx_lexer compile = Some l0 -> returns (sl_calls (map CLex texts) l0) l -> mx_grammar = Some gg ->
  lexes_not (mx_calls []) s v ->
  exists l', returns (mx_run A l gg s) ((f_zero A, Some (ErrLex (Lx (L "Error") v (-1) 0))), l').
Proof. intros H1 H2 H3 H4. exact (MathProofs.value_junk A compile l0 l gg texts H1 H2 H3 H4 s v). Qed.
Print Assumptions c68_junk.
(** Missing: texts without tokens. *)
Theorem c68_not_expression_partial A compile l0 l gg texts s lxs :
  compiles compile mx_table -> mx_lexer compile = Some l0 -> returns (sl_calls (map CLex texts) l0) l -> mx_grammar = Some gg ->
  mx_tokens s lxs -> lxs <> [] -> ~ is_expr lxs ->
  exists l', returns (mx_run A l gg s) ((f_zero A, Some ErrCouldNotParse), l').
Proof. intros H1 H2 H3 H4. exact (MathProofs.value_bad A compile l0 l gg texts H1 H2 H3 H4 s lxs). Qed.
Print Assumptions c68_not_expression_partial.
Theorem c68_blank A compile l0 l gg texts s :
  compiles compile mx_table -> mx_lexer compile = Some l0 -> returns (sl_calls (map CLex texts) l0) l -> mx_grammar = Some gg ->
  mx_tokens s [] -> exists l', returns (mx_run A l gg s) ((f_zero A, None), l').
Proof. intros H1 H2 H3 H4. exact (MathProofs.value_blank A compile l0 l gg texts H1 H2 H3 H4 s). Qed.
Print Assumptions c68_blank.
Example c68_example : mx_tokens (L "-(1)") MathWit.bad_toks /\ MathWit.bad_toks <> nil /\ ~ is_expr MathWit.bad_toks.
Proof. exact MathWit.bad_tokens. Qed.
Example c68_example_blank : mx_tokens (L "  ") nil.
Proof. exact MathWit.blank_tokens. Qed.
