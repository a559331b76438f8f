(** C72-C75: examples/scalc. [compile] stands for regexp.Compile, [A] for float64, [l0] for
    the package's lexer when it is made, [l] for the same lexer after Eval has been called on
    [texts]. *)
From Coq Require Import String.
From Verif.spec Require Import ScalcSpec.
From Verif.proofs Require ScalcRpn ScalcWhole ScalcWit.

(** The package's lexer and grammar are made without an error, and calls leave the lexer as
    lexing their texts does. *)
Theorem c72_ready compile : compiles compile sc_table -> exists l0 gg, sc_lexer compile = Some l0 /\ sc_grammar = Some gg.
Proof. exact (ScalcRpn.eval_ready compile). Qed.
Print Assumptions c72_ready.
Theorem c72_calls A l0 l gg (texts : list gostring) s x l' : returns (sl_calls (map CLex texts) l0) l ->
  returns (sc_eval A l gg s) (x, l') -> returns (sl_calls (map CLex (texts ++ [s])) l0) l'.
Proof. exact (fun H => ScalcRpn.eval_lexer A l0 l gg texts H s x l'). Qed.
Print Assumptions c72_calls.
(** Every text has junk or tokens; Eval returns a stack exactly for the programs. *)
Theorem c72_cases s : (exists v, lexes_not (sc_calls []) s v) \/ exists lxs, sc_tokens s lxs.
Proof. exact (ScalcRpn.eval_text s). Qed.
Print Assumptions c72_cases.
Theorem c72_junk A compile l0 l gg texts s v :
  compiles compile sc_table -> sc_lexer compile = Some l0 -> returns (sl_calls (map CLex texts) l0) l -> sc_grammar = Some gg ->
  lexes_not (sc_calls []) s v -> exists l', returns (sc_eval A l gg s) (None, l').
Proof. intros H1 H2 H3 H4. exact (ScalcRpn.eval_junk A compile l0 l gg texts H1 H2 H3 H4 s v). Qed.
Print Assumptions c72_junk.
Theorem c72_program A compile l0 l gg texts s lxs :
  compiles compile sc_table -> sc_lexer compile = Some l0 -> returns (sl_calls (map CLex texts) l0) l -> sc_grammar = Some gg ->
  sc_tokens s lxs -> program (map lx_kind lxs) -> exists vs l', returns (sc_eval A l gg s) (Some vs, l').
Proof. intros H1 H2 H3 H4. exact (ScalcRpn.eval_program A compile l0 l gg texts H1 H2 H3 H4 s lxs). Qed.
Print Assumptions c72_program.
Theorem c72_no_program A compile l0 l gg texts s lxs :
  compiles compile sc_table -> sc_lexer compile = Some l0 -> returns (sl_calls (map CLex texts) l0) l -> sc_grammar = Some gg ->
  sc_tokens s lxs -> ~ program (map lx_kind lxs) -> exists l', returns (sc_eval A l gg s) (None, l').
Proof. intros H1 H2 H3 H4. exact (ScalcRpn.eval_no_program A compile l0 l gg texts H1 H2 H3 H4 s lxs). Qed.
Print Assumptions c72_no_program.
Example c72_example : compiles ScalcWit.sc_compiler sc_table
  /\ ScalcWit.run_eval "12 3.50 - 2 *" = Some (Some [(-676, 2)])%Z
  /\ ScalcWit.run_eval "7 1 2 + -- 3 3 =" = Some (Some [(7, 0); (-3, 0); (1, 0)])%Z
  /\ ScalcWit.run_eval "1 2 3 swap" = Some (Some [(1, 0); (3, 0); (2, 0)])%Z
  /\ ScalcWit.run_eval "1 2 3 sum 4" = Some (Some [(6, 0); (4, 0)])%Z
  /\ ScalcWit.run_eval "1 +" = Some None
  /\ ScalcWit.run_eval "1 x" = Some None
  /\ ScalcWit.run_eval "" = Some (Some []).
Proof. exact (conj ScalcWit.sc_compiles ScalcWit.runs). Qed.

(** Numbers, unary and binary operators: Eval returns the machine's stack, bottom first, and
    nil exactly where the machine has no run. *)
Theorem c73_machine A compile l0 l gg texts s lxs :
  compiles compile sc_table -> sc_lexer compile = Some l0 -> returns (sl_calls (map CLex texts) l0) l -> sc_grammar = Some gg ->
  sc_tokens s lxs -> arithmetic lxs ->
  (exists st l', machine A true [] lxs st /\ returns (sc_eval A l gg s) (Some (rev st), l'))
  \/ ((forall st, ~ machine A true [] lxs st) /\ exists l', returns (sc_eval A l gg s) (None, l')).
Proof. intros H1 H2 H3 H4. exact (ScalcRpn.eval_arith A compile l0 l gg texts H1 H2 H3 H4 s lxs). Qed.
Print Assumptions c73_machine.
Theorem c73_one_result A st u a b : machine A true st u a -> machine A true st u b -> a = b.
Proof. exact (fun H => ScalcRpn.machine_fun A st u a H b). Qed.
Print Assumptions c73_one_result.
Example c73_example : (sc_tokens (L "7 1.5 2 + --") ScalcWit.demo_tokens /\ arithmetic ScalcWit.demo_tokens)
  /\ machine ScalcWit.z_arith true nil ScalcWit.demo_tokens (ScalcWit.zp (-17) 1 :: ScalcWit.zp 7 0 :: nil)%list.
Proof. exact (conj ScalcWit.demo_lexes ScalcWit.demo_machine). Qed.
Example c73_example_none : sc_tokens (L "1 +") ScalcWit.short_tokens /\ arithmetic ScalcWit.short_tokens
  /\ forall A st, ~ machine A true nil ScalcWit.short_tokens st.
Proof. exact ScalcWit.short_lexes. Qed.

(** Parentheses, conditionals and stack operations before the end: other results than the
    machine's, or none. *)
Theorem c74_parens_refuted : exists compile A l gg vs l', compiles compile sc_table
  /\ sc_lexer compile = Some l /\ sc_grammar = Some gg /\ sc_tokens (L "(1 2) 3") ScalcWit.paren_tokens
  /\ (exists st, machine A true [] ScalcWit.paren_tokens st) /\ returns (sc_eval A l gg (L "(1 2) 3")) (vs, l')
  /\ (forall st, machine A true [] ScalcWit.paren_tokens st -> vs <> Some (rev st)).
Proof. exact (ScalcWit.stack_refuted _ _ _ _ ScalcWit.strays_paren). Qed.
Print Assumptions c74_parens_refuted.
Theorem c74_if_refuted : exists compile A l gg vs l', compiles compile sc_table
  /\ sc_lexer compile = Some l /\ sc_grammar = Some gg /\ sc_tokens (L "5 2 1 0 ?") ScalcWit.if_tokens
  /\ (exists st, machine A true [] ScalcWit.if_tokens st) /\ returns (sc_eval A l gg (L "5 2 1 0 ?")) (vs, l')
  /\ (forall st, machine A true [] ScalcWit.if_tokens st -> vs <> Some (rev st)).
Proof. exact (ScalcWit.stack_refuted _ _ _ _ ScalcWit.strays_if). Qed.
Print Assumptions c74_if_refuted.
Theorem c74_two_refuted : exists compile A l gg vs l', compiles compile sc_table
  /\ sc_lexer compile = Some l /\ sc_grammar = Some gg /\ sc_tokens (L "1 2 swap drop") ScalcWit.drop_tokens
  /\ (exists st, machine A true [] ScalcWit.drop_tokens st) /\ returns (sc_eval A l gg (L "1 2 swap drop")) (vs, l')
  /\ (forall st, machine A true [] ScalcWit.drop_tokens st -> vs <> Some (rev st)).
Proof. exact (ScalcWit.stack_refuted _ _ _ _ ScalcWit.strays_drop). Qed.
Print Assumptions c74_two_refuted.
Theorem c74_then_refuted : exists compile A l gg vs l', compiles compile sc_table
  /\ sc_lexer compile = Some l /\ sc_grammar = Some gg /\ sc_tokens (L "1 2 swap 3") ScalcWit.then_tokens
  /\ (exists st, machine A true [] ScalcWit.then_tokens st) /\ returns (sc_eval A l gg (L "1 2 swap 3")) (vs, l')
  /\ (forall st, machine A true [] ScalcWit.then_tokens st -> vs <> Some (rev st)).
Proof. exact (ScalcWit.stack_refuted _ _ _ _ ScalcWit.strays_then). Qed.
Print Assumptions c74_then_refuted.
Example c74_example_strays :
  ScalcWit.strays (L "(1 2) 3") ScalcWit.paren_tokens [ScalcWit.zp 3 0; ScalcWit.zp 2 0; ScalcWit.zp 1 0] (Some [(0, 0); (3, 0)]%Z)
  /\ ScalcWit.strays (L "5 2 1 0 ?") ScalcWit.if_tokens [ScalcWit.zp 2 0; ScalcWit.zp 5 0] (Some [(2, 0)]%Z)
  /\ ScalcWit.strays (L "1 2 swap drop") ScalcWit.drop_tokens [ScalcWit.zp 2 0] (Some [])
  /\ ScalcWit.strays (L "1 2 swap 3") ScalcWit.then_tokens [ScalcWit.zp 3 0; ScalcWit.zp 1 0; ScalcWit.zp 2 0] None.
Proof. exact (conj ScalcWit.strays_paren (conj ScalcWit.strays_if (conj ScalcWit.strays_drop ScalcWit.strays_then))). Qed.
(** Missing: parentheses, conditionals, stack operators and stack operations that are not
    last. *)
Theorem c74_last_partial A compile l0 l gg texts s w x :
  compiles compile sc_table -> sc_lexer compile = Some l0 -> returns (sl_calls (map CLex texts) l0) l -> sc_grammar = Some gg ->
  sc_tokens s (w ++ [x]) -> arithmetic w -> lx_kind x = L "smp" ->
  (exists st l', machine A true [] (w ++ [x]) st /\ returns (sc_eval A l gg s) (Some (rev st), l'))
  \/ ((forall st, ~ machine A true [] (w ++ [x]) st) /\ exists l', returns (sc_eval A l gg s) (None, l')).
Proof. intros H1 H2 H3 H4. exact (ScalcRpn.eval_last_smp A compile l0 l gg texts H1 H2 H3 H4 s w x). Qed.
Print Assumptions c74_last_partial.
Example c74_example : sc_tokens (L "1 2 3 swap") (ScalcWit.swap_tokens ++ [ScalcWit.tok "smp" "swap" 7]) /\ arithmetic ScalcWit.swap_tokens.
Proof. exact ScalcWit.swap_lexes. Qed.

(** With stack operators: one takes some number of values from the top. *)
Theorem c75_machine A compile l0 l gg texts s lxs :
  compiles compile sc_table -> sc_lexer compile = Some l0 -> returns (sl_calls (map CLex texts) l0) l -> sc_grammar = Some gg ->
  sc_tokens s lxs -> operators lxs ->
  (exists st l', machine A false [] lxs st /\ returns (sc_eval A l gg s) (Some (rev st), l'))
  \/ ((forall st, ~ machine A false [] lxs st) /\ exists l', returns (sc_eval A l gg s) (None, l')).
Proof. intros H1 H2 H3 H4. exact (ScalcRpn.eval_ops A compile l0 l gg texts H1 H2 H3 H4 s lxs). Qed.
Print Assumptions c75_machine.
Theorem c75_machine_last A compile l0 l gg texts s w x :
  compiles compile sc_table -> sc_lexer compile = Some l0 -> returns (sl_calls (map CLex texts) l0) l -> sc_grammar = Some gg ->
  sc_tokens s (w ++ [x]) -> operators w -> lx_kind x = L "smp" ->
  (exists st l', machine A false [] (w ++ [x]) st /\ returns (sc_eval A l gg s) (Some (rev st), l'))
  \/ ((forall st, ~ machine A false [] (w ++ [x]) st) /\ exists l', returns (sc_eval A l gg s) (None, l')).
Proof. intros H1 H2 H3 H4. exact (ScalcRpn.eval_ops_smp A compile l0 l gg texts H1 H2 H3 H4 s w x). Qed.
Print Assumptions c75_machine_last.
Example c75_example : (sc_tokens (L "1 2 len 3 4 len 5 *") ScalcWit.len_tokens /\ operators ScalcWit.len_tokens)
  /\ machine ScalcWit.z_arith false nil ScalcWit.len_tokens (ScalcWit.zp 10 0 :: ScalcWit.zp 2 0 :: nil)%list
  /\ ScalcWit.run_eval "1 2 len 3 4 len 5 *" = Some (Some [(2, 0); (10, 0)])%Z.
Proof. exact (conj ScalcWit.len_operators (conj ScalcWit.len_takes_two ScalcWit.len_runs)). Qed.

(** C77: a stack operator takes the whole stack. False when its result is used further on:
    "1 -- 2 sum 3 *" gives -1 and 6, not 3. *)
Theorem c77_sop_refuted : exists compile A l gg vs l', compiles compile sc_table
  /\ sc_lexer compile = Some l /\ sc_grammar = Some gg /\ sc_tokens (L "1 -- 2 sum 3 *") ScalcWit.neg_tokens
  /\ (exists st, machine A true [] ScalcWit.neg_tokens st) /\ returns (sc_eval A l gg (L "1 -- 2 sum 3 *")) (vs, l')
  /\ (forall st, machine A true [] ScalcWit.neg_tokens st -> vs <> Some (rev st)).
Proof. exact (ScalcWit.stack_refuted _ _ _ _ ScalcWit.strays_neg). Qed.
Print Assumptions c77_sop_refuted.
Theorem c77_sops_refuted : exists compile A l gg vs l', compiles compile sc_table
  /\ sc_lexer compile = Some l /\ sc_grammar = Some gg /\ sc_tokens (L "1 2 len 3 4 len 5 *") ScalcWit.len_tokens
  /\ (exists st, machine A true [] ScalcWit.len_tokens st) /\ returns (sc_eval A l gg (L "1 2 len 3 4 len 5 *")) (vs, l')
  /\ (forall st, machine A true [] ScalcWit.len_tokens st -> vs <> Some (rev st)).
Proof. exact (ScalcWit.stack_refuted _ _ _ _ ScalcWit.strays_len). Qed.
Print Assumptions c77_sops_refuted.
Example c77_example_strays :
  ScalcWit.strays (L "1 -- 2 sum 3 *") ScalcWit.neg_tokens (ScalcWit.zp 3 0 :: nil) (Some [(-1, 0); (6, 0)])%Z
  /\ ScalcWit.strays (L "1 2 len 3 4 len 5 *") ScalcWit.len_tokens (ScalcWit.zp 15 0 :: nil) (Some [(2, 0); (10, 0)])%Z.
Proof. exact (conj ScalcWit.strays_neg ScalcWit.strays_len). Qed.
(** Missing: several stack operators, and tokens after the operator that need its result. *)
Theorem c77_sop_partial A compile l0 l gg texts s w x v st0 :
  compiles compile sc_table -> sc_lexer compile = Some l0 -> returns (sl_calls (map CLex texts) l0) l -> sc_grammar = Some gg ->
  sc_tokens s (w ++ x :: v) -> arithmetic w -> lx_kind x = L "sop" -> arithmetic v -> machine A true [] v st0 ->
  (exists st l', machine A true [] (w ++ x :: v) st /\ returns (sc_eval A l gg s) (Some (rev st), l'))
  \/ ((forall st, ~ machine A true [] (w ++ x :: v) st) /\ exists l', returns (sc_eval A l gg s) (None, l')).
Proof. intros H1 H2 H3 H4. exact (ScalcWhole.eval_whole A compile l0 l gg texts H1 H2 H3 H4 s w x v st0). Qed.
Print Assumptions c77_sop_partial.
Example c77_example :
  sc_tokens (L "1 -- 2 sum 3 4 *") (ScalcWit.sum_tokens ++ ScalcWit.tok "sop" "sum" 8 :: ScalcWit.after_tokens)
  /\ arithmetic ScalcWit.sum_tokens /\ arithmetic ScalcWit.after_tokens
  /\ machine ScalcWit.z_arith true nil ScalcWit.after_tokens (ScalcWit.zp 12 0 :: nil)
  /\ ScalcWit.run_eval "1 -- 2 sum 3 4 *" = Some (Some [(1, 0); (12, 0)])%Z.
Proof. exact ScalcWit.sum_whole. Qed.
