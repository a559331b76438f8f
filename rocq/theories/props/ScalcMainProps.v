(** C79-C81: examples/scalc/scalc/main.go. [compile] stands for regexp.Compile, [A] for
    float64, [show p v] for what fmt prints for [v] with [p] decimals, [l0] for the package's
    lexer; [inp] lists what Reads of standard input return. *)
From Coq Require Import String.
From Verif.spec Require Import ScalcMainSpec.
From Verif.proofs Require ScalcLoop ScalcMainWit.

(** C79: the interactive mode ends when its input ends, and reads all of it. False: without a
    line exit it never ends, and what comes with a line in one Read is lost. *)
Theorem c79_end_refuted A show compile l0 gg : compiles compile sc_table -> sc_lexer compile = Some l0 -> sc_grammar = Some gg ->
  diverges (sc_interactive A show l0 gg nil).
Proof. exact (fun H1 H2 H3 => ScalcLoop.interactive_stuck A show compile l0 gg H1 H2 H3 _ ScalcMainWit.end_stuck). Qed.
Print Assumptions c79_end_refuted.
Theorem c79_lost_refuted A show compile l0 gg : compiles compile sc_table -> sc_lexer compile = Some l0 -> sc_grammar = Some gg ->
  diverges (sc_interactive A show l0 gg ((L "1" ++ newline :: exit_line) :: nil)%list).
Proof. exact (fun H1 H2 H3 => ScalcLoop.interactive_stuck A show compile l0 gg H1 H2 H3 _ ScalcMainWit.piped_stuck). Qed.
Print Assumptions c79_lost_refuted.
(** It returns exactly if a line it reads is exit, and otherwise runs on. *)
Theorem c79_exit_partial A show compile l0 gg inp : compiles compile sc_table -> sc_lexer compile = Some l0 -> sc_grammar = Some gg ->
  exits inp -> exists out, returns (sc_interactive A show l0 gg inp) out.
Proof. exact (fun H1 H2 H3 => ScalcLoop.interactive_exits A show compile l0 gg H1 H2 H3 inp). Qed.
Print Assumptions c79_exit_partial.
Theorem c79_no_exit_partial A show compile l0 gg inp : compiles compile sc_table -> sc_lexer compile = Some l0 -> sc_grammar = Some gg ->
  ~ exits inp -> diverges (sc_interactive A show l0 gg inp).
Proof. exact (fun H1 H2 H3 => ScalcLoop.interactive_stuck A show compile l0 gg H1 H2 H3 inp). Qed.
Print Assumptions c79_no_exit_partial.
Example c79_example : exits (ScalcMainWit.lines_of ScalcMainWit.four_lines ++ [exit_line])%list /\ ~ exits nil.
Proof. exact (conj ScalcMainWit.typed_exits ScalcMainWit.end_stuck). Qed.

(** C80: entering lines one by one, each is answered with the stack machine's stack. False for
    a line that starts with decimals, for numbers that are not printed as numerals, and for
    numbers that have more digits than are printed. *)
Theorem c80_dot_refuted : exists compile A show l gg ans o o', compiles compile sc_table /\ sc_lexer compile = Some l /\ sc_grammar = Some gg
  /\ session A nil (ScalcMainWit.lines_of ["1"; ".5"]%string) ans /\ printed A show ans o
  /\ returns (sc_interactive A show l gg (ScalcMainWit.lines_of ["1"; ".5"]%string ++ [exit_line])%list) o' /\ o <> o'.
Proof. exact (ScalcMainWit.session_refuted _ _ _ _ _ _ ScalcMainWit.leaves_dot). Qed.
Print Assumptions c80_dot_refuted.
Theorem c80_inf_refuted : exists compile A show l gg ans o o', compiles compile sc_table /\ sc_lexer compile = Some l /\ sc_grammar = Some gg
  /\ session A nil (ScalcMainWit.lines_of ["1 0 /"; "clear"]%string) ans /\ printed A show ans o
  /\ returns (sc_interactive A show l gg (ScalcMainWit.lines_of ["1 0 /"; "clear"]%string ++ [exit_line])%list) o' /\ o <> o'.
Proof. exact (ScalcMainWit.session_refuted _ _ _ _ _ _ ScalcMainWit.leaves_inf). Qed.
Print Assumptions c80_inf_refuted.
Theorem c80_rounds_refuted : exists compile A show l gg ans o o', compiles compile sc_table /\ sc_lexer compile = Some l /\ sc_grammar = Some gg
  /\ session A nil (ScalcMainWit.lines_of ["1 2 /"; "2 *"]%string) ans /\ printed A show ans o
  /\ returns (sc_interactive A show l gg (ScalcMainWit.lines_of ["1 2 /"; "2 *"]%string ++ [exit_line])%list) o' /\ o <> o'.
Proof. exact (ScalcMainWit.session_refuted _ _ _ _ _ _ ScalcMainWit.leaves_half). Qed.
Print Assumptions c80_rounds_refuted.
Example c80_example_leaves :
  ScalcMainWit.leaves ScalcWit.z_arith ScalcMainWit.z_show ["1"; ".5"]%string [Some [ScalcWit.zp 1 0]; None]
    (L ("> 1" ++ ScalcMainWit.nl ++ "> Bad input" ++ ScalcMainWit.nl ++ "> ")) (L ("> 1" ++ ScalcMainWit.nl ++ "> 1.5" ++ ScalcMainWit.nl ++ "> "))
  /\ ScalcMainWit.leaves ScalcMainWit.half_arith ScalcMainWit.half_show ["1 2 /"; "2 *"]%string
    [Some [PF (A := ScalcMainWit.half_arith) 1%Z 0]; Some [PF (A := ScalcMainWit.half_arith) 2%Z 0]]
    (L ("> 0" ++ ScalcMainWit.nl ++ "> 1" ++ ScalcMainWit.nl ++ "> ")) (L ("> 0" ++ ScalcMainWit.nl ++ "> 0" ++ ScalcMainWit.nl ++ "> ")).
Proof. exact (conj ScalcMainWit.leaves_dot ScalcMainWit.leaves_half). Qed.
(** Missing: the above, and lines with parentheses, conditionals, or stack operators and
    operations where C74 and C77 leave the machine. *)
Theorem c80_lines_partial A show compile l0 gg lines ans out rest :
  compiles compile sc_table -> sc_lexer compile = Some l0 -> sc_grammar = Some gg ->
  session A nil lines ans -> Forall is_line lines -> (exit_line ∉ lines) -> Forall (line_reads A) lines -> Forall (answer_reads A show) ans ->
  printed A show ans out -> returns (sc_interactive A show l0 gg (lines ++ exit_line :: rest)%list) out.
Proof. exact (fun H1 H2 H3 => ScalcLoop.session_runs A show compile l0 gg H1 H2 H3 lines ans out rest). Qed.
Print Assumptions c80_lines_partial.
Example c80_example : session ScalcWit.z_arith nil (ScalcMainWit.lines_of ScalcMainWit.four_lines) ScalcMainWit.four_answers
  /\ Forall is_line (ScalcMainWit.lines_of ScalcMainWit.four_lines) /\ (exit_line ∉ ScalcMainWit.lines_of ScalcMainWit.four_lines)
  /\ Forall (line_reads ScalcWit.z_arith) (ScalcMainWit.lines_of ScalcMainWit.four_lines)
  /\ Forall (answer_reads ScalcWit.z_arith ScalcMainWit.z_show) ScalcMainWit.four_answers
  /\ printed ScalcWit.z_arith ScalcMainWit.z_show ScalcMainWit.four_answers ScalcMainWit.four_out
  /\ ScalcMainWit.run_session ScalcWit.z_arith ScalcMainWit.z_show ScalcMainWit.four_lines = Some ScalcMainWit.four_out.
Proof. exact ScalcMainWit.four_ok. Qed.

(** C81: with arguments, scalc prints the stack Eval returns exactly for the programs, and
    scalc parse the tree Parse returns for the same texts; otherwise both report an error. *)
Theorem c81_programs A show compile l0 gg args w inp print :
  compiles compile sc_table -> sc_lexer compile = Some l0 -> sc_grammar = Some gg -> args <> nil -> spaced args w ->
  ((exists lxs, sc_tokens w lxs /\ program (map lx_kind lxs))
    /\ (exists vs l' out, returns (sc_eval A l0 gg w) (Some vs, l') /\ spaced (map (fun x => show (pf_p x) (pf_v x)) vs) out
        /\ returns (sc_action A show l0 gg args inp) (inl (out ++ [newline])%list))
      /\ (exists t l', returns (sc_parse l0 gg w) (Some t, l') /\ returns (sc_parse_command print l0 gg args) (inl (pn_string print (Some t) ++ [newline])%list)))
  \/ ((~ exists lxs, sc_tokens w lxs /\ program (map lx_kind lxs))
    /\ returns (sc_action A show l0 gg args inp) (inr (L "Failed to parse" ++ [newline])%list)
    /\ returns (sc_parse_command print l0 gg args) (inr (L "Failed to parse" ++ [newline])%list)).
Proof. exact (fun H1 H2 H3 => ScalcLoop.action_cases A show compile l0 gg H1 H2 H3 args w inp print). Qed.
Print Assumptions c81_programs.
(** Numbers, unary and binary operators: it prints the machine's stack. *)
Theorem c81_machine A show compile l0 gg args w inp lxs :
  compiles compile sc_table -> sc_lexer compile = Some l0 -> sc_grammar = Some gg -> args <> nil -> spaced args w ->
  sc_tokens w lxs -> arithmetic lxs ->
  (exists st out, machine A true [] lxs st /\ spaced (rev (map (fun x => show (pf_p x) (pf_v x)) st)) out
      /\ returns (sc_action A show l0 gg args inp) (inl (out ++ [newline])%list))
  \/ ((forall st, ~ machine A true [] lxs st) /\ returns (sc_action A show l0 gg args inp) (inr (L "Failed to parse" ++ [newline])%list)).
Proof. exact (fun H1 H2 H3 => ScalcLoop.action_arith A show compile l0 gg H1 H2 H3 args w inp lxs). Qed.
Print Assumptions c81_machine.
Example c81_example : spaced [L "7"; L "1.5 2"; L "+ --"] (L "7 1.5 2 + --") /\ sc_tokens (L "7 1.5 2 + --") ScalcWit.demo_tokens /\ arithmetic ScalcWit.demo_tokens.
Proof. exact ScalcMainWit.args_ok. Qed.
