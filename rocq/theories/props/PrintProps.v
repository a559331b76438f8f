(** C82-C86: the texts of lexemes and errors, and the commands of two examples. [print] says
    which code points fmt's quoting leaves as they are. *)
From Coq Require Import String.
From Verif.model Require Import ExMains.
From Verif.spec Require Import PrintSpec MathSpec JsonSpec ScalcMainSpec.
From Verif.proofs Require PrintProofs PrintErrors ExMainProofs PrintWit MathWit JsonWit LexWit StackWit.

(** C82 is false: LexemeList does not show the position (0, 0), a kind may look like a line,
    and a kind may look like a position to Lexeme.String. *)
Theorem c82_origin_refuted : exists print x y, listable x /\ listable y /\ lexeme_list print [x] = lexeme_list print [y] /\ ~ same_place x y.
Proof. exact PrintWit.origin_refuted. Qed.
Print Assumptions c82_origin_refuted.
Theorem c82_kinds_refuted : exists print xs ys, length xs <> length ys /\ lexeme_list print xs = lexeme_list print ys.
Proof. exact PrintWit.kinds_refuted. Qed.
Print Assumptions c82_kinds_refuted.
Theorem c82_text_refuted : exists print x y, x <> y /\ lexeme_text print x = lexeme_text print y.
Proof. exact PrintWit.text_refuted. Qed.
Print Assumptions c82_text_refuted.
(** Missing: other kinds, and positions with neither line nor column above 0. *)
Theorem c82_list_partial print xs ys : Forall listable xs -> Forall listable ys -> lexeme_list print xs = lexeme_list print ys ->
  Forall2 (fun x y => same_token x y /\ (placed x \/ placed y -> same_place x y)) xs ys.
Proof. exact (PrintProofs.list_apart print xs ys). Qed.
Print Assumptions c82_list_partial.
(** Nothing is missing for the lexemes of a simple lexer. *)
Theorem c82_lexed_partial print xs ys : lexed xs -> lexed ys -> Forall listable xs -> Forall listable ys ->
  lexeme_list print xs = lexeme_list print ys -> xs = ys.
Proof. exact (PrintProofs.lexed_apart print xs ys). Qed.
Print Assumptions c82_lexed_partial.
Theorem c82_text_partial print x y : textable x -> textable y -> lexeme_text print x = lexeme_text print y -> x = y.
Proof. exact (PrintProofs.text_apart print x y). Qed.
Print Assumptions c82_text_partial.
Theorem c82_copy x : lexeme_copy x = x /\ lexeme_at (lx_line x) (lx_col x) (lexeme_set (lx_val x) (lexeme_of (lx_kind x))) = x.
Proof. exact (PrintProofs.copy_same x). Qed.
Print Assumptions c82_copy.
Example c82_example : Forall listable PrintWit.some_lexemes /\ Forall textable PrintWit.some_lexemes.
Proof. exact (conj PrintWit.some_listable PrintWit.some_textable). Qed.
Example c82_example_texts :
  lexeme_list PrintWit.nope PrintWit.some_lexemes
    = L ("int: " ++ PrintWit.q ++ "12" ++ PrintWit.q ++ " (1, 1)" ++ PrintWit.nl ++ "string: " ++ PrintWit.q ++ "a\" ++ PrintWit.q ++ "\nb" ++ PrintWit.q ++ PrintWit.nl
         ++ "end: " ++ PrintWit.q ++ PrintWit.q ++ " (3, -4)")%string
  /\ map (lexeme_text PrintWit.nope) PrintWit.some_lexemes
    = [L ("Lexeme{int:" ++ PrintWit.q ++ "12" ++ PrintWit.q ++ " (1, 1)}")%string; L ("Lexeme{string:" ++ PrintWit.q ++ "a\" ++ PrintWit.q ++ "\nb" ++ PrintWit.q ++ "}")%string; L "Lexeme{end (3, -4)}"]
  /\ lexemes_string PrintWit.some_lexemes = L ("[int: 12, string: a" ++ PrintWit.q ++ PrintWit.nl ++ "b, end]")%string.
Proof. exact PrintWit.some_texts. Qed.
Example c82_example_lexed : exists xs, lexed xs /\ length xs = 7.
Proof. exact (ex_intro _ _ (conj PrintWit.some_lexed eq_refl)). Qed.

(** C83 is false: a value with a comma may look like several lexemes. *)
Theorem c83_names_refuted : exists xs ys, Forall (fun x => (44%N ∉ lx_kind x) /\ (58%N ∉ lx_kind x)) xs /\ Forall (fun x => (44%N ∉ lx_kind x) /\ (58%N ∉ lx_kind x)) ys
  /\ lexemes_string xs = lexemes_string ys /\ length xs <> length ys.
Proof. exact PrintWit.names_refuted. Qed.
Print Assumptions c83_names_refuted.
(** Missing: commas, kinds with colons, and kinds that begin with a bracket. *)
Theorem c83_names_partial xs ys : Forall nameable xs -> Forall nameable ys -> lexemes_string xs = lexemes_string ys -> Forall2 same_token xs ys.
Proof. exact (PrintErrors.string_apart xs ys). Qed.
Print Assumptions c83_names_partial.
Example c83_example : Forall nameable PrintWit.some_lexemes.
Proof. exact PrintWit.some_nameable. Qed.

(** C84 is false: the message never has the column of the junk with the simple lexer, and not
    always with the stack lexer. *)
Theorem c84_simple_refuted : exists cs l g rs s ps v vs e l' last,
  adds_first cs /\ regexps_in no_lookbehind cs /\ st_length (settings_of cs) = true /\ returns (sl_calls cs slexer_empty) l
  /\ tokenises (rules_of cs) s (ps ++ Junk v :: vs) /\ junks ps = [] /\ is_last_line (text ps) last
  /\ returns (pipeline l g rs s) (None, Some e, l')
  /\ forall line, ~ error_message line (Z.of_nat (1 + length last)) v (run_error_text e).
Proof. exact PrintWit.place_refuted. Qed.
Print Assumptions c84_simple_refuted.
Theorem c84_stack_refuted : exists compile definitions l s before rest pre x post l' c,
  engine s_no_lookbehind compile /\ built compile definitions [] l /\ all_groups_ok l
  /\ returns (st_lex l s) (pre ++ LErr x :: post, l') /\ s = before ++ lx_val x ++ rest
  /\ before = flat_map (fun o => lx_val (olex_lx o)) pre /\ column before c
  /\ forall line, ~ error_message line c (lx_val x) (lex_error_text x).
Proof. exact PrintWit.stack_place_refuted. Qed.
Print Assumptions c84_stack_refuted.
(** The messages of the simple lexer, and Run's. Missing: any position. *)
Theorem c84_simple_partial cs l s xs l' ps : adds_first cs -> regexps_in no_lookbehind cs -> st_length (settings_of cs) = true ->
  returns (sl_calls cs slexer_empty) l -> returns (slex l s) (xs, l') -> tokenises (rules_of cs) s ps ->
  map lex_error_text (lex_errors xs) = map (fun v => L "Lex Error -1:0) " ++ v) (junks ps).
Proof. exact (PrintErrors.errors_texts cs l s xs l' ps). Qed.
Print Assumptions c84_simple_partial.
Theorem c84_run_partial cs l g rs s ps lxs v vs : adds_first cs -> regexps_in no_lookbehind cs -> st_length (settings_of cs) = true ->
  returns (sl_calls cs slexer_empty) l -> tokenises (rules_of cs) s ps -> all_lexemes cs ps lxs -> junks ps = v :: vs ->
  exists e l', returns (pipeline l g rs s) (None, Some e, l') /\ run_error_text e = L "Lex Error -1:0) " ++ v.
Proof. exact (PrintErrors.run_text cs l g rs s ps lxs v vs). Qed.
Print Assumptions c84_run_partial.
Example c84_example : (exists lxs, all_lexemes LexWit.demo LexWit.lines_pieces lxs) /\ junks LexWit.lines_pieces = [L "?"].
Proof. exact (conj PrintWit.lines_all eq_refl). Qed.
(** The stack lexer's. Missing: junk with newlines in it or in the match after it. *)
Theorem c84_stack_partial compile definitions cs l s : engine s_no_lookbehind compile -> built compile definitions cs l -> all_groups_ok l ->
  forall D, first_frame l = Some D ->
  exists ps ok, scuts (env_of l) (st_length (st_settings cs)) D [] s ps ok
    /\ if ok : bool then straight ps -> exists xs l', returns (st_lex l s) (xs, l') /\ messages [] ps (map lex_error_text (lex_errors xs))
       else panics (st_lex l s).
Proof. exact (PrintErrors.stack_texts compile definitions cs l s). Qed.
Print Assumptions c84_stack_partial.
Example c84_example_stack : engine s_no_lookbehind StackWit.demo_compile /\ built StackWit.demo_compile StackWit.demo [] StackWit.demo_lexer
  /\ all_groups_ok StackWit.demo_lexer
  /\ map lex_error_text (lex_errors (StackWit.lexed StackWit.demo_lexer PrintWit.junk_input)) = [L "Lex Error 2:5) ?!"].
Proof. exact (conj StackWit.demo_engine (conj StackWit.demo_built (conj StackWit.demo_groups PrintWit.junk_messages))). Qed.

(** C85 is false: blank arguments are answered with the value 0. *)
Theorem c85_blank_refuted : exists A show compile l gg args w o, compiles compile mx_table /\ mx_lexer compile = Some l /\ mx_grammar = Some gg
  /\ spaced args w /\ (~ exists lxs, mx_tokens w lxs /\ is_expr lxs) /\ returns (math_main A show l gg args) (o, nil) /\ o <> nil.
Proof. exact PrintWit.math_blank_refuted. Qed.
Print Assumptions c85_blank_refuted.
Theorem c85_value A show compile l gg args w lxs : compiles compile mx_table -> mx_lexer compile = Some l -> mx_grammar = Some gg ->
  spaced args w -> mx_tokens w lxs -> is_expr lxs ->
  exists x l', returns (mx_run A l gg w) ((x, None), l') /\ left_sum A lxs x /\ returns (math_main A show l gg args) ((show x ++ [newline])%list, nil).
Proof. exact (fun H1 H2 H3 H4 => ExMainProofs.math_main_value A show compile l gg H1 H2 H3 args w H4 lxs). Qed.
Print Assumptions c85_value.
(** Missing: blank texts, which are answered with 0. *)
Theorem c85_error_partial A show compile l gg args w : compiles compile mx_table -> mx_lexer compile = Some l -> mx_grammar = Some gg ->
  spaced args w -> ~ (w <> nil /\ mx_tokens w nil) -> ~ (exists lxs, mx_tokens w lxs /\ is_expr lxs) ->
  exists m, returns (math_main A show l gg args) (nil, m)
    /\ ((w = nil /\ m = (L "Please provide input to parse" ++ [newline])%list)
        \/ (exists v, lexes_not (mx_calls nil) w v /\ m = (L "Lex Error -1:0) " ++ v)%list)
        \/ (exists lxs, mx_tokens w lxs /\ lxs <> nil /\ m = L "Could Not Parse")).
Proof. exact (fun H1 H2 H3 H4 => ExMainProofs.math_main_error A show compile l gg H1 H2 H3 args w H4). Qed.
Print Assumptions c85_error_partial.
Theorem c85_blank A show compile l gg args w : compiles compile mx_table -> mx_lexer compile = Some l -> mx_grammar = Some gg ->
  spaced args w -> w <> nil -> mx_tokens w nil -> returns (math_main A show l gg args) ((show (f_zero A) ++ [newline])%list, nil).
Proof. exact (fun H1 H2 H3 H4 => ExMainProofs.math_main_blank A show compile l gg H1 H2 H3 args w H4). Qed.
Print Assumptions c85_blank.
Example c85_example : spaced [L "1"; L "-"; L "2*3"; L "-"; L "4"] (L "1 - 2*3 - 4") /\ mx_tokens (L "1 - 2*3 - 4") MathWit.demo_tokens /\ is_expr MathWit.demo_tokens.
Proof. exact (conj PrintWit.demo_args (conj MathWit.demo_lexes (proj1 MathWit.demo_expr))). Qed.
Example c85_example_runs :
  PrintWit.run_math [L "1"; L "-"; L "2*3"] = Some (L ("-5" ++ PrintWit.nl)%string, nil)
  /\ PrintWit.run_math nil = Some (nil, L ("Please provide input to parse" ++ PrintWit.nl)%string)
  /\ PrintWit.run_math [L "1"; L "2"] = Some (nil, L "Could Not Parse")
  /\ PrintWit.run_math [L "1+x"] = Some (nil, L "Lex Error -1:0) x")
  /\ PrintWit.run_math [nil; nil] = Some (L ("0" ++ PrintWit.nl)%string, nil).
Proof. exact PrintWit.math_runs. Qed.

(** C86: every list of arguments is one of these three cases. *)
Theorem c86_document compile l g rd args w J : js_package compile l g rd -> spaced args w -> js_doc J w ->
  returns (json_main l g rd args) ((layout 0 J ++ [newline])%list, nil).
Proof. exact (fun H1 H2 => ExMainProofs.json_main_document compile l g rd H1 args w H2 J). Qed.
Print Assumptions c86_document.
Theorem c86_junk compile l g rd args w v : js_package compile l g rd -> spaced args w -> lexes_not (js_calls nil) w v ->
  returns (json_main l g rd args) (nil, (L "Lex Error -1:0) " ++ v ++ [newline])%list).
Proof. exact (fun H1 H2 => ExMainProofs.json_main_junk compile l g rd H1 args w H2 v). Qed.
Print Assumptions c86_junk.
Theorem c86_not_json compile l g rd args w lxs : js_package compile l g rd -> spaced args w -> lexes_to (js_calls nil) w lxs ->
  (forall J, ~ js_doc J w) -> returns (json_main l g rd args) (nil, (L "Could Not Parse" ++ [newline])%list).
Proof. exact (fun H1 H2 => ExMainProofs.json_main_bad compile l g rd H1 args w H2 lxs). Qed.
Print Assumptions c86_not_json.
Theorem c86_cases w : (exists J, js_doc J w) \/ (exists v, lexes_not (js_calls nil) w v)
  \/ ((exists lxs, lexes_to (js_calls nil) w lxs) /\ forall J, ~ js_doc J w).
Proof. exact (ExMainProofs.json_main_cases w). Qed.
Print Assumptions c86_cases.
Example c86_example : (exists l0 g rd, js_package JsonWit.three l0 g rd) /\ js_doc JsonWit.demo JsonWit.demo_text
  /\ lexes_not (js_calls nil) (L "[1,-]") (L "-") /\ (exists lxs, lexes_to (js_calls nil) (L "[1,]") lxs) /\ forall J, ~ js_doc J (L "[1,]").
Proof. exact (conj PrintWit.json_ready (conj JsonWit.demo_doc JsonWit.two_errors)). Qed.
