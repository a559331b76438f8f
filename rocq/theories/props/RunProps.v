(** C56, C66: Run. [W] is any state the components keep, [N] any type of nodes. *)
From Coq Require Import String.
From Verif.spec Require Import RunSpec.
From Verif.proofs Require RunProofs RunWit.

(** C56 *)
Theorem c56_run W N input (lexer : lexer_fn W) (parser : parser_fn W N) reducers w node err w' :
  run input lexer parser reducers w = Ok (node, err, w') <-> ran input lexer parser reducers w node err w'.
Proof. exact (RunProofs.run_exact input lexer parser reducers w node err w'). Qed.
Print Assumptions c56_run.
Theorem c56_one_result W N input (lexer : lexer_fn W) (parser : parser_fn W N) reducers w node err w' :
  run input lexer parser reducers w = Ok (node, err, w') -> (node = None <-> err <> None).
Proof. exact (RunProofs.run_one input lexer parser reducers w node err w'). Qed.
Print Assumptions c56_one_result.
Theorem c56_panics W N input (lexer : lexer_fn W) (parser : parser_fn W N) reducers w :
  run input lexer parser reducers w = Panic <-> breaks input lexer parser reducers w.
Proof. exact (RunProofs.run_panic input lexer parser reducers w). Qed.
Print Assumptions c56_panics.
Theorem c56_runner W N input (lexer : lexer_fn W) (parser : parser_fn W N) reducers w node err w' :
  runner_run (runner_new lexer parser reducers) input w = Ok (node, err, w') <-> ran input lexer parser reducers w node err w'.
Proof. exact (RunProofs.run_exact input lexer parser reducers w node err w'). Qed.
Print Assumptions c56_runner.
Example c56_example :
  run (L "x") (RunWit.count_lexer None) (RunWit.count_parser (Some 1)) [] 0 = Ok (None, Some ErrCouldNotLex, 1)
  /\ run (L "x") (RunWit.count_lexer (Some [RunWit.a_tok; RunWit.an_err (L "?"); RunWit.an_err (L "!")])) (RunWit.count_parser (Some 1)) [] 0
     = Ok (None, Some (ErrLex (Lx (L "Error") (L "?") (-1) 0)), 1)
  /\ run (L "x") (RunWit.count_lexer (Some [])) (RunWit.count_parser None) [] 0 = Ok (None, Some ErrCouldNotParse, 2)
  /\ run (L "x") (RunWit.count_lexer (Some [RunWit.a_tok])) (RunWit.count_parser (Some 1))
       [None; Some (RunWit.count_reducer (fun _ => None)); Some (RunWit.count_reducer Some)] 0 = Ok (None, Some ErrCouldNotReduce, 3)
  /\ run (L "x") (RunWit.count_lexer (Some [RunWit.a_tok])) (RunWit.count_parser (Some 1))
       [Some (RunWit.count_reducer (fun t => Some (t + 4))); None; Some (RunWit.count_reducer (fun t => Some (t * 2)))] 0 = Ok (Some 10, None, 4).
Proof. exact RunWit.runs. Qed.

(** C66. From text to tree: the simple lexer, the packrat parser and tree reducers together.
    [ps] is the longest-match cutting of the input, [lxs] its lexemes. *)
Theorem c66_lex_error cs l g rs s ps lxs v vs :
  adds_first cs -> regexps_in no_lookbehind cs -> st_length (settings_of cs) = true ->
  returns (sl_calls cs slexer_empty) l -> tokenises (rules_of cs) s ps -> all_lexemes cs ps lxs ->
  junks ps = v :: vs ->
  exists l', returns (pipeline l g rs s) (None, Some (ErrLex (Lx (st_error (settings_of cs)) v (-1) 0)), l').
Proof. intros H1 H2 H3 H4 H5 H6. exact (RunProofs.pipe_error cs l g rs s ps lxs H1 H2 H3 H4 H5 H6 v vs). Qed.
Print Assumptions c66_lex_error.
Theorem c66_accepts cs l g rs s ps lxs s0 rest :
  adds_first cs -> regexps_in no_lookbehind cs -> st_length (settings_of cs) = true ->
  returns (sl_calls cs slexer_empty) l -> tokenises (rules_of cs) s ps -> all_lexemes cs ps lxs ->
  g_wf g -> terminal_kinds g lxs ->
  junks ps = [] -> g_nts g = s0 :: rest -> derives g s0 (map lx_kind lxs) ->
  exists t l', returns (pipeline l g rs s) (Some (reduced rs t), None, l')
    /\ is_tree g s0 t lxs /\ (acyclic_grammar g -> earliest_tree g s0 t lxs).
Proof. intros H1 H2 H3 H4 H5 H6 H7 H8. exact (RunProofs.pipe_ok cs l g rs s ps lxs H1 H2 H3 H4 H5 H6 H7 H8 s0 rest). Qed.
Print Assumptions c66_accepts.
Theorem c66_rejects cs l g rs s ps lxs :
  adds_first cs -> regexps_in no_lookbehind cs -> st_length (settings_of cs) = true ->
  returns (sl_calls cs slexer_empty) l -> tokenises (rules_of cs) s ps -> all_lexemes cs ps lxs ->
  g_wf g -> terminal_kinds g lxs ->
  junks ps = [] -> lxs <> [] -> ~ generates g (map lx_kind lxs) ->
  exists l', returns (pipeline l g rs s) (None, Some ErrCouldNotParse, l').
Proof. exact (RunProofs.pipe_bad cs l g rs s ps lxs). Qed.
Print Assumptions c66_rejects.
Example c66_example : adds_first LexWit.demo /\ regexps_in no_lookbehind LexWit.demo /\ st_length (settings_of LexWit.demo) = true
  /\ returns (sl_calls LexWit.demo slexer_empty) LexWit.demo_lexer /\ tokenises (rules_of LexWit.demo) RunWit.doc_input RunWit.doc_pieces
  /\ all_lexemes LexWit.demo RunWit.doc_pieces RunWit.doc_lexemes /\ g_wf RunWit.doc /\ terminal_kinds RunWit.doc RunWit.doc_lexemes
  /\ junks RunWit.doc_pieces = [] /\ derives RunWit.doc (L "Doc") (map lx_kind RunWit.doc_lexemes).
Proof. exact RunWit.doc_example. Qed.
Example c66_example_run : exists l', pipeline LexWit.demo_lexer RunWit.doc [RunWit.doc_reducer] RunWit.doc_input 60
  = Ok (Some (PN (Lx (L "Doc") [] (-1) 0)
      [PN (Lx (L "Ws") [] 0 1) [PN (Lx (L "Ws") [] 0 1) [PN RunWit.lx_a []]; PN RunWit.lx_b []]]), None, l').
Proof. exact RunWit.doc_runs. Qed.
