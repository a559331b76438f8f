(** C67: regexgram.New on texts. [compile] stands for regexp.Compile, [l0] for the package's
    lexer when it is made, [l] for the same lexer after New has been called on [texts]. *)
From Coq Require Import String.
From Verif.spec Require Import RegexGramText.
From Verif.proofs Require RgText RgPrint RgTextWit RegexGramWit.

(** The package's lexer and grammar are made without an error. *)
Theorem c67_ready compile : compiles compile rg_table -> exists l0 gg, rg_lexer compile = Some l0 /\ rg_grammar = Some gg.
Proof. exact (RgPrint.ready compile). Qed.
Print Assumptions c67_ready.
(** Calls leave the lexer as lexing their texts does. *)
Theorem c67_calls l0 l gg (texts : list gostring) s x l' : returns (sl_calls (map CLex texts) l0) l ->
  returns (rg_new l gg s) (x, l') -> returns (sl_calls (map CLex (texts ++ [s])) l0) l'.
Proof. exact (fun H => RgPrint.new_lexer l0 l gg texts H s x l'). Qed.
Print Assumptions c67_calls.
(** A text is at most one grammar, and exactly the well-formed ones can be written. *)
Theorem c67_unique s R R' : reads s R -> reads s R' -> R = R'.
Proof. exact (RgPrint.reads_unique s R R'). Qed.
Print Assumptions c67_unique.
Theorem c67_writable R : (exists s, reads s R) <-> proper_rxs R /\ R <> [].
Proof. exact (RgPrint.writable R). Qed.
Print Assumptions c67_writable.
(** New builds the grammar of the text that was read. *)
Theorem c67_new compile l0 l gg texts s R :
  compiles compile rg_table -> rg_lexer compile = Some l0 -> returns (sl_calls (map CLex texts) l0) l -> rg_grammar = Some gg ->
  reads s R -> exists t, shows_grammar t R /\ exists g r l',
    returns (eval_grammar t) (g, r) /\ returns (rg_new l gg s) (inl (g, r), l').
Proof. intros H1 H2 H3 H4. exact (RgPrint.new_grammar compile l0 l gg texts H1 H2 H3 H4 s R). Qed.
Print Assumptions c67_new.
Theorem c67_language compile l0 l gg texts s R :
  compiles compile rg_table -> rg_lexer compile = Some l0 -> returns (sl_calls (map CLex texts) l0) l -> rg_grammar = Some gg ->
  reads s R -> no_underscores R -> no_empty_groups R ->
  exists g r l', returns (rg_new l gg s) (inl (g, r), l')
    /\ head (g_nts (gr_view g)) = fst <$> head R
    /\ (forall x w, ~ generated R x -> (derives (gr_view g) x w <-> matches R (XSym x) w))
    /\ (forall x p lxs, ~ generated R x -> is_tree (gr_view g) x p lxs -> rx_tree R x (raw_reduce r p) lxs).
Proof. intros H1 H2 H3 H4. exact (RgPrint.new_language compile l0 l gg texts H1 H2 H3 H4 s R). Qed.
Print Assumptions c67_language.
(** Any other text gets an error: its first junk if it has some, ErrCouldNotParse if not. *)
Theorem c67_junk compile l0 l gg texts s v :
  compiles compile rg_table -> rg_lexer compile = Some l0 -> returns (sl_calls (map CLex texts) l0) l -> rg_grammar = Some gg ->
  lexes_not (rg_calls []) s v -> exists l', returns (rg_new l gg s) (inr (ErrLex (Lx (L "Error") v (-1) 0)), l').
Proof. intros H1 H2 H3 H4. exact (RgText.new_junk compile l0 l gg texts H1 H2 H3 H4 s v). Qed.
Print Assumptions c67_junk.
Theorem c67_else compile l0 l gg texts s :
  compiles compile rg_table -> rg_lexer compile = Some l0 -> returns (sl_calls (map CLex texts) l0) l -> rg_grammar = Some gg ->
  (forall R, ~ reads s R) ->
  (exists v l', lexes_not (rg_calls []) s v /\ returns (rg_new l gg s) (inr (ErrLex (Lx (L "Error") v (-1) 0)), l'))
  \/ exists l', returns (rg_new l gg s) (inr ErrCouldNotParse, l').
Proof. intros H1 H2 H3 H4. exact (RgPrint.new_else compile l0 l gg texts H1 H2 H3 H4 s). Qed.
Print Assumptions c67_else.
Example c67_example : compiles RgTextWit.the_compiler rg_table
  /\ RgTextWit.demo_text = ([c_nl] ++ L "S -> a ( b | ( c T ) ) * e ? " ++ [c_nl] ++ L "T -> ( c ) * x ")%list
  /\ reads RgTextWit.demo_text RegexGramWit.demo
  /\ no_underscores RegexGramWit.demo /\ no_empty_groups RegexGramWit.demo.
Proof. exact (conj RgTextWit.the_compiles (conj (proj1 RgTextWit.demo_reads) (conj (proj2 RgTextWit.demo_reads) (conj RegexGramWit.demo_plain RgTextWit.demo_no_empty)))). Qed.
Example c67_example_comment : RgTextWit.run_new RgTextWit.comment_text
  = Some (inl [(L "E", [[L "T"; L "(op_T)*"]]); (L "T", [[L "num"]; [L "lp"; L "E"; L "rp"]]);
               (L "(op_T)*", [[L "op"; L "T"; L "(op_T)*"]; []])]).
Proof. exact RgTextWit.comment_runs. Qed.
(** A comment on the first line is an error. *)
Example c67_example_first_line : RgTextWit.run_new (L "// a comment" ++ [c_nl] ++ L "E -> a")%list
  = Some (inr (ErrLex (Lx (L "Error") (L "//") (-1) 0))).
Proof. exact RgTextWit.first_line_runs. Qed.
Example c67_example_no_production : RgTextWit.run_new (L "-> a") = Some (inr ErrCouldNotParse).
Proof. exact RgTextWit.arrow_runs. Qed.
