(** C44-C48, C62-C65: the stack lexer. A lexer is [built] by New, in any iteration order, and
    by any calls after that, Lex among them. *)
From Coq Require Import String.
From Verif.model Require Import RegexPos.
From Verif.spec Require Import StackSpec.
From Verif.proofs Require RegexPosProofs StackMain StackOrder StackWit.

(** C44. The input is cut into non-empty pieces, matches reported by a rule's regexp and
    junk, and Lex returns exactly the lexemes of these pieces, discarded ones left out;
    except when a rule that pops or that pushes to an unknown sub-lexer has matched. *)
Theorem c44_lossless compile definitions cs l s :
  built compile definitions cs l -> all_groups_ok l -> engine s_well_formed compile -> names_of definitions <> ∅ ->
  exists ps, reported l s ps /\
   ((stext ps = s /\ lexes code_places (st_settings cs) l s ps)
    \/ (panics (st_lex l s) /\ exists before d w val rest,
          ps = before ++ [STok d w val] /\ rest <> [] /\ stext ps ++ rest = s
          /\ (0 < sd_pop d \/ (sd_push d <> [] /\ sd_push d ∉ names_of definitions)))).
Proof. exact (fun Hb Hg => StackMain.lex_lossless compile definitions cs l Hb Hg s). Qed.
Print Assumptions c44_lossless.
(** Without any sub-lexer there is nothing to start in. *)
Theorem c44_no_sub_lexer compile definitions cs l s :
  engine (fun _ => True) compile -> built compile definitions cs l -> names_of definitions = ∅ -> panics (st_lex l s).
Proof. exact (StackMain.lex_none compile definitions cs l s). Qed.
Print Assumptions c44_no_sub_lexer.
Example c44_example : built StackWit.demo_compile StackWit.demo [] StackWit.demo_lexer /\ all_groups_ok StackWit.demo_lexer
  /\ engine s_no_lookbehind StackWit.demo_compile /\
  exists l', returns (st_lex StackWit.demo_lexer StackWit.demo_input)
  ([LTok (Lx (L "outerword") (L "this") 1 1); LTok (Lx (L "START") (L "START") 2 2); LTok (Lx (L "foo") (L "bar") 2 8);
    LTok (Lx (L "innerword") (L "is") 3 8); LTok (Lx (L "innerword") (L "a") 4 2); LTok (Lx (L "STOP") (L "STOP") 4 4);
    LTok (Lx (L "outerword") (L "test") 4 9)], l').
Proof. exact (conj StackWit.demo_built (conj StackWit.demo_groups (conj StackWit.demo_engine StackWit.demo_lexes))). Qed.

(** C45 is false: right after junk a shorter match can be taken. *)
Theorem c45_longest_refuted : exists compile definitions l s D before v w rest d' m' pre x y post l',
  engine s_no_lookbehind compile /\ built compile definitions [] l /\ all_groups_ok l /\ first_frame l = Some D
  /\ s = before ++ v ++ w ++ rest /\ returns (st_lex l s) (pre ++ LErr x :: LTok y :: post, l')
  /\ before = flat_map (fun o => lx_val (olex_lx o)) pre /\ v = lx_val x /\ w = lx_val y
  /\ d' ∈ D /\ at_match (sd_re d') (w ++ rest) = Some m' /\ length w < sm_j m'.
Proof. exact StackWit.longest_refuted. Qed.
Print Assumptions c45_longest_refuted.
(** Everywhere else the longest match is taken, the earliest rule's of the longest; and each
    match is searched for by the rules of the sub-lexer on top of the stack. Missing: the
    match right after junk, which is a match but perhaps not the longest. *)
Theorem c45_longest_partial compile definitions cs l s D :
  built compile definitions cs l -> all_groups_ok l -> engine s_no_lookbehind compile -> st_length (st_settings cs) = true ->
  first_frame l = Some D ->
  exists ps ok, scuts (env_of l) true D [] s ps ok
    /\ if ok : bool then lexes code_places (st_settings cs) l s ps else panics (st_lex l s).
Proof. exact (fun Hb Hg He Ht => eq_ind _ (fun b => _ -> exists ps ok, scuts _ b _ _ _ _ _ /\ _) (StackMain.lex_scuts compile definitions cs l Hb Hg s D He) _ Ht). Qed.
Print Assumptions c45_longest_partial.
(** Regular expressions meet the contract. *)
Theorem c45_regexps_partial r n : s_no_lookbehind (srx_of r n).
Proof. exact (RegexPosProofs.srx_of_ok r n). Qed.
Print Assumptions c45_regexps_partial.

(** C46 is false: with nothing to return to, or with no such sub-lexer, Lex panics. *)
Theorem c46_pop_refuted : exists compile definitions l s,
  engine s_no_lookbehind compile /\ built compile definitions [] l /\ all_groups_ok l /\ pushes_known l /\ panics (st_lex l s).
Proof. exact StackWit.pop_refuted. Qed.
Print Assumptions c46_pop_refuted.
Theorem c46_push_refuted : exists compile definitions l s,
  engine s_no_lookbehind compile /\ built compile definitions [] l /\ all_groups_ok l
  /\ (forall id D d, frame l id = Some D -> d ∈ D -> sd_pop d = 0) /\ panics (st_lex l s).
Proof. exact StackWit.push_refuted. Qed.
Print Assumptions c46_push_refuted.
(** The stack is used as it should be: [scuts] says when it is pushed, popped, and left.
    Lex panics exactly when the pieces end in a rule that cannot be carried out. Missing: no
    panic. *)
Theorem c46_stack_partial compile definitions cs l s D :
  built compile definitions cs l -> all_groups_ok l -> engine s_no_lookbehind compile -> first_frame l = Some D ->
  exists ps ok, scuts (env_of l) (st_length (st_settings cs)) D [] s ps ok
    /\ if ok : bool then lexes code_places (st_settings cs) l s ps else panics (st_lex l s).
Proof. exact (fun Hb Hg He => StackMain.lex_scuts compile definitions cs l Hb Hg s D He). Qed.
Print Assumptions c46_stack_partial.
(** No panic when the first sub-lexer does not pop and pushes go to known sub-lexers. *)
Theorem c46_safe_partial compile definitions cs l s :
  built compile definitions cs l -> all_groups_ok l -> engine s_well_formed compile -> names_of definitions <> ∅ ->
  pushes_known l -> (forall D d, first_frame l = Some D -> d ∈ D -> sd_pop d = 0) ->
  exists ps, stext ps = s /\ lexes code_places (st_settings cs) l s ps.
Proof. exact (fun Hb Hg => StackMain.lex_safe compile definitions cs l Hb Hg s). Qed.
Print Assumptions c46_safe_partial.
Example c46_example : pushes_known StackWit.demo_lexer
  /\ (forall D d, first_frame StackWit.demo_lexer = Some D -> d ∈ D -> sd_pop d = 0).
Proof. exact StackWit.demo_pushes. Qed.

(** C47 is false: New never returns an error. *)
Theorem c47_cyclic_refuted : exists compile definitions, engine s_no_lookbehind compile /\ cyclic definitions
  /\ forall order, order ≡ₚ elements (names_of definitions) -> exists l, returns (st_new compile order definitions) (l, None).
Proof. exact StackWit.cyclic_refuted. Qed.
Print Assumptions c47_cyclic_refuted.
Theorem c47_bad_regexp_refuted : exists compile definitions n c, engine s_no_lookbehind compile /\ says definitions n c
  /\ group 2 c <> [] /\ group 1 c ∉ names_of definitions /\ compile (group 2 c) = None
  /\ forall order, order ≡ₚ elements (names_of definitions) -> exists l, returns (st_new compile order definitions) (l, None).
Proof. exact StackWit.bad_regexp_refuted. Qed.
Print Assumptions c47_bad_regexp_refuted.
(** It returns, for all definitions, cyclic or not. Missing: the error. *)
Theorem c47_new_total_partial compile definitions order : order ≡ₚ elements (names_of definitions) ->
  exists l, returns (st_new compile order definitions) (l, None).
Proof. exact (StackMain.new_total compile definitions order). Qed.
Print Assumptions c47_new_total_partial.

(** C48 is false: the result depends on the order in which Go iterates over a map. *)
Theorem c48_order_refuted : exists compile definitions l1 l2 s xs l1' ys l2',
  engine s_no_lookbehind compile /\ built compile definitions [] l1 /\ built compile definitions [] l2
  /\ returns (st_lex l1 s) (xs, l1') /\ returns (st_lex l2 s) (ys, l2') /\ xs <> ys.
Proof. exact StackWit.order_refuted. Qed.
Print Assumptions c48_order_refuted.
(** For [plain] definitions every sub-lexer has the rules of its lines in their order, those of
    a sub-lexer it inherits from in their place. Missing: definitions in which a sub-lexer
    inherited from inherits itself, or shares kinds with others in another order. *)
Theorem c48_rules_partial compile definitions cs l :
  plain compile definitions -> built compile definitions cs l ->
  forall n, n ∈ names_of definitions -> env_of l n = Some (listing compile definitions n).
Proof. exact (fun Hp => StackOrder.built_listing compile definitions Hp cs l). Qed.
Print Assumptions c48_rules_partial.
(** And then all orders give lexers that do the same. *)
Theorem c48_order_partial compile definitions cs l1 l2 n names s : plain compile definitions -> engine s_well_formed compile ->
  built compile definitions cs l1 -> built compile definitions cs l2 -> all_groups_ok l1 -> all_groups_ok l2 ->
  heading_names definitions = n :: names -> n ∉ names ->
  (panics (st_lex l1 s) /\ panics (st_lex l2 s))
  \/ exists xs l1' l2', returns (st_lex l1 s) (xs, l1') /\ returns (st_lex l2 s) (xs, l2').
Proof. exact (StackOrder.order_alike compile definitions cs l1 l2 n names s). Qed.
Print Assumptions c48_order_partial.
Example c48_example : plain StackWit.demo_compile StackWit.demo
  /\ heading_names StackWit.demo = L "main" :: [L "innerLexer"; L "shared"] /\ L "main" ∉ [L "innerLexer"; L "shared"].
Proof. exact (conj StackWit.demo_plain (conj StackWit.demo_headings StackWit.demo_first)). Qed.

(** C62 is false: newlines in junk do not count for the match after it. *)
Theorem c62_positions_refuted : exists compile definitions l s before rest pre x l',
  engine s_no_lookbehind compile /\ built compile definitions [] l /\ all_groups_ok l
  /\ returns (st_lex l s) (pre ++ [LTok x], l') /\ s = before ++ lx_val x ++ rest
  /\ before = flat_map (fun o => lx_val (olex_lx o)) pre /\ lx_line x <> Z.of_nat (1 + newlines before).
Proof. exact StackWit.positions_refuted. Qed.
Print Assumptions c62_positions_refuted.
(** Lines and columns are right when junk and matches right after it hold no newline; in
    general they are as [code_places] says (c46_stack_partial). Missing: the other cases. *)
Theorem c62_positions_partial compile definitions cs l s : engine s_no_lookbehind compile -> built compile definitions cs l -> all_groups_ok l ->
  forall D, first_frame l = Some D ->
  exists ps ok, scuts (env_of l) (st_length (st_settings cs)) D [] s ps ok
    /\ if ok : bool then straight ps -> lexes true_places (st_settings cs) l s ps else panics (st_lex l s).
Proof. exact (StackMain.lex_positions compile definitions cs l s). Qed.
Print Assumptions c62_positions_partial.

(** C63 is false: literals keep their quotes, and a group that takes no part in the match
    makes Lex panic. *)
Theorem c63_literal_refuted : built StackWit.demo_compile [L "== A ==" ++ [10%N] ++ L "a /(\d+)-(\d+)/ (2|""/""|1)" ++ [10%N]] [] (StackWit.made StackWit.dates [])
  /\ exists l', returns (st_lex (StackWit.made StackWit.dates []) (L "1-22")) ([LTok (Lx (L "a") (L "22""/""1") 1 1)], l').
Proof. exact (conj StackWit.dates_built StackWit.literal_refuted). Qed.
Print Assumptions c63_literal_refuted.
Theorem c63_absent_group_refuted : exists compile definitions l s,
  engine s_no_lookbehind compile /\ built compile definitions [] l /\ pushes_known l
  /\ (forall id D d, frame l id = Some D -> d ∈ D -> sd_pop d = 0)
  /\ (forall id D d s m x, frame l id = Some D -> d ∈ D -> sx_find (sd_re d) s = Some m -> x ∈ sd_subs d ->
         exists k, sb_section x = Z.of_nat (S k) /\ k < length (sm_groups m))
  /\ panics (st_lex l s).
Proof. exact StackWit.absent_refuted. Qed.
Print Assumptions c63_absent_group_refuted.
(** When the groups asked for take part, values are the groups and literals asked for
    ([value_of], in [scuts]), quotes being part of a literal. Missing: the other cases. *)
Theorem c63_values_partial compile definitions cs l s D :
  built compile definitions cs l -> all_groups_ok l -> engine s_no_lookbehind compile -> first_frame l = Some D ->
  exists ps ok, scuts (env_of l) (st_length (st_settings cs)) D [] s ps ok
    /\ if ok : bool then lexes code_places (st_settings cs) l s ps else panics (st_lex l s).
Proof. exact (fun Hb Hg He => StackMain.lex_scuts compile definitions cs l Hb Hg s D He). Qed.
Print Assumptions c63_values_partial.

(** C64 is false: the empty match of an earlier rule hides later rules. *)
Theorem c64_priority_refuted : exists compile definitions cs l s D d m l',
  engine s_no_lookbehind compile /\ built compile definitions cs l /\ all_groups_ok l /\ st_length (st_settings cs) = false
  /\ first_frame l = Some D /\ d ∈ D /\ at_match (sd_re d) s = Some m /\ 0 < sm_j m
  /\ returns (st_lex l s) ([LErr (Lx (L "Error") s 1 1)], l').
Proof. exact StackWit.priority_refuted. Qed.
Print Assumptions c64_priority_refuted.
(** The earliest rule that matches is taken, except right after junk. Missing: that and
    empty matches. *)
Theorem c64_priority_partial compile definitions cs l s D :
  built compile definitions cs l -> all_groups_ok l -> engine s_no_lookbehind compile -> st_length (st_settings cs) = false ->
  first_frame l = Some D ->
  exists ps ok, scuts (env_of l) false D [] s ps ok
    /\ if ok : bool then lexes code_places (st_settings cs) l s ps else panics (st_lex l s).
Proof. exact (fun Hb Hg He Ht => eq_ind _ (fun b => _ -> exists ps ok, scuts _ b _ _ _ _ _ /\ _) (StackMain.lex_scuts compile definitions cs l Hb Hg s D He) _ Ht). Qed.
Print Assumptions c64_priority_partial.

(** C65 is false: when its heading comes again, the first sub-lexer loses its rules. *)
Theorem c65_start_refuted : exists compile definitions l n names,
  engine s_no_lookbehind compile /\ built compile definitions [] l /\ heading_names definitions = n :: names
  /\ first_frame l <> env_of l n.
Proof. exact StackWit.start_refuted. Qed.
Print Assumptions c65_start_refuted.
(** Otherwise lexing starts in the sub-lexer of the first heading. *)
Theorem c65_start_partial compile definitions cs l n names : engine (fun _ => True) compile -> built compile definitions cs l ->
  heading_names definitions = n :: names -> n ∉ names -> first_frame l = env_of l n.
Proof. exact (StackMain.built_starts compile definitions cs l n names). Qed.
Print Assumptions c65_start_partial.
Example c65_example : heading_names StackWit.demo = L "main" :: [L "innerLexer"; L "shared"].
Proof. exact StackWit.demo_headings. Qed.
