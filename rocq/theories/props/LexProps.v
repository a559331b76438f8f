(** C37-C43, C61: the simple lexer. A lexer is what a history of calls makes of an empty one;
    New is such a history (c43_new). *)
From Coq Require Import String.
From Verif.spec Require Import LexSpec.
From Verif.proofs Require LexMain LexBroken LexText LexWit.

(** C37. The input is cut into non-empty pieces, matches reported by a rule's regexp and
    junk, and Lex returns exactly the lexemes of these pieces, discarded ones left out. *)
Theorem c37_lossless cs s : adds_first cs -> regexps_in well_formed cs ->
  exists l l' ps pre out post,
    returns (sl_calls cs slexer_empty) l /\ returns (slex l s) (pre ++ out ++ post, l')
    /\ extra (st_start (settings_of cs)) pre /\ extra (st_end (settings_of cs)) post
    /\ emits tok_newlines (rules_of cs) (st_error (settings_of cs)) [] ps out
    /\ text ps = s /\ (forall y, y ∈ ps -> piece_text y <> [])
    /\ (forall before p v after, ps = before ++ Tok p v :: after ->
          exists d c i j, rules_of cs !! p = Some d /\ rx_find (rd_re d) (drop c s) = Some (i, j)
             /\ c + i = length (text before) /\ c + j = length (text before) + length v).
Proof. exact (LexMain.lex_lossless cs s). Qed.
Print Assumptions c37_lossless.
Example c37_example : adds_first LexWit.demo /\ regexps_in no_lookbehind LexWit.demo
  /\ returns (sl_calls LexWit.demo slexer_empty) LexWit.demo_lexer.
Proof. exact (conj LexWit.demo_first (conj LexWit.demo_regexps LexWit.demo_returns)). Qed.

(** C38. Lex returns the lexemes of the longest-match cutting, which is unique. *)
Theorem c38_longest_match cs l s : adds_first cs -> regexps_in no_lookbehind cs -> st_length (settings_of cs) = true ->
  returns (sl_calls cs slexer_empty) l ->
  exists l' ps pre out post,
    returns (slex l s) (pre ++ out ++ post, l')
    /\ extra (st_start (settings_of cs)) pre /\ extra (st_end (settings_of cs)) post
    /\ tokenises (rules_of cs) s ps
    /\ emits tok_newlines (rules_of cs) (st_error (settings_of cs)) [] ps out.
Proof. exact (LexMain.lex_longest cs l s). Qed.
Print Assumptions c38_longest_match.
Theorem c38_unique cs s ps ps' : regexps_in no_lookbehind cs ->
  tokenises (rules_of cs) s ps -> tokenises (rules_of cs) s ps' -> ps = ps'.
Proof. exact (LexMain.tokenises_unique cs s ps ps'). Qed.
Print Assumptions c38_unique.
(** Regular expressions meet the contract. *)
Theorem c38_regexps r src : no_lookbehind (rx_of r src).
Proof. exact (LexText.rx_of_ok r src). Qed.
Print Assumptions c38_regexps.
Example c38_example : exists l', returns (slex LexWit.demo_lexer LexWit.demo_input)
  ([LTok (Lx (L "begin") [] (-1) 0); LTok (Lx (L "if") (L "if") 0 1); LTok (Lx (L "word") (L "iffy") 0 4);
    LErr (Lx (L "Error") (L "?!") (-1) 0); LTok (Lx (L "word") (L "x") 1 4); LTok (Lx (L "num") (L "12") 1 5);
    LTok (Lx (L "end") (L "$") (-1) 0)], l').
Proof. exact LexWit.demo_lexes. Qed.

(** C39 is false: with ByPriority nothing is ever matched. *)
Theorem c39_by_priority_refuted : exists cs l s xs l' ps out,
  adds_first cs /\ regexps_in no_lookbehind cs /\ st_length (settings_of cs) = false
  /\ returns (sl_calls cs slexer_empty) l /\ returns (slex l s) (xs, l')
  /\ cuts (first_match (rules_of cs)) (rules_of cs) s ps
  /\ emits tok_newlines (rules_of cs) (st_error (settings_of cs)) [] ps out
  /\ xs <> out.
Proof. exact LexWit.by_priority_refuted. Qed.
Print Assumptions c39_by_priority_refuted.
(** What it does instead, on every input. Missing: the claim itself, false unless no rule
    matches anywhere. *)
Theorem c39_by_priority_partial cs l s : adds_first cs -> regexps_in well_formed cs -> st_length (settings_of cs) = false ->
  returns (sl_calls cs slexer_empty) l -> s <> [] ->
  exists l' pre post,
    returns (slex l s) (pre ++ [LErr (Lx (st_error (settings_of cs)) s (-1) 0)] ++ post, l')
    /\ extra (st_start (settings_of cs)) pre /\ extra (st_end (settings_of cs)) post.
Proof. exact (LexMain.lex_by_priority cs l s). Qed.
Print Assumptions c39_by_priority_partial.
Example c39_example : adds_first LexWit.prio /\ regexps_in no_lookbehind LexWit.prio
  /\ st_length (settings_of LexWit.prio) = false /\ returns (sl_calls LexWit.prio slexer_empty) LexWit.prio_lexer.
Proof. exact (conj LexWit.prio_first (conj LexWit.prio_regexps (conj eq_refl LexWit.prio_returns))). Qed.

(** C40 is false: newlines in text no rule matches are not counted. *)
Theorem c40_lines_refuted : exists cs l s l' a x b,
  adds_first cs /\ regexps_in no_lookbehind cs /\ returns (sl_calls cs slexer_empty) l
  /\ s = a ++ lx_val x ++ b /\ returns (slex l s) ([LErr (Lx (L "Error") a (-1) 0); LTok x], l')
  /\ lx_line x <> Z.of_nat (count_occ N.eq_dec a 10%N).
Proof. exact LexWit.lines_refuted. Qed.
Print Assumptions c40_lines_refuted.
(** Lines and columns are right when no junk holds a newline ([emits] states the column;
    by c38 it is right in any case, and the line is the number of newlines in matched
    text). Missing: error lexemes, which carry no position at all. *)
Theorem c40_lines_partial cs l s : adds_first cs -> regexps_in no_lookbehind cs -> st_length (settings_of cs) = true ->
  returns (sl_calls cs slexer_empty) l ->
  forall ps, tokenises (rules_of cs) s ps -> (forall v, v ∈ junks ps -> 10%N ∉ v) ->
  exists l' pre out post,
    returns (slex l s) (pre ++ out ++ post, l')
    /\ extra (st_start (settings_of cs)) pre /\ extra (st_end (settings_of cs)) post
    /\ emits (fun before => count_occ N.eq_dec (text before) 10%N) (rules_of cs) (st_error (settings_of cs)) [] ps out.
Proof. exact (LexMain.lex_lines cs l s). Qed.
Print Assumptions c40_lines_partial.
Example c40_example : tokenises (rules_of LexWit.demo) (L "a" ++ LexWit.nl ++ L "b?") LexWit.lines_pieces.
Proof. exact LexWit.lines_tokenises. Qed.

(** C41. The errors are the junk pieces of the longest-match cutting. *)
Theorem c41_errors cs l s xs l' ps : adds_first cs -> regexps_in no_lookbehind cs -> st_length (settings_of cs) = true ->
  returns (sl_calls cs slexer_empty) l -> returns (slex l s) (xs, l') -> tokenises (rules_of cs) s ps ->
  lex_errors xs = map (fun v => Lx (st_error (settings_of cs)) v (-1) 0) (junks ps).
Proof. exact (LexMain.lex_errors_exact cs l s xs l' ps). Qed.
Print Assumptions c41_errors.
Example c41_example : junks LexWit.lines_pieces = [L "?"].
Proof. reflexivity. Qed.

(** C42 is false: after a Lex that met junk, adding a rule makes every later Lex panic. *)
Theorem c42_reuse_refuted : exists cs l, regexps_in no_lookbehind cs /\ returns (sl_calls cs slexer_empty) l
  /\ forall s, panics (slex l s).
Proof. exact LexWit.reuse_refuted. Qed.
Print Assumptions c42_reuse_refuted.
(** It does so whatever the rules: a rule of a new kind added after junk ruins the lexer for
    good, unless a rule is given to the error kind. *)
Theorem c42_broken pre s mid k r d post l0 xs l1 l :
  returns (sl_calls pre slexer_empty) l0 -> returns (slex l0 s) (xs, l1) -> lex_errors xs <> [] ->
  k ∉ map rd_kind (rules_of (pre ++ CLex s :: mid)) ->
  (forall p q, (pre ++ CLex s :: mid = p ++ q)%list -> st_error (settings_of p) <> k) ->
  st_error (settings_of pre) ∉ map rd_kind (rules_of (pre ++ CLex s :: mid ++ CAdd k r d :: post)) ->
  returns (sl_calls (pre ++ CLex s :: mid ++ CAdd k r d :: post) slexer_empty) l ->
  forall s', panics (slex l s').
Proof. exact (LexBroken.junk_breaks pre s mid k r d post l0 xs l1 l). Qed.
Print Assumptions c42_broken.
Example c42_broken_example : let pre := [CAdd (L "word") LexWit.rx_word false] in
  LexWit.late = (pre ++ CLex (L "?") :: [] ++ CAdd (L "num") LexWit.rx_num false :: [])%list
  /\ returns (sl_calls pre slexer_empty) LexWit.words_lexer
  /\ (exists xs l1, returns (slex LexWit.words_lexer (L "?")) (xs, l1) /\ lex_errors xs <> [])
  /\ L "num" ∉ map rd_kind (rules_of (pre ++ [CLex (L "?")]))
  /\ (forall p q, (pre ++ [CLex (L "?")] = p ++ q)%list -> st_error (settings_of p) <> L "num")
  /\ st_error (settings_of pre) ∉ map rd_kind (rules_of LexWit.late)
  /\ returns (sl_calls LexWit.late slexer_empty) LexWit.late_lexer.
Proof. exact LexWit.late_broken. Qed.
(** Otherwise nothing panics and the answer depends on the rules and settings only.
    Missing: histories that add a rule of a new kind after a Lex that met junk, unless the
    error kind of that Lex has a rule by then or gets it there. *)
Theorem c42_reuse_partial cs cs' s : adds_first cs -> adds_first cs' ->
  regexps_in well_formed cs -> regexps_in well_formed cs' ->
  rules_of cs = rules_of cs' -> settings_of cs = settings_of cs' ->
  exists l l' xs l1 l1',
    returns (sl_calls cs slexer_empty) l /\ returns (sl_calls cs' slexer_empty) l'
    /\ returns (slex l s) (xs, l1) /\ returns (slex l' s) (xs, l1').
Proof. exact (LexMain.lex_reuse cs cs' s). Qed.
Print Assumptions c42_reuse_partial.
Example c42_example : adds_first LexWit.early /\ regexps_in well_formed LexWit.early.
Proof. exact (conj LexWit.early_first LexWit.early_regexps). Qed.

(** C43. *)
Theorem c43_add cs l k r d : returns (sl_calls cs slexer_empty) l ->
  (k ∈ map rd_kind (rules_of cs) -> slexer_add l k r d = (l, false))
  /\ (k ∉ map rd_kind (rules_of cs) ->
      exists i l', slexer_add l k r d = (l', true)
       /\ set_str (sl_set l') k = (i, sl_set l')
       /\ sl_rules l' !! i = Some (Some (LRule i r d (length (rules_of cs))))
       /\ sl_order l' = sl_order l ++ [i]
       /\ (forall j q, j <> i -> sl_rules l' !! j = Some (Some q) <-> sl_rules l !! j = Some (Some q))
       /\ (forall j q, sl_rules l !! j = Some (Some q) -> j <> i /\ lr_priority q < length (rules_of cs))).
Proof. exact (LexMain.add_exact cs l k r d). Qed.
Print Assumptions c43_add.
Theorem c43_new compile defs :
  let lines := flat_map (split1 c_nl) defs in
  let D := line_defs compile lines in
  (forall x, x ∈ lines -> rule_from_line compile x <> BadRule) /\ NoDup (map rd_kind D) ->
  exists l, slexer_new compile defs = Some l /\ returns (sl_calls (adds D) slexer_empty) l
    /\ rules_of (adds D) = D /\ settings_of (adds D) = default_settings /\ adds_first (adds D).
Proof. exact (LexMain.new_exact compile defs). Qed.
Print Assumptions c43_new.
Theorem c43_new_refuses compile defs :
  let lines := flat_map (split1 c_nl) defs in
  ~ ((forall x, x ∈ lines -> rule_from_line compile x <> BadRule) /\ NoDup (map rd_kind (line_defs compile lines))) ->
  slexer_new compile defs = None.
Proof. exact (LexMain.new_refuses compile defs). Qed.
Print Assumptions c43_new_refuses.
Example c43_example : returns (sl_calls LexWit.demo slexer_empty) LexWit.demo_lexer /\ L "word" ∈ map rd_kind (rules_of LexWit.demo).
Proof. exact LexWit.demo_word. Qed.
Example c43_new_example : line_defs LexWit.some_compile (split1 c_nl (L "word /[a-z]+/" ++ LexWit.nl ++ LexWit.nl ++ L " if -"))
  = [RDef (L "word") LexWit.rx_word false; RDef (L "if") LexWit.rx_if true].
Proof. exact LexWit.two_lines. Qed.

(** C61 is false: an expression with an unescaped slash is cut short when read back. *)
Theorem c61_string_refuted : exists compile cs l t l',
  adds_first cs /\ regexps_in no_lookbehind cs /\ returns (sl_calls cs slexer_empty) l
  /\ Forall (fun d => compile (rx_src (rd_re d)) = Some (rd_re d)) (rules_of cs)
  /\ slexer_string l = Ok t /\ slexer_new compile [t] = Some l'
  /\ exists s xs ys l1 l2, returns (slex l s) (xs, l1) /\ returns (slex l' s) (ys, l2) /\ xs <> ys.
Proof. exact LexWit.string_refuted. Qed.
Print Assumptions c61_string_refuted.
(** Missing: kinds with slashes or white space, empty expressions, and expressions with
    newlines, unescaped slashes or a backslash at the end. *)
Theorem c61_string_partial compile cs l : adds_first cs -> regexps_in well_formed cs ->
  returns (sl_calls cs slexer_empty) l ->
  Forall printable (rules_of cs) -> Forall (fun d => compile (rx_src (rd_re d)) = Some (rd_re d)) (rules_of cs) ->
  exists t l', slexer_string l = Ok t /\ slexer_new compile [t] = Some l'
    /\ returns (sl_calls (adds (rules_of cs)) slexer_empty) l'.
Proof. exact (LexText.string_round_trip compile cs l). Qed.
Print Assumptions c61_string_partial.
Example c61_example : Forall printable (rules_of LexWit.demo)
  /\ Forall (fun d => LexWit.some_compile (rx_src (rd_re d)) = Some (rd_re d)) (rules_of LexWit.demo).
Proof. exact LexWit.demo_printable. Qed.
