(** Concrete lexemes, errors and commands. *)
From Coq Require Import String.
From Coq Require Import Lia.
From Verif.model Require Import ExMains.
From Verif.spec Require Import PrintSpec MathSpec JsonSpec ScalcMainSpec.
From Verif.proofs Require LexWit StackWit MathWit JsonWit MathProofs JsonThms ExMainProofs.
From Verif.proofs Require Import PrintProofs PrintErrors RunProofs Fuel LexMain LexTableProofs.
Local Open Scope nat_scope.
Local Open Scope list_scope.

Definition lx (k v : string) (l c : Z) : lexeme := Lx (L k) (L v) l c.
Definition nope (c : N) : bool := false.
Definition q : string := String (Ascii.ascii_of_nat 34) EmptyString.
Definition nl : string := String (Ascii.ascii_of_nat 10) EmptyString.

Ltac notin := intros Hin; vm_compute in Hin; repeat (apply elem_of_cons in Hin as [Hin|Hin]; [discriminate Hin|]); by apply elem_of_nil in Hin.
Ltac points := let c := fresh "c" in let H := fresh "H" in intros c H; vm_compute in H; repeat (apply elem_of_cons in H as [->|H]; [reflexivity|]); by apply elem_of_nil in H.

(** ** Lexemes *)
Lemma origin_refuted : exists print x y, listable x /\ listable y /\ lexeme_list print [x] = lexeme_list print [y] /\ ~ same_place x y.
Proof.
  exists nope, (lx "int" "12" 0 0), (lx "int" "12" (-1) 0). split; [|split; [|split; [reflexivity|intros [H _]; discriminate H]]];
    (split; [notin|split; [notin|points]]).
Qed.
Lemma kinds_refuted : exists print xs ys, length xs <> length ys /\ lexeme_list print xs = lexeme_list print ys.
Proof.
  exists nope, [lx "a" "1" 0 0; lx "b" "2" 0 0], [lx ("a: " ++ q ++ "1" ++ q ++ nl ++ "b") "2" 0 0]. split; [discriminate|]. vm_compute. reflexivity.
Qed.
Lemma text_refuted : exists print x y, x <> y /\ lexeme_text print x = lexeme_text print y.
Proof. exists nope, (lx "a (1, 2)" "" (-1) 0), (lx "a" "" 1 2). split; [discriminate|]. vm_compute. reflexivity. Qed.
Lemma names_refuted : exists xs ys, Forall (fun x => (44%N ∉ lx_kind x) /\ (58%N ∉ lx_kind x)) xs /\ Forall (fun x => (44%N ∉ lx_kind x) /\ (58%N ∉ lx_kind x)) ys
  /\ lexemes_string xs = lexemes_string ys /\ length xs <> length ys.
Proof.
  exists [lx "a" "1, b: 2" 0 0; lx "c" "" 0 0], [lx "a" "1" 0 0; lx "b" "2" 0 0; lx "c" "" 0 0].
  split; [repeat constructor; notin|]. split; [repeat constructor; notin|]. split; [vm_compute; reflexivity|discriminate].
Qed.
Definition some_lexemes : list lexeme := [lx "int" "12" 1 1; lx "string" ("a" ++ q ++ nl ++ "b") (-1) 0; lx "end" "" 3 (-4)].
Lemma some_listable : Forall listable some_lexemes.
Proof. repeat (apply List.Forall_cons; [split; [notin|split; [notin|points]]|]). apply List.Forall_nil. Qed.
Lemma some_textable : Forall textable some_lexemes.
Proof. repeat (apply List.Forall_cons; [split; [notin|split; [notin|split; [points|cbn; first [done|intros H; discriminate H]]]]|]). apply List.Forall_nil. Qed.
Lemma some_nameable : Forall nameable some_lexemes.
Proof. repeat (apply List.Forall_cons; [split; [eexists _, _; split; [reflexivity|discriminate]|split; [notin|split; [notin|notin]]]|]). apply List.Forall_nil. Qed.
Lemma some_texts :
  lexeme_list nope some_lexemes = L ("int: " ++ q ++ "12" ++ q ++ " (1, 1)" ++ nl ++ "string: " ++ q ++ "a\" ++ q ++ "\nb" ++ q ++ nl ++ "end: " ++ q ++ q ++ " (3, -4)")
  /\ map (lexeme_text nope) some_lexemes = [L ("Lexeme{int:" ++ q ++ "12" ++ q ++ " (1, 1)}"); L ("Lexeme{string:" ++ q ++ "a\" ++ q ++ "\nb" ++ q ++ "}"); L "Lexeme{end (3, -4)}"]
  /\ lexemes_string some_lexemes = L ("[int: 12, string: a" ++ q ++ nl ++ "b, end]").
Proof. vm_compute. repeat split; reflexivity. Qed.
Lemma some_lexed : lexed [lx "begin" "" (-1) 0; lx "if" "if" 0 1; lx "word" "iffy" 0 4; lx "Error" "?!" (-1) 0; lx "word" "x" 1 4; lx "num" "12" 1 5; lx "end" "$" (-1) 0].
Proof.
  destruct LexWit.demo_lexes as (l' & H). exists LexWit.demo, LexWit.demo_lexer, LexWit.demo_input. eexists _, l'.
  split; [exact LexWit.demo_first|]. split; [exact (rules_wf _ LexWit.demo_regexps)|]. split; [exact LexWit.demo_returns|]. split; [exact H|reflexivity].
Qed.

(** ** Messages *)
Lemma lines_all : exists lxs, all_lexemes LexWit.demo LexWit.lines_pieces lxs.
Proof.
  destruct (lex_longest LexWit.demo LexWit.demo_lexer (L "a" ++ LexWit.nl ++ L "b?") LexWit.demo_first LexWit.demo_regexps eq_refl LexWit.demo_returns)
    as (l' & ps & pre & out & post & _ & H1 & H2 & Ht & He).
  assert (ps = LexWit.lines_pieces) as -> by (eapply tokenises_unique; [exact LexWit.demo_regexps|exact Ht|exact LexWit.lines_tokenises]).
  eexists. exists pre, out, post. by repeat split.
Qed.
(** "b?" stands on the second line, the junk in its second column. *)
Lemma place_refuted : exists cs l g rs s ps v vs e l' last,
  adds_first cs /\ regexps_in no_lookbehind cs /\ st_length (settings_of cs) = true /\ returns (sl_calls cs slexer_empty) l
  /\ tokenises (rules_of cs) s (ps ++ Junk v :: vs) /\ junks ps = [] /\ is_last_line (text ps) last
  /\ returns (pipeline l g rs s) (None, Some e, l')
  /\ forall line, ~ error_message line (Z.of_nat (1 + length last)) v (run_error_text e).
Proof.
  destruct lines_all as (lxs & Ha).
  destruct (run_text LexWit.demo LexWit.demo_lexer (gram_of []) [] _ _ lxs (L "?") [] LexWit.demo_first LexWit.demo_regexps eq_refl LexWit.demo_returns LexWit.lines_tokenises Ha eq_refl)
    as (e & l' & Hr & He).
  exists LexWit.demo, LexWit.demo_lexer, (gram_of []), [], (L "a" ++ LexWit.nl ++ L "b?"), (take 3 LexWit.lines_pieces), (L "?"), [], e, l', (L "b").
  split; [exact LexWit.demo_first|]. split; [exact LexWit.demo_regexps|]. split; [reflexivity|]. split; [exact LexWit.demo_returns|].
  split; [exact LexWit.lines_tokenises|]. split; [reflexivity|]. split.
  { split; [notin|]. right. exists (L "a"). reflexivity. }
  split; [exact Hr|]. intros line. rewrite He. apply message_not. lia.
Qed.
(** The stack lexer, with junk that is a newline. *)
Lemma stack_place_refuted : exists compile definitions l s before rest pre x post l' c,
  engine s_no_lookbehind compile /\ built compile definitions [] l /\ all_groups_ok l
  /\ returns (st_lex l s) (pre ++ LErr x :: post, l') /\ s = before ++ lx_val x ++ rest
  /\ before = flat_map (fun o => lx_val (olex_lx o)) pre /\ column before c
  /\ forall line, ~ error_message line c (lx_val x) (lex_error_text x).
Proof.
  assert (Hr : exists l', returns (st_lex (StackWit.made StackWit.words []) (L "a" ++ StackWit.nl ++ L "b"))
     ([LTok (Lx (L "a") (L "a") 1 1)] ++ LErr (Lx (L "Error") StackWit.nl 1 0) :: [LTok (Lx (L "a") (L "b") 1 1)], l')).
  { apply StackWit.lexed_returns. vm_compute. reflexivity. }
  destruct Hr as [l' Hr]. exists StackWit.demo_compile, StackWit.words, (StackWit.made StackWit.words []), (L "a" ++ StackWit.nl ++ L "b"), (L "a"), (L "b").
  eexists _, _, _, l', 2%Z. split; [apply StackWit.demo_engine|]. split; [apply StackWit.made_built; vm_compute; reflexivity|].
  split; [apply StackWit.no_parts_ok; vm_compute; reflexivity|]. split; [exact Hr|]. do 2 (split; [reflexivity|]). split.
  { exists (L "a"). split; [|reflexivity]. split; [notin|]. by left. }
  intros line. apply (message_zero (L "1")); [notin|lia].
Qed.
Definition junk_input : gostring := L "ab " ++ StackWit.nl ++ L " cd ?! ef".
Lemma junk_messages : map lex_error_text (lex_errors (StackWit.lexed StackWit.demo_lexer junk_input)) = [L "Lex Error 2:5) ?!"].
Proof. vm_compute. reflexivity. Qed.

(** ** Commands *)
Definition zshow (z : Z) : gostring := Printing.int_text z.
Definition run_math (args : list gostring) : option (gostring * gostring) :=
  match mx_lexer MathWit.mx_compiler, mx_grammar with
  | Some l, Some gg => match math_main MathWit.z_arith zshow l gg args 600 with Ok x => Some x | _ => None end
  | _, _ => None end.
Lemma math_runs :
  run_math [L "1"; L "-"; L "2*3"] = Some (L ("-5" ++ nl), [])
  /\ run_math [] = Some ([], L ("Please provide input to parse" ++ nl))
  /\ run_math [L "1"; L "2"] = Some ([], L "Could Not Parse")
  /\ run_math [L "1+x"] = Some ([], L "Lex Error -1:0) x")
  /\ run_math [[]; []] = Some (L ("0" ++ nl), []).
Proof. vm_compute. repeat split; reflexivity. Qed.
Lemma demo_args : spaced [L "1"; L "-"; L "2*3"; L "-"; L "4"] (L "1 - 2*3 - 4").
Proof.
  refine (sp_more (L "1") _ (L "- 2*3 - 4") _ _); [|discriminate]. refine (sp_more (L "-") _ (L "2*3 - 4") _ _); [|discriminate].
  refine (sp_more (L "2*3") _ (L "- 4") _ _); [|discriminate]. refine (sp_more (L "-") _ (L "4") _ _); [|discriminate]. apply sp_one.
Qed.
Lemma math_blank_refuted : exists A show compile l gg args w o, compiles compile mx_table /\ mx_lexer compile = Some l /\ mx_grammar = Some gg
  /\ spaced args w /\ (~ exists lxs, mx_tokens w lxs /\ is_expr lxs) /\ returns (math_main A show l gg args) (o, []) /\ o <> [].
Proof.
  destruct (MathProofs.mx_ready MathWit.mx_compiler MathWit.mx_compiles) as (l & gg & Hl & Hg).
  assert (Hs : spaced [[]; []; []] (L "  ")) by (refine (sp_more [] _ (L " ") _ _); [refine (sp_more [] _ [] (sp_one []) _); discriminate|discriminate]).
  exists MathWit.z_arith, zshow, MathWit.mx_compiler, l, gg, [[]; []; []], (L "  "). eexists.
  split; [exact MathWit.mx_compiles|]. split; [exact Hl|]. split; [exact Hg|]. split; [exact Hs|]. split; [|split].
  - intros (lxs & Ht & He). pose proof (table_unique mx_table [] [] MathProofs.mx_more _ _ _ Ht MathWit.blank_tokens) as E.
    revert He. rewrite E. intros He. exact (MathProofs.expr_nonempty [] He eq_refl).
  - exact (ExMainProofs.math_main_blank MathWit.z_arith zshow MathWit.mx_compiler l gg MathWit.mx_compiles Hl Hg _ _ Hs ltac:(discriminate) MathWit.blank_tokens).
  - discriminate.
Qed.
Lemma json_ready : exists l0 g rd, js_package JsonWit.three l0 g rd.
Proof. destruct JsonWit.three_package as (l0 & g & rd & H & _). by exists l0, g, rd. Qed.
