(** Concrete simple lexers. *)
From Coq Require Import String.
From Verif.spec Require Import LexSpec.
From Verif.proofs Require Import Fuel LexProofs LexThms LexHist LexMain LexText.
Local Open Scope nat_scope.
Local Open Scope list_scope.

Definition chr (a : string) : N := hd 0%N (L a).
Definition rng (a b : string) (x : N) : bool := ((chr a <=? x) && (x <=? chr b))%N.
Definition rx_word : regexp := rx_of (RPlus (RSet (rng "a" "z"))) (L "[a-z]+").
Definition rx_num : regexp := rx_of (RPlus (RSet (rng "0" "9"))) (L "[0-9]+").
Definition rx_if : regexp := rx_of (RCat (RSet (N.eqb (chr "i"))) (RSet (N.eqb (chr "f")))) (L "if").
Definition rx_space : regexp := rx_of (RPlus (RSet lx_space)) (L "\s+").
Definition rx_slash : regexp := rx_of (RCat (RSet (N.eqb (chr "a"))) (RCat (RSet (N.eqb (chr "/"))) (RSet (N.eqb (chr "b"))))) (L "a/b").
Definition nl : gostring := [10%N].

(** if, word, num, and spaces discarded *)
Definition demo : list sl_call :=
  [CAdd (L "if") rx_if false; CAdd (L "word") rx_word false; CAdd (L "num") rx_num false;
   CAdd (L "space") rx_space true; CStart (L "begin") (L ""); CEnd (L "end") (L "$")].
Lemma no_lex_adds_first cs : (forall s, CLex s ∉ cs) -> adds_first cs.
Proof.
  intros H pre s mid k r d post l xs l' E. exfalso. apply (H s). rewrite E. set_solver.
Qed.
Lemma demo_first : adds_first demo.
Proof.
  apply no_lex_adds_first. intros s. unfold demo. rewrite !elem_of_cons, elem_of_nil. intros H.
  repeat destruct H as [H|H]; done.
Qed.
Lemma demo_regexps : regexps_in no_lookbehind demo.
Proof.
  intros k r d H. unfold demo in H. rewrite !elem_of_cons, elem_of_nil in H.
  repeat destruct H as [H|H]; try done; injection H as -> -> ->; apply rx_of_ok.
Qed.
Lemma calls_return cs l : forall n, (forall f, n <= f -> sl_calls cs slexer_empty f = sl_calls cs slexer_empty n) ->
  sl_calls cs slexer_empty n = Ok l -> returns (sl_calls cs slexer_empty) l.
Proof. intros n H E. exists n. intros f Hf. by rewrite H. Qed.
Definition demo_lexer : slexer :=
  match sl_calls demo slexer_empty 0 with Ok l => l | _ => slexer_empty end.
Lemma demo_returns : returns (sl_calls demo slexer_empty) demo_lexer.
Proof. exists 0. intros f _. vm_compute. reflexivity. Qed.
Definition demo_input : gostring := L "if iffy" ++ nl ++ L " ?!x12".
Lemma demo_lexes : exists l', returns (slex demo_lexer demo_input)
  ([LTok (Lx (L "begin") [] (-1) 0); LTok (Lx (L "if") (L "if") 0 1); LTok (Lx (L "word") (L "iffy") 0 4);
    LErr (Lx (L "Error") (L "?!") (-1) 0); LTok (Lx (L "word") (L "x") 1 4); LTok (Lx (L "num") (L "12") 1 5);
    LTok (Lx (L "end") (L "$") (-1) 0)], l').
Proof. eexists. apply (slex_returns _ _ 20). vm_compute. reflexivity. Qed.

(** ByPriority *)
Definition prio : list sl_call := [CAdd (L "word") rx_word false; CByPriority].
Definition prio_lexer : slexer := match sl_calls prio slexer_empty 0 with Ok l => l | _ => slexer_empty end.
Lemma prio_regexps : regexps_in no_lookbehind prio.
Proof.
  intros k r d H. unfold prio in H. rewrite !elem_of_cons, elem_of_nil in H.
  repeat destruct H as [H|H]; try done; injection H as -> -> ->; apply rx_of_ok.
Qed.
Lemma prio_first : adds_first prio.
Proof.
  apply no_lex_adds_first. intros s. unfold prio. rewrite !elem_of_cons, elem_of_nil. intros H.
  repeat destruct H as [H|H]; done.
Qed.
Lemma prio_returns : returns (sl_calls prio slexer_empty) prio_lexer.
Proof. exists 0. intros f _. vm_compute. reflexivity. Qed.
Lemma by_priority_refuted : exists cs l s xs l' ps out,
  adds_first cs /\ regexps_in no_lookbehind cs /\ st_length (settings_of cs) = false
  /\ returns (sl_calls cs slexer_empty) l /\ returns (slex l s) (xs, l')
  /\ cuts (first_match (rules_of cs)) (rules_of cs) s ps
  /\ emits tok_newlines (rules_of cs) (st_error (settings_of cs)) [] ps out
  /\ xs <> out.
Proof.
  exists prio, prio_lexer, (L "ab"), [LErr (Lx (L "Error") (L "ab") (-1) 0)].
  eexists. exists [Tok 0 (L "ab")], ([LTok (Lx (L "word") (L "ab") 0 1)] ++ []).
  split; [apply prio_first|]. split; [apply prio_regexps|]. split; [done|]. split; [apply prio_returns|].
  split; [apply (slex_returns _ _ 20); vm_compute; reflexivity|]. split.
  - change (L "ab") with (take 2 (L "ab")) at 2. apply (cut_tok _ _ (L "ab") 0 2).
    + split; [lia|]. split.
      * exists (RDef (L "word") rx_word false). split; [done|]. vm_compute. reflexivity.
      * intros [|q] e m Hq _ _; [lia|]. cbn in Hq. by destruct q.
    + cbn. constructor.
  - split; [|done]. eapply em_cons; [|constructor]. exists (RDef (L "word") rx_word false). split; [done|]. cbn.
    exists []. split; [|done]. split; [apply not_elem_of_nil|]. by left.
Qed.

(** A newline that no rule matches is not counted. *)
Definition words : list sl_call := [CAdd (L "word") rx_word false].
Definition words_lexer : slexer := match sl_calls words slexer_empty 0 with Ok l => l | _ => slexer_empty end.
Lemma words_regexps : regexps_in no_lookbehind words.
Proof.
  intros k r d H. unfold words in H. rewrite !elem_of_cons, elem_of_nil in H.
  repeat destruct H as [H|H]; try done; injection H as -> -> ->; apply rx_of_ok.
Qed.
Lemma words_first : adds_first words.
Proof.
  apply no_lex_adds_first. intros s. unfold words. rewrite !elem_of_cons, elem_of_nil. intros H.
  repeat destruct H as [H|H]; done.
Qed.
Lemma words_returns : returns (sl_calls words slexer_empty) words_lexer.
Proof. exists 0. intros f _. vm_compute. reflexivity. Qed.
Lemma lines_refuted : exists cs l s l' a x b,
  adds_first cs /\ regexps_in no_lookbehind cs /\ returns (sl_calls cs slexer_empty) l
  /\ s = a ++ lx_val x ++ b /\ returns (slex l s) ([LErr (Lx (L "Error") a (-1) 0); LTok x], l')
  /\ lx_line x <> Z.of_nat (count_occ N.eq_dec a 10%N).
Proof.
  exists words, words_lexer, (nl ++ L "ab"). eexists. exists nl, (Lx (L "word") (L "ab") 0 1), [].
  split; [apply words_first|]. split; [apply words_regexps|]. split; [apply words_returns|]. split; [done|].
  split; [|done]. apply (slex_returns _ _ 20). vm_compute. reflexivity.
Qed.
Definition lines_pieces : list piece := [Tok 1 (L "a"); Tok 3 nl; Tok 1 (L "b"); Junk (L "?")].
Lemma demo_best p n s : (exists d, rules_of demo !! p = Some d /\ at_start (rd_re d) s = Some n) -> 0 < n ->
  (forall q, q < 4 -> match (rules_of demo) !! q with
     | Some e => match at_start (rd_re e) s with Some m => m < n \/ (m = n /\ p <= q) | None => True end | None => True end) ->
  best (rules_of demo) s p n.
Proof.
  intros H1 H2 H3. split; [done|]. split; [done|]. intros q e m Hq Hm.
  assert (q < 4) as Hlt. { apply lookup_lt_Some in Hq. change (length (rules_of demo)) with 4 in Hq. done. }
  specialize (H3 q Hlt). rewrite Hq, Hm in H3. done.
Qed.
Ltac demo_tok :=
  apply demo_best; [eexists; split; [reflexivity|vm_compute; reflexivity]|lia|];
  intros [|[|[|[|q]]]] Hq; vm_compute; try exact I; try (left; lia); try (right; split; [reflexivity|lia]); lia.
Lemma demo_rules : rules_of demo = [RDef (L "if") rx_if false; RDef (L "word") rx_word false; RDef (L "num") rx_num false; RDef (L "space") rx_space true].
Proof. vm_compute. reflexivity. Qed.
Lemma lines_tokenises : tokenises (rules_of demo) (L "a" ++ nl ++ L "b?") lines_pieces.
Proof.
  unfold tokenises, lines_pieces.
  apply (cut_tok _ _ (L "a" ++ nl ++ L "b?") 1 1); [demo_tok|].
  apply (cut_tok _ _ (nl ++ L "b?") 3 1); [demo_tok|].
  apply (cut_tok _ _ (L "b?") 1 1); [demo_tok|].
  apply (cut_junk _ _ (L "?") []); [done| |by left|constructor].
  intros [|k] Hk; [|cbn in Hk; lia]. intros d n Hd Hn. rewrite demo_rules in Hd. rewrite !elem_of_cons, elem_of_nil in Hd.
  repeat destruct Hd as [->|Hd]; try done; vm_compute in Hn; done.
Qed.

(** After a lex error, adding a rule breaks the lexer. *)
Definition late : list sl_call := [CAdd (L "word") rx_word false; CLex (L "?"); CAdd (L "num") rx_num false].
Definition late_lexer : slexer := match sl_calls late slexer_empty 9 with Ok l => l | _ => slexer_empty end.
Lemma late_regexps : regexps_in no_lookbehind late.
Proof.
  intros k r d H. unfold late in H. rewrite !elem_of_cons, elem_of_nil in H.
  repeat destruct H as [H|H]; try done; injection H as -> -> ->; apply rx_of_ok.
Qed.
Lemma reuse_refuted : exists cs l, regexps_in no_lookbehind cs /\ returns (sl_calls cs slexer_empty) l
  /\ forall s, panics (slex l s).
Proof.
  exists late, late_lexer. split; [apply late_regexps|]. split.
  - exists 9. intros f Hf. do 9 (destruct f as [|f]; [lia|]). vm_compute. reflexivity.
  - intros s. exists 0. intros f _. reflexivity.
Qed.
(** [late] meets what is said of such histories. *)
Lemma late_broken : let pre := [CAdd (L "word") rx_word false] in
  late = pre ++ CLex (L "?") :: [] ++ CAdd (L "num") rx_num false :: []
  /\ returns (sl_calls pre slexer_empty) words_lexer
  /\ (exists xs l1, returns (slex words_lexer (L "?")) (xs, l1) /\ lex_errors xs <> [])
  /\ L "num" ∉ map rd_kind (rules_of (pre ++ [CLex (L "?")]))
  /\ (forall p q, pre ++ [CLex (L "?")] = p ++ q -> st_error (settings_of p) <> L "num")
  /\ st_error (settings_of pre) ∉ map rd_kind (rules_of late)
  /\ returns (sl_calls late slexer_empty) late_lexer.
Proof.
  cbv zeta. split; [done|]. split; [apply words_returns|]. split.
  { exists [LErr (Lx (L "Error") (L "?") (-1) 0)]. eexists. split; [|done]. apply (slex_returns _ _ 9). vm_compute. reflexivity. }
  split; [by apply (bool_decide_unpack _); vm_compute|]. split.
  { intros p q E. destruct p as [|p0 p]; [by vm_compute|]. cbn in E. injection E as <- E.
    destruct p as [|p1 p]; [by vm_compute|]. cbn in E. injection E as <- E. destruct p; [by vm_compute|done]. }
  split; [by apply (bool_decide_unpack _); vm_compute|].
  exists 9. intros f Hf. do 9 (destruct f as [|f]; [lia|]). vm_compute. reflexivity.
Qed.
(** A Lex without errors, or with a rule for the error kind, may come before an Add. *)
Definition early : list sl_call :=
  [CAdd (L "word") rx_word false; CLex (L "ab"); CLex (L "?"); CAdd (L "Error") rx_if false; CAdd (L "num") rx_num false].
Lemma early_first : adds_first early.
Proof.
  intros pre s mid k r d post l xs l' E Hl Hx. unfold early in E.
  destruct pre as [|p0 pre]; [done|]. cbn in E. injection E as <- E.
  destruct pre as [|p1 pre]; cbn in E.
  { left. injection E as <- E.
    assert (Hl0 : returns (sl_calls [CAdd (L "word") rx_word false] slexer_empty) words_lexer) by apply words_returns.
    pose proof (returns_fun _ _ _ Hl Hl0) as ->.
    assert (Hx0 : returns (slex words_lexer (L "ab")) ([LTok (Lx (L "word") (L "ab") 0 1)], words_lexer)).
    { apply (slex_returns _ _ 9). vm_compute. reflexivity. }
    pose proof (returns_fun _ _ _ Hx Hx0) as [= -> ->]. done. }
  injection E as <- E. destruct pre as [|p2 pre]; cbn in E.
  { injection E as <- E. right. right. destruct mid as [|m0 mid]; cbn in E.
    - injection E as <- <- <- E. vm_compute. left.
    - injection E as <- E. destruct mid as [|m1 mid]; cbn in E.
      + vm_compute. right. right. left.
      + injection E as _ E. by destruct mid. }
  injection E as <- E. destruct pre as [|p3 pre]; [done|]. cbn in E. injection E as <- E.
  destruct pre as [|p4 pre]; cbn in E; [done|]. injection E as _ E. by destruct pre.
Qed.
Lemma early_regexps : regexps_in well_formed early.
Proof.
  intros k r d H. unfold early in H. rewrite !elem_of_cons, elem_of_nil in H.
  repeat destruct H as [H|H]; try done; injection H as -> -> ->; apply no_lookbehind_wf, rx_of_ok.
Qed.

(** An unescaped slash in an expression is not read back. *)
Definition slashed : list sl_call := [CAdd (L "k") rx_slash false].
Definition slashed_lexer : slexer := match sl_calls slashed slexer_empty 0 with Ok l => l | _ => slexer_empty end.
Definition letter_a : regexp := rx_of (RSet (N.eqb (chr "a"))) (L "a").
Definition some_compile : compiler := fun src =>
  if decide (src = L "a/b") then Some rx_slash
  else if decide (src = L "a") then Some letter_a
  else if decide (src = L "if") then Some rx_if
  else if decide (src = L "[a-z]+") then Some rx_word
  else if decide (src = L "[0-9]+") then Some rx_num
  else if decide (src = L "\s+") then Some rx_space
  else None.
Lemma string_refuted : exists compile cs l t l',
  adds_first cs /\ regexps_in no_lookbehind cs /\ returns (sl_calls cs slexer_empty) l
  /\ Forall (fun d => compile (rx_src (rd_re d)) = Some (rd_re d)) (rules_of cs)
  /\ slexer_string l = Ok t /\ slexer_new compile [t] = Some l'
  /\ exists s xs ys l1 l2, returns (slex l s) (xs, l1) /\ returns (slex l' s) (ys, l2) /\ xs <> ys.
Proof.
  exists some_compile, slashed, slashed_lexer, (L "k /a/b/ "). eexists.
  split; [apply no_lex_adds_first; intros s; unfold slashed; rewrite elem_of_list_singleton; done|].
  split.
  { intros k r d H. unfold slashed in H. apply elem_of_list_singleton in H. injection H as -> -> ->. apply rx_of_ok. }
  split; [exists 0; intros f _; vm_compute; reflexivity|].
  split; [repeat constructor|]. split; [vm_compute; reflexivity|]. split; [vm_compute; reflexivity|].
  exists (L "a"). do 4 eexists. split; [apply (slex_returns _ _ 9); vm_compute; reflexivity|].
  split; [apply (slex_returns _ _ 9); vm_compute; reflexivity|]. discriminate.
Qed.
Lemma demo_printable : Forall printable (rules_of demo)
  /\ Forall (fun d => some_compile (rx_src (rd_re d)) = Some (rd_re d)) (rules_of demo).
Proof.
  assert (Hesc : forall s, (forall x, x ∈ s -> x <> 47%N) -> (10%N ∉ s) -> s <> [] -> last s <> Some 92%N -> escaped s).
  { intros s H1 H2 H3 H4. split; [|split; [done|split; [done|]]].
    - intros a b ->. exfalso. apply (H1 47%N); [set_solver|done].
    - intros a ->. apply H4. by rewrite last_snoc. }
  assert (Hnin : forall s : gostring, Forall (fun x => x <> 47%N) s -> forall x, x ∈ s -> x <> 47%N).
  { intros s. by rewrite Forall_forall. }
  rewrite demo_rules. split.
  - assert (Hk : forall k, Forall (fun x => x <> 47%N /\ x <> 9%N /\ x <> 10%N /\ x <> 12%N /\ x <> 13%N /\ x <> 32%N) k ->
      forall x, x ∈ k -> x <> 47%N /\ x <> 9%N /\ x <> 10%N /\ x <> 12%N /\ x <> 13%N /\ x <> 32%N).
    { intros k. by rewrite Forall_forall. }
    repeat (apply Forall_cons; split); [| | | |by apply Forall_nil]; (split; [done|]); (split; [apply Hk; apply (bool_decide_unpack _); vm_compute; exact I|]).
    1: by left.
    all: right; apply Hesc; [apply Hnin; apply (bool_decide_unpack _); vm_compute; exact I| apply (bool_decide_unpack _); vm_compute; exact I| done| done].
  - repeat constructor.
Qed.
Lemma demo_string : slexer_string demo_lexer
  = Ok (L "if     " ++ nl ++ L "word  /[a-z]+/ " ++ nl ++ L "num   /[0-9]+/ " ++ nl ++ L "space /\s+/ -").
Proof. vm_compute. reflexivity. Qed.
Lemma demo_word : returns (sl_calls demo slexer_empty) demo_lexer /\ L "word" ∈ map rd_kind (rules_of demo).
Proof. split; [apply demo_returns|]. rewrite demo_rules. cbn [map rd_kind]. right. left. Qed.
Lemma two_lines : line_defs some_compile (split1 c_nl (L "word /[a-z]+/" ++ nl ++ nl ++ L " if -"))
  = [RDef (L "word") rx_word false; RDef (L "if") rx_if true].
Proof. vm_compute. reflexivity. Qed.
