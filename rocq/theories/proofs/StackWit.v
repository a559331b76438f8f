(** Concrete stack lexers. *)
From Coq Require Import String Lia.
From Verif.model Require Import RegexPos.
From Verif.spec Require Import StackSpec.
From Verif.proofs Require Import Fuel SetProofs LexProofs StackProofs StackProofs2 StackLex StackNew StackBuilt RegexPosProofs StackMain.
Local Open Scope nat_scope.
Local Open Scope list_scope.

Definition nl : gostring := [10%N].
Definition lit (s : gostring) : re := foldr (fun x r => RCat (RSet (N.eqb x)) r) REps s.
Definition word : re := RPlus (RSet is_word1).
(** An engine for a few expressions: those named, and plain text. *)
Definition demo_compile (s : gostring) : option sregexp :=
  if decide (s = L "\w+") then Some (srx_of word 0)
  else if decide (s = L "\s+") then Some (srx_of (RPlus (RSet lx_space)) 0)
  else if decide (s = L "\n") then Some (srx_of (RSet (N.eqb 10)) 0)
  else if decide (s = L "foo\n(\w+)foo") then Some (srx_of (RCat (lit (L "foo" ++ nl)) (RCat (RGroup 1 word) (lit (L "foo")))) 1)
  else if decide (s = L "(\d+)-(\d+)") then
    Some (srx_of (RCat (RGroup 1 (RPlus (RSet is_digit))) (RCat (lit (L "-")) (RGroup 2 (RPlus (RSet is_digit))))) 2)
  else if decide (s = L "(a)|b") then Some (srx_of (RAlt (RGroup 1 (lit (L "a"))) (lit (L "b"))) 1)
  else if decide (s = L "[kx]yz") then Some (srx_of (RCat (RAlt (lit (L "k")) (lit (L "x"))) (lit (L "yz"))) 0)
  else if decide (s = L "x?") then Some (srx_of (ROpt (lit (L "x"))) 0)
  else if decide (s = L "(") then None
  else Some (srx_of (lit s) 0).
Lemma demo_engine : engine s_no_lookbehind demo_compile.
Proof.
  intros src r. unfold demo_compile. repeat (destruct (decide _); [intros [= <-]; apply srx_of_ok || done|]). intros [= <-]. apply srx_of_ok.
Qed.
Lemma demo_engine' : engine s_well_formed demo_compile.
Proof. intros src r H. by apply (demo_engine src). Qed.
Definition no_stlexer : stlexer := StLexer [] ∅ None set_new [] st_length_then_priority ([], []) ([], []).
Definition orders (ds : list gostring) : list gostring := elements (names_of ds).
Definition made_in (order ds : list gostring) (cs : list st_call) : stlexer :=
  match st_new demo_compile order ds 20 with
  | Ok (l, _) => match st_calls cs l 100 with Ok l' => l' | _ => no_stlexer end
  | _ => no_stlexer
  end.
Definition made (ds : list gostring) (cs : list st_call) : stlexer := made_in (orders ds) ds cs.
Definition fine_in (order ds : list gostring) (cs : list st_call) : bool :=
  match st_new demo_compile order ds 20 with
  | Ok (l, None) => match st_calls cs l 100 with Ok l' => true | _ => false end
  | _ => false
  end.
Lemma calls_mono cs l : fuel_mono (st_calls cs l).
Proof.
  intros n m Hle. unfold st_calls. apply rle_rfold. intros x c. destruct c; try apply rle_refl. cbn [st_step].
  apply rle_bind; [by apply st_lex_mono|intros []; apply rle_refl].
Qed.
Lemma made_built_in order ds cs : order ≡ₚ orders ds -> fine_in order ds cs = true -> built demo_compile ds cs (made_in order ds cs).
Proof.
  intros Ho H. unfold fine_in in H. unfold made_in. destruct (st_new demo_compile order ds 20) as [[l [e|]]| |] eqn:E; try done.
  destruct (st_calls cs l 100) as [l'| |] eqn:E'; try done. exists order, l. split; [done|].
  split; [eapply returns_at; [apply st_new_mono|exact E]|eapply returns_at; [apply calls_mono|exact E']].
Qed.
Lemma made_built ds cs : fine_in (orders ds) ds cs = true -> built demo_compile ds cs (made ds cs).
Proof. by apply made_built_in. Qed.
(** No rule asks for groups. *)
Definition no_parts (l : stlexer) : bool :=
  forallb (fun sl => forallb (fun d => match sd_subs d with [] => true | _ => false end) (defs_in (stl_set l) sl)) (stl_subs l).
Lemma no_parts_ok l : no_parts l = true -> all_groups_ok l.
Proof.
  intros H id D d HD Hd s m x _ Hx. unfold frame in HD. destruct (stl_subs l !! id) as [sl|] eqn:E; [|done]. injection HD as <-.
  unfold no_parts in H. rewrite forallb_forall in H. specialize (H sl ltac:(apply elem_of_list_In; by eapply elem_of_list_lookup_2)).
  rewrite forallb_forall in H. specialize (H d ltac:(by apply elem_of_list_In)). destruct (sd_subs d); [by apply elem_of_nil in Hx|done].
Qed.
Definition lexed (l : stlexer) (s : gostring) : list olex := match st_lex l s 100 with Ok (xs, _) => xs | _ => [] end.
Lemma lexed_returns l s xs : match st_lex l s 100 with Ok (ys, _) => ys = xs | _ => False end -> exists l', returns (st_lex l s) (xs, l').
Proof.
  destruct (st_lex l s 100) as [[ys l']| |] eqn:E; [|done|done]. intros ->. exists l'. eapply returns_at; [apply st_lex_mono|exact E].
Qed.
Lemma lexed_panics l s : match st_lex l s 100 with Panic => True | _ => False end -> panics (st_lex l s).
Proof. destruct (st_lex l s 100) eqn:E; try done. intros _. eapply panics_at; [apply st_lex_mono|exact E]. Qed.

(** The sample of lex_test.go. *)
Definition demo : list gostring := [L "
    == main ==
      START innerLexer
      outerword  /\w+/
      shared
    == innerLexer ==
      STOP ^
      foo /foo\n(\w+)foo/ (1)
      innerword  /\w+/
      shared
    == shared ==
      space /\s+/ -
      nl /\n/ -
  "].
Definition demo_lexer : stlexer := made demo [].
Definition demo_input : gostring := L "this " ++ nl ++ L " START foo" ++ nl ++ L "barfoo is " ++ nl ++ L " a STOP test".
Lemma demo_built : built demo_compile demo [] demo_lexer.
Proof. apply made_built. vm_compute. reflexivity. Qed.
Lemma demo_lexes : exists l', returns (st_lex demo_lexer demo_input)
  ([LTok (Lx (L "outerword") (L "this") 1 1); LTok (Lx (L "START") (L "START") 2 2); LTok (Lx (L "foo") (L "bar") 2 8);
    LTok (Lx (L "innerword") (L "is") 3 8); LTok (Lx (L "innerword") (L "a") 4 2); LTok (Lx (L "STOP") (L "STOP") 4 4);
    LTok (Lx (L "outerword") (L "test") 4 9)], l').
Proof. apply lexed_returns. vm_compute. reflexivity. Qed.
Lemma word_groups s m : sx_find (srx_of (RCat (lit (L "foo" ++ nl)) (RCat (RGroup 1 word) (lit (L "foo")))) 1) s = Some m ->
  exists g, sm_groups m !! 0 = Some (Some g).
Proof.
  cbn [sx_find srx_of]. destruct (find_pos _ s) as [[[i e] c]|] eqn:E; [|done]. intros [= <-]. cbn [sm_groups seq map lookup list_lookup].
  assert (H : exists ab, pgroup 1 c = Some ab); [|destruct H as [[a b] ->]; eauto].
  revert i e c E. induction s as [|x s IH]; intros i e c E.
  - vm_compute in E. done.
  - cbn [find_pos] in E. destruct (pmatch _ (x :: s) []) as [|[s' c'] rest] eqn:Ep.
    + destruct (find_pos _ s) as [[[i' e'] c'']|]; [|done]. injection E as <- <- <-. by eapply IH.
    + injection E as <- <- <-. assert (Hin : (s', c') ∈ (s', c') :: rest) by left. rewrite <- Ep in Hin. clear Ep IH rest.
      cbn [pmatch] in Hin. apply elem_of_list_In, in_flat_map in Hin as ([s1 c1] & _ & Hin). apply in_flat_map in Hin as ([s2 c2] & H2 & Hin).
      apply in_map_iff in H2 as ([s3 c3] & [= <- <-] & _).
      change (In (s', c') (pmatch (lit (L "foo")) s3 ((1, (length s1, length s3)) :: c3))) in Hin.
      assert (Hl : forall w s c p, In p (pmatch (lit w) s c) -> snd p = c).
      { clear. induction w as [|y w IHw]; intros s c p; cbn [lit foldr pmatch].
        - intros [<-|[]]. done.
        - intros ([s1 c1] & H1 & H)%in_flat_map. destruct s as [|z s]; [done|]. destruct (N.eqb y z); [|done]. destruct H1 as [[= <- <-]|[]]. by apply (IHw s). }
      apply Hl in Hin. cbn in Hin. subst c'. cbn. eauto.
Qed.
Definition demo_re : sregexp := srx_of (RCat (lit (L "foo" ++ nl)) (RCat (RGroup 1 word) (lit (L "foo")))) 1.
Lemma frame_all (P : sdef -> Prop) l : Forall (Forall P) (map (defs_in (stl_set l)) (stl_subs l)) ->
  forall id D d, frame l id = Some D -> d ∈ D -> P d.
Proof.
  intros H id D d. unfold frame. destruct (stl_subs l !! id) as [sl|] eqn:E; [|done]. intros [= <-] Hd.
  rewrite Forall_forall in H. specialize (H (defs_in (stl_set l) sl)). rewrite Forall_forall in H. apply H; [|done].
  apply elem_of_list_fmap. exists sl. split; [done|]. by eapply elem_of_list_lookup_2.
Qed.
Lemma demo_frames : map (defs_in (stl_set demo_lexer)) (stl_subs demo_lexer) =
  let sp := SDef (L "space") (srx_of (RPlus (RSet lx_space)) 0) true [] 0 [] in
  let n := SDef (L "nl") (srx_of (RSet (N.eqb 10)) 0) true [] 0 [] in
  [[SDef (L "START") (srx_of (lit (L "START")) 0) false (L "innerLexer") 0 []; SDef (L "outerword") (srx_of word 0) false [] 0 []; sp; n];
   [SDef (L "STOP") (srx_of (lit (L "STOP")) 0) false [] 1 []; SDef (L "foo") demo_re false [] 0 [SubM 1 []];
    SDef (L "innerword") (srx_of word 0) false [] 0 []; sp; n];
   [sp; n]].
Proof. vm_compute. reflexivity. Qed.
Lemma demo_groups : all_groups_ok demo_lexer.
Proof.
  assert (Hc : forall id D d, frame demo_lexer id = Some D -> d ∈ D -> sd_subs d = [] \/ (sd_subs d = [SubM 1 []] /\ sd_re d = demo_re)).
  { apply frame_all. rewrite demo_frames.
    repeat (apply Forall_cons; split); try apply Forall_nil; try done; by (left + right). }
  intros id D d HD Hd s m x Hm Hx. pose proof (Hc _ _ _ HD Hd) as HH. clear HD Hd Hc. destruct HH as [E|[E Hr]]; rewrite E in Hx; [by apply elem_of_nil in Hx|].
  apply elem_of_list_singleton in Hx as ->. right. right. rewrite Hr in Hm. destruct (word_groups _ _ Hm) as [g Hg]. exists 0, g. done.
Qed.

(** C45: the longest match is missed right after junk. *)
Definition long : list gostring := [L "== A ==" ++ nl ++ L "a /xy/" ++ nl ++ L "b /[kx]yz/" ++ nl].
Lemma longest_refuted : exists compile definitions l s D before v w rest d' m' pre x y post l',
  engine s_no_lookbehind compile /\ built compile definitions [] l /\ all_groups_ok l /\ first_frame l = Some D
  /\ s = before ++ v ++ w ++ rest /\ returns (st_lex l s) (pre ++ LErr x :: LTok y :: post, l')
  /\ before = flat_map (fun o => lx_val (olex_lx o)) pre /\ v = lx_val x /\ w = lx_val y
  /\ d' ∈ D /\ at_match (sd_re d') (w ++ rest) = Some m' /\ length w < sm_j m'.
Proof.
  assert (Hr : exists l', returns (st_lex (made long []) (L "kyz?xyz"))
     ([LTok (Lx (L "b") (L "kyz") 1 1)] ++ LErr (Lx (L "Error") (L "?") 1 4) :: LTok (Lx (L "a") (L "xy") 1 5) :: [LErr (Lx (L "Error") (L "z") 1 7)], l')).
  { apply lexed_returns. vm_compute. reflexivity. }
  destruct Hr as [l' Hr].
  eexists demo_compile, long, (made long []), (L "kyz?xyz"), _, (L "kyz"), (L "?"), (L "xy"), (L "z"),
    (SDef (L "b") (srx_of (RCat (RAlt (lit (L "k")) (lit (L "x"))) (lit (L "yz"))) 0) false [] 0 []), _, _, _, _, _, l'.
  split; [apply demo_engine|]. split; [apply made_built; vm_compute; reflexivity|]. split; [apply no_parts_ok; vm_compute; reflexivity|].
  split; [vm_compute; reflexivity|]. split; [reflexivity|]. split; [exact Hr|]. do 3 (split; [reflexivity|]).
  split; [right; left|]. split; [vm_compute; reflexivity|]. vm_compute. lia.
Qed.

(** C46: nothing to return to; no such sub-lexer. *)
Definition popping : list gostring := [L "== A ==" ++ nl ++ L "a ^" ++ nl].
Definition pushing : list gostring := [L "== A ==" ++ nl ++ L "a b" ++ nl].
Lemma all_defs (f : sdef -> bool) l : forallb (fun sl => forallb f (defs_in (stl_set l) sl)) (stl_subs l) = true ->
  forall id D d, frame l id = Some D -> d ∈ D -> f d = true.
Proof.
  intros H id D d HD Hd. unfold frame in HD. destruct (stl_subs l !! id) as [sl|] eqn:E; [|done]. injection HD as <-.
  rewrite forallb_forall in H. specialize (H sl ltac:(apply elem_of_list_In; by eapply elem_of_list_lookup_2)).
  rewrite forallb_forall in H. by apply H, elem_of_list_In.
Qed.
Lemma pop_refuted : exists compile definitions l s,
  engine s_no_lookbehind compile /\ built compile definitions [] l /\ all_groups_ok l /\ pushes_known l /\ panics (st_lex l s).
Proof.
  exists demo_compile, popping, (made popping []), (L "aa").
  split; [apply demo_engine|]. split; [apply made_built; vm_compute; reflexivity|]. split; [apply no_parts_ok; vm_compute; reflexivity|].
  split; [|apply lexed_panics; vm_compute; exact I].
  intros id D d HD Hd Hp. exfalso. pose proof (all_defs (fun d => match sd_push d with [] => true | _ => false end) (made popping [])
     ltac:(vm_compute; reflexivity) _ _ _ HD Hd) as E. clear HD Hd. cbn beta in E. by destruct (sd_push d).
Qed.
Lemma push_refuted : exists compile definitions l s,
  engine s_no_lookbehind compile /\ built compile definitions [] l /\ all_groups_ok l
  /\ (forall id D d, frame l id = Some D -> d ∈ D -> sd_pop d = 0) /\ panics (st_lex l s).
Proof.
  exists demo_compile, pushing, (made pushing []), (L "aa").
  split; [apply demo_engine|]. split; [apply made_built; vm_compute; reflexivity|]. split; [apply no_parts_ok; vm_compute; reflexivity|].
  split; [|apply lexed_panics; vm_compute; exact I].
  intros id D d HD Hd. pose proof (all_defs (fun d => sd_pop d =? 0) (made pushing [])
     ltac:(vm_compute; reflexivity) _ _ _ HD Hd) as E. clear HD Hd. cbn beta in E. by apply Nat.eqb_eq in E.
Qed.
Lemma demo_pushes : pushes_known demo_lexer /\ (forall D d, first_frame demo_lexer = Some D -> d ∈ D -> sd_pop d = 0).
Proof.
  split.
  - intros id D d HD Hd Hp. pose proof (all_defs (fun d => match sd_push d with [] => true | n => match env_of demo_lexer n with Some _ => true | None => false end end) demo_lexer
     ltac:(vm_compute; reflexivity) _ _ _ HD Hd) as E. clear HD Hd. cbn beta in E. revert E Hp. generalize (sd_push d). clear d. intros [|c r]; [intros _ Hp; destruct (Hp eq_refl)|]. generalize (env_of demo_lexer (c :: r)). intros [x|]; [intros _ _; discriminate|intros [=]].
  - intros D d HD Hd. assert (E : forallb (fun d => sd_pop d =? 0) D = true).
    { revert HD. destruct (first_frame demo_lexer) as [D'|] eqn:E; [|done]. intros [= <-].
      assert (H : match first_frame demo_lexer with Some D => forallb (fun d => sd_pop d =? 0) D | None => true end = true) by (vm_compute; reflexivity).
      by rewrite E in H. }
    rewrite forallb_forall in E. apply Nat.eqb_eq, E. by apply elem_of_list_In.
Qed.

(** C47: errors are dropped. *)
Definition circle : list gostring := [L "== A ==" ++ nl ++ L "B" ++ nl ++ L "== B ==" ++ nl ++ L "A" ++ nl].
Definition broken : list gostring := [L "== A ==" ++ nl ++ L "a /(/" ++ nl ++ L "b" ++ nl].
Lemma circle_step (a b : gostring) : (a = L "A" /\ b = L "B") \/ (a = L "B" /\ b = L "A") -> inherits circle a b.
Proof.
  intros [[-> ->]|[-> ->]]; (split; [apply (bool_decide_unpack _); vm_compute; exact I|]).
  - exists [(5, []); (1, L "B")]. split; [|reflexivity]. eexists _, (L "B"), _, _. split; [vm_compute; reflexivity|].
    split; [|vm_compute; reflexivity]. apply elem_of_list_In. vm_compute. tauto.
  - exists [(5, []); (1, L "A")]. split; [|reflexivity]. eexists _, (L "A"), _, _. split; [vm_compute; reflexivity|].
    split; [|vm_compute; reflexivity]. apply elem_of_list_In. vm_compute. tauto.
Qed.
Lemma circle_cyclic : cyclic circle.
Proof. exists (L "A"). eapply tc_l; [apply circle_step; by left|]. apply tc_once, circle_step. by right. Qed.
Lemma cyclic_refuted : exists compile definitions, engine s_no_lookbehind compile /\ cyclic definitions
  /\ forall order, order ≡ₚ elements (names_of definitions) -> exists l, returns (st_new compile order definitions) (l, None).
Proof.
  exists demo_compile, circle. split; [apply demo_engine|]. split; [apply circle_cyclic|]. intros order Ho. by apply new_total.
Qed.
Lemma bad_regexp_refuted : exists compile definitions n c, engine s_no_lookbehind compile /\ says definitions n c
  /\ group 2 c <> [] /\ group 1 c ∉ names_of definitions /\ compile (group 2 c) = None
  /\ forall order, order ≡ₚ elements (names_of definitions) -> exists l, returns (st_new compile order definitions) (l, None).
Proof.
  exists demo_compile, broken, (L "A"), [(5, []); (2, L "("); (1, L "a")]. split; [apply demo_engine|].
  split. { eexists _, (L "a /(/"), _, _. split; [vm_compute; reflexivity|]. split; [apply elem_of_list_In; vm_compute; tauto|vm_compute; reflexivity]. }
  split; [done|]. split; [apply (bool_decide_unpack _); vm_compute; exact I|]. split; [reflexivity|]. intros order Ho. by apply new_total.
Qed.

(** C62: lines *)
Definition words : list gostring := [L "== A ==" ++ nl ++ L "a /\w+/" ++ nl].
Lemma positions_refuted : exists compile definitions l s before rest pre x l',
  engine s_no_lookbehind compile /\ built compile definitions [] l /\ all_groups_ok l
  /\ returns (st_lex l s) (pre ++ [LTok x], l') /\ s = before ++ lx_val x ++ rest
  /\ before = flat_map (fun o => lx_val (olex_lx o)) pre /\ lx_line x <> Z.of_nat (1 + newlines before).
Proof.
  assert (Hr : exists l', returns (st_lex (made words []) (L "a" ++ nl ++ L "b"))
     ([LTok (Lx (L "a") (L "a") 1 1); LErr (Lx (L "Error") nl 1 0)] ++ [LTok (Lx (L "a") (L "b") 1 1)], l')).
  { apply lexed_returns. vm_compute. reflexivity. }
  destruct Hr as [l' Hr]. exists demo_compile, words, (made words []), (L "a" ++ nl ++ L "b"), (L "a" ++ nl), [].
  eexists _, _, l'. split; [apply demo_engine|]. split; [apply made_built; vm_compute; reflexivity|]. split; [apply no_parts_ok; vm_compute; reflexivity|].
  split; [exact Hr|]. do 2 (split; [reflexivity|]). vm_compute. done.
Qed.

(** C63: values *)
Definition dates : list gostring := [L "== A ==" ++ nl ++ L "a /(\d+)-(\d+)/ (2|""/""|1)" ++ nl].
Definition absent : list gostring := [L "== A ==" ++ nl ++ L "a /(a)|b/ (1)" ++ nl].
Lemma literal_refuted : exists l', returns (st_lex (made dates []) (L "1-22")) ([LTok (Lx (L "a") (L "22""/""1") 1 1)], l').
Proof. apply lexed_returns. vm_compute. reflexivity. Qed.
Lemma dates_built : built demo_compile dates [] (made dates []).
Proof. apply made_built. vm_compute. reflexivity. Qed.
Lemma absent_refuted : exists compile definitions l s,
  engine s_no_lookbehind compile /\ built compile definitions [] l /\ pushes_known l
  /\ (forall id D d, frame l id = Some D -> d ∈ D -> sd_pop d = 0)
  /\ (forall id D d s m x, frame l id = Some D -> d ∈ D -> sx_find (sd_re d) s = Some m -> x ∈ sd_subs d ->
         exists k, sb_section x = Z.of_nat (S k) /\ k < length (sm_groups m))
  /\ panics (st_lex l s).
Proof.
  exists demo_compile, absent, (made absent []), (L "b"). split; [apply demo_engine|]. split; [apply made_built; vm_compute; reflexivity|].
  split. { intros id D d HD Hd Hp. exfalso. pose proof (all_defs (fun d => match sd_push d with [] => true | _ => false end) (made absent [])
     ltac:(vm_compute; reflexivity) _ _ _ HD Hd) as E. clear HD Hd. cbn beta in E. by destruct (sd_push d). }
  split. { intros id D d HD Hd. pose proof (all_defs (fun d => sd_pop d =? 0) (made absent [])
     ltac:(vm_compute; reflexivity) _ _ _ HD Hd) as E. clear HD Hd. cbn beta in E. by apply Nat.eqb_eq in E. }
  split; [|apply lexed_panics; vm_compute; exact I].
  assert (Hf : map (defs_in (stl_set (made absent []))) (stl_subs (made absent []))
     = [[SDef (L "a") (srx_of (RAlt (RGroup 1 (lit (L "a"))) (lit (L "b"))) 1) false [] 0 [SubM 1 []]]]) by (vm_compute; reflexivity).
  assert (Hc : forall id D d, frame (made absent []) id = Some D -> d ∈ D -> sd_subs d = [SubM 1 []] /\ sd_re d = srx_of (RAlt (RGroup 1 (lit (L "a"))) (lit (L "b"))) 1).
  { apply frame_all. rewrite Hf. repeat (apply Forall_cons; split); try apply Forall_nil; done. }
  intros id D d s m x HD Hd Hm Hx. pose proof (Hc _ _ _ HD Hd) as HH. clear HD Hd Hc Hf. destruct HH as [Es Er]. rewrite Es in Hx. apply elem_of_list_singleton in Hx as ->.
  exists 0. split; [done|]. rewrite Er in Hm. cbn [sx_find srx_of] in Hm. destruct (find_pos _ _) as [[[i e] c]|]; [|done]. injection Hm as <-. cbn. lia.
Qed.

(** C64: an earlier rule's empty match wins. *)
Definition empties : list gostring := [L "== A ==" ++ nl ++ L "a /x?/" ++ nl ++ L "b /y/" ++ nl].
Lemma priority_refuted : exists compile definitions cs l s D d m l',
  engine s_no_lookbehind compile /\ built compile definitions cs l /\ all_groups_ok l /\ st_length (st_settings cs) = false
  /\ first_frame l = Some D /\ d ∈ D /\ at_match (sd_re d) s = Some m /\ 0 < sm_j m
  /\ returns (st_lex l s) ([LErr (Lx (L "Error") s 1 1)], l').
Proof.
  assert (Hr : exists l', returns (st_lex (made empties [TByPriority]) (L "y")) ([LErr (Lx (L "Error") (L "y") 1 1)], l')).
  { apply lexed_returns. vm_compute. reflexivity. }
  destruct Hr as [l' Hr]. eexists demo_compile, empties, [TByPriority], (made empties [TByPriority]), (L "y"), _, (SDef (L "b") (srx_of (lit (L "y")) 0) false [] 0 []), _, l'.
  split; [apply demo_engine|]. split; [apply made_built; vm_compute; reflexivity|]. split; [apply no_parts_ok; vm_compute; reflexivity|].
  split; [reflexivity|]. split; [vm_compute; reflexivity|]. split; [right; left|]. split; [vm_compute; reflexivity|]. split; [vm_compute; lia|exact Hr].
Qed.

(** C65: a heading given twice *)
Definition twice : list gostring := [L "== A ==" ++ nl ++ L "a" ++ nl ++ L "== A ==" ++ nl ++ L "b" ++ nl].
Lemma start_refuted : exists compile definitions l n names,
  engine s_no_lookbehind compile /\ built compile definitions [] l /\ heading_names definitions = n :: names
  /\ first_frame l <> env_of l n.
Proof.
  exists demo_compile, twice, (made twice []), (L "A"), [L "A"]. split; [apply demo_engine|].
  split; [apply made_built; vm_compute; reflexivity|]. split; [vm_compute; reflexivity|].
  assert (E1 : match first_frame (made twice []) with Some D => map sd_kind D | None => [L "?"] end = []) by (vm_compute; reflexivity).
  assert (E2 : match env_of (made twice []) (L "A") with Some D => map sd_kind D | None => [L "?"] end = [L "b"]) by (vm_compute; reflexivity).
  intros E. rewrite E in E1. rewrite E1 in E2. done.
Qed.
Lemma demo_headings : heading_names demo = L "main" :: [L "innerLexer"; L "shared"].
Proof. vm_compute. reflexivity. Qed.

(** C48: iteration order *)
Definition swapped : list gostring := [L "== Main ==" ++ nl ++ L "Shared" ++ nl ++ L "== Other ==" ++ nl ++ L "b /x/" ++ nl
  ++ L "== Shared ==" ++ nl ++ L "a /x/" ++ nl ++ L "b /x/" ++ nl].
Lemma order_refuted : exists compile definitions l1 l2 s xs l1' ys l2',
  engine s_no_lookbehind compile /\ built compile definitions [] l1 /\ built compile definitions [] l2
  /\ returns (st_lex l1 s) (xs, l1') /\ returns (st_lex l2 s) (ys, l2') /\ xs <> ys.
Proof.
  assert (H1 : exists l', returns (st_lex (made_in [L "Main"; L "Other"; L "Shared"] swapped []) (L "x")) ([LTok (Lx (L "a") (L "x") 1 1)], l')).
  { apply lexed_returns. vm_compute. reflexivity. }
  assert (H2 : exists l', returns (st_lex (made_in [L "Other"; L "Main"; L "Shared"] swapped []) (L "x")) ([LTok (Lx (L "b") (L "x") 1 1)], l')).
  { apply lexed_returns. vm_compute. reflexivity. }
  destruct H1 as [l1' H1], H2 as [l2' H2].
  assert (Ho : [L "Main"; L "Other"; L "Shared"] ≡ₚ orders swapped).
  { unfold orders. apply NoDup_Permutation; [apply (bool_decide_unpack _); vm_compute; exact I|apply (NoDup_elements (C := gset gostring))|].
    intros x. unfold orders. rewrite elem_of_elements. rewrite names_headings.
    assert (E : heading_names swapped = [L "Main"; L "Other"; L "Shared"]) by (vm_compute; reflexivity). by rewrite E. }
  exists demo_compile, swapped. eexists _, _, (L "x"), _, l1', _, l2'. split; [apply demo_engine|].
  split; [apply (made_built_in [L "Main"; L "Other"; L "Shared"]); [done|vm_compute; reflexivity]|].
  split; [apply (made_built_in [L "Other"; L "Main"; L "Shared"]); [by rewrite <- Ho, perm_swap|vm_compute; reflexivity]|].
  split; [exact H1|]. split; [exact H2|]. done.
Qed.

(** The sample does not depend on the order. *)
Lemma demo_said : said demo (L "shared") = [[(5, L "-"); (2, L "\s+"); (1, L "space")]; [(5, L "-"); (2, L "\n"); (1, L "nl")]]
  /\ map (group 1) (said demo (L "main")) = [L "START"; L "outerword"; L "shared"]
  /\ map (group 1) (said demo (L "innerLexer")) = [L "STOP"; L "foo"; L "innerword"; L "shared"].
Proof. vm_compute. done. Qed.
Lemma demo_names n : n ∈ names_of demo <-> n ∈ [L "main"; L "innerLexer"; L "shared"].
Proof. rewrite names_headings. by rewrite demo_headings. Qed.
Lemma demo_inherits a b : inherits demo a b -> b = L "shared".
Proof.
  intros [Hb (c & Hs & Hc)]. assert (Hin : c ∈ said demo a /\ a ∈ names_of demo).
  { destruct Hs as (text & line & i & m & Ht & Hl & Hf). split.
    - unfold said. rewrite Ht. apply elem_of_list_omap. exists line. split; [exact Hl|]. by rewrite Hf.
    - assert (Hd : dom (sections demo) ⊆ names_of demo) by (apply (bool_decide_unpack _); vm_compute; exact I).
      apply Hd. apply elem_of_dom. by exists text. }
  destruct Hin as [Hin Ha]. assert (Hg : b ∈ map (group 1) (said demo a)) by (apply elem_of_list_fmap; eauto). clear Hs Hin.
  destruct demo_said as (_ & E2 & E3). rewrite demo_names in Ha, Hb. rewrite !elem_of_cons, elem_of_nil in Ha.
  assert (E1 : map (group 1) (said demo (L "shared")) = [L "space"; L "nl"]) by (vm_compute; reflexivity).
  assert (Hchk : forall xs, forallb (fun x => negb (bool_decide (x ∈ [L "main"; L "innerLexer"; L "shared"])) || bool_decide (x = L "shared")) xs = true ->
    b ∈ xs -> b = L "shared").
  { intros xs Hf Hx. rewrite forallb_forall in Hf. specialize (Hf b ltac:(by apply elem_of_list_In)). rewrite bool_decide_eq_true_2 in Hf by done.
    by apply bool_decide_eq_true in Hf. }
  destruct Ha as [->|[->|[->|[]]]]; [rewrite E2 in Hg|rewrite E3 in Hg|rewrite E1 in Hg]; (eapply Hchk; [|exact Hg]; vm_compute; reflexivity).
Qed.
Lemma demo_plain : plain demo_compile demo.
Proof.
  split.
  - intros n c Hn Hc Hx. rewrite demo_names, !elem_of_cons, elem_of_nil in Hn.
    assert (Hchk : forall n, forallb (fun c => if decide (group 1 c ∈ names_of demo) then true else match rule_said demo_compile c with Some _ => true | None => false end)
       (said demo n) = true -> c ∈ said demo n -> rule_said demo_compile c <> None).
    { intros m Hf Hm. rewrite forallb_forall in Hf. specialize (Hf c ltac:(by apply elem_of_list_In)). rewrite decide_False in Hf by exact Hx.
      clear -Hf. intros E. rewrite E in Hf. discriminate Hf. }
    destruct Hn as [->|[->|[->|[]]]]; (eapply Hchk; [|exact Hc]; vm_compute; reflexivity).
  - intros a b c Hab Hc. rewrite (demo_inherits a b Hab) in Hc. destruct demo_said as (E & _ & _). rewrite E in Hc.
    rewrite !elem_of_cons, elem_of_nil in Hc. destruct Hc as [->|[->|[]]]; apply (bool_decide_unpack _); vm_compute; exact I.
  - intros a b n Hab Hn. rewrite (demo_inherits a b Hab). rewrite demo_names, !elem_of_cons, elem_of_nil in Hn.
    destruct Hn as [->|[->|[->|[]]]]; [exists 0|exists 0|exists 2]; vm_compute; reflexivity.
Qed.
Lemma demo_first : L "main" ∉ [L "innerLexer"; L "shared"].
Proof. apply (bool_decide_unpack _). vm_compute. exact I. Qed.
