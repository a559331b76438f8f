(** Lexers whose first Lex writes. *)
From Coq Require Import String.
From Verif.spec Require Import Outcome.
From Verif.model Require Import SimpleLexer StackLexer.
From Verif.proofs Require Import Fuel LexMain StackLex SharedLexProofs.
From Verif.proofs Require LexWit StackWit.
Local Open Scope nat_scope.
Local Open Scope list_scope.

Lemma fun_at {A} (f : nat -> res A) r : returns f r -> exists n, f n = Ok r.
Proof. intros [n H]. exists n. by apply H. Qed.

Lemma simple_writes l s xs l' : returns (slex l s) (xs, l') ->
  (l' = l <-> lex_errors xs = [] \/ set_has (sl_set l) (sl_error l) = true).
Proof. intros [n H]%fun_at. by apply slex_writes in H. Qed.
Lemma simple_after_junk l s xs l1 : returns (slex l s) (xs, l1) -> lex_errors xs <> [] ->
  forall s2 ys l2, returns (slex l1 s2) (ys, l2) -> l2 = l1.
Proof. intros [n H]%fun_at He s2 ys l2 [m H2]%fun_at. by apply (slex_after_junk l s n xs l1 H He s2 m ys). Qed.
Lemma stack_writes l s xs l' : returns (st_lex l s) (xs, l') ->
  (l' = l <-> set_has (stl_set l) (stl_error l) = true).
Proof. intros [n H]%fun_at. by apply st_lex_writes in H. Qed.
Lemma stack_again l s xs l1 : returns (st_lex l s) (xs, l1) ->
  forall s2 ys l2, returns (st_lex l1 s2) (ys, l2) -> l2 = l1.
Proof. intros [n H]%fun_at s2 ys l2 [m H2]%fun_at. by apply (st_lex_again l s n xs l1 H s2 m ys). Qed.

Lemma words_junk : exists l', returns (slex LexWit.words_lexer (L "?")) ([LErr (Lx (L "Error") (L "?") (-1) 0)], l').
Proof.
  assert (H : exists l', slex LexWit.words_lexer (L "?") 20 = Ok ([LErr (Lx (L "Error") (L "?") (-1) 0)], l')).
  { eexists. vm_compute. reflexivity. }
  destruct H as [l' H]. exists l'. exact (slex_returns _ _ _ _ H).
Qed.
Lemma simple_race : exists cs l s xs l', returns (sl_calls cs slexer_empty) l /\ returns (slex l s) (xs, l') /\ l' <> l.
Proof.
  destruct words_junk as [l' Hr]. exists LexWit.words, LexWit.words_lexer, (L "?"). eexists. exists l'.
  split; [apply LexWit.words_returns|]. split; [exact Hr|].
  intros E. apply (simple_writes _ _ _ _ Hr) in E as [E|E]; [discriminate E|vm_compute in E; discriminate E].
Qed.
Lemma stack_race : exists compile definitions l s xs l', StackSpec.built compile definitions [] l
  /\ returns (st_lex l s) (xs, l') /\ lex_errors xs = [] /\ l' <> l.
Proof.
  destruct StackWit.demo_lexes as [l' Hr]. exists StackWit.demo_compile, StackWit.demo, StackWit.demo_lexer, StackWit.demo_input. eexists. exists l'.
  split; [apply StackWit.demo_built|]. split; [exact Hr|]. split; [done|].
  intros E. apply (stack_writes _ _ _ _ Hr) in E. vm_compute in E. discriminate E.
Qed.
Definition is_ok {A} (r : res A) : bool := match r with Ok _ => true | _ => false end.
Lemma stack_warm : exists xs l1, returns (st_lex StackWit.demo_lexer (L "a")) (xs, l1)
  /\ exists ys l2, returns (st_lex l1 StackWit.demo_input) (ys, l2).
Proof.
  assert (H : match st_lex StackWit.demo_lexer (L "a") 100 with Ok (_, l1) => is_ok (st_lex l1 StackWit.demo_input 100) | _ => false end = true)
    by (vm_compute; reflexivity).
  destruct (st_lex StackWit.demo_lexer (L "a") 100) as [[xs l1]| |] eqn:E1; [|discriminate H|discriminate H].
  destruct (st_lex l1 StackWit.demo_input 100) as [[ys l2]| |] eqn:E2; [|discriminate H|discriminate H].
  exists xs, l1. split; [exact (returns_at _ 100 _ (st_lex_mono _ _) E1)|]. exists ys, l2. exact (returns_at _ 100 _ (st_lex_mono _ _) E2).
Qed.
Lemma simple_warm : exists xs l1, returns (slex LexWit.words_lexer (L "?")) (xs, l1) /\ lex_errors xs <> []
  /\ exists ys l2, returns (slex l1 (L "ab?")) (ys, l2).
Proof.
  assert (H : match slex LexWit.words_lexer (L "?") 20 with Ok (xs, l1) => match lex_errors xs with [] => false | _ => is_ok (slex l1 (L "ab?") 20) end | _ => false end = true)
    by (vm_compute; reflexivity).
  destruct (slex LexWit.words_lexer (L "?") 20) as [[xs l1]| |] eqn:E1; [|discriminate H|discriminate H].
  destruct (lex_errors xs) as [|e es] eqn:Ee; [discriminate H|].
  destruct (slex l1 (L "ab?") 20) as [[ys l2]| |] eqn:E2; [|discriminate H|discriminate H].
  exists xs, l1. split; [exact (slex_returns _ _ _ _ E1)|]. split; [rewrite Ee; discriminate|].
  exists ys, l2. exact (slex_returns _ _ _ _ E2).
Qed.
