(** More fuel never changes a result that was not [OutOfFuel]. *)
From Verif.model Require Import GoBase.
From Verif.spec Require Export Outcome.
From Coq Require Import Lia.

Definition rle {A} (a b : res A) : Prop := a = OutOfFuel \/ a = b.

Lemma rle_refl {A} (a : res A) : rle a a.
Proof. right; reflexivity. Qed.
Lemma rle_oof {A} (a : res A) : rle OutOfFuel a.
Proof. left; reflexivity. Qed.
Lemma rle_trans {A} (a b c : res A) : rle a b -> rle b c -> rle a c.
Proof. intros [->| ->]; [left; reflexivity|auto]. Qed.
Lemma rle_bind {A B} (a a' : res A) (k k' : A -> res B) :
  rle a a' -> (forall x, rle (k x) (k' x)) -> rle (rbind a k) (rbind a' k').
Proof.
  intros [->| ->] Hk; [left; reflexivity|]. destruct a'; simpl; auto using rle_refl.
Qed.
Lemma rle_Ok {A} (a b : res A) x : rle a b -> a = Ok x -> b = Ok x.
Proof. intros [->| ->]; congruence. Qed.
Lemma rle_rmap {A B} (f f' : A -> res B) l :
  (forall x, rle (f x) (f' x)) -> rle (rmap f l) (rmap f' l).
Proof.
  intros H. induction l as [|x l IH]; simpl; [apply rle_refl|].
  apply rle_bind; [auto|]. intros y. apply rle_bind; [auto|]. intros; apply rle_refl.
Qed.
Lemma rle_rfold {A S} (f f' : S -> A -> res S) l s :
  (forall s x, rle (f s x) (f' s x)) -> rle (rfold f l s) (rfold f' l s).
Proof.
  intros H. revert s. induction l as [|x l IH]; intros s; simpl; [apply rle_refl|].
  apply rle_bind; [auto|]. intros y. apply IH.
Qed.

Definition fuel_mono {A} (f : nat -> res A) : Prop :=
  forall n m, n <= m -> rle (f n) (f m).

Lemma returns_at {A} (f : nat -> res A) n r : fuel_mono f -> f n = Ok r -> returns f r.
Proof. intros Hm H. exists n. intros m Hle. eapply rle_Ok; eauto. Qed.
Lemma panics_at {A} (f : nat -> res A) n : fuel_mono f -> f n = Panic -> panics f.
Proof. intros Hm H. exists n. intros m Hle. destruct (Hm _ _ Hle); congruence. Qed.
Lemma returns_fun {A} (f : nat -> res A) a b : returns f a -> returns f b -> a = b.
Proof.
  intros [F HF] [G HG]. specialize (HF (F + G) ltac:(lia)). specialize (HG (F + G) ltac:(lia)). congruence.
Qed.
