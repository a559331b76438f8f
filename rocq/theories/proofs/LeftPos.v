(** Positions of atoms and chains among the token kinds of the math example. Symbols have the
    indexes Parse gives them. *)
From Verif.model Require Import Packrat.

Notation sE := 0 (only parsing).
Notation s2 := 1 (only parsing).
Notation s1 := 2 (only parsing).
Notation sn := 3 (only parsing).
Notation sP := 4 (only parsing).
Notation so := 5 (only parsing).
Notation sc := 6 (only parsing).

Section P.
  Variable kinds : list nat.
  Definition isop (p : nat) : Prop := kinds !! p = Some s1 \/ kinds !! p = Some s2.

  (** An atom from [b] to [e]; a chain of atoms and operators. *)
  Inductive At : nat -> nat -> Prop :=
  | at_n b : kinds !! b = Some sn -> At b (S b)
  | at_s b : kinds !! b = Some s2 -> kinds !! (S b) = Some sn -> At b (S (S b))
  | at_p b e : kinds !! b = Some so -> Sq (S b) e -> kinds !! e = Some sc -> At b (S e)
  with Sq : nat -> nat -> Prop :=
  | sq_a b e : At b e -> Sq b e
  | sq_o b k e : At b k -> isop k -> Sq (S k) e -> Sq b e.
  Scheme At_ind2 := Minimality for At Sort Prop
    with Sq_ind2 := Minimality for Sq Sort Prop.
  Combined Scheme AtSq_ind from At_ind2, Sq_ind2.

  Lemma at_sq_lt : (forall b e, At b e -> b < e) /\ (forall b e, Sq b e -> b < e).
  Proof. apply AtSq_ind; intros; lia. Qed.
  Lemma at_lt b e : At b e -> b < e. Proof. apply at_sq_lt. Qed.
  Lemma sq_lt b e : Sq b e -> b < e. Proof. apply at_sq_lt. Qed.

  Ltac kk := unfold isop in *; repeat match goal with H : _ \/ _ |- _ => destruct H end; congruence.
  Lemma at_sq_fun : (forall b e, At b e -> forall e', At b e' -> e = e')
    /\ (forall b e, Sq b e -> forall e', Sq b e' -> e = e' \/ (e < e' /\ isop e) \/ (e' < e /\ isop e')).
  Proof.
    apply AtSq_ind.
    - intros b H e' H'. inversion H'; subst; [done|kk|kk].
    - intros b H H1 e' H'. inversion H'; subst; [kk|done|kk].
    - intros b e H _ IH Hc e' H'. inversion H' as [|? ?|? e2 ? Hs]; subst; [kk|kk|].
      destruct (IH _ Hs) as [->|[[_ Ho]|[_ Ho]]]; [done|kk|kk].
    - intros b e Ha IH e' H'. inversion H' as [? ? Ha'|? k ? Ha' Ho Hs]; subst.
      + left. by apply IH.
      + rewrite (IH _ Ha'). right. left. split; [|done]. apply sq_lt in Hs. lia.
    - intros b k e Ha IHa Ho Hs IHs e' H'. inversion H' as [? ? Ha'|? k' ? Ha' Ho' Hs']; subst.
      + rewrite <- (IHa _ Ha'). right. right. split; [|done]. apply sq_lt in Hs. lia.
      + rewrite <- (IHa _ Ha') in Hs'. destruct (IHs _ Hs') as [H|[[? ?]|[? ?]]]; auto.
  Qed.
  Lemma at_fun b e e' : At b e -> At b e' -> e = e'. Proof. intros H. by apply at_sq_fun. Qed.
  (** A chain's first atom. *)
  Lemma sq_first b e : Sq b e -> exists f, At b f /\ f <= e /\ (f = e \/ (isop f /\ Sq (S f) e)).
  Proof.
    intros H. inversion H as [? ? Ha|? k ? Ha Ho Hs]; subst; [exists e; auto|].
    exists k. split; [done|]. apply sq_lt in Hs as ?. split; [lia|]. auto.
  Qed.
  Lemma sq_app b k e : Sq b k -> isop k -> Sq (S k) e -> Sq b e.
  Proof.
    intros H. revert b k H e. enough (H : (forall b k, At b k -> True) /\ (forall b k, Sq b k -> forall e, isop k -> Sq (S k) e -> Sq b e)).
    { intros b k Hs e. by apply H. }
    apply AtSq_ind; try done.
    - intros b k Ha _ e Ho Hs. by eapply sq_o.
    - intros b k e0 Ha _ Ho Hs IH e Ho' Hs'. eapply sq_o; [done|done|]. by apply IH.
  Qed.
  Lemma sq_cut b e : Sq b e -> forall k, Sq b k -> k < e -> isop k /\ Sq (S k) e.
  Proof.
    intros H. revert b e H. enough (H : (forall b e, At b e -> True) /\ (forall b e, Sq b e -> forall k, Sq b k -> k < e -> isop k /\ Sq (S k) e)).
    { apply H. }
    apply AtSq_ind; try done.
    - intros b e Ha _ k Hk Hlt. destruct (sq_first _ _ Hk) as (f & Hf & Hle & _). rewrite (at_fun _ _ _ Hf Ha) in Hle. lia.
    - intros b k0 e Ha _ Ho Hs IH k Hk Hlt. inversion Hk as [? ? Ha'|? k' ? Ha' Ho' Hs']; subst.
      + rewrite <- (at_fun _ _ _ Ha Ha'). done.
      + rewrite <- (at_fun _ _ _ Ha Ha') in *. by apply IH.
  Qed.
  Lemma at_not b f e : At b f -> f <> e -> ~ At b e.
  Proof. intros H Hn H'. apply Hn. by eapply at_fun. Qed.

  (** Parentheses inside a chain close inside it. *)
  Lemma nest : (forall b e, At b e -> forall p q, b <= p -> p < e -> kinds !! p = Some so -> At p q -> q <= e)
    /\ (forall b e, Sq b e -> forall p q, b <= p -> p < e -> kinds !! p = Some so -> At p q -> q <= e).
  Proof.
    apply AtSq_ind.
    - intros b H p q H1 H2 H3 _. assert (p = b) as -> by lia. congruence.
    - intros b H H' p q H1 H2 H3 _. assert (p = b \/ p = S b) as [-> | ->] by lia; congruence.
    - intros b e H Hs IH Hc p q H1 H2 H3 H4. destruct (decide (p = b)) as [->|].
      + assert (At b (S e)) as H5 by by apply at_p. rewrite (at_fun _ _ _ H4 H5). done.
      + destruct (decide (p = e)) as [->|]; [congruence|]. assert (q <= e) by (apply (IH p q); [lia|lia|done|done]). lia.
    - done.
    - intros b k e Ha IHa Ho Hs IHs p q H1 H2 H3 H4. destruct (decide (p < k)).
      + assert (q <= k) by by apply (IHa p q). apply sq_lt in Hs. lia.
      + destruct (decide (p = k)) as [->|]; [kk|]. apply (IHs p q); [lia|lia|done|done].
  Qed.

  Lemma at_last b e : At b e -> kinds !! (e - 1) = Some sn \/ kinds !! (e - 1) = Some sc.
  Proof. intros H. inversion H; subst; cbn [Nat.sub]; rewrite ?Nat.sub_0_r; auto. Qed.
  Lemma sq_last : (forall b e, At b e -> True) /\ (forall b e, Sq b e -> kinds !! (e - 1) = Some sn \/ kinds !! (e - 1) = Some sc).
  Proof. apply AtSq_ind; try done. intros b e H _. by eapply at_last. Qed.
  (** What stands before an atom's position when an expression is asked for there. *)
  Definition fore (b : nat) : Prop := b = 0 \/ exists p, b = S p /\ (kinds !! p = Some so \/ (isop p /\ exists b', Sq b' p)).
  Lemma begin_unique b b' e : fore b -> fore b' -> At b e -> At b' e -> b = b'.
  Proof.
    assert (Hsg : forall b, fore b -> fore (S b) -> kinds !! b = Some s2 -> False).
    { intros c Hc Hc' H. destruct Hc' as [?|(p & [= <-] & [Hp|[Ho [b0 Hs]]])]; [done|congruence|].
      apply sq_lt in Hs as Hlt. apply sq_last in Hs. destruct Hc as [->|(p & -> & [Hp|[Ho' _]])]; [lia| |].
      - replace (S p - 1) with p in Hs by lia. destruct Hs; congruence.
      - replace (S p - 1) with p in Hs by lia. destruct Hs; kk. }
    intros Hb Hb' H H'. inversion H as [? Hn|? H1 H2|? e1 H1 H2 H3]; subst; inversion H' as [? Hn'|? H1' H2'|? e1' H1' H2' H3']; subst; try done.
    - exfalso. by apply (Hsg b').
    - congruence.
    - exfalso. by apply (Hsg b).
    - congruence.
    - congruence.
    - congruence.
    - apply sq_lt in H2 as L1. apply sq_lt in H2' as L2. destruct (lt_eq_lt_dec b b') as [[Hlt|Heq]|Hlt]; [|done|]; exfalso.
      + assert (S e1 <= e1); [|lia]. eapply (proj2 nest); [exact H2| | |exact H1'|exact H']; lia.
      + assert (S e1 <= e1); [|lia]. eapply (proj2 nest); [exact H2'| | |exact H1|exact H]; lia.
  Qed.
End P.
