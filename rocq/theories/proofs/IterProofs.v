From Coq Require Import Lia.
From Verif.model Require Import Iter.

Section P.
  Context {A : Type}.
  Variable l : list A.
  Notation nx := (next_symbol (Some l)).

  Lemma next_from n : forall it, it_ln it = length l -> length l <> 0 ->
    forall k, k < n -> exists b c i, next_calls nx n it !! k = Some (b, c, i)
      /\ (S (it_idx it + k) < length l -> b = true /\ c = l !! (S (it_idx it + k)) /\ i = S (it_idx it + k))
      /\ (length l <= S (it_idx it + k) -> b = false).
  Proof.
    induction n as [|n IH]; intros it Hl Hne k Hk; [lia|]. cbn [next_calls].
    unfold next_symbol at 1. rewrite Hl. destruct (Nat.eqb_spec (length l) 0); [lia|].
    cbn [it_ln it_idx it_cur].
    destruct (Nat.leb_spec (length l) (S (it_idx it))).
    - destruct k as [|k].
      + eexists _, _, _. split; [reflexivity|]. rewrite Nat.add_0_r. split; [lia|done].
      + cbn [lookup list_lookup]. destruct (IH (It (it_cur it) (length l) (S (it_idx it))) eq_refl Hne k) as (b & c & i & H1 & H2 & H3); [lia|].
        exists b, c, i. cbn [it_idx] in *. split; [done|]. replace (it_idx it + S k) with (S (it_idx it) + k) by lia. auto.
    - destruct (lookup_lt_is_Some_2 l (S (it_idx it)) ltac:(lia)) as [x Hx]. rewrite Hx. destruct k as [|k].
      + eexists _, _, _. split; [reflexivity|]. rewrite Nat.add_0_r. split; [|lia]. rewrite Hx. done.
      + cbn [lookup list_lookup]. destruct (IH (It (Some x) (length l) (S (it_idx it))) eq_refl Hne k) as (b & c & i & H1 & H2 & H3); [lia|].
        exists b, c, i. cbn [it_idx] in *. split; [done|]. replace (it_idx it + S k) with (S (it_idx it) + k) by lia. auto.
  Qed.

  Lemma next_symbol_calls n k : k < n -> exists b c i, next_calls nx n iter_new !! k = Some (b, c, i)
      /\ (k < length l -> b = true /\ c = l !! k /\ i = k)
      /\ (length l <= k -> b = false).
  Proof.
    intros Hk. destruct (Nat.eq_dec (length l) 0) as [E|Hne].
    - assert (H : forall n it, it_ln it = 0 -> forall k, k < n -> exists c i, next_calls nx n it !! k = Some (false, c, i)).
      { clear -E. induction n as [|n IH]; intros it Hl k Hk; [lia|]. cbn [next_calls].
        unfold next_symbol at 1. rewrite Hl, E. simpl. destruct k as [|k].
        - eexists _, _. reflexivity.
        - apply IH; [done|lia]. }
      destruct (H n iter_new eq_refl k Hk) as (c & i & Hc). exists false, c, i. split; [done|]. split; [lia|done].
    - destruct n as [|n]; [lia|]. cbn [next_calls]. unfold next_symbol at 1. cbn [iter_new it_ln it_idx it_cur Nat.eqb].
      destruct (Nat.eqb_spec (length l) 0); [lia|]. destruct (Nat.leb_spec (length l) 0); [lia|].
      destruct (lookup_lt_is_Some_2 l 0 ltac:(lia)) as [x Hx]. rewrite Hx. destruct k as [|k].
      + eexists _, _, _. split; [reflexivity|]. split; [|lia]. done.
      + cbn [lookup list_lookup]. destruct (next_from n (It (Some x) (length l) 0) eq_refl Hne k) as (b & c & i & H1 & H2 & H3); [lia|].
        exists b, c, i. cbn [it_idx] in *. auto.
  Qed.

  (** On a non-nil list both iterators do the same. *)
  Lemma next_same it : it_ln it = 0 \/ it_ln it = length l -> next_production (Some l) it = nx it.
  Proof.
    intros H. unfold next_production, next_symbol. destruct (Nat.eqb_spec (it_ln it) 0) as [E|E].
    - destruct (Nat.eqb_spec (length l) 0); [done|]. cbn [it_ln it_idx it_cur].
      destruct (Nat.leb_spec (length l) (it_idx it)); [done|].
      destruct (lookup_lt_is_Some_2 l (it_idx it) ltac:(lia)) as [x ->]. done.
    - cbn [it_ln it_idx it_cur]. destruct (Nat.leb_spec (it_ln it) (S (it_idx it))); [done|].
      destruct (lookup_lt_is_Some_2 l (S (it_idx it)) ltac:(lia)) as [x ->]. done.
  Qed.
  Lemma next_ln it : it_ln it = 0 \/ it_ln it = length l ->
    it_ln (snd (nx it)) = 0 \/ it_ln (snd (nx it)) = length l.
  Proof.
    intros H. unfold next_symbol. destruct (Nat.eqb_spec (it_ln it) 0) as [E|E].
    - destruct (Nat.eqb_spec (length l) 0); [simpl; auto|]. cbn [it_ln it_idx it_cur].
      destruct (length l <=? it_idx it); simpl; auto.
    - cbn [it_ln it_idx it_cur]. destruct (it_ln it <=? S (it_idx it)); simpl; tauto.
  Qed.
  Lemma next_calls_same n : forall it, it_ln it = 0 \/ it_ln it = length l ->
    next_calls (next_production (Some l)) n it = next_calls nx n it.
  Proof.
    induction n as [|n IH]; intros it H; [done|]. cbn [next_calls]. rewrite next_same by done.
    pose proof (next_ln it H). destruct (nx it) as [b it']. f_equal. apply IH. done.
  Qed.
  Lemma next_production_calls n k : k < n -> exists b c i, next_calls (next_production (Some l)) n iter_new !! k = Some (b, c, i)
      /\ (k < length l -> b = true /\ c = l !! k /\ i = k)
      /\ (length l <= k -> b = false).
  Proof. rewrite next_calls_same by (left; done). apply next_symbol_calls. Qed.
End P.
