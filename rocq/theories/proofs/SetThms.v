From Coq Require Import String.
From Verif.model Require Import SetSym.
From Verif.proofs Require Import SetProofs.
From Coq Require Import Lia.

Lemma by_idx_exact s idx :
  match by_idx s idx with
  | None => (Z.of_nat (sym_count s) < idx)%Z
  | Some v => v = idx /\ (idx <= Z.of_nat (sym_count s))%Z
      /\ ((exists x, sym_string s v = Ok x) <-> (0 <= idx < Z.of_nat (sym_count s))%Z)
      /\ (sym_string s v = Panic <-> ~ (0 <= idx < Z.of_nat (sym_count s))%Z)
  end.
Proof.
  unfold by_idx, sym_count. destruct (Z.ltb_spec (Z.of_nat (length (symb2str s))) idx); [done|].
  split; [done|]. split; [done|]. unfold sym_string. destruct (Z.ltb_spec idx 0).
  - split; split; try done; try lia; [intros [x Hx]; done].
  - destruct (symb2str s !! Z.to_nat idx) as [x|] eqn:E.
    + apply lookup_lt_Some in E. split; split; try lia; [eauto|done].
    + apply lookup_ge_None in E. split; split; try lia; [intros [x Hx]; done|done].
Qed.

Definition one : set := snd (set_str set_new (L "a")).
Lemma by_idx_refuted : exists s v, set_after set_new [SStr (L "a")] = Ok s
  /\ by_idx s (Z.of_nat (sym_count s)) = Some v /\ sym_string s v = Panic.
Proof. exists one. eexists. split_and!; vm_compute; reflexivity. Qed.
Lemma by_idx_neg_refuted : exists s v, set_after set_new [SStr (L "a")] = Ok s
  /\ by_idx s (-1) = Some v /\ sym_string s v = Panic.
Proof. exists one. eexists. split_and!; vm_compute; reflexivity. Qed.
Lemma idx_refuted : exists s x, set_after set_new [SStr (L "a")] = Ok s /\ set_idx s (Foreign x) = (-1)%Z.
Proof. exists one, (L "b"). split; vm_compute; reflexivity. Qed.

Lemma idx_exact ops s x : set_after set_new ops = Ok s ->
  (set_has s x = true -> set_idx s (Foreign x) = Z.of_nat (fst (set_str s x)))
  /\ (set_has s x = false -> set_idx s (Foreign x) = (-1)%Z)
  /\ set_has_symbol s (Foreign x) = (if set_has s x then Some (fst (set_str s x)) else None)
  /\ forall v, set_has_symbol s (Own v) = Some v /\ set_idx s (Own v) = Z.of_nat v.
Proof.
  intros _. unfold set_has, set_idx, set_has_symbol, set_str. destruct (str2sym s !! x); simpl; done.
Qed.

Lemma load_lexemes_same ops s lxs o s' : set_after set_new ops = Ok s -> load_lexemes s lxs = (o, s') ->
  map snd o = lxs
  /\ Forall (fun x => sym_string s' (Z.of_nat (fst x)) = Ok (lx_kind (snd x))) o.
Proof.
  intros Hops H. destruct (set_after_le _ _ _ set_new_wf Hops) as [Hw _].
  destruct (load_lexemes_spec _ _ _ _ Hw H) as (_ & _ & H1 & H2). split; [done|].
  eapply Forall_impl; [exact H2|]. intros x Hx. apply sym_string_nat; done.
Qed.

Lemma load_lexemes_ex : exists s o s', set_after set_new [SStr (L "a")] = Ok s
  /\ load_lexemes s [Lx (L "b") (L "1") 1 2; Lx (L "a") (L "2") 1 3] = (o, s') /\ map fst o = [1; 0].
Proof. exists one. eexists _, _. split; [vm_compute; reflexivity|]. split; [vm_compute; reflexivity|]. reflexivity. Qed.
