From Verif.model Require Import Packrat.
From Verif.proofs Require Import Fuel.
From Coq Require Import Lia.

Lemma compare_priority_mono m n n' td td2 : n <= n' ->
  rle (compare_priority n m td td2) (compare_priority n' m td td2).
Proof.
  revert n' td td2. induction n as [|n IH]; intros [|n'] td td2 Hle; try lia; try apply rle_oof.
  cbn [compare_priority]. destruct (td_prio td =? td_prio td2); [|apply rle_refl].
  generalize (td_children td2) as cs2. induction (td_children td) as [|c cs IHc]; intros cs2; [apply rle_refl|].
  destruct cs2 as [|c2 cs2]; [apply rle_refl|]. destruct (decide (c = c2)); [apply IHc|].
  apply rle_bind; [apply IH; lia|]. intros z. destruct (z =? 0)%Z; [apply IHc|apply rle_refl].
Qed.

Lemma circular_mono m n n' td root : n <= n' ->
  rle (circular n m td root) (circular n' m td root).
Proof.
  revert n' td. induction n as [|n IH]; intros [|n'] td Hle; try lia; try apply rle_oof.
  cbn [circular]. induction (td_children td) as [|c cs IHc]; [apply rle_refl|].
  destruct (decide (c = root)); [apply rle_refl|].
  apply rle_bind; [apply IH; lia|]. intros []; [apply rle_refl|apply IHc].
Qed.

Lemma add_to_memo_mono n n' s td : n <= n' -> rle (add_to_memo n s td) (add_to_memo n' s td).
Proof.
  intros Hle. unfold add_to_memo. destruct (memo s !! td_key td); [|apply rle_refl].
  apply rle_bind; [by apply compare_priority_mono|]. intros z. destruct (z =? 1)%Z; [|apply rle_refl].
  apply rle_bind; [by apply circular_mono|]. intros; apply rle_refl.
Qed.

Section Op.
  Variable prods : nat -> option (list (list nat)).
  Variable nonterms : list bool.
  Variable kinds : list nat.

  Lemma check_mono n n' s at_ : n <= n' ->
    rle (check_non_terminal n kinds s at_) (check_non_terminal n' kinds s at_).
  Proof.
    intros Hle. unfold check_non_terminal. destruct (kinds !! snd at_) as [k|]; [|apply rle_refl].
    destruct (fst at_ =? k); [|apply rle_refl].
    apply rle_bind; [by apply add_to_memo_mono|]. intros; apply rle_refl.
  Qed.

  Lemma add_prods_mono n n' f f' root s : n <= n' -> f <= f' ->
    rle (add_prods n prods nonterms kinds f root s) (add_prods n' prods nonterms kinds f' root s).
  Proof.
    intros Hn. revert f' root s. induction f as [|f IH]; intros [|f'] root s Hf; try lia; try apply rle_oof.
    cbn [add_prods]. destruct (bool_decide _); [apply rle_refl|].
    destruct (prods (fst root)) as [ps|]; [|apply rle_refl].
    match goal with |- rle (?F 0 ps ?x) (?G 0 ps _) => assert (H : forall i s1, rle (F i ps s1) (G i ps s1)); [|apply H] end.
    clear s. induction ps as [|[|sym p] ps IHps]; intros i s1; [apply rle_refl| |].
    - apply rle_bind; [by apply add_to_memo_mono|]. intros; apply IHps.
    - apply rle_bind; [|intros; apply IHps].
      destruct (nonterms !! _) as [isnt|]; [|apply rle_refl].
      apply rle_bind.
      + destruct isnt; [apply rle_refl|]. apply rle_bind; [by apply check_mono|]. intros []; apply rle_refl.
      + intros s2. apply IH. lia.
  Qed.

  Lemma add_partial_mono n n' f f' tp req s : n <= n' -> f <= f' ->
    rle (add_partial n prods nonterms kinds f tp req s) (add_partial n' prods nonterms kinds f' tp req s).
  Proof.
    intros Hn Hf. unfold add_partial. destruct (nonterms !! _) as [isnt|]; [|apply rle_refl].
    apply rle_bind.
    - destruct isnt; [apply rle_refl|]. apply rle_bind; [by apply check_mono|]. intros []; apply rle_refl.
    - intros s2. by apply add_prods_mono.
  Qed.

  Lemma update_mono n n' f f' b x s : n <= n' -> f <= f' ->
    rle (update n prods nonterms kinds f b x s) (update n' prods nonterms kinds f' b x s).
  Proof.
    intros Hn. revert f' b x s. induction f as [|f IH]; intros [|f'] b x s Hf; try lia; try apply rle_oof.
    cbn [update]. destruct (_ =? _); [by apply add_to_memo_mono|].
    destruct (_ !! _); [|apply rle_refl].
    apply rle_bind; [by apply check_mono|]. intros [s' [td|]]; [apply IH; lia|by apply add_partial_mono].
  Qed.

  Lemma run_mono n n' f f' s : n <= n' -> f <= f' ->
    rle (run n prods nonterms kinds f s) (run n' prods nonterms kinds f' s).
  Proof.
    intros Hn. revert f' s. induction f as [|f IH]; intros f' s Hf; cbn [run].
    - destruct f'; cbn [run]; destruct (stack s) as [|[b x] r]; try apply rle_refl; apply rle_oof.
    - destruct f'; [lia|]. cbn [run]. destruct (stack s) as [|[b x] r]; [apply rle_refl|].
      apply rle_bind; [by apply update_mono|]. intros s'. apply IH. lia.
  Qed.
End Op.

Lemma to_pn_mono n n' lxms m name td : n <= n' -> rle (to_pn n lxms m name td) (to_pn n' lxms m name td).
Proof.
  revert n' td. induction n as [|n IH]; intros [|n'] td Hle; try lia; try apply rle_oof.
  cbn [to_pn]. destruct (td_key td) as [[idx start] e].
  apply rle_bind.
  - apply rle_rmap. intros c. apply IH. lia.
  - intros. apply rle_refl.
Qed.

Lemma packrat_parse_mono g lxs : fuel_mono (fun n => packrat_parse n g lxs).
Proof.
  intros n m Hle. unfold packrat_parse. destruct (g_nts g) as [|nt0 nts]; [apply rle_refl|].
  apply rle_bind; [apply rle_refl|]. intros set1.
  destruct (load_lexemes set1 lxs) as [lxms st].
  apply rle_bind; [by apply add_prods_mono|]. intros s1.
  apply rle_bind; [by apply run_mono|]. intros s2.
  destruct (_ =? _); [|apply rle_refl].
  apply rle_bind; [by apply to_pn_mono|]. intros; apply rle_refl.
Qed.
