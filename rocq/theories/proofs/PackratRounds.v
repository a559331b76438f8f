(** The number of rounds of packrat's loop. *)
From Coq Require Import Lia.
From Verif.spec Require Import Outcome PackratSpec CostSpec.
From Verif.proofs Require Import Fuel PackratCore PackratFuel PackratProofs.
From Verif.proofs Require Import SetProofs.
Local Open Scope nat_scope.

Lemma sum_app l k : sum (l ++ k) = sum l + sum k.
Proof. induction l as [|x l IH]; [done|]. cbn [app sum fold_right]. unfold sum in *. lia. Qed.
Lemma sum_le {A} (f h : A -> nat) l : (forall x, x ∈ l -> f x <= h x) -> sum (map f l) <= sum (map h l).
Proof.
  induction l as [|x l IH]; intros H; [done|]. cbn [map sum fold_right]. unfold sum in *.
  pose proof (H x ltac:(left)). assert (forall y, y ∈ l -> f y <= h y) as H2 by (intros y Hy; apply H; right; done).
  specialize (IH H2). lia.
Qed.
Lemma sum_mul c l : sum (map (fun x => x * c) l) = sum l * c.
Proof. induction l as [|x l IH]; [done|]. cbn [map sum fold_right]. unfold sum in *. lia. Qed.
Lemma flat_map_len {A B} (f : A -> list B) l : length (flat_map f l) = sum (map (fun x => length (f x)) l).
Proof. induction l as [|x l IH]; [done|]. cbn [flat_map map sum fold_right]. rewrite app_length, IH. done. Qed.
Lemma sum_const {A} c (l : list A) : sum (map (fun _ => c) l) = length l * c.
Proof. induction l as [|x l IH]; [done|]. cbn [map sum fold_right length]. unfold sum in *. lia. Qed.
(** Summing over distinct elements, all but those of weight 0 in the other list. *)
Lemma sum_sub {A} (w : A -> nat) : forall l k, NoDup l -> (forall x, x ∈ l -> w x <> 0 -> x ∈ k) -> sum (map w l) <= sum (map w k).
Proof.
  induction l as [|x l IH]; intros k Hn Hs; [unfold sum; simpl; lia|].
  apply NoDup_cons in Hn as [Hx Hn]. cbn [map sum fold_right].
  destruct (decide (w x = 0)) as [E|E].
  { rewrite E. apply (IH k Hn). intros y Hy. apply Hs. right; done. }
  destruct (elem_of_list_split _ _ (Hs x ltac:(left) E)) as (k1 & k2 & ->).
  assert (H : sum (map w l) <= sum (map w (k1 ++ k2))).
  { apply IH; [done|]. intros y Hy Hw. pose proof (Hs y ltac:(right; done) Hw) as H.
    apply elem_of_app in H as [H|H]; [apply elem_of_app; auto|]. apply elem_of_cons in H as [->|H]; [done|apply elem_of_app; auto]. }
  rewrite map_app, sum_app in *. cbn [map sum fold_right]. unfold sum in *. lia.
Qed.

(** The non-empty beginnings of rows of children for the symbols [ss] from [pos]. *)
Fixpoint chains (n : nat) (ss : list nat) (pos : nat) : list (list key) :=
  match ss with
  | [] => []
  | x :: r => flat_map (fun e => [((x, pos), e)] :: map (cons ((x, pos), e)) (chains n r e)) (seq 0 (S n))
  end.
Lemma chains_len n : forall ss pos, length (chains n ss pos) <= length ss * S n ^ length ss.
Proof.
  induction ss as [|x r IH]; intros pos; [done|]. cbn [chains]. rewrite flat_map_len.
  etransitivity; [apply sum_le with (h := fun _ => S (length r * S n ^ length r))|].
  - intros e _. cbn [length]. rewrite map_length. specialize (IH e). lia.
  - rewrite sum_const, seq_length. cbn [length]. rewrite Nat.pow_succ_r'.
    pose proof (Nat.pow_nonzero (S n) (length r) ltac:(lia)). nia.
Qed.
Lemma elem_chains n : forall ss cs k rest pos e, spans ss cs pos (snd (fst k)) -> snd (fst k) <= n -> snd k <= n ->
  (forall c, c ∈ cs -> snd c <= n) -> e = cs ++ [k] -> In e (chains n (ss ++ fst (fst k) :: rest) pos).
Proof.
  induction ss as [|x ss IH]; intros [|c cs] k rest pos e Hs Hi Hj Hc ->; try done.
  - cbn [spans] in Hs. subst pos. cbn [app chains]. apply in_flat_map. exists (snd k). split; [apply in_seq; lia|].
    left. destruct k as [[a i] j]; done.
  - cbn [spans] in Hs. destruct Hs as [E Hs]. cbn [app chains]. apply in_flat_map. exists (snd c).
    split; [apply in_seq; pose proof (Hc c ltac:(left)); lia|]. right.
    assert (((x, pos), snd c) = c) as -> by (destruct c; simpl in *; congruence).
    apply in_map. eapply IH; eauto. intros y Hy. apply Hc. right; done.
Qed.

Section R.
  Context (prods : nat -> option (list (list nat))) (nonterms : list bool) (kinds : list nat) (start : nat).
  Hypothesis Hnt : forall s, nonterms !! s = Some true <-> is_Some (prods s).
  Hypothesis Hsz : forall s ps p x, prods s = Some ps -> p ∈ ps -> x ∈ p -> is_Some (nonterms !! x).
  Hypothesis Hkd : forall A i ps X Y r j, predicted prods nonterms kinds start A i -> kinds !! i = Some A -> prods A = Some ps ->
    (X :: Y :: r) ∈ ps -> dk prods nonterms kinds X i j -> False.
  Notation n := (length kinds).

  (** What may be on the stack. *)
  Definition ids (idx : nat) : list (marker * nat * list key) :=
    flat_map (fun i => flat_map (fun p => map (fun cs => ((idx, i), p, cs)) (chains n (default [] (default [] (prods idx) !! p)) i))
      (seq 0 (length (default [] (prods idx))))) (seq 0 (S n)).
  Definition all_ids := flat_map ids (seq 0 (length nonterms)).

  Lemma stack_ids s x : WF prods nonterms kinds start s -> x ∈ stack s -> uid x ∈ all_ids.
  Proof using Hnt.
    destruct x as [tp k]. intros Hw Hin. destruct (wf_stack _ _ _ _ _ Hw _ _ Hin) as [Hpo Hk].
    assert (HU : forall c, is_Some (memo s !! c) -> snd c <= n).
    { intros c [d Hd]. destruct (wf_memo _ _ _ _ _ Hw _ _ Hd) as (_ & _ & [_ H] & _). exact H. }
    destruct Hpo as (ps & dn & rs & P1 & P2 & P3 & P4 & P5 & P6 & P7 & P8).
    unfold all_ids. apply elem_of_list_In, in_flat_map. exists (fst (td_marker (tp_def tp))). split.
    { apply in_seq. pose proof (lookup_lt_Some _ _ _ (proj2 (Hnt _) (ex_intro _ _ P1))). lia. }
    unfold ids. apply in_flat_map. exists (snd (td_marker (tp_def tp))). split; [apply in_seq; lia|].
    apply in_flat_map. exists (td_prio (tp_def tp)). rewrite P1. cbn [default from_option]. unfold id. split.
    { apply in_seq. apply lookup_lt_Some in P2. lia. }
    unfold uid. cbn [fst snd]. rewrite P2. cbn [default from_option]. unfold id. apply in_map_iff.
    exists (td_children (tp_def tp) ++ [k]). split; [by destruct (td_marker (tp_def tp))|].
    rewrite P3. eapply elem_chains; [exact P4|exact P7|apply HU; done| |reflexivity].
    intros c Hc. apply HU, P5. done.
  Qed.

  Section F.
  Variable fuel0 : nat.
  Hypothesis Hf0 : S (KU nonterms kinds) < fuel0.
  Lemma run_rounds : forall fuel s hist,
    WF prods nonterms kinds start s -> NN s hist -> Cl prods nonterms kinds s [] [] -> (forall u, u ∈ hist -> u ∈ all_ids) ->
    unq nonterms kinds s < fuel0 -> length all_ids - length hist <= fuel ->
    exists s', run fuel0 prods nonterms kinds fuel s = Ok s'.
  Proof using Hf0 Hnt Hsz Hkd.
    induction fuel as [|fuel IH]; intros s hist Hw HN HC Hid Hunq Hf; cbn [run];
      destruct (stack s) as [|[b x] rest] eqn:Hst; try (by eexists).
    - exfalso. pose proof (stack_ids s (b, x) Hw ltac:(rewrite Hst; left)) as Hx.
      assert (Hlen : length (hist ++ [uid (b, x)]) <= length all_ids).
      { apply NoDup_subset_length.
        - pose proof (nn_nodup _ _ HN) as Hnd. rewrite Hst, fmap_cons in Hnd.
          change (hist ++ uid (b, x) :: (uid <$> rest)) with (hist ++ [uid (b, x)] ++ (uid <$> rest)) in Hnd.
          rewrite app_assoc in Hnd. apply NoDup_app in Hnd as (Hnd & _). exact Hnd.
        - intros u Hu. apply elem_of_app in Hu as [Hu|Hu]; [auto|]. apply elem_of_list_singleton in Hu as ->. done. }
      rewrite app_length in Hlen. cbn [length] in Hlen. lia.
    - destruct (update_spec prods nonterms kinds start Hnt Hsz Hkd fuel0 Hf0 s b x rest hist fuel0 Hst Hw HN HC) as (s1 & Hs1 & Hw1 & HN1 & HC1 & Hu1 & Hq1); auto; try lia.
      { intros m i Hin; inversion Hin. }
      rewrite Hs1. cbn [rbind].
      apply (IH s1 (hist ++ [uid (b, x)])); auto.
      + intros u Hu. apply elem_of_app in Hu as [Hu|Hu]; [auto|]. apply elem_of_list_singleton in Hu as ->.
        apply (stack_ids s); [done|]. rewrite Hst. left.
      + rewrite app_length. cbn [length]. lia.
  Qed.
  End F.
End R.

Lemma map_seq_lookup {A} (f : option A -> nat) (l : list A) :
  sum (map (fun i => f (l !! i)) (seq 0 (length l))) = sum (map (fun x => f (Some x)) l).
Proof.
  induction l as [|x l IH]; [done|]. cbn [length seq map]. rewrite <- seq_shift, map_map. cbn [sum fold_right].
  f_equal. exact IH.
Qed.

Section B.
  Context (g : grammar) (st : set) (lxms : list (nat * lexeme)) (k : nat).
  Hypothesis Hg : g_wf g.
  Hypothesis Hst : set_wf st.
  Hypothesis Hk : at_most k g.
  Notation kinds := (map fst lxms).
  Notation n := (length lxms).
  Notation nonterms := (mark_nonterms st (g_nts g) (replicate (sym_count st) false)).
  Definition weight (nt : gostring) : nat := sum (map (@length gostring) (default [] (g_prods g nt))).

  Lemma ids_len idx : length (ids (prods_of g st) kinds idx)
    <= from_option weight 0 (symb2str st !! idx) * S n ^ S k.
  Proof using Hk.
    unfold ids. rewrite map_length, flat_map_len. destruct (symb2str st !! idx) as [nm|] eqn:E.
    2:{ unfold prods_of. rewrite E. cbn [default from_option]. unfold id. cbn [length seq flat_map].
        rewrite (sum_const (A := nat) 0). lia. }
    cbn [from_option]. unfold prods_of at 1 2. rewrite E. unfold weight.
    destruct (g_prods g nm) as [qs|] eqn:Eq; cbn [option_map default from_option]; unfold id.
    2:{ cbn [length seq flat_map]. rewrite (sum_const (A := nat) 0). lia. }
    etransitivity; [apply sum_le with (h := fun _ => sum (map (@length gostring) qs) * S n ^ k)|].
    2:{ rewrite sum_const, seq_length, Nat.pow_succ_r'. lia. }
    intros i _. rewrite flat_map_len.
    assert (HL : sum (map (fun q => length q * S n ^ k) qs) = sum (map (@length gostring) qs) * S n ^ k).
    { rewrite <- sum_mul, map_map. done. }
    rewrite <- HL. pose proof (map_seq_lookup (fun o => from_option (fun q : list gostring => length q * S n ^ k) 0 o) qs) as HM.
    cbn [from_option] in HM. rewrite <- HM, map_length.
    apply sum_le. intros j Hj. rewrite map_length.
    rewrite list_lookup_fmap. destruct (qs !! j) as [q|] eqn:Ej; cbn [fmap option_fmap option_map default from_option]; unfold id; [|cbn [chains length]; lia].
    etransitivity; [apply chains_len|]. rewrite map_length. apply Nat.mul_le_mono_l. apply Nat.pow_le_mono_r; [lia|].
    apply (Hk nm qs q Eq). eapply elem_of_list_lookup_2; exact Ej.
  Qed.

  Lemma all_len : length (all_ids (prods_of g st) nonterms kinds) <= written g * S n ^ S k.
  Proof using Hg Hst Hk.
    unfold all_ids. rewrite flat_map_len.
    etransitivity; [apply sum_le; intros idx _; apply ids_len|].
    rewrite (nonterms_len g st).
    rewrite (map_seq_lookup (fun o => from_option weight 0 o * S n ^ S k)). cbn [from_option].
    rewrite <- (map_map weight (fun x => x * S n ^ S k)), sum_mul. apply Nat.mul_le_mono_r.
    unfold written. fold weight. apply sum_sub.
    - apply NoDup_alt. intros i j x Hi Hj. apply Hst in Hi, Hj. congruence.
    - intros x _ Hx. apply Hg. unfold weight in Hx. destruct (g_prods g x); [eauto|done].
  Qed.
End B.

Theorem rounds g lexemes k : g_wf g -> not_mistaken g lexemes -> at_most k g ->
  exists r, returns (fun fuel => parse_within (written g * S (length lexemes) ^ S k) fuel g lexemes) r
    /\ returns (fun fuel => packrat_parse fuel g lexemes) r.
Proof.
  intros Hg Hnm Hk.
  cut (exists F, forall fuel, F <= fuel -> parse_within (written g * S (length lexemes) ^ S k) fuel g lexemes = packrat_parse fuel g lexemes).
  { intros [F H].
    assert (exists r, returns (fun fuel => packrat_parse fuel g lexemes) r) as [r [F2 Hr]].
    { destruct (decide (Exists (fun lx => g_prods g (lx_kind lx) <> None) lexemes)) as [He|He].
      - apply Exists_exists in He as (lx & Hin & Hp). exists None. exact (packrat_refuses g lexemes lx Hg Hnm Hin Hp).
      - destruct (packrat_main g lexemes Hg) as (r & Hr & _); [|by exists r].
        intros lx Hin. destruct (g_prods g (lx_kind lx)) eqn:E; [|done]. destruct He. apply Exists_exists. exists lx. rewrite E. done. }
    exists r. split; [|by exists F2]. exists (F + F2). intros fuel Hf. rewrite H by lia. apply Hr. lia. }
  destruct (g_nts g) as [|s0 rest] eqn:Hn.
  { exists 0. intros. unfold packrat_parse, parse_within. by rewrite Hn. }
  destruct (load_grammar_ok g Hg) as (set1 & Hl & Hw1 & Hk1 & Hk1').
  destruct (load_lexemes set1 lexemes) as [lxms st] eqn:El.
  destruct (load_lexemes_spec _ _ _ _ Hw1 El) as (Hst & Hle & Hlx & Hlk).
  assert (Hknt : forall nt, nt ∈ g_nts g -> known st nt).
  { intros nt Hnt. apply (known_le set1 st); auto. }
  assert (Hkp : forall nt ps p x, g_prods g nt = Some ps -> p ∈ ps -> x ∈ p -> known st x).
  { intros. apply (known_le set1 st); eauto. }
  pose proof (all_len g st lxms k Hg Hst Hk) as HB.
  assert (length lxms = length lexemes) as Hlen by (rewrite <- Hlx, map_length; done). rewrite Hlen in HB.
  set (bound := written g * S (length lexemes) ^ S k) in *. clearbody bound.
  set (prods := prods_of g st) in *.
  set (nonterms := mark_nonterms st (g_nts g) (replicate (sym_count st) false)) in *.
  set (kinds := map fst lxms) in *.
  pose proof (inst_nt g st Hg Hst Hknt) as Hnt.
  pose proof (inst_sz g st Hst Hkp) as Hsz.
  pose proof (inst_kd g lexemes st lxms Hg Hst Hknt Hkp Hlx Hlk s0 rest Hn Hnm) as Hkd.
  set (start := fst (set_str st s0)).
  assert (Hks0 : known st s0) by (apply Hknt; rewrite Hn; left).
  exists (S (S (KU nonterms kinds)) + S (size (MU nonterms kinds)) + bound). intros F HF.
  assert (Hstart : start < length nonterms).
  { destruct (known_lt g st Hst s0 Hks0) as [b Hb]. eapply lookup_lt_Some; exact Hb. }
  assert (Hf0 : S (KU nonterms kinds) < F) by lia.
  assert (Hunq : unq nonterms kinds pst_init < F).
  { unfold unq. cbn [pst_init queued]. rewrite difference_empty_L. lia. }
  unfold packrat_parse, parse_within. rewrite Hn, Hl. cbn [rbind]. rewrite El. rewrite <- Hn.
  fold prods. fold nonterms. fold kinds. fold start.
  destruct (add_prods_spec prods nonterms kinds start Hnt Hsz Hkd F Hf0 F (start, 0) pst_init [] [] []) as (s1 & Hs1 & (Hw1' & HN1 & HC1 & He1) & Hr & _); auto.
  - cbn [snd]. lia.
  - constructor.
  - apply init_WF.
  - apply init_NN.
  - intros m Hm. cbn [pst_init queued] in Hm. set_solver.
  - intros m i Hin. inversion Hin.
  - rewrite Hs1. cbn [rbind].
    destruct (run_rounds prods nonterms kinds start Hnt Hsz Hkd F Hf0 bound s1 []) as (s2 & Hs2); auto.
    + intros u Hu. inversion Hu.
    + pose proof (unq_mono prods nonterms kinds start Hnt Hsz Hkd F Hf0 _ _ He1). lia.
    + cbn [length]. lia.
    + rewrite Hs2. pose proof (run_mono prods nonterms kinds F F bound F s1 ltac:(lia) ltac:(lia)) as Hle2.
      rewrite Hs2 in Hle2. destruct Hle2 as [Hle2|Hle2]; [discriminate|]. rewrite <- Hle2. done.
Qed.
