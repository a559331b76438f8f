(** IsLeftRecursive looks up the productions of a symbol at most twice. *)
From Coq Require Import Lia.
From Verif.model Require Import Threads.
From Verif.spec Require Import GrammarSpec ThreadSpec CostSpec.
From Verif.proofs Require Import GrammarProofs GrammarThms ThreadProofs LookupProofs SetProofs.
Local Open Scope nat_scope.

Section S.
  Variable g : gr.
  Hypothesis Hb : built g.
  Notation V := (gr_view g).
  Notation lk := (map (fun x : gostring => CProductions (x, true))).

  (** The looked-up symbols are new, except for a last one when the answer is yes. [tell]
      reads the answer and the new state off the result. *)
  Definition lcov {A} (tell : A -> bool * lrst) (st : lrst) (l : list call) (r : res A) : Prop :=
    exists ms tail, l = lk (ms ++ tail) /\ NoDup ms /\ (forall m, m ∈ ms -> m ∉ fst st /\ m ∉ snd st) /\ length tail <= 1
      /\ forall a, r = Ok a -> fst (tell a) = false -> tail = [] /\ snd (snd (tell a)) = snd st
           /\ forall m, m ∈ fst (snd (tell a)) <-> m ∈ ms \/ m ∈ fst st.
  Definition t3 (x : bool * bool * lrst) : bool * lrst := (fst (fst x), snd x).
  Definition stacked (st : lrst) : Prop := forall x, x ∈ snd st -> is_Some (g_prods V x).

  Lemma lcov_nil {A} (tell : A -> bool * lrst) st r : (forall a, r = Ok a -> fst (tell a) = false -> snd (tell a) = st) -> lcov tell st [] r.
  Proof.
    intros H. exists [], []. split_and!; [done|constructor|intros m Hm; inversion Hm|cbn; lia|].
    intros a E F. rewrite (H a E F). split_and!; [done|done|]. intros m. split; [auto|]. intros [Hm|Hm]; [inversion Hm|done].
  Qed.
  Lemma lcov_bind {A B : Type} (tA : A -> bool * lrst) (tB : B -> bool * lrst) st l1 r1 l2 h :
    lcov tA st l1 r1 ->
    (forall a, r1 = Ok a -> fst (tA a) = true -> l2 a = [] /\ forall b, h a = Ok b -> fst (tB b) = true) ->
    (forall a, r1 = Ok a -> fst (tA a) = false -> snd (snd (tA a)) = snd st -> lcov tB (snd (tA a)) (l2 a) (h a)) ->
    lcov tB st (l1 ++ match r1 with Ok a => l2 a | _ => [] end) (rbind r1 h).
  Proof.
    intros (ms & tail & -> & Hnd & Hm & Ht & Hr) H1 H2. destruct r1 as [a| |]; cbn [rbind].
    2,3: exists ms, tail; rewrite app_nil_r; split_and!; done.
    destruct (fst (tA a)) eqn:Ef.
    - destruct (H1 a eq_refl Ef) as [-> H3]. rewrite app_nil_r. exists ms, tail. split_and!; [done|done|done|done|].
      intros b Eb Fb. rewrite (H3 b Eb) in Fb. done.
    - destruct (Hr a eq_refl Ef) as (-> & Hs & Hc). destruct (H2 a eq_refl Ef Hs) as (ms2 & tail2 & -> & Hnd2 & Hm2 & Ht2 & Hr2).
      exists (ms ++ ms2), tail2. split_and!; [|apply NoDup_app; split_and!; [done| |done]| |done|].
      + rewrite !map_app, app_nil_r, app_assoc. done.
      + intros m M1 M2. apply Hm2 in M2 as [M2 _]. apply M2, Hc. by left.
      + intros m M. apply elem_of_app in M as [M|M]; [by apply Hm|]. destruct (Hm2 m M) as [M1 M2]. rewrite Hs in M2. split; [|done].
        intros M3. apply M1, Hc. by right.
      + intros b Eb Fb. destruct (Hr2 b Eb Fb) as (-> & Hs2 & Hc2). split_and!; [done|congruence|].
        intros m. rewrite Hc2, Hc, elem_of_app. tauto.
  Qed.

  Section Chk.
    Variable chk_p : lrst -> gostring -> prog (res (bool * bool * lrst)).
    Variable chk : lrst -> gostring -> res (bool * bool * lrst).
    Hypothesis Hcalm : forall st x, mentions V x -> calm g (chk_p st x) (chk st x).
    Hypothesis Hchk : forall st x, mentions V x -> stacked st -> lcov t3 st (asked g (chk_p st x)) (chk st x).

    Lemma prod_lcov p : (forall x, x ∈ p -> mentions V x) -> forall st, stacked st ->
      lcov id st (asked g (lr_prod_p chk_p p st)) (lr_prod chk p st).
    Proof using Hcalm Hchk.
      induction p as [|x p IH]; intros Hm st Hs; cbn [lr_prod lr_prod_p].
      { apply lcov_nil. by intros a [= <-]. }
      assert (Hmx : mentions V x) by (apply Hm; left).
      rewrite (asked_bind g _ _ _ (Hcalm st x Hmx)).
      apply (lcov_bind t3 id st _ _ (fun a => asked g (let '(isLR, checkNext, st1) := a in
        if isLR : bool then Done (Ok (true, st1)) else if checkNext : bool then lr_prod_p chk_p p st1 else Done (Ok (false, st1))))).
      - by apply Hchk.
      - intros [[isLR nx] st1] _ E. cbn [t3 fst snd] in E. subst isLR. split; [done|]. by intros b [= <-].
      - intros [[isLR nx] st1] _ E Es. cbn [t3 fst snd] in *. subst isLR. destruct nx.
        + apply IH; [intros y Hy; apply Hm; by right|]. intros y Hy. apply Hs. by rewrite <- Es.
        + apply lcov_nil. by intros a [= <-].
    Qed.
    Lemma prods_lcov ps : (forall p x, p ∈ ps -> x ∈ p -> mentions V x) -> forall ret st, stacked st ->
      lcov t3 st (asked g (lr_prods_p chk_p ps ret st)) (lr_prods chk ps ret st).
    Proof using Hcalm Hchk.
      induction ps as [|p ps IH]; intros Hm ret st Hs; cbn [lr_prods lr_prods_p].
      { apply lcov_nil. by intros a [= <-]. }
      assert (Hm' : forall p' x, p' ∈ ps -> x ∈ p' -> mentions V x) by (intros p' x Hp Hx; apply (Hm p' x); [by right|done]).
      assert (Hmp : forall x, x ∈ p -> mentions V x) by (intros x Hx; apply (Hm p x); [left|done]).
      destruct p as [|x p]; [by apply IH|].
      rewrite (asked_bind g _ _ _ (lr_prod_calm g chk_p chk (x :: p) Hcalm Hmp st)).
      apply (lcov_bind id t3 st _ _ (fun a => asked g (let '(isLR, st1) := a in
        if isLR : bool then Done (Ok (true, false, st1)) else lr_prods_p chk_p ps ret st1))).
      - by apply prod_lcov.
      - intros [isLR st1] _ E. cbn [id fst snd] in E. subst isLR. split; [done|]. by intros b [= <-].
      - intros [isLR st1] _ E Es. cbn [id fst snd] in *. subst isLR. apply IH; [done|]. intros y Hy. apply Hs. by rewrite <- Es.
    Qed.
  End Chk.

  Lemma check_lcov f : forall st x, mentions V x -> stacked st -> lcov t3 st (asked g (lr_check_p f st x)) (lr_check f V st x).
  Proof using Hb.
    induction f as [|f IH]; intros [checked stack] x Hm Hs; cbn [lr_check lr_check_p].
    { by apply lcov_nil. }
    destruct (decide (x ∈ checked)) as [Hc|Hc]; [apply lcov_nil; by intros a [= <-]|].
    rewrite (asked_bind g _ (Ok (g_prods V x))) by by apply ask_prods_calm.
    change (asked g (ask_prods x true)) with (lk [x]).
    destruct (g_prods V x) as [ps|] eqn:Ep.
    - destruct (decide (x ∈ stack)) as [Hx|Hx].
      { exists [], [x]. split_and!; [done|constructor|intros m M; inversion M|cbn; lia|]. by intros a [= <-]. }
      assert (Hmp : forall p y, p ∈ ps -> y ∈ p -> mentions V y) by (intros p y Hp Hy; right; by exists x, ps, p).
      assert (Hs1 : stacked (checked, {[x]} ∪ stack)).
      { intros y Hy. cbn [snd] in Hy. apply elem_of_union in Hy as [Hy|Hy]; [apply elem_of_singleton in Hy as ->; eauto|by apply Hs]. }
      pose proof (lr_check_calm g Hb f) as Hcalm.
      rewrite (asked_bind g _ _ _ (lr_prods_calm g (lr_check_p f) (lr_check f V) ps Hcalm Hmp false (checked, {[x]} ∪ stack))).
      destruct (prods_lcov (lr_check_p f) (lr_check f V) Hcalm IH ps Hmp false _ Hs1) as (ms & tail & -> & Hnd & Hms & Ht & Hr).
      exists (x :: ms), tail. split_and!; [|constructor; [|done]| |done|].
      + cbn [app map]. f_equal. destruct (lr_prods _ _ _ _) as [[[isLR ret] st1]| |]; [destruct isLR|..]; by rewrite app_nil_r.
      + intros M. apply Hms in M as [_ M]. apply M. cbn [snd]. set_solver.
      + intros m M. apply elem_of_cons in M as [->|M]; [done|]. destruct (Hms m M) as [M1 M2]. cbn [fst snd] in *. split; [done|set_solver].
      + intros a. destruct (lr_prods _ _ _ _) as [[[isLR ret] [ch1 sk1]]| |]; cbn [rbind]; try done.
        destruct isLR; [by intros [= <-]|]. intros [= <-] _. destruct (Hr _ eq_refl eq_refl) as (-> & Hsk & Hch). cbn [t3 fst snd] in *.
        split_and!; [done| |].
        * subst sk1. apply leibniz_equiv. intros y. rewrite elem_of_difference, elem_of_union, elem_of_singleton. split; [tauto|].
          intros Hy. split; [by right|]. intros ->. done.
        * intros m. rewrite elem_of_union, elem_of_singleton, Hch, elem_of_cons. tauto.
    - exists [x], []. split_and!; [done|apply NoDup_singleton| |cbn; lia|].
      + intros m M. apply elem_of_list_singleton in M as ->. cbn [fst snd]. split; [done|]. intros M. apply Hs in M as [? M]. congruence.
      + intros a [= <-] _. cbn [t3 fst snd]. split_and!; [done|done|]. intros m. rewrite elem_of_union, elem_of_singleton, elem_of_list_singleton. done.
  Qed.

  Lemma all_lcov f nts : (forall x, x ∈ nts -> mentions V x) -> forall checked,
    exists ms tail, asked g (lr_all_p f nts checked) = lk (ms ++ tail) /\ NoDup ms /\ (forall m, m ∈ ms -> m ∉ checked) /\ length tail <= 1.
  Proof using Hb.
    induction nts as [|nt nts IH]; intros Hm checked; cbn [lr_all_p].
    { exists [], []. split_and!; [done|constructor|intros m M; inversion M|cbn; lia]. }
    assert (Hmx : mentions V nt) by (apply Hm; left).
    rewrite (asked_bind g _ _ _ (lr_check_calm g Hb f (checked, ∅) nt Hmx)).
    destruct (check_lcov f (checked, ∅) nt Hmx) as (ms & tail & -> & Hnd & Hms & Ht & Hr); [intros y Hy; cbn [snd] in Hy; set_solver|].
    assert (HD : forall l, l = [] -> exists ms0 tail0, lk (ms ++ tail) ++ l = lk (ms0 ++ tail0) /\ NoDup ms0 /\ (forall m, m ∈ ms0 -> m ∉ checked) /\ length tail0 <= 1).
    { intros l ->. exists ms, tail. rewrite app_nil_r. split_and!; [done|done| |done]. intros m M. by apply Hms in M as [? _]. }
    destruct (lr_check f V (checked, ∅) nt) as [[[isLR nx] st1]| |]; [|by apply HD|by apply HD].
    destruct isLR; [by apply HD|]. destruct (Hr _ eq_refl eq_refl) as (-> & _ & Hch). cbn [t3 fst snd] in Hch.
    destruct (IH ltac:(intros y Hy; apply Hm; by right) (fst st1)) as (ms2 & tail2 & -> & Hnd2 & Hm2 & Ht2).
    exists (ms ++ ms2), tail2. split_and!; [|apply NoDup_app; split_and!; [done| |done]| |done].
    - rewrite !map_app, app_nil_r, app_assoc. done.
    - intros m M1 M2. apply Hm2 in M2. apply M2, Hch. by left.
    - intros m M. apply elem_of_app in M as [M|M]; [by apply Hms in M as [? _]|]. apply Hm2 in M. intros M3. apply M, Hch. by right.
  Qed.

  Lemma lk_bound x ms : NoDup ms -> lookups x (lk ms) <= 1.
  Proof.
    induction ms as [|m ms IH]; intros Hnd; [cbn; lia|]. apply NoDup_cons in Hnd as [Hm Hnd].
    assert (E : lookups x (lk (m :: ms)) = (if bool_decide (m = x) then 1 else 0) + lookups x (lk ms)).
    { unfold lookups. cbn [map List.filter]. by destruct (bool_decide (m = x)). }
    rewrite E. destruct (bool_decide_reflect (m = x)) as [->|Hne]; [|by apply IH].
    assert (Hz : lookups x (lk ms) = 0); [|lia]. clear - Hm.
    induction ms as [|y ms IH]; [done|]. unfold lookups in *. cbn [map List.filter].
    rewrite bool_decide_eq_false_2 by (intros ->; apply Hm; left). apply IH. intros H. apply Hm. by right.
  Qed.
  Lemma lk_others ms : others (lk ms) = 0.
  Proof. induction ms; done. Qed.
  Theorem left_recursive_lookups fuel x :
    lookups x (asked g (is_left_recursive_p fuel)) <= 2 /\ others (asked g (is_left_recursive_p fuel)) = 1.
  Proof using Hb.
    unfold is_left_recursive_p. rewrite (asked_bind g _ _ _ (ask_nts_calm g)). rewrite lookups_app, others_app.
    change (lookups x (asked g ask_nts)) with 0. change (others (asked g ask_nts)) with 1.
    destruct (all_lcov fuel (g_nts V) ltac:(by left) ∅) as (ms & tail & -> & Hnd & _ & Ht).
    rewrite map_app, lookups_app, others_app, !lk_others. split; [|done].
    pose proof (lk_bound x ms Hnd). assert (NoDup tail) as Hn2.
    { destruct tail as [|a [|b r]]; [constructor|apply NoDup_singleton|cbn in Ht; lia]. }
    pose proof (lk_bound x tail Hn2). lia.
  Qed.
End S.
