From Verif.model Require Import Topdown.
From Verif.spec Require Import TopdownSpec Outcome.
From Verif.proofs Require Import Fuel.
From Coq Require Import Lia.

Ltac only_sets := repeat match goal with
  | H : ?P |- _ => lazymatch type of P with Prop =>
      lazymatch P with _ ∈ _ => fail | _ ∉ _ => fail | _ ⊆ _ => fail | _ => clear H end end
  end.
Ltac ssolve := only_sets; set_solver.

Lemma derives_seq_inv g x r w : derives_seq g (x :: r) w ->
  exists u v, w = u ++ v /\ derives g x u /\ derives_seq g r v.
Proof.
  intros H. remember (x :: r) as l eqn:E. destruct H as [|s r' u v H1 H2]; [done|].
  injection E as -> ->. eauto.
Qed.
Lemma derives_seq_null_inv g x r : derives_seq g (x :: r) [] -> derives g x [] /\ derives_seq g r [].
Proof.
  intros H. apply derives_seq_inv in H as (u & v & E & H1 & H2). symmetry in E. apply app_eq_nil in E as [-> ->]. done.
Qed.

Lemma size_nts_le (l : list gostring) : size (list_to_set l : gset gostring) <= length l.
Proof.
  induction l as [|x l IH]; cbn [list_to_set length]; [rewrite (size_empty (C:=gset gostring)); lia|].
  rewrite size_union_alt, size_singleton.
  pose proof (subseteq_size (list_to_set l ∖ {[x]}) (list_to_set l : gset gostring) ltac:(set_solver)). lia.
Qed.

Section P.
  Variable g : grammar.
  Notation lstep := (left_step g).
  Notation nullable x := (derives g x []).

  Definition lc_le (f f' : lrst -> gostring -> res (bool * bool * lrst)) := forall st s, rle (f st s) (f' st s).
  Lemma lr_prod_mono f f' p : lc_le f f' -> forall st, rle (lr_prod f p st) (lr_prod f' p st).
  Proof.
    intros H. induction p as [|x r IH]; intros st; simpl; [apply rle_refl|].
    apply rle_bind; [apply H|]. intros [[[] []] st1]; try apply rle_refl. apply IH.
  Qed.
  Lemma lr_prods_mono f f' ps : lc_le f f' -> forall ret st, rle (lr_prods f ps ret st) (lr_prods f' ps ret st).
  Proof.
    intros H. induction ps as [|[|x p] r IH]; intros ret st; [apply rle_refl|apply IH|].
    cbn [lr_prods]. apply rle_bind; [apply lr_prod_mono; done|]. intros [[] st1]; [apply rle_refl|apply IH].
  Qed.
  Lemma lr_check_S n : lc_le (lr_check n g) (lr_check (S n) g).
  Proof.
    induction n as [|n IH]; intros [c k] s; [apply rle_oof|]. cbn [lr_check].
    case_decide; [apply rle_refl|]. destruct (g_prods g s); [|apply rle_refl].
    case_decide; [apply rle_refl|]. apply rle_bind; [apply lr_prods_mono, IH|]. intros [[[] ?] ?]; apply rle_refl.
  Qed.
  Lemma lr_check_mono n m : n <= m -> lc_le (lr_check n g) (lr_check m g).
  Proof.
    induction 1 as [|m Hle IH]; intros st s; [apply rle_refl|]. eapply rle_trans; [apply IH|apply lr_check_S].
  Qed.
  Lemma lr_all_mono n m nts : n <= m -> forall c, rle (lr_all n g nts c) (lr_all m g nts c).
  Proof.
    intros Hle. induction nts as [|nt r IH]; intros c; [apply rle_refl|]. cbn [lr_all].
    apply rle_bind; [apply lr_check_mono; done|]. intros [[[] ?] ?]; [apply rle_refl|apply IH].
  Qed.
  Lemma is_lr_mono : fuel_mono (fun n => is_left_recursive n g).
  Proof. intros n m Hle. apply lr_all_mono; done. Qed.

  Lemma derives_null_app a x : derives_seq g a [] -> nullable x -> derives_seq g (a ++ [x]) [].
  Proof.
    intros Ha Hx. induction a as [|y a IH]; simpl.
    - change [] with ([] ++ [] : list gostring) at 2. repeat constructor; done.
    - apply derives_seq_null_inv in Ha as [Hy Hr].
      change (@nil gostring) with ([] ++ [] : list gostring). constructor; auto.
  Qed.

  (** What a call of check guarantees. [path]: every symbol on the stack reaches [s]. *)
  Definition on_path (stk : gset gostring) (s : gostring) := forall x, x ∈ stk -> tc lstep x s.
  Definition acc_back (x : gostring) := Acc (fun b a => lstep a b) x.
  Definition stack_ok (stk : gset gostring) := forall x, x ∈ stk -> x ∈ g_nts g.

  Definition check_post (st : lrst) (s : gostring) (r : res (bool * bool * lrst)) : Prop :=
    match r with
    | Ok (true, _, _) => left_recursive g
    | Ok (false, nx, (chk', stk')) =>
        stk' = snd st /\ fst st ⊆ chk' /\ s ∈ chk'
        /\ (nx = true -> nullable s)
        /\ (solid_starts g -> (forall x, x ∈ fst st -> acc_back x) -> forall x, x ∈ chk' -> acc_back x)
    | Panic => False
    | OutOfFuel => False
    end.
  Definition check_ok (f : lrst -> gostring -> res (bool * bool * lrst)) (k : nat) : Prop :=
    forall st s, stack_ok (snd st) -> on_path (snd st) s -> size (list_to_set (g_nts g) ∖ snd st : gset gostring) < k ->
      check_post st s (f st s).

  Variable Hg : g_wf g.

  Lemma lr_prod_ok f k A ps p : check_ok f k -> g_prods g A = Some ps ->
    forall q a st, p = a ++ q -> p ∈ ps -> derives_seq g a [] ->
    A ∈ snd st -> stack_ok (snd st) -> (forall x, x ∈ snd st -> x = A \/ tc lstep x A) ->
    size (list_to_set (g_nts g) ∖ snd st : gset gostring) < k ->
    match lr_prod f q st with
    | Ok (true, _) => left_recursive g
    | Ok (false, (chk', stk')) => stk' = snd st /\ fst st ⊆ chk'
        /\ (forall x q', q = x :: q' -> x ∈ chk')
        /\ (solid_starts g -> (forall x, x ∈ fst st -> acc_back x) -> forall x, x ∈ chk' -> acc_back x)
    | Panic => False
    | OutOfFuel => False
    end.
  Proof.
    intros Hf HA. induction q as [|x q IH]; intros a st Hp Hin Ha HAs Hso Hpath Hsz; simpl.
    - destruct st as [c sk]. simpl. split_and!; done.
    - assert (Hstep : lstep A x) by (exists ps, p, a, q; done).
      pose proof (Hf st x Hso) as H1. unfold check_post in H1.
      specialize (H1 ltac:(intros y Hy; destruct (Hpath y Hy) as [->|]; [apply tc_once; done|eapply tc_r; eauto]) Hsz).
      destruct (f st x) as [[[[] nx] [c1 k1]]| |]; simpl; [done| |done|done].
      destruct H1 as (E1 & Hsub & Hx & Hnx & Hacc). destruct nx.
      + specialize (IH (a ++ [x]) (c1, k1)). cbn [fst snd] in IH. subst k1.
        specialize (IH ltac:(rewrite <- app_assoc; done) Hin ltac:(apply derives_null_app; auto) HAs Hso Hpath Hsz).
        destruct (lr_prod f q (c1, snd st)) as [[[] [c2 k2]]| |]; [done| |done|done].
        destruct IH as (-> & Hsub2 & _ & Hacc2). split_and!; [done|ssolve| |].
        * intros y q' [= <- <-]. ssolve.
        * intros Hs Hc. apply Hacc2; [done|]. apply Hacc; done.
      + split_and!; [done|done| |done]. intros y q' [= <- <-]. done.
  Qed.

  Lemma lr_prods_ok f k A ps : check_ok f k -> g_prods g A = Some ps ->
    forall qs ret st, (forall q, q ∈ qs -> q ∈ ps) ->
    A ∈ snd st -> stack_ok (snd st) -> (forall x, x ∈ snd st -> x = A \/ tc lstep x A) ->
    size (list_to_set (g_nts g) ∖ snd st : gset gostring) < k ->
    (ret = true -> nullable A) ->
    match lr_prods f qs ret st with
    | Ok (true, _, _) => left_recursive g
    | Ok (false, nx, (chk', stk')) => stk' = snd st /\ fst st ⊆ chk'
        /\ (nx = true -> nullable A)
        /\ (forall x q, (x :: q) ∈ qs -> x ∈ chk')
        /\ (solid_starts g -> (forall x, x ∈ fst st -> acc_back x) -> forall x, x ∈ chk' -> acc_back x)
    | Panic => False
    | OutOfFuel => False
    end.
  Proof.
    intros Hf HA. induction qs as [|q qs IH]; intros ret st Hin HAs Hso Hpath Hsz Hret.
    - destruct st as [c sk]. simpl. split_and!; try done. intros x q H. inversion H.
    - destruct q as [|x q].
      + cbn [lr_prods]. specialize (IH true st ltac:(intros q Hq; apply Hin; right; done) HAs Hso Hpath Hsz).
        assert (Hn : nullable A) by (econstructor; [exact HA|apply (Hin []); left|constructor]).
        specialize (IH ltac:(done)). destruct (lr_prods f qs true st) as [[[[] nx] [c1 k1]]| |]; [done| |done|done].
        destruct IH as (-> & Hsub & Hnx & Hx & Hacc). split_and!; try done.
        intros y q Hy. apply elem_of_cons in Hy as [[=]|Hy]. eauto.
      + cbn [lr_prods].
        pose proof (lr_prod_ok f k A ps (x :: q) Hf HA (x :: q) [] st eq_refl ltac:(apply Hin; left) ltac:(constructor) HAs Hso Hpath Hsz) as H1.
        destruct (lr_prod f (x :: q) st) as [[[] [c1 k1]]| |]; cbn [rbind]; [done| |done|done].
        destruct H1 as (-> & Hsub & Hx & Hacc).
        specialize (IH ret (c1, snd st) ltac:(intros q' Hq; apply Hin; right; done) HAs Hso Hpath Hsz Hret).
        destruct (lr_prods f qs ret (c1, snd st)) as [[[[] nx] [c2 k2]]| |]; [done| |done|done].
        cbn [fst snd] in *. destruct IH as (-> & Hsub2 & Hnx & Hx2 & Hacc2). split_and!; [done|ssolve|done| |].
        * intros y q' Hy. apply elem_of_cons in Hy as [[= <- <-]|Hy]; [|eauto].
          specialize (Hx y q' eq_refl). ssolve.
        * intros Hs Hc. apply Hacc2; [done|]. apply Hacc; done.
  Qed.

  Lemma solid_step A B : solid_starts g -> lstep A B -> exists ps q, g_prods g A = Some ps /\ (B :: q) ∈ ps.
  Proof.
    intros Hs (ps & p & a & b & Hp & Hin & -> & Ha). destruct a as [|x a]; [eauto|].
    exfalso. apply derives_seq_null_inv in Ha as [Hx Hr].
    eapply (Hs A ps x (a ++ B :: b)); eauto. destruct a; done.
  Qed.

  Lemma lr_check_ok n : check_ok (lr_check n g) n.
  Proof.
    induction n as [|n IH]; intros [chk stk] s Hso Hpath Hsz; [lia|]. cbn [lr_check snd] in *.
    destruct (decide (s ∈ chk)) as [Hc|Hc].
    { simpl. split_and!; try done. }
    destruct (g_prods g s) as [ps|] eqn:Hs.
    2:{ unfold check_post; cbn [fst snd]. split_and!; [reflexivity|ssolve|ssolve|done|]. intros _ Hx x Hin.
        apply elem_of_union in Hin as [Hin|Hin]; [|auto]. apply elem_of_singleton in Hin as ->.
        constructor. intros y (ps & p & a & b & Hp & _). congruence. }
    destruct (decide (s ∈ stk)) as [Hk|Hk].
    { simpl. exists s. auto. }
    assert (Hnt : s ∈ g_nts g) by (apply Hg; rewrite Hs; eauto).
    pose proof (lr_prods_ok (lr_check n g) n s ps IH Hs ps false (chk, {[s]} ∪ stk)) as H1. cbn [fst snd] in H1.
    assert (Hs1 : s ∈ {[s]} ∪ stk) by ssolve. specialize (H1 ltac:(done) Hs1).
    specialize (H1 ltac:(intros x Hx; apply elem_of_union in Hx as [Hx|Hx]; [apply elem_of_singleton in Hx as ->; done|auto])).
    specialize (H1 ltac:(intros x Hx; apply elem_of_union in Hx as [Hx|Hx]; [apply elem_of_singleton in Hx as ->; auto|auto])).
    assert (Hlt : size (list_to_set (g_nts g) ∖ ({[s]} ∪ stk) : gset gostring) < size (list_to_set (g_nts g) ∖ stk : gset gostring)).
    { apply subset_size. split; [ssolve|]. intros H. assert (H2 : s ∈ (list_to_set (g_nts g) ∖ stk : gset gostring)) by ssolve. apply H in H2. ssolve. }
    specialize (H1 ltac:(lia) ltac:(done)).
    destruct (lr_prods (lr_check n g) ps false (chk, {[s]} ∪ stk)) as [[[[] nx] [c1 k1]]| |]; cbn [rbind]; [done| |done|done].
    destruct H1 as (-> & Hsub & Hnx & Hx & Hacc). cbn [fst snd]. unfold check_post. cbn [fst snd].
    split_and!; [|ssolve|ssolve|done|].
    - apply set_eq. intros x. ssolve.
    - intros Hsol Hchk x Hin. specialize (Hacc Hsol Hchk). apply elem_of_union in Hin as [Hin|Hin]; [|auto].
      apply elem_of_singleton in Hin as ->. constructor. intros y Hy.
      destruct (solid_step _ _ Hsol Hy) as (ps' & q & Hp' & Hq). assert (ps' = ps) as -> by congruence. apply (Hacc y). eapply Hx. exact Hq.
  Qed.

  Lemma lr_all_ok n nts : S (length (g_nts g)) <= n -> forall c,
    match lr_all n g nts c with
    | Ok true => left_recursive g
    | Ok false => solid_starts g -> (forall x, x ∈ c -> acc_back x) -> forall x, x ∈ nts -> acc_back x
    | Panic => False
    | OutOfFuel => False
    end.
  Proof.
    intros Hn. induction nts as [|nt r IH]; intros c; cbn [lr_all].
    - intros _ _ x H. inversion H.
    - assert (Hsz : size (list_to_set (g_nts g) ∖ ∅ : gset gostring) < n).
      { rewrite difference_empty_L. pose proof (size_nts_le (g_nts g)). lia. }
      pose proof (lr_check_ok n (c, ∅) nt ltac:(intros x H; set_solver) ltac:(intros x H; set_solver) Hsz) as H1.
      destruct (lr_check n g (c, ∅) nt) as [[[[] nx] [c1 k1]]| |]; cbn [rbind]; [done| |done|done].
      destruct H1 as (_ & Hsub & Hin & _ & Hacc). cbn [fst snd] in *. specialize (IH c1).
      destruct (lr_all n g r c1) as [[]| |]; [done| |done|done].
      intros Hs Hc x Hx. specialize (Hacc Hs Hc). apply elem_of_cons in Hx as [->|Hx]; auto.
  Qed.

  Lemma is_lr_total : exists b, returns (fun n => is_left_recursive n g) b.
  Proof.
    pose proof (lr_all_ok (S (length (g_nts g))) (g_nts g) ltac:(lia) ∅) as H.
    destruct (lr_all (S (length (g_nts g))) g (g_nts g) ∅) as [b| |] eqn:E; [|done|done].
    exists b. apply (returns_at _ (S (length (g_nts g)))); [apply is_lr_mono|done].
  Qed.
  Lemma is_lr_sound : returns (fun n => is_left_recursive n g) true -> left_recursive g.
  Proof.
    intros [F HF]. set (n := F + S (length (g_nts g))).
    pose proof (lr_all_ok n (g_nts g) ltac:(lia) ∅) as H. specialize (HF n ltac:(lia)). unfold is_left_recursive in HF.
    rewrite HF in H. done.
  Qed.
  Lemma is_lr_complete : solid_starts g -> returns (fun n => is_left_recursive n g) false -> ~ left_recursive g.
  Proof.
    intros Hs [F HF] [A HA]. set (n := F + S (length (g_nts g))).
    pose proof (lr_all_ok n (g_nts g) ltac:(lia) ∅) as H. specialize (HF n ltac:(lia)). unfold is_left_recursive in HF.
    rewrite HF in H.
    assert (Hnt : A ∈ g_nts g).
    { apply Hg. inversion HA as [? ? (ps & p & a & b & Hp & _)|? ? ? (ps & p & a & b & Hp & _) _]; eauto. }
    specialize (H Hs ltac:(intros x Hx; apply elem_of_empty in Hx; done) A Hnt).
    assert (Hno : forall x, acc_back x -> ~ tc lstep x x); [|by apply (Hno A)].
    clear. intros x Hx. induction Hx as [x _ IH]. intros Hc.
    inversion Hc as [? ? H1|? y ? H1 H2]; subst; [apply (IH x); done|].
    apply (IH y H1). eapply tc_r; eauto.
  Qed.
End P.
