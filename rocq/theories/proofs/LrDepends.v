(** What IsLeftRecursive depends on. *)
From Coq Require Import String Lia.
From Verif.model Require Import Topdown Packrat.
From Verif.spec Require Import TopdownSpec Outcome SameRules.
From Verif.proofs Require Import Fuel LeftRecProofs TopdownProofs TopdownThms PackratWit PackratRename.
Local Open Scope nat_scope.
Local Open Scope list_scope.

(** * Names *)
Section Rn.
  Variable f : gostring -> gostring.
  Hypothesis Hf : one_to_one f.
  Variables g1 g2 : grammar.
  Hypothesis Hg : forall x, g_prods g2 (f x) = option_map (map (map f)) (g_prods g1 x).
  Definition sets (a b : gset gostring) : Prop := forall x, x ∈ a <-> f x ∈ b.
  Definition stl (a b : lrst) : Prop := sets (fst a) (fst b) /\ sets (snd a) (snd b).
  Definition ans (a b : bool * bool * lrst) : Prop := fst a = fst b /\ stl (snd a) (snd b).
  Definition ans1 (a b : bool * lrst) : Prop := fst a = fst b /\ stl (snd a) (snd b).
  Lemma sets_add s a b : sets a b -> sets ({[s]} ∪ a) ({[f s]} ∪ b).
  Proof using Hf.
    intros H x. rewrite !elem_of_union, !elem_of_singleton, <- (H x). split; (intros [E|E]; [left|by right]); [by rewrite E|by apply Hf].
  Qed.
  Lemma sets_del s a b : sets a b -> sets (a ∖ {[s]}) (b ∖ {[f s]}).
  Proof using Hf.
    intros H x. rewrite !elem_of_difference, !elem_of_singleton, <- (H x). split; intros [E1 E2]; (split; [done|]); intros E; apply E2; [by apply Hf|by rewrite E].
  Qed.
  Lemma lr_check_rr n : forall st st' s, stl st st' -> rr ans (lr_check n g1 st s) (lr_check n g2 st' (f s)).
  Proof using Hf Hg.
    induction n as [|n IH]; intros [c k] [c' k'] s [Hc Hk]; [done|]. cbn [lr_check fst snd] in *.
    destruct (decide (s ∈ c)) as [D|D], (decide (f s ∈ c')) as [D'|D']; [|by apply Hc in D|by apply Hc in D'|].
    { by split. }
    rewrite Hg. destruct (g_prods g1 s) as [ps|]; cbn [option_map].
    - destruct (decide (s ∈ k)) as [E|E], (decide (f s ∈ k')) as [E'|E']; [|by apply Hk in E|by apply Hk in E'|].
      { by split. }
      apply (rr_bind ans).
      + assert (Hst : stl (c, {[s]} ∪ k) (c', {[f s]} ∪ k')) by (split; [done|by apply sets_add]).
        revert Hst. generalize (c, {[s]} ∪ k), (c', {[f s]} ∪ k'). generalize false as ret.
        induction ps as [|p ps IHp]; intros ret a b Hab; [by split|]. cbn [map lr_prods].
        assert (Hprod : forall p a b, stl a b -> rr ans1 (lr_prod (lr_check n g1) p a) (lr_prod (lr_check n g2) (map f p) b)).
        { clear -IH. induction p as [|x p IHp]; intros a b Hab; [by split|]. cbn [map lr_prod].
          apply (rr_bind ans); [by apply IH|]. intros [[l1 n1] s1] [[l2 n2] s2] [Ea Hs]. cbn in Ea, Hs. injection Ea as -> ->.
          destruct l2; [by split|]. destruct n2; [by apply IHp|by split]. }
        destruct p as [|x p]; [by apply IHp|]. cbn [map]. apply (rr_bind ans1); [by apply (Hprod (x :: p))|].
        intros [l1 s1] [l2 s2] [Ea Hs]. cbn in Ea, Hs. subst l2. destruct l1; [by split|by apply IHp].
      + intros [[l1 n1] s1] [[l2 n2] s2] [Ea Hs]. cbn in Ea, Hs. injection Ea as -> ->.
        destruct l2; [by split|]. split; [done|]. split; [apply sets_add, Hs|apply sets_del, Hs].
    - split; [done|]. split; [by apply sets_add|done].
  Qed.
  Lemma lr_all_rr n nts : forall c c', sets c c' -> rr eq (lr_all n g1 nts c) (lr_all n g2 (map f nts) c').
  Proof using Hf Hg.
    induction nts as [|nt nts IH]; intros c c' Hc; [done|]. cbn [map lr_all].
    apply (rr_bind ans); [apply lr_check_rr; split; [done|]; intros x; set_solver|].
    intros [[l1 n1] s1] [[l2 n2] s2] [Ea Hs]. cbn in Ea, Hs. injection Ea as -> ->. destruct l2; [done|]. apply IH, Hs.
  Qed.
End Rn.
Lemma lr_renamed n f g1 g2 : one_to_one f -> renamed_all f g1 g2 -> is_left_recursive n g2 = is_left_recursive n g1.
Proof.
  intros Hf [Hn Hp]. unfold is_left_recursive. rewrite Hn.
  pose proof (lr_all_rr f Hf g1 g2 Hp n (g_nts g1) ∅ ∅) as H. specialize (H ltac:(intros x; set_solver)).
  destruct (lr_all n g1 (g_nts g1) ∅), (lr_all n g2 (map f (g_nts g1)) ∅); cbn [rr] in H; first [done|by rewrite H].
Qed.
Lemma lr_names f g1 g2 b : one_to_one f -> renamed_all f g1 g2 ->
  returns (fun n => is_left_recursive n g2) b <-> returns (fun n => is_left_recursive n g1) b.
Proof.
  intros Hf Hr. split; intros [F H]; exists F; intros n Hn; specialize (H n Hn);
    [rewrite <- (lr_renamed n f g1 g2)|rewrite (lr_renamed n f g1 g2)]; done.
Qed.

(** * Order *)
Section Order.
  Variables g1 g2 : grammar.
  Hypothesis Hs : same_rules g1 g2.
  Lemma rules_at x ps p : g_prods g1 x = Some ps -> p ∈ ps -> exists qs, g_prods g2 x = Some qs /\ p ∈ qs.
  Proof using Hs. intros Hx Hp. specialize (Hs x). rewrite Hx in Hs. destruct (g_prods g2 x) as [qs|]; [|done]. exists qs. split; [done|]. by apply Hs. Qed.
  Lemma seq_same p w : derives_seq g1 p w -> derives_seq g2 p w.
  Proof using Hs.
    revert p w. apply (derives_seq_mut g1 (fun s w _ => derives g2 s w) (fun p w _ => derives_seq g2 p w)).
    - intros s Hg. apply der_term. specialize (Hs s). rewrite Hg in Hs. by destruct (g_prods g2 s).
    - intros s ps p w Hg Hin _ IH. destruct (rules_at s ps p Hg Hin) as (qs & Hq & Hi). by eapply der_nt.
    - constructor.
    - intros. by constructor.
  Qed.
  Lemma sym_same s w : derives g1 s w -> derives g2 s w.
  Proof using Hs.
    revert s w. apply (derives_mut g1 (fun s w _ => derives g2 s w) (fun p w _ => derives_seq g2 p w)).
    - intros s Hg. apply der_term. specialize (Hs s). rewrite Hg in Hs. by destruct (g_prods g2 s).
    - intros s ps p w Hg Hin _ IH. destruct (rules_at s ps p Hg Hin) as (qs & Hq & Hi). by eapply der_nt.
    - constructor.
    - intros. by constructor.
  Qed.
  Lemma lr_same : left_recursive g1 -> left_recursive g2.
  Proof using Hs.
    intros [A HA]. exists A. assert (Hstep : forall X Y, left_step g1 X Y -> left_step g2 X Y).
    { intros X Y (ps & p & a & b & Hp & Hin & E & Ha). destruct (rules_at X ps p Hp Hin) as (qs & Hq & Hi).
      exists qs, p, a, b. split_and!; [done|done|done|by apply seq_same]. }
    assert (Hall : forall X Y, tc (left_step g1) X Y -> tc (left_step g2) X Y); [|by apply Hall].
    clear -Hstep. induction 1 as [X Y H|X Y Z H HA IH]; [by apply tc_once, Hstep|]. eapply tc_l; [by apply Hstep|done].
  Qed.
End Order.
Lemma same_rules_sym g1 g2 : same_rules g1 g2 -> same_rules g2 g1.
Proof. intros H x. specialize (H x). destruct (g_prods g1 x), (g_prods g2 x); [|done..]. intros p. by rewrite H. Qed.
Lemma solid_same g1 g2 : same_rules g1 g2 -> solid_starts g1 -> solid_starts g2.
Proof.
  intros Hs H A ps x r Hp Hin Hne Hd. destruct (rules_at g2 g1 (same_rules_sym _ _ Hs) A ps (x :: r) Hp Hin) as (qs & Hq & Hi).
  apply (H A qs x r Hq Hi Hne). by apply (sym_same g2 g1 (same_rules_sym _ _ Hs)).
Qed.
Lemma new_order g1 g2 b : g_wf g1 -> g_wf g2 -> solid_starts g1 -> same_rules g1 g2 ->
  returns (fun n => td_new n g1) b <-> returns (fun n => td_new n g2) b.
Proof.
  assert (Hone : forall g1 g2 b, g_wf g1 -> g_wf g2 -> solid_starts g1 -> same_rules g1 g2 -> returns (fun n => td_new n g1) b -> returns (fun n => td_new n g2) b).
  { clear. intros g1 g2 b H1 H2 Hso Hs H. pose proof (td_new_exact g1 b H1 Hso H) as E.
    assert (exists b', returns (fun n => td_new n g2) b') as [b' H'].
    { destruct (is_lr_total g2 H2) as [c [F Hc]]. exists (negb c). exists F. intros n Hn. unfold td_new. by rewrite (Hc n Hn). }
    pose proof (td_new_exact g2 b' H2 (solid_same _ _ Hs Hso) H') as E'.
    assert (b = b') as ->; [|done]. pose proof (lr_same _ _ Hs). pose proof (lr_same _ _ (same_rules_sym _ _ Hs)).
    destruct b, b'; try done; exfalso.
    - assert (true = true) as T by done. apply E in T. assert (~ ~ left_recursive g2) by (intros Hn; apply E' in Hn; done). tauto.
    - assert (true = true) as T by done. apply E' in T. assert (~ ~ left_recursive g1) by (intros Hn; apply E in Hn; done). tauto. }
  intros H1 H2 Hso Hs. split; [by apply Hone|]. apply Hone; [done|done|by eapply solid_same|by apply same_rules_sym].
Qed.

(** [A -> N A | a] with an empty N: listed first, N is checked and forgotten. *)
Definition n_first : grammar := gram_of [(L "S", [[L "x"; L "A"]]); (L "N", [[]]); (L "A", [[L "N"; L "A"]; [L "a"]])].
Definition a_first : grammar := gram_of [(L "S", [[L "x"; L "A"]]); (L "A", [[L "N"; L "A"]; [L "a"]]); (L "N", [[]])].
Lemma order_matters : exists g1 g2, g_wf g1 /\ g_wf g2 /\ head (g_nts g1) = head (g_nts g2) /\ g_nts g1 ≡ₚ g_nts g2
  /\ (forall x, g_prods g1 x = g_prods g2 x)
  /\ returns (fun n => td_new n g1) true /\ returns (fun n => td_new n g2) false.
Proof.
  exists n_first, a_first. split; [apply gram_of_wf|]. split; [apply gram_of_wf|]. split; [reflexivity|]. split_and!.
  - unfold n_first, a_first, gram_of. cbn [g_nts map fst]. apply perm_skip. apply perm_swap.
  - intros x. unfold n_first, a_first, gram_of, g_prods, assoc_prods.
    destruct (decide (L "S" = x)) as [<-|H1]; [done|]. destruct (decide (L "N" = x)) as [<-|H2]; [done|]. by destruct (decide (L "A" = x)) as [<-|H3].
  - exists 20. intros n Hn. unfold td_new. assert (E : is_left_recursive 20 n_first = Ok false) by (vm_compute; reflexivity).
    by rewrite (rle_Ok _ _ _ (is_lr_mono n_first 20 n Hn) E).
  - exists 20. intros n Hn. unfold td_new. assert (E : is_left_recursive 20 a_first = Ok true) by (vm_compute; reflexivity).
    by rewrite (rle_Ok _ _ _ (is_lr_mono a_first 20 n Hn) E).
Qed.
Definition paren_turned : grammar := gram_of [(L "S", [[L "x"]; [L "("; L "S"; L ")"]; [L "x"]])].
Lemma order_example : g_wf TopdownWit.paren /\ g_wf paren_turned /\ solid_starts TopdownWit.paren /\ same_rules TopdownWit.paren paren_turned
  /\ g_prods TopdownWit.paren (L "S") <> g_prods paren_turned (L "S").
Proof.
  split; [apply gram_of_wf|]. split; [apply gram_of_wf|]. split; [apply TopdownWit.paren_solid|]. split; [|discriminate].
  intros x. unfold TopdownWit.paren, paren_turned, gram_of, g_prods, assoc_prods. destruct (decide (L "S" = x)) as [<-|H1]; [|done].
  intros p. rewrite !elem_of_cons. tauto.
Qed.
Definition dotted (x : gostring) : gostring := L "." ++ x.
Definition dots : grammar := gram_of [(L ".S", [[L ".S"; L ".x"]; [L ".x"]])].
Definition no_dots : grammar := gram_of [(L "S", [[L "S"; L "x"]; [L "x"]])].
Lemma names_example : one_to_one dotted /\ renamed_all dotted no_dots dots /\ is_left_recursive 20 dots = Ok true.
Proof.
  split; [intros x y [= E]; exact E|]. split; [|vm_compute; reflexivity]. split; [reflexivity|].
  intros x. unfold no_dots, dots, gram_of, g_prods, assoc_prods. destruct (decide (L "S" = x)) as [<-|H1]; [done|].
  destruct (decide (L ".S" = dotted x)) as [E|H2]; [|done]. exfalso. apply H1. by injection E as E.
Qed.
