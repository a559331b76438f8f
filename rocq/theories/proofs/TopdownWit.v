From Coq Require Import String.
From Verif.model Require Import Topdown.
From Verif.spec Require Import TopdownSpec Outcome.
From Verif.proofs Require Import Fuel TopdownProofs LeftRecProofs TopdownThms PackratWit.
From Coq Require Import Lia.

Definition lx (k : gostring) : lexeme := Lx k k 0 0.

(** [S -> N A; N -> ; A -> N A | a]: A is left recursive behind the nullable N, but
    N has been checked by the time A is. *)
Definition hidden : grammar :=
  gram_of [(L "S", [[L "N"; L "A"]]); (L "N", [[]]); (L "A", [[L "N"; L "A"]; [L "a"]])].
Lemma hidden_new : returns (fun n => td_new n hidden) true.
Proof.
  apply (returns_at _ 10); [|vm_compute; reflexivity].
  intros n m Hle. apply rle_bind; [apply is_lr_mono; done|]. intros; apply rle_refl.
Qed.
Lemma hidden_lr : left_recursive hidden.
Proof.
  exists (L "A"). apply tc_once. eexists _, [L "N"; L "A"], [L "N"], []. split; [reflexivity|]. split; [left|]. split; [done|].
  eapply derives_cons with (u := []) (v := []); [done| |constructor]. eapply der_nt with (p := []); [reflexivity|left|constructor].
Qed.
Lemma hidden_oc lxs :
  (forall s pos r, oc_sym hidden lxs s pos r -> s = L "A" -> False)
  /\ (forall s pos ps r, oc_prods hidden lxs s pos ps r -> forall rest, ps = [L "N"; L "A"] :: rest -> False)
  /\ (forall p pos r, oc_seq hidden lxs p pos r -> (p = [L "A"] \/ p = [L "N"; L "A"]) -> False).
Proof.
  apply oc_mut.
  - intros s pos lx0 Hn _ _ ->. discriminate.
  - intros s pos lx0 Hn _ _ ->. discriminate.
  - intros s pos Hn _ ->. discriminate.
  - intros s pos ps r Hp _ IH ->. vm_compute in Hp. injection Hp as <-. eapply IH. reflexivity.
  - intros s pos rest [=].
  - intros s pos p ps cs e _ IH rest [= -> ->]. apply IH. auto.
  - intros s pos p ps r _ IH _ _ rest [= -> ->]. apply IH. auto.
  - intros pos [[=]|[=]].
  - intros x r pos Hx IH [[= -> ->]|[= -> ->]]; [apply IH; done|].
    inversion Hx as [| | |? ? ps ? Hp Hq]; subst; try discriminate. vm_compute in Hp. injection Hp as <-.
    inversion Hq as [| |? ? ? ? ? Hs Hr]; subst. inversion Hs.
  - intros x r pos c e _ IH _ IH2 [[= -> ->]|[= -> ->]]; [apply IH; done|]. apply IH2. auto.
  - intros x r pos c e cs e' _ IH _ IH2 [[= -> ->]|[= -> ->]]; [apply IH; done|]. apply IH2. auto.
Qed.
Lemma hidden_wf : g_wf hidden.
Proof. apply gram_of_wf. Qed.
Lemma hidden_diverges lexemes : diverges (fun n => td_parse n hidden lexemes).
Proof.
  apply td_parse_diverges; [apply hidden_wf|]. intros [r Hr]. inversion Hr as [|s0 rest ps r' Hn Hps Ht]; subst; [discriminate|].
  vm_compute in Hn. injection Hn as <- <-. vm_compute in Hps. injection Hps as <-.
  inversion Ht; subst; match goal with H : oc_seq _ _ _ _ _ |- _ => eapply (proj2 (proj2 (hidden_oc lexemes))) in H; [done|auto] end.
Qed.

(** [S -> A b; A -> a | a a] on "a a b". *)
Definition short : grammar := gram_of [(L "S", [[L "A"; L "b"]]); (L "A", [[L "a"]; [L "a"; L "a"]])].
Definition aab := [lx (L "a"); lx (L "a"); lx (L "b")].
Lemma short_fails : returns (fun n => td_parse n short aab) None.
Proof. apply (returns_at _ 10); [apply td_parse_mono|vm_compute; reflexivity]. Qed.
Lemma short_new : returns (fun n => td_new n short) true.
Proof.
  apply (returns_at _ 10); [|vm_compute; reflexivity].
  intros n m Hle. apply rle_bind; [apply is_lr_mono; done|]. intros; apply rle_refl.
Qed.
Lemma short_derives : generates short (map lx_kind aab).
Proof.
  exists (L "S"), [L "A"]. split; [reflexivity|]. eapply der_nt with (p := [L "A"; L "b"]); [reflexivity|left|].
  eapply derives_cons with (u := [L "a"; L "a"]) (v := [L "b"]); [reflexivity| |].
  - eapply der_nt with (p := [L "a"; L "a"]); [reflexivity|right; left|].
    eapply derives_cons with (u := [L "a"]) (v := [L "a"]); [reflexivity|apply der_term; reflexivity|].
    eapply derives_cons with (u := [L "a"]) (v := []); [reflexivity|apply der_term; reflexivity|constructor].
  - eapply derives_cons with (u := [L "b"]) (v := []); [reflexivity|apply der_term; reflexivity|constructor].
Qed.
Lemma short_not_lr : ~ left_recursive short.
Proof.
  assert (Hs : solid_starts short).
  { intros A ps x r. unfold short, gram_of, g_prods, assoc_prods. intros Hp Hin Hr Hd.
    assert (Hx : x = L "A" \/ x = L "a").
    { repeat case_decide; simplify_eq; repeat (apply elem_of_cons in Hin as [Hin|Hin]; [simplify_eq; auto|]); inversion Hin. }
    eapply epsfree_nonnull in Hd; [done|]. clear. intros s ps. unfold short, gram_of, g_prods, assoc_prods.
    repeat case_decide; try discriminate; intros [= <-] Hin; repeat (apply elem_of_cons in Hin as [Hin|Hin]; [discriminate|]); inversion Hin. }
  apply (td_new_exact short true); [apply gram_of_wf|done|apply short_new|done].
Qed.

(** [S -> ( S ) | x]: prefix-free and not left recursive. *)
Definition paren : grammar := gram_of [(L "S", [[L "("; L "S"; L ")"]; [L "x"]])].
Definition paren_in := [lx (L "("); lx (L "("); lx (L "x"); lx (L ")"); lx (L ")")].
Lemma paren_term x : x <> L "S" -> g_prods paren x = None.
Proof. intros H. unfold paren, gram_of, g_prods, assoc_prods. case_decide; congruence. Qed.
Lemma paren_S u : derives paren (L "S") u -> u = [L "x"] \/ exists v, u = L "(" :: v ++ [L ")"] /\ derives paren (L "S") v.
Proof.
  intros H. inversion H as [|? ps p ? Hp Hin Hs]; subst; [discriminate|]. vm_compute in Hp. injection Hp as <-.
  assert (Ht : forall x w, x <> L "S" -> derives paren x w -> w = [x]).
  { clear. intros x w Hx Hd. inversion Hd as [|? ps p ? Hp]; subst; [done|]. rewrite paren_term in Hp; done. }
  apply elem_of_cons in Hin as [->|Hin].
  - right. apply derives_seq_inv in Hs as (a & b & -> & Ha & Hs). apply Ht in Ha as ->; [|done].
    apply derives_seq_inv in Hs as (c & d & -> & Hc & Hs). apply derives_seq_inv in Hs as (e & f & -> & He & Hs).
    apply Ht in He as ->; [|done]. inversion Hs; subst. exists c. done.
  - left. apply elem_of_list_singleton in Hin as ->. apply derives_seq_inv in Hs as (a & b & -> & Ha & Hs).
    apply Ht in Ha as ->; [|done]. inversion Hs; subst. done.
Qed.
Lemma paren_S_pf u : forall v, derives paren (L "S") u -> derives paren (L "S") (u ++ v) -> v = [].
Proof.
  induction u as [u IH] using (induction_ltof1 _ (@length _)). unfold ltof in IH. intros v H1 H2.
  apply paren_S in H1 as [->|(a & -> & Ha)].
  - apply paren_S in H2 as [E|(b & E & _)]; [injection E as E; done|discriminate].
  - apply paren_S in H2 as [E|(b & E & Hb)]; simpl in E; [discriminate|]. injection E as E.
    rewrite <- app_assoc in E. simpl in E.
    assert (a = b) as <-.
    { destruct (prefix_cmp _ _ _ _ E) as [[c Hc]|[c Hc]].
      - subst b. rewrite (IH a ltac:(simpl; rewrite app_length; simpl; lia) c Ha Hb). rewrite app_nil_r. done.
      - rewrite Hc in Ha. rewrite (IH b ltac:(subst a; simpl; rewrite !app_length; simpl; lia) c Hb Ha) in Hc. rewrite app_nil_r in Hc. done. }
    apply app_inv_head in E. injection E as E. done.
Qed.
Lemma paren_pf : prefix_free paren.
Proof.
  intros A ps p x u v HA Hp Hx Hu Hv. destruct (decide (x = L "S")) as [->|Hne]; [eapply paren_S_pf; eauto|].
  assert (Ht : forall w, derives paren x w -> w = [x]).
  { intros w Hd. inversion Hd as [|? ps' p' ? Hp']; subst; [done|]. rewrite paren_term in Hp'; done. }
  apply Ht in Hu as ->. apply Ht in Hv. simpl in Hv. congruence.
Qed.
Lemma paren_new : returns (fun n => td_new n paren) true.
Proof.
  apply (returns_at _ 10); [|vm_compute; reflexivity].
  intros n m Hle. apply rle_bind; [apply is_lr_mono; done|]. intros; apply rle_refl.
Qed.
Lemma paren_solid : solid_starts paren.
Proof.
  intros A ps x r _ _ _ Hd. eapply epsfree_nonnull in Hd; [done|]. clear. intros s ps. unfold paren, gram_of, g_prods, assoc_prods.
  repeat case_decide; try discriminate; intros [= <-] Hin; repeat (apply elem_of_cons in Hin as [Hin|Hin]; [discriminate|]); inversion Hin.
Qed.
Lemma paren_not_lr : ~ left_recursive paren.
Proof. apply (td_new_exact paren true); [apply gram_of_wf|apply paren_solid|apply paren_new|done]. Qed.
Lemma paren_ok : g_wf paren /\ ~ left_recursive paren /\ solid_starts paren /\ prefix_free paren
  /\ exists t, td_parse 20 paren paren_in = Ok (Some t) /\ length (pn_children t) = 3.
Proof.
  split_and!; [apply gram_of_wf|apply paren_not_lr|apply paren_solid|apply paren_pf|].
  eexists. split; [vm_compute; reflexivity|reflexivity].
Qed.
Lemma expr_lr : returns (fun n => td_new n expr) false.
Proof.
  apply (returns_at _ 10); [|vm_compute; reflexivity].
  intros n m Hle. apply rle_bind; [apply is_lr_mono; done|]. intros; apply rle_refl.
Qed.
