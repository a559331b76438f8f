(** What a regular expression matches is in its language. *)
From Verif.spec Require Import ReSpec.
From Verif.proofs Require Import LexText.

Lemma rmatch_in r : forall s c s' c', (s', c') ∈ rmatch r s c -> exists w, s = w ++ s' /\ in_re r w.
Proof.
  induction r as [|p|a IHa b IHb|a IHa b IHb|a IHa|n a IHa|]; intros s c s' c'; cbn [rmatch].
  - rewrite elem_of_list_singleton. intros [= -> ->]. exists []. split; [done|constructor].
  - destruct s as [|x t]; [by rewrite elem_of_nil|]. destruct (p x) eqn:E; [|by rewrite elem_of_nil].
    rewrite elem_of_list_singleton. intros [= -> ->]. exists [x]. split; [done|by constructor].
  - rewrite elem_of_list_In, in_flat_map. intros ([s1 c1] & H1 & H2). rewrite <- elem_of_list_In in H1, H2.
    apply IHa in H1 as (u & -> & Hu). apply IHb in H2 as (v & -> & Hv).
    exists (u ++ v). split; [by rewrite app_assoc|by constructor].
  - rewrite elem_of_app. intros [H|H].
    + apply IHa in H as (w & -> & Hw). exists w. split; [done|by apply in_alt_l].
    + apply IHb in H as (w & -> & Hw). exists w. split; [done|by apply in_alt_r].
  - assert (H : forall f s c s' c', (s', c') ∈ star_match (rmatch a) f s c -> exists w, s = w ++ s' /\ in_re (RStar a) w).
    { clear s c s' c'. induction f as [|f IH]; intros s c s' c'; cbn [star_match].
      - rewrite elem_of_list_singleton. intros [= -> ->]. exists []. split; [done|constructor].
      - rewrite elem_of_app, elem_of_list_singleton. intros [H|[= -> ->]]; [|exists []; split; [done|constructor]].
        rewrite elem_of_list_In, in_flat_map in H. destruct H as ([s1 c1] & H1 & H2). rewrite <- elem_of_list_In in H1.
        destruct (_ <? _)%nat; [|done]. rewrite <- elem_of_list_In in H2.
        apply IHa in H1 as (u & -> & Hu). apply IH in H2 as (v & -> & Hv).
        exists (u ++ v). split; [by rewrite app_assoc|by constructor]. }
    apply H.
  - rewrite elem_of_list_fmap. intros ([s1 c1] & [= -> ->] & H). apply IHa in H as (w & -> & Hw).
    exists w. split; [done|by constructor].
  - destruct s; [|by rewrite elem_of_nil]. rewrite elem_of_list_singleton. intros [= -> ->].
    exists []. split; [done|constructor].
Qed.
Lemma hd_len_in r s n : hd_len r s = Some n -> in_re r (take n s).
Proof.
  unfold hd_len. destruct (rmatch r s []) as [|[s' c'] l] eqn:E; [done|]. intros [= <-].
  destruct (rmatch_in r s [] s' c') as (w & -> & Hw); [rewrite E; left|].
  rewrite app_length. replace (length w + length s' - length s')%nat with (length w) by lia. by rewrite take_app.
Qed.

Lemma in_star_set p w : in_re (RStar (RSet p)) w -> Forall (fun x => p x = true) w.
Proof.
  intros H. remember (RStar (RSet p)) as r eqn:E. induction H; try discriminate; [constructor|].
  injection E as ->. apply Forall_app. split; [|by apply IHin_re2]. inversion H; subst. by repeat constructor.
Qed.
Lemma in_cat_inv a b w : in_re (RCat a b) w -> exists u v, w = u ++ v /\ in_re a u /\ in_re b v.
Proof. inversion 1; subst. eauto. Qed.
Lemma in_set_inv p w : in_re (RSet p) w -> exists x, w = [x] /\ p x = true.
Proof. inversion 1; subst. eauto. Qed.
Lemma in_plus_set p w : in_re (RPlus (RSet p)) w -> w <> [] /\ Forall (fun x => p x = true) w.
Proof.
  intros H. apply in_cat_inv in H as (u & v & -> & Hu & Hv). apply in_set_inv in Hu as (x & -> & Hx).
  split; [done|]. constructor; [done|]. by apply in_star_set.
Qed.
