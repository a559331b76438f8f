(** Topdown never takes a production that begins with an earlier one. *)
From Coq Require Import String Lia.
From Verif.model Require Import Topdown Packrat.
From Verif.spec Require Import TopdownSpec Outcome Shadow.
From Verif.proofs Require Import Fuel TopdownProofs TopdownThms PackratWit.
Local Open Scope nat_scope.
Local Open Scope list_scope.

Lemma seq_app_none g lxs p q pos : oc_seq g lxs p pos None -> oc_seq g lxs (p ++ q) pos None.
Proof.
  intros H. remember None as r eqn:Er. revert Er. induction p as [|x p IH] in pos, r, H |- *; intros ->; inversion H; subst; cbn [app].
  - by apply oc_fail.
  - eapply oc_fail_later; [done|]. by eapply IH.
Qed.

Section Sh.
  Variables g1 g2 : grammar.
  Hypothesis Hp : pruned_grammar g1 g2.
  Variable lxs : list lexeme.
  Lemma pruned_none x : g_prods g1 x = None <-> g_prods g2 x = None.
  Proof using Hp. destruct Hp as [_ H]. specialize (H x). destruct (g_prods g1 x), (g_prods g2 x); done. Qed.

  Lemma oc_prune :
    (forall s pos r, oc_sym g1 lxs s pos r -> oc_sym g2 lxs s pos r)
    /\ (forall s pos ps r, oc_prods g1 lxs s pos ps r -> forall d seen ps', pruned d seen ps ps' ->
          (forall p, p ∈ seen -> oc_seq g2 lxs p pos None) -> oc_prods g2 lxs s pos ps' r)
    /\ (forall p pos r, oc_seq g1 lxs p pos r -> oc_seq g2 lxs p pos r).
  Proof using Hp.
    apply oc_mut.
    - intros s pos lx Hg Hl Hk. apply oc_term; [by apply pruned_none|done..].
    - intros s pos lx Hg Hl Hk. eapply oc_term_other; [by apply pruned_none|done..].
    - intros s pos Hg Hl. apply oc_term_end; [by apply pruned_none|done].
    - intros s pos ps r Hg _ IH. destruct Hp as [_ H]. specialize (H s). rewrite Hg in H. destruct (g_prods g2 s) as [ps'|] eqn:E; [|done].
      eapply oc_nt; [done|]. eapply IH; [exact H|]. intros p Hin. inversion Hin.
    - intros s pos d seen ps' H _. inversion H; subst. constructor.
    - intros s pos p ps cs e _ IH d seen ps' H Hs. inversion H; subst.
      + by apply oc_hit.
      + exfalso. pose proof (oc_seq_det _ _ _ _ _ _ IH (seq_app_none _ _ _ q _ (Hs _ H2))). done.
    - intros s pos p ps r _ IH _ IH2 d seen ps' H Hs. inversion H; subst.
      + apply oc_miss; [done|]. eapply IH2; [done|]. intros p' [->|Hin]%elem_of_cons; [done|by apply Hs].
      + by eapply IH2.
    - intros. constructor.
    - intros. by apply oc_fail.
    - intros. by eapply oc_fail_later.
    - intros. by eapply oc_cons.
  Qed.
  Lemma oc_unprune :
    (forall s pos r, oc_sym g2 lxs s pos r -> oc_sym g1 lxs s pos r)
    /\ (forall s pos ps' r, oc_prods g2 lxs s pos ps' r -> forall d seen ps, pruned d seen ps ps' ->
          (forall p, p ∈ seen -> oc_seq g1 lxs p pos None) -> oc_prods g1 lxs s pos ps r)
    /\ (forall p pos r, oc_seq g2 lxs p pos r -> oc_seq g1 lxs p pos r).
  Proof using Hp.
    apply oc_mut.
    - intros s pos lx Hg Hl Hk. apply oc_term; [by apply pruned_none|done..].
    - intros s pos lx Hg Hl Hk. eapply oc_term_other; [by apply pruned_none|done..].
    - intros s pos Hg Hl. apply oc_term_end; [by apply pruned_none|done].
    - intros s pos ps' r Hg _ IH. destruct Hp as [_ H]. specialize (H s). rewrite Hg in H. destruct (g_prods g1 s) as [ps|] eqn:E; [|done].
      eapply oc_nt; [done|]. eapply IH; [exact H|]. intros p Hin. inversion Hin.
    - intros s pos d seen ps H. remember [] as ps' eqn:E. revert E. induction H as [seen|seen p ps ps' H IH|seen p q ps ps' Hin Hd H IH]; intros E Hs; [constructor|done|].
      apply oc_miss; [by apply seq_app_none, Hs|by apply IH].
    - intros s pos p0 ps0 cs e _ IH0 d seen ps H. remember (p0 :: ps0) as ps' eqn:E. revert E. induction H as [seen|seen p ps ps' H IH|seen p q ps ps' Hin Hd H IH]; intros E Hs; [done| |].
      + injection E as -> ->. by apply oc_hit.
      + apply oc_miss; [by apply seq_app_none, Hs|by apply IH].
    - intros s pos p0 ps0 r _ IH0 _ IH2 d seen ps H. remember (p0 :: ps0) as ps' eqn:E. revert E. induction H as [seen|seen p ps ps' H IH|seen p q ps ps' Hin Hd H IH]; intros E Hs; [done| |].
      + injection E as -> ->. apply oc_miss; [done|]. eapply IH2; [done|]. intros p' [->|Hin]%elem_of_cons; [done|by apply Hs].
      + apply oc_miss; [by apply seq_app_none, Hs|by apply IH].
    - intros. constructor.
    - intros. by apply oc_fail.
    - intros. by eapply oc_fail_later.
    - intros. by eapply oc_cons.
  Qed.

  (** Tried at the outermost level without success. *)
  Definition useless (g : grammar) (p : list gostring) : Prop :=
    oc_seq g lxs p 0 None \/ exists cs e, oc_seq g lxs p 0 (Some (cs, e)) /\ e <> length lxs.
  Lemma useless_skip g s p ps r : useless g p -> oc_top g lxs s ps r -> oc_top g lxs s (p :: ps) r.
  Proof using. intros [H|(cs & e & H & Hne)] Ht; [by apply ot_miss|by eapply ot_short]. Qed.
  Lemma top_prune s ps r : oc_top g1 lxs s ps r -> forall d seen ps', pruned d seen ps ps' -> d ->
    (forall p, p ∈ seen -> useless g2 p) -> oc_top g2 lxs s ps' r.
  Proof using Hp.
    induction 1 as [s|s p ps cs Hq|s p ps cs e r Hq Hne Ht IH|s p ps r Hq Ht IH]; intros d seen ps' H HD Hs.
    - inversion H; subst. constructor.
    - apply oc_prune in Hq. inversion H as [|? ? ? ? H1|? p1 q1 ? ? Hin Hd H1]; subst; [by apply ot_hit|].
      exfalso. rewrite (Hd HD), app_nil_r in Hq. destruct (Hs _ Hin) as [Hn|(cs' & e' & Hn & Hne)]; pose proof (oc_seq_det _ _ _ _ _ _ Hq Hn) as E; congruence.
    - apply oc_prune in Hq. inversion H as [|? ? ? ? H1|? p1 q1 ? ? Hin Hd H1]; subst; [|by eapply IH].
      eapply ot_short; [done|done|]. eapply IH; [done|done|]. intros p' [->|Hin]%elem_of_cons; [right; eauto|by apply Hs].
    - apply oc_prune in Hq. inversion H as [|? ? ? ? H1|? p1 q1 ? ? Hin Hd H1]; subst; [|by eapply IH].
      eapply ot_miss; [done|]. eapply IH; [done|done|]. intros p' [->|Hin]%elem_of_cons; [by left|by apply Hs].
  Qed.
  Lemma top_unprune s (d : Prop) seen ps ps' : pruned d seen ps ps' -> d -> (forall p, p ∈ seen -> useless g1 p) -> forall r,
    oc_top g2 lxs s ps' r -> oc_top g1 lxs s ps r.
  Proof using Hp.
    intros H HD. induction H as [seen|seen p ps ps' H IH|seen p q ps ps' Hin Hd H IH]; intros Hs r Ht.
    - inversion Ht; subst. constructor.
    - inversion Ht as [|? ? ? cs Hq|? ? ? cs e ? Hq Hne Ht'|? ? ? ? Hq Ht']; subst; apply oc_unprune in Hq.
      + by apply ot_hit.
      + eapply ot_short; [done|done|]. apply IH; [|done]. intros p' [->|Hin]%elem_of_cons; [right; eauto|by apply Hs].
      + eapply ot_miss; [done|]. apply IH; [|done]. intros p' [->|Hin]%elem_of_cons; [by left|by apply Hs].
    - apply useless_skip; [rewrite (Hd HD), app_nil_r; by apply Hs|by apply IH].
  Qed.
  Lemma parse_prune r : oc_parse g1 lxs r <-> oc_parse g2 lxs r.
  Proof using Hp.
    destruct (Hp) as [Hh Hq]. split; intros H; inversion H as [Hn|s0 rest ps r' Hn Hps Ht]; subst; rewrite Hn in Hh; cbn in Hh.
    - apply op_no_start. by destruct (g_nts g2).
    - destruct (g_nts g2) as [|s1 r1] eqn:E; [done|]. injection Hh as ->. specialize (Hq s1). rewrite Hps in Hq.
      destruct (g_prods g2 s1) as [ps'|] eqn:E2; [|done]. eapply op_start; [done|done|]. eapply top_prune; [done|exact Hq|by rewrite Hn|]. intros p Hin. inversion Hin.
    - apply op_no_start. by destruct (g_nts g1).
    - destruct (g_nts g1) as [|s1 r1] eqn:E; [done|]. injection Hh as ->. specialize (Hq s0). rewrite Hps in Hq.
      destruct (g_prods g1 s0) as [ps'|] eqn:E2; [|done]. eapply op_start; [done|done|]. eapply top_unprune; [exact Hq|done| |done]. intros p Hin. inversion Hin.
  Qed.
End Sh.

Lemma td_pruned g1 g2 lexemes r : g_wf g1 -> g_wf g2 -> pruned_grammar g1 g2 ->
  returns (fun n => td_parse n g1 lexemes) r <-> returns (fun n => td_parse n g2 lexemes) r.
Proof. intros H1 H2 Hp. rewrite !td_parse_oc by done. by apply parse_prune. Qed.

(** * Examples *)
Definition sums : grammar :=
  gram_of [(L "S", [[L "E"; L ";"]; [L "E"; L ";"]]); (L "E", [[L "n"]; [L "n"; L "+"; L "E"]; [L "("; L "E"; L ")"]])].
Definition sums_less : grammar :=
  gram_of [(L "S", [[L "E"; L ";"]]); (L "E", [[L "n"]; [L "("; L "E"; L ")"]])].
Definition lxk (k : gostring) : lexeme := Lx k k 1 1.
Lemma sums_pruned : g_wf sums /\ g_wf sums_less /\ pruned_grammar sums sums_less
  /\ (exists t, td_parse 20 sums (map lxk [L "("; L "n"; L ")"; L ";"]) = Ok (Some t) /\ length (pn_children t) = 2)
  /\ td_parse 20 sums (map lxk [L "n"; L "+"; L "n"; L ";"]) = Ok None.
Proof.
  split; [apply gram_of_wf|]. split; [apply gram_of_wf|]. split_and!.
  - split; [reflexivity|]. intros x. unfold sums, sums_less, gram_of, g_prods, assoc_prods.
    destruct (decide (L "S" = x)) as [<-|H1]; [|destruct (decide (L "E" = x)) as [<-|H2]; [|done]].
    + apply pr_keep. apply (pr_drop _ _ [L "E"; L ";"] []); [left|done|constructor].
    + apply pr_keep. apply (pr_drop _ _ [L "n"] [L "+"; L "E"]); [left| |apply pr_keep; constructor]. intros H. exfalso. revert H. vm_compute. discriminate.
  - eexists. split; [vm_compute; reflexivity|reflexivity].
  - vm_compute. reflexivity.
Qed.
(** Of the start symbol, longer productions do count. *)
Definition longer : grammar := gram_of [(L "S", [[L "x"]; [L "x"; L "y"]])].
Definition shorter : grammar := gram_of [(L "S", [[L "x"]])].
Lemma start_counts : g_wf longer /\ g_wf shorter
  /\ (forall x, match g_prods longer x, g_prods shorter x with Some ps, Some ps' => pruned False [] ps ps' | None, None => True | _, _ => False end)
  /\ exists t, returns (fun n => td_parse n longer (map lxk [L "x"; L "y"])) (Some t) /\ returns (fun n => td_parse n shorter (map lxk [L "x"; L "y"])) None.
Proof.
  split; [apply gram_of_wf|]. split; [apply gram_of_wf|]. split.
  - intros x. unfold longer, shorter, gram_of, g_prods, assoc_prods. destruct (decide (L "S" = x)) as [<-|H1]; [|done].
    apply pr_keep. apply (pr_drop _ _ [L "x"] [L "y"]); [left|done|constructor].
  - eexists. split; apply (returns_at _ 20); [intros; apply td_parse_mono|vm_compute; reflexivity|intros; apply td_parse_mono|vm_compute; reflexivity].
Qed.
Lemma start_differs : exists g1 g2 lexemes t, g_wf g1 /\ g_wf g2
  /\ (forall x, match g_prods g1 x, g_prods g2 x with
                | Some ps, Some ps' => pruned False [] ps ps' | None, None => True | _, _ => False end)
  /\ returns (fun n => td_parse n g1 lexemes) (Some t) /\ returns (fun n => td_parse n g2 lexemes) None.
Proof. destruct start_counts as (H1 & H2 & H3 & t & H4 & H5). exists longer, shorter, (map lxk [L "x"; L "y"]), t. by split_and!. Qed.
