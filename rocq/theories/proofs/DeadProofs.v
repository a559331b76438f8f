(** Productions that derive no word. *)
From Coq Require Import String Lia.
From Verif.model Require Import Topdown Packrat.
From Verif.spec Require Import TopdownSpec PackratSpec Outcome Grows Dead.
From Verif.proofs Require Import Fuel PackratFuel PackratThms LeftRecProofs TopdownProofs TopdownThms PackratWit TopdownWit GrowsProofs.
Local Open Scope nat_scope.
Local Open Scope list_scope.

Lemma less_dead_sub g ps qs : less_dead g ps qs -> forall p, p ∈ qs -> p ∈ ps.
Proof. induction 1 as [|p ps qs _ IH|p ps qs _ _ IH]; intros q Hq; [done| |right; by apply IH]. apply elem_of_cons in Hq as [->|Hq]; [left|right; by apply IH]. Qed.
Lemma less_dead_kept g ps qs : less_dead g ps qs -> forall p, p ∈ ps -> (exists w, derives_seq g p w) -> p ∈ qs.
Proof.
  induction 1 as [|p ps qs _ IH|p ps qs Hd _ IH]; intros q Hq Hw; [done| |]; apply elem_of_cons in Hq as [->|Hq].
  - left.
  - right. by apply IH.
  - destruct Hw as [w Hw]. by apply Hd in Hw.
  - by apply IH.
Qed.

Section Td.
  Variables (g1 g2 : grammar) (lxs : list lexeme).
  Hypothesis Hc : forall x, match g_prods g1 x, g_prods g2 x with
    | Some ps, Some qs => less_dead g1 ps qs | None, None => True | _, _ => False end.
  Lemma cleared_none s : g_prods g1 s = None -> g_prods g2 s = None.
  Proof using Hc. intros H. specialize (Hc s). rewrite H in Hc. by destruct (g_prods g2 s). Qed.
  Lemma cleared_some s ps : g_prods g1 s = Some ps -> exists qs, g_prods g2 s = Some qs /\ less_dead g1 ps qs.
  Proof using Hc. intros H. specialize (Hc s). rewrite H in Hc. destruct (g_prods g2 s) as [qs|]; [|done]. by exists qs. Qed.
  Lemma hit_alive p pos cs e : oc_seq g1 lxs p pos (Some (cs, e)) -> pos <= length lxs -> ~ dead g1 p.
  Proof using.
    intros H Hle Hd. destruct (proj2 (proj2 (oc_sound g1 lxs)) _ _ _ H Hle) as (_ & _ & Ht).
    apply (proj2 (is_tree_derives g1)) in Ht. by apply Hd in Ht.
  Qed.
  Lemma oc_cleared :
    (forall s pos r, oc_sym g1 lxs s pos r -> pos <= length lxs -> oc_sym g2 lxs s pos r)
    /\ (forall s pos ps r, oc_prods g1 lxs s pos ps r -> pos <= length lxs -> forall qs, less_dead g1 ps qs -> oc_prods g2 lxs s pos qs r)
    /\ (forall p pos r, oc_seq g1 lxs p pos r -> pos <= length lxs -> oc_seq g2 lxs p pos r).
  Proof using Hc.
    apply oc_mut.
    - intros s pos lx Hn Hl Hk _. apply oc_term; [by apply cleared_none|done|done].
    - intros s pos lx Hn Hl Hk _. eapply oc_term_other; [by apply cleared_none|done|done].
    - intros s pos Hn Hl _. apply oc_term_end; [by apply cleared_none|done].
    - intros s pos ps r Hp _ IH Hle. destruct (cleared_some s ps Hp) as (qs & Hq & Hl). eapply oc_nt; [done|]. by apply IH.
    - intros s pos _ qs H. inversion H. constructor.
    - intros s pos p ps cs e Ho IH Hle qs H. inversion H as [|? ? qs' H'|? ? ? Hd]; subst; [apply oc_hit; by apply IH|].
      by apply hit_alive in Ho.
    - intros s pos p ps r _ IH1 _ IH2 Hle qs H. inversion H as [|? ? qs' H'|? ? ? Hd H']; subst; [apply oc_miss; [by apply IH1|by apply IH2]|by apply IH2].
    - constructor.
    - intros x r pos _ IH Hle. by apply oc_fail, IH.
    - intros x r pos c e Ho IH1 _ IH2 Hle. destruct (oc_sym_le _ _ _ _ _ _ Ho Hle) as (_ & H2 & _). eapply oc_fail_later; [by apply IH1|by apply IH2].
    - intros x r pos c e cs e' Ho IH1 _ IH2 Hle. destruct (oc_sym_le _ _ _ _ _ _ Ho Hle) as (_ & H2 & _). eapply oc_cons; [by apply IH1|by apply IH2].
  Qed.
  Lemma top_cleared s ps r : oc_top g1 lxs s ps r -> forall qs, less_dead g1 ps qs -> oc_top g2 lxs s qs r.
  Proof using Hc.
    induction 1 as [|s p ps cs Hp|s p ps cs e r Hp Hne Ht IH|s p ps r Hp Ht IH]; intros qs H.
    - inversion H. constructor.
    - inversion H as [|? ? qs' H'|? ? ? Hd]; subst; [|apply hit_alive in Hp; [done|lia]]. apply ot_hit. apply (proj2 (proj2 oc_cleared)); [done|lia].
    - inversion H as [|? ? qs' H'|? ? ? Hd]; subst; [|apply hit_alive in Hp; [done|lia]]. eapply ot_short; [apply (proj2 (proj2 oc_cleared)); [done|lia]|done|by apply IH].
    - inversion H as [|? ? qs' H'|? ? ? Hd H']; subst; [|by apply IH]. apply ot_miss; [apply (proj2 (proj2 oc_cleared)); [done|lia]|by apply IH].
  Qed.
End Td.
Lemma td_cleared g1 g2 lexemes r : g_wf g1 -> g_wf g2 -> cleared g1 g2 ->
  returns (fun n => td_parse n g1 lexemes) r -> returns (fun n => td_parse n g2 lexemes) r.
Proof.
  intros H1 H2 [Hh Hc] Hr. apply td_parse_oc in Hr; [|done]. apply td_parse_oc; [done|].
  inversion Hr as [Hn|s0 rest ps r' Hn Hp Ht]; subst; rewrite Hn in Hh.
  - apply op_no_start. by destruct (g_nts g2).
  - destruct (g_nts g2) as [|s rest2] eqn:E; [done|]. injection Hh as <-.
    destruct (cleared_some g1 g2 Hc s0 ps Hp) as (qs & Hq & Hl). eapply op_start; [done|done|]. by eapply top_cleared.
Qed.
Lemma td_cleared_iff g1 g2 lexemes r : g_wf g1 -> g_wf g2 -> cleared g1 g2 -> ~ left_recursive g1 ->
  returns (fun n => td_parse n g1 lexemes) r <-> returns (fun n => td_parse n g2 lexemes) r.
Proof.
  intros H1 H2 Hc Hl. split; [by apply td_cleared|]. intros Hr. destruct (topdown_terminates g1 lexemes H1 Hl) as (r1 & Hr1).
  pose proof (td_cleared g1 g2 lexemes r1 H1 H2 Hc Hr1) as Hr2. by rewrite (returns_fun _ _ _ Hr Hr2).
Qed.

(** * Packrat *)
Lemma cleared_grows g1 g2 : cleared g1 g2 -> grows g2 g1.
Proof.
  intros [Hh Hc]. split; [done|]. intros x qs Hq. specialize (Hc x). rewrite Hq in Hc. destruct (g_prods g1 x) as [ps|]; [|done].
  exists ps. split; [done|]. by apply less_dead_sub with g1.
Qed.
Lemma cleared_derives g1 g2 : cleared g1 g2 -> forall s w, derives g1 s w -> derives g2 s w.
Proof.
  intros [_ Hc]. apply (derives_mut g1 (fun s w _ => derives g2 s w) (fun p w _ => derives_seq g2 p w)).
  - intros s H. apply der_term. by apply (cleared_none g1).
  - intros s ps p w Hp Hin Hd IH. destruct (cleared_some g1 g2 Hc s ps Hp) as (qs & Hq & Hl). eapply der_nt; [done| |done].
    eapply less_dead_kept; [done|done|by exists w].
  - constructor.
  - intros. by constructor.
Qed.
Lemma cleared_terminal g1 g2 lexemes : cleared g1 g2 -> terminal_kinds g1 lexemes -> terminal_kinds g2 lexemes.
Proof. intros [_ Hc] H lx Hlx. apply (cleared_none g1 g2 Hc). by apply H. Qed.
Lemma packrat_cleared g1 g2 lexemes : g_wf g1 -> g_wf g2 -> cleared g1 g2 -> terminal_kinds g1 lexemes ->
  (exists t, returns (fun n => packrat_parse n g1 lexemes) (Some t)) <-> (exists t, returns (fun n => packrat_parse n g2 lexemes) (Some t)).
Proof.
  intros H1 H2 Hc Hk. split.
  - intros [t Hr]. destruct lexemes as [|lx0 lxs].
    + destruct (g_nts g1) as [|s0 rest] eqn:E.
      * exfalso. destruct Hr as [F Hr]. specialize (Hr F ltac:(lia)). revert Hr. unfold packrat_parse. rewrite E. discriminate.
      * pose proof (proj1 Hc) as Hh. rewrite E in Hh. destruct (g_nts g2) as [|s rest2] eqn:E2; [done|].
        destruct (packrat_empty g2 s rest2 H2 E2) as (t' & H & _). by exists t'.
    + apply packrat_complete; [done|by eapply cleared_terminal|].
      destruct (packrat_sound g1 (lx0 :: lxs) H1 Hk t ltac:(done) Hr) as (s0 & rest & Hn & Htr).
      pose proof (proj1 Hc) as Hh. rewrite Hn in Hh. destruct (g_nts g2) as [|s rest2] eqn:E2; [done|]. injection Hh as <-.
      exists s0, rest2. split; [done|]. apply (cleared_derives g1 g2 Hc). by apply (proj1 (is_tree_derives g1)) in Htr.
  - intros [t Hr]. by apply (packrat_grows g2 g1 lexemes t H2 H1 (cleared_grows g1 g2 Hc)).
Qed.

(** * Witnesses *)
Definition blind : grammar := gram_of [(L "S", [[L "("; L "S"; L ")"]; [L "B"; L "x"]; [L "x"]]); (L "B", [[L "y"; L "B"]])].
Definition sighted : grammar := gram_of [(L "S", [[L "("; L "S"; L ")"]; [L "x"]]); (L "B", [[L "y"; L "B"]])].
Lemma blind_B : forall s w, derives blind s w -> s <> L "B".
Proof.
  apply (derives_mut blind (fun s w _ => s <> L "B") (fun p w _ => L "B" ∉ p)).
  - intros s H ->. by vm_compute in H.
  - intros s ps p w Hp Hin _ IH ->. vm_compute in Hp. injection Hp as <-. apply elem_of_list_singleton in Hin as ->. apply IH. right. left.
  - apply not_elem_of_nil.
  - intros s r u v _ IH1 _ IH2. apply not_elem_of_cons. split; congruence.
Qed.
Lemma blind_dead : dead blind [L "B"; L "x"].
Proof. intros w H. inversion H as [|? ? u v H1]; subst. by apply blind_B in H1. Qed.
Lemma blind_cleared : cleared blind sighted.
Proof.
  split; [done|]. intros x. unfold blind, sighted, gram_of. cbn [g_prods]. unfold assoc_prods.
  repeat case_decide; try done; repeat first [apply ld_keep|apply ld_nil|apply ld_drop; [apply blind_dead|]].
Qed.
Lemma blind_not_lr : ~ left_recursive blind.
Proof.
  apply (td_new_exact blind true); [apply gram_of_wf| | |done].
  - intros A ps x r _ _ _ Hd. eapply epsfree_nonnull in Hd; [done|]. clear. intros s ps. unfold blind, gram_of, g_prods, assoc_prods.
    repeat case_decide; try discriminate; intros [= <-] Hin; repeat (apply elem_of_cons in Hin as [Hin|Hin]; [discriminate|]); inversion Hin.
  - apply (returns_at _ 10); [|vm_compute; reflexivity]. intros n m Hle. apply rle_bind; [apply is_lr_mono; done|]. intros; apply rle_refl.
Qed.
Lemma blind_example : g_wf blind /\ g_wf sighted /\ cleared blind sighted /\ ~ left_recursive blind /\ terminal_kinds blind paren_in
  /\ g_prods blind (L "S") <> g_prods sighted (L "S")
  /\ (exists t, td_parse 20 blind paren_in = Ok (Some t) /\ length (pn_children t) = 3)
  /\ (exists t, packrat_parse 300 blind paren_in = Ok (Some t) /\ length (pn_children t) = 3).
Proof.
  split_and!; [apply gram_of_wf|apply gram_of_wf|apply blind_cleared|apply blind_not_lr| |vm_compute; discriminate| |].
  - intros l Hl. unfold paren_in in Hl. repeat (apply elem_of_cons in Hl as [->|Hl]; [by vm_compute|]). inversion Hl.
  - eexists. split; [vm_compute; reflexivity|reflexivity].
  - eexists. split; [vm_compute; reflexivity|reflexivity].
Qed.
(** A dead left recursive production keeps topdown from ending. *)
Definition stuck_a : grammar := gram_of [(L "S", [[L "A"]; [L "x"]]); (L "A", [[L "A"; L "y"]])].
Definition free_a : grammar := gram_of [(L "S", [[L "x"]]); (L "A", [[L "A"; L "y"]])].
Lemma stuck_A : forall s w, derives stuck_a s w -> s <> L "A".
Proof.
  apply (derives_mut stuck_a (fun s w _ => s <> L "A") (fun p w _ => L "A" ∉ p)).
  - intros s H ->. by vm_compute in H.
  - intros s ps p w Hp Hin _ IH ->. vm_compute in Hp. injection Hp as <-. apply elem_of_list_singleton in Hin as ->. apply IH. left.
  - apply not_elem_of_nil.
  - intros s r u v _ IH1 _ IH2. apply not_elem_of_cons. split; congruence.
Qed.
Lemma stuck_oc lxs :
  (forall s pos r, oc_sym stuck_a lxs s pos r -> s <> L "A")
  /\ (forall s pos ps r, oc_prods stuck_a lxs s pos ps r -> ps <> [[L "A"; L "y"]])
  /\ (forall p pos r, oc_seq stuck_a lxs p pos r -> head p <> Some (L "A")).
Proof.
  apply oc_mut; try done.
  - intros s pos lx H _ _ ->. by vm_compute in H.
  - intros s pos lx H _ _ ->. by vm_compute in H.
  - intros s pos H _ ->. by vm_compute in H.
  - intros s pos ps r H _ IH ->. vm_compute in H. injection H as <-. by apply IH.
  - intros s pos p ps cs e _ IH [= -> ->]. by apply IH.
  - intros s pos p ps r _ IH _ _ [= -> ->]. by apply IH.
  - intros x r pos _ IH [= ->]. done.
  - intros x r pos c e _ IH _ _ [= ->]. done.
  - intros x r pos c e cs e' _ IH _ _ [= ->]. done.
Qed.
Lemma dead_matters : exists g1 g2 lexemes t, g_wf g1 /\ g_wf g2 /\ cleared g1 g2
  /\ diverges (fun n => td_parse n g1 lexemes) /\ returns (fun n => td_parse n g2 lexemes) (Some t).
Proof.
  eexists stuck_a, free_a, [lx (L "x")], _. split_and!; [apply gram_of_wf|apply gram_of_wf| | |].
  - split; [done|]. intros x. unfold stuck_a, free_a, gram_of. cbn [g_prods]. unfold assoc_prods.
    assert (Hd : dead stuck_a [L "A"]) by (intros w H; inversion H as [|? ? u v H1]; subst; by apply stuck_A in H1).
    repeat case_decide; try done; repeat first [apply ld_keep|apply ld_nil|apply ld_drop; [apply Hd|]].
  - apply td_parse_diverges; [apply gram_of_wf|]. intros [r H]. inversion H as [Hn|s0 rest ps r' Hn Hp Ht]; subst; [done|].
    injection Hn as <- <-. vm_compute in Hp. injection Hp as <-.
    inversion Ht as [|? ? ? ? Hq|? ? ? ? ? ? Hq|? ? ? ? Hq]; subst; by apply (proj2 (proj2 (stuck_oc _))) in Hq.
  - apply (returns_at _ 20); [intros; by apply td_parse_mono|vm_compute; reflexivity].
Qed.
