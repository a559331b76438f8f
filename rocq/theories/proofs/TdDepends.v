(** What the results of the parsers depend on. *)
From Coq Require Import String Lia.
From Verif.model Require Import Topdown Packrat.
From Verif.spec Require Import TopdownSpec PackratSpec Outcome Reach.
From Verif.proofs Require Import Fuel TopdownProofs TopdownThms PackratThms PackratWit TopdownWit.
Local Open Scope nat_scope.
Local Open Scope list_scope.

(** * Only the kinds of the lexemes decide *)
Section Kinds.
  Variable g : grammar.
  Variables l1 l2 : list lexeme.
  Hypothesis Hkinds : map lx_kind l1 = map lx_kind l2.

  Definition alike (r r' : option (pn * nat)) : Prop :=
    match r, r' with
    | None, None => True
    | Some (t, e), Some (t', e') => e' = e /\ shape t = shape t'
    | _, _ => False
    end.
  Definition alike_seq (r r' : option (list pn * nat)) : Prop :=
    match r, r' with
    | None, None => True
    | Some (t, e), Some (t', e') => e' = e /\ map shape t = map shape t'
    | _, _ => False
    end.
  Lemma kind_at pos lx : l1 !! pos = Some lx -> exists lx', l2 !! pos = Some lx' /\ lx_kind lx' = lx_kind lx.
  Proof using Hkinds.
    intros H. assert (E : map lx_kind l1 !! pos = Some (lx_kind lx)) by (change (map lx_kind l1) with (lx_kind <$> l1); rewrite list_lookup_fmap, H; done).
    rewrite Hkinds in E. change (map lx_kind l2) with (lx_kind <$> l2) in E. rewrite list_lookup_fmap in E.
    destruct (l2 !! pos) as [lx'|]; [|done]. exists lx'. split; [done|]. by injection E.
  Qed.
  Lemma same_length : length l1 = length l2.
  Proof using Hkinds. apply (f_equal length) in Hkinds. by rewrite !map_length in Hkinds. Qed.

  Lemma oc_alike :
    (forall s pos r, oc_sym g l1 s pos r -> exists r', oc_sym g l2 s pos r' /\ alike r r')
    /\ (forall s pos ps r, oc_prods g l1 s pos ps r -> exists r', oc_prods g l2 s pos ps r' /\ alike r r')
    /\ (forall p pos r, oc_seq g l1 p pos r -> exists r', oc_seq g l2 p pos r' /\ alike_seq r r').
  Proof using Hkinds.
    apply oc_mut.
    - intros s pos lx Hg Hl Hk. destruct (kind_at _ _ Hl) as (lx' & Hl' & Hk'). exists (Some (PN lx' [], S pos)).
      split; [apply oc_term; congruence|]. split; [done|]. cbn. by rewrite Hk'.
    - intros s pos lx Hg Hl Hk. destruct (kind_at _ _ Hl) as (lx' & Hl' & Hk'). exists None. split; [|done].
      eapply oc_term_other; [done|exact Hl'|congruence].
    - intros s pos Hg Hl. exists None. split; [|done]. apply oc_term_end; [done|]. apply lookup_ge_None. rewrite <- same_length. by apply lookup_ge_None.
    - intros s pos ps r Hg _ (r' & H1 & H2). exists r'. split; [by eapply oc_nt|done].
    - intros s pos. exists None. split; [constructor|done].
    - intros s pos p ps cs e _ ([[cs' e']|] & H1 & H2); [|done]. destruct H2 as (-> & H2). eexists. split; [by apply oc_hit|].
      split; [done|]. cbn. by rewrite H2.
    - intros s pos p ps r _ ([[cs' e']|] & H1 & H2) _ (r' & H3 & H4); [done|]. exists r'. split; [by apply oc_miss|done].
    - intros pos. eexists. split; [constructor|done].
    - intros x r pos _ ([[c e]|] & H1 & H2); [done|]. exists None. split; [by apply oc_fail|done].
    - intros x r pos c e _ ([[c' e']|] & H1 & H2) _ ([[cs e2]|] & H3 & H4); try done. destruct H2 as (-> & H2).
      exists None. split; [by eapply oc_fail_later|done].
    - intros x r pos c e cs e' _ ([[c' e1]|] & H1 & H2) _ ([[cs' e2]|] & H3 & H4); try done. destruct H2 as (-> & H2). destruct H4 as (-> & H4).
      eexists. split; [by eapply oc_cons|]. split; [done|]. cbn [map]. by rewrite H2, H4.
  Qed.
  Lemma top_alike s ps r : oc_top g l1 s ps r -> exists r', oc_top g l2 s ps r' /\ option_map shape r = option_map shape r'.
  Proof using Hkinds.
    induction 1 as [s|s p ps cs Hp|s p ps cs e r Hp Hne Ht (r' & IH1 & IH2)|s p ps r Hp Ht (r' & IH1 & IH2)].
    - exists None. split; [constructor|done].
    - destruct (proj2 (proj2 oc_alike) _ _ _ Hp) as ([[cs' e']|] & H1 & H2); [|done]. destruct H2 as (-> & H2). rewrite same_length in H1.
      eexists. split; [by apply ot_hit|]. cbn. by rewrite H2.
    - destruct (proj2 (proj2 oc_alike) _ _ _ Hp) as ([[cs' e']|] & H1 & H2); [|done]. destruct H2 as (-> & H2). rewrite same_length in Hne.
      exists r'. split; [by eapply ot_short|done].
    - destruct (proj2 (proj2 oc_alike) _ _ _ Hp) as ([[cs' e']|] & H1 & H2); [done|]. exists r'. split; [by eapply ot_miss|done].
  Qed.
End Kinds.
Lemma td_shapes g l1 l2 r1 : g_wf g -> map lx_kind l1 = map lx_kind l2 -> returns (fun n => td_parse n g l1) r1 ->
  exists r2, returns (fun n => td_parse n g l2) r2 /\ option_map shape r1 = option_map shape r2.
Proof.
  intros Hg Hk H%td_parse_oc; [|done]. inversion H as [Hn|s0 rest ps r Hn Hps Ht]; subst.
  - exists None. split; [|done]. apply td_parse_oc; [done|]. by apply op_no_start.
  - destruct (top_alike g l1 l2 Hk s0 ps r1 Ht) as (r2 & H1 & H2). exists r2. split; [|done].
    apply td_parse_oc; [done|]. by eapply op_start.
Qed.
Lemma td_shapes_diverges g l1 l2 : g_wf g -> map lx_kind l1 = map lx_kind l2 ->
  diverges (fun n => td_parse n g l1) -> diverges (fun n => td_parse n g l2).
Proof.
  intros Hg Hk Hd. apply td_parse_diverges; [done|]. intros [r Hr%(td_parse_oc _ _ _ Hg)].
  destruct (td_shapes g l2 l1 r Hg (eq_sym Hk) Hr) as (r2 & H2%(td_parse_oc _ _ _ Hg) & _).
  apply (td_parse_diverges g l1 Hg) in Hd. apply Hd. eauto.
Qed.

(** * Only the reachable symbols matter *)
Lemma reach_sub g1 g2 x : same_reachable g1 g2 -> reachable g1 x -> reachable g2 x.
Proof.
  intros [Hh Hp]. induction 1 as [s0 rest Hn|A ps p x HA IH Hps Hin Hx].
  - rewrite Hn in Hh. destruct (g_nts g2) as [|s1 r1] eqn:E; [done|]. injection Hh as ->. by eapply reach_start.
  - eapply reach_step; [exact IH| |exact Hin|exact Hx]. by rewrite <- (Hp A HA).
Qed.
Lemma reach_sup g1 g2 x : same_reachable g1 g2 -> reachable g2 x -> reachable g1 x.
Proof.
  intros [Hh Hp]. induction 1 as [s0 rest Hn|A ps p x HA IH Hps Hin Hx].
  - rewrite Hn in Hh. destruct (g_nts g1) as [|s1 r1] eqn:E; [done|]. injection Hh as ->. by eapply reach_start.
  - eapply reach_step; [exact IH| |exact Hin|exact Hx]. by rewrite (Hp A IH).
Qed.
Lemma same_sym g1 g2 : same_reachable g1 g2 -> same_reachable g2 g1.
Proof. intros H. split; [symmetry; apply H|]. intros x Hx. symmetry. apply H. by eapply reach_sup. Qed.

Section Part.
  Variables g1 g2 : grammar.
  Hypothesis Hs : same_reachable g1 g2.
  Variable lxs : list lexeme.
  Notation R := (reachable g1).
  Lemma oc_part :
    (forall s pos r, oc_sym g1 lxs s pos r -> R s -> oc_sym g2 lxs s pos r)
    /\ (forall s pos ps r, oc_prods g1 lxs s pos ps r -> (forall p x, p ∈ ps -> x ∈ p -> R x) -> oc_prods g2 lxs s pos ps r)
    /\ (forall p pos r, oc_seq g1 lxs p pos r -> (forall x, x ∈ p -> R x) -> oc_seq g2 lxs p pos r).
  Proof using Hs.
    destruct Hs as [_ Hp]. apply oc_mut.
    - intros s pos lx Hg Hl Hk HR. apply oc_term; [by rewrite <- Hp|done|done].
    - intros s pos lx Hg Hl Hk HR. eapply oc_term_other; [by rewrite <- Hp|done|done].
    - intros s pos Hg Hl HR. apply oc_term_end; [by rewrite <- Hp|done].
    - intros s pos ps r Hg _ IH HR. eapply oc_nt; [by rewrite <- Hp|]. apply IH. intros p x Hin Hx. by eapply reach_step.
    - intros. constructor.
    - intros s pos p ps cs e _ IH HR. apply oc_hit. apply IH. intros x. apply HR. left.
    - intros s pos p ps r _ IH _ IH2 HR. apply oc_miss; [apply IH; intros x; apply HR; left|apply IH2; intros q x Hq; apply HR; by right].
    - intros. constructor.
    - intros x r pos _ IH HR. apply oc_fail. apply IH, HR. left.
    - intros x r pos c e _ IH _ IH2 HR. eapply oc_fail_later; [apply IH, HR; left|apply IH2; intros y Hy; apply HR; by right].
    - intros x r pos c e cs e' _ IH _ IH2 HR. eapply oc_cons; [apply IH, HR; left|apply IH2; intros y Hy; apply HR; by right].
  Qed.
  Lemma top_part s ps r : oc_top g1 lxs s ps r -> (forall p x, p ∈ ps -> x ∈ p -> R x) -> oc_top g2 lxs s ps r.
  Proof using Hs.
    induction 1; intros HR.
    - constructor.
    - apply ot_hit. apply oc_part; [done|]. intros x. apply HR. left.
    - eapply ot_short; [apply oc_part; [done|]; intros x; apply HR; left|done|]. apply IHoc_top. intros q x Hq. apply HR. by right.
    - eapply ot_miss; [apply oc_part; [done|]; intros x; apply HR; left|]. apply IHoc_top. intros q x Hq. apply HR. by right.
  Qed.
  Lemma parse_part r : oc_parse g1 lxs r -> oc_parse g2 lxs r.
  Proof using Hs.
    intros H. inversion H as [Hn|s0 rest ps r' Hn Hps Ht]; subst; destruct Hs as [Hh Hp]; rewrite Hn in Hh.
    - apply op_no_start. by destruct (g_nts g2).
    - destruct (g_nts g2) as [|s1 r1] eqn:E; [done|]. injection Hh as ->. assert (HR : R s1) by by eapply reach_start.
      eapply op_start; [done|by rewrite <- Hp|]. apply top_part; [done|]. intros p x Hin Hx. by eapply reach_step.
  Qed.
End Part.

Lemma td_reachable g1 g2 lexemes r : g_wf g1 -> g_wf g2 -> same_reachable g1 g2 ->
  returns (fun n => td_parse n g1 lexemes) r <-> returns (fun n => td_parse n g2 lexemes) r.
Proof.
  intros H1 H2 Hs. rewrite !td_parse_oc by done. split; [by apply parse_part|]. by apply parse_part, same_sym.
Qed.

(** * Examples *)
(** [S -> ( S ) | x] with rules for T, which S does not use. *)
Definition paren_more : grammar :=
  gram_of [(L "S", [[L "("; L "S"; L ")"]; [L "x"]]); (L "T", [[L "T"; L "S"]; [L "y"]])].
Lemma paren_reach x : reachable paren x -> x = L "S" \/ x = L "(" \/ x = L ")" \/ x = L "x".
Proof.
  induction 1 as [s0 rest Hn|A ps p x HA IH Hps Hin Hx].
  - left. vm_compute in Hn. by injection Hn as <-.
  - destruct IH as [-> | [-> | [-> | -> ] ] ]; [|discriminate Hps..]. vm_compute in Hps. injection Hps as <-.
    rewrite elem_of_cons, elem_of_list_singleton in Hin. destruct Hin as [-> | -> ].
    + rewrite !elem_of_cons in Hx. destruct Hx as [->|[->|[->|Hx]]]; [right; left|left|right; right; left|inversion Hx]; reflexivity.
    + rewrite elem_of_list_singleton in Hx. right. right. right. exact Hx.
Qed.
Lemma paren_more_same : g_wf paren /\ g_wf paren_more /\ same_reachable paren paren_more
  /\ g_prods paren (L "T") <> g_prods paren_more (L "T").
Proof.
  split_and!; [apply gram_of_wf|apply gram_of_wf| |discriminate].
  split; [reflexivity|]. intros x [-> | [-> | [-> | -> ] ] ]%paren_reach; reflexivity.
Qed.
Definition paren_in2 : list lexeme := [Lx (L "(") (L "[") 1 1; Lx (L "x") (L "2") 1 2; Lx (L ")") (L "]") 2 1].
Definition paren_in1 : list lexeme := [Lx (L "(") (L "{") 4 1; Lx (L "x") (L "3") 5 2; Lx (L ")") (L "}") 6 1].
Lemma shapes_example : g_wf paren /\ map lx_kind paren_in1 = map lx_kind paren_in2
  /\ exists t1 t2, td_parse 20 paren paren_in1 = Ok (Some t1) /\ td_parse 20 paren paren_in2 = Ok (Some t2) /\ t1 <> t2.
Proof.
  split; [apply gram_of_wf|]. split; [reflexivity|]. eexists _, _. split; [vm_compute; reflexivity|]. split; [vm_compute; reflexivity|]. discriminate.
Qed.
