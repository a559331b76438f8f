(** Topdown does not depend on the names of the symbols. *)
From Coq Require Import String Lia.
From Verif.model Require Import Topdown Packrat.
From Verif.spec Require Import TopdownSpec Outcome Rename.
From Verif.proofs Require Import Fuel TopdownProofs TopdownThms PackratWit TdDepends TopdownWit.
Local Open Scope nat_scope.
Local Open Scope list_scope.

Section Rn.
  Variable f : gostring -> gostring.
  Variables g1 g2 : grammar.
  Hypothesis Hf : one_to_one f.
  Hypothesis Hr : renamed f g1 g2.
  Variable lxs : list lexeme.
  Notation R := (reachable g1).
  Notation lxs2 := (map (rn_lexeme f) lxs).
  Definition rn1 (r : option (pn * nat)) : option (pn * nat) := option_map (fun x => (rn_tree f (fst x), snd x)) r.
  Definition rns (r : option (list pn * nat)) : option (list pn * nat) := option_map (fun x => (map (rn_tree f) (fst x), snd x)) r.
  Lemma lx2_at pos : lxs2 !! pos = option_map (rn_lexeme f) (lxs !! pos).
  Proof using. change lxs2 with (rn_lexeme f <$> lxs). by rewrite list_lookup_fmap. Qed.
  Lemma oc_rename :
    (forall s pos r, oc_sym g1 lxs s pos r -> R s -> oc_sym g2 lxs2 (f s) pos (rn1 r))
    /\ (forall s pos ps r, oc_prods g1 lxs s pos ps r -> (forall p x, p ∈ ps -> x ∈ p -> R x) -> oc_prods g2 lxs2 (f s) pos (map (map f) ps) (rn1 r))
    /\ (forall p pos r, oc_seq g1 lxs p pos r -> (forall x, x ∈ p -> R x) -> oc_seq g2 lxs2 (map f p) pos (rns r)).
  Proof using Hr Hf.
    destruct Hr as [_ Hp]. apply oc_mut.
    - intros s pos lx Hg Hl Hk HR. apply (oc_term g2 lxs2 (f s) pos (rn_lexeme f lx)); [by rewrite Hp, Hg|by rewrite lx2_at, Hl|cbn; by rewrite Hk].
    - intros s pos lx Hg Hl Hk HR. eapply oc_term_other; [by rewrite Hp, Hg|by rewrite lx2_at, Hl|]. intros E. by apply Hk, Hf.
    - intros s pos Hg Hl HR. apply oc_term_end; [by rewrite Hp, Hg|by rewrite lx2_at, Hl].
    - intros s pos ps r Hg _ IH HR. eapply oc_nt; [by rewrite Hp, Hg|]. apply IH. intros p x Hin Hx. by eapply reach_step.
    - intros. constructor.
    - intros s pos p ps cs e _ IH HR. apply (oc_hit g2 lxs2 (f s) pos (map f p) (map (map f) ps) (map (rn_tree f) cs) e). apply IH. intros x. apply HR. left.
    - intros s pos p ps r _ IH _ IH2 HR. apply oc_miss; [apply IH; intros x; apply HR; left|apply IH2; intros q x Hq; apply HR; by right].
    - intros. constructor.
    - intros x r pos _ IH HR. apply oc_fail. apply IH, HR. left.
    - intros x r pos c e _ IH _ IH2 HR. eapply oc_fail_later; [apply IH, HR; left|apply IH2; intros y Hy; apply HR; by right].
    - intros x r pos c e cs e' _ IH _ IH2 HR. eapply (oc_cons g2 lxs2 (f x) (map f r) pos (rn_tree f c) e (map (rn_tree f) cs) e'); [apply IH, HR; left|apply IH2; intros y Hy; apply HR; by right].
  Qed.
  Lemma top_rename s ps r : oc_top g1 lxs s ps r -> (forall p x, p ∈ ps -> x ∈ p -> R x) -> oc_top g2 lxs2 (f s) (map (map f) ps) (option_map (rn_tree f) r).
  Proof using Hr Hf.
    induction 1; intros HR.
    - constructor.
    - cbn. apply (ot_hit g2 lxs2 (f s) (map f p)). rewrite map_length. eapply (proj2 (proj2 oc_rename)) in H. { exact H. } intros x. apply HR. left.
    - cbn [map]. eapply (ot_short g2 lxs2 (f s) (map f p) (map (map f) ps) (map (rn_tree f) cs) e).
      + eapply (proj2 (proj2 oc_rename)) in H. { exact H. } intros x. apply HR. left.
      + by rewrite map_length.
      + apply IHoc_top. intros q x Hq. apply HR. by right.
    - cbn [map]. eapply ot_miss.
      + eapply (proj2 (proj2 oc_rename)) in H. { exact H. } intros x. apply HR. left.
      + apply IHoc_top. intros q x Hq. apply HR. by right.
  Qed.
  Lemma parse_rename r : oc_parse g1 lxs r -> oc_parse g2 lxs2 (option_map (rn_tree f) r).
  Proof using Hr Hf.
    intros H. inversion H as [Hn|s0 rest ps r' Hn Hps Ht]; subst; destruct (Hr) as [Hh Hp]; rewrite Hn in Hh; cbn in Hh.
    - apply op_no_start. by destruct (g_nts g2).
    - destruct (g_nts g2) as [|s1 r1] eqn:E; [done|]. injection Hh as ->. assert (HR : R s0) by by eapply reach_start.
      eapply op_start; [done|by rewrite Hp, Hps|]. apply top_rename; [done|]. intros p x Hin Hx. by eapply reach_step.
  Qed.

  (** Back. *)
  Lemma oc_unname :
    (forall s2 pos r2, oc_sym g2 lxs2 s2 pos r2 -> forall s, s2 = f s -> R s -> exists r, oc_sym g1 lxs s pos r /\ r2 = rn1 r)
    /\ (forall s2 pos ps2 r2, oc_prods g2 lxs2 s2 pos ps2 r2 -> forall s ps, s2 = f s -> ps2 = map (map f) ps -> (forall p x, p ∈ ps -> x ∈ p -> R x) ->
          exists r, oc_prods g1 lxs s pos ps r /\ r2 = rn1 r)
    /\ (forall p2 pos r2, oc_seq g2 lxs2 p2 pos r2 -> forall p, p2 = map f p -> (forall x, x ∈ p -> R x) ->
          exists r, oc_seq g1 lxs p pos r /\ r2 = rns r).
  Proof using Hr Hf.
    destruct Hr as [_ Hp]. apply oc_mut.
    - intros s2 pos lx Hg Hl Hk s -> HR. rewrite Hp in Hg by done. rewrite lx2_at in Hl.
      destruct (g_prods g1 s) eqn:Eg; [done|]. destruct (lxs !! pos) as [lx1|] eqn:El; [|done]. injection Hl as <-.
      eexists. split; [by apply oc_term; [..|apply Hf]|]. done.
    - intros s2 pos lx Hg Hl Hk s -> HR. rewrite Hp in Hg by done. rewrite lx2_at in Hl.
      destruct (g_prods g1 s) eqn:Eg; [done|]. destruct (lxs !! pos) as [lx1|] eqn:El; [|done]. injection Hl as <-.
      exists None. split; [|done]. eapply oc_term_other; [done|done|]. intros E. apply Hk. cbn. by rewrite E.
    - intros s2 pos Hg Hl s -> HR. rewrite Hp in Hg by done. rewrite lx2_at in Hl.
      destruct (g_prods g1 s) eqn:Eg; [done|]. destruct (lxs !! pos) as [lx1|] eqn:El; [done|].
      exists None. split; [by apply oc_term_end|done].
    - intros s2 pos ps r Hg _ IH s -> HR. rewrite Hp in Hg by done. destruct (g_prods g1 s) as [ps1|] eqn:Eg; [|done]. injection Hg as <-.
      destruct (IH s ps1 eq_refl eq_refl) as (r1 & H1 & ->). { intros p x Hin Hx. by eapply reach_step. }
      exists r1. split; [|done]. by eapply oc_nt.
    - intros s2 pos s ps -> E HR. destruct ps; [|done]. exists None. split; [constructor|done].
    - intros s2 pos p2 ps2 cs e _ IH s ps -> E HR. destruct ps as [|p ps]; [done|]. injection E as -> ->.
      destruct (IH p eq_refl) as ([[cs1 e1]|] & H1 & E1); [intros x; apply HR; left| |done]. injection E1 as -> ->.
      eexists. split; [by apply oc_hit|]. done.
    - intros s2 pos p2 ps2 r _ IH _ IH2 s ps -> E HR. destruct ps as [|p ps]; [done|]. injection E as -> ->.
      destruct (IH p eq_refl) as ([[cs1 e1]|] & H1 & E1); [intros x; apply HR; left|done|].
      destruct (IH2 s ps eq_refl eq_refl) as (r1 & H2 & ->); [intros q x Hq; apply HR; by right|].
      exists r1. split; [by apply oc_miss|done].
    - intros pos p E HR. destruct p; [|done]. eexists. split; [constructor|done].
    - intros x2 r2 pos _ IH p E HR. destruct p as [|x r]; [done|]. injection E as -> ->.
      destruct (IH x eq_refl) as ([[c1 e1]|] & H1 & E1); [apply HR; left|done|]. exists None. split; [by apply oc_fail|done].
    - intros x2 r2 pos c e _ IH _ IH2 p E HR. destruct p as [|x r]; [done|]. injection E as -> ->.
      destruct (IH x eq_refl) as ([[c1 e1]|] & H1 & E1); [apply HR; left| |done]. injection E1 as -> ->.
      destruct (IH2 r eq_refl) as ([[cs1 e2]|] & H2 & E2); [intros y Hy; apply HR; by right|done|].
      exists None. split; [by eapply oc_fail_later|done].
    - intros x2 r2 pos c e cs e' _ IH _ IH2 p E HR. destruct p as [|x r]; [done|]. injection E as -> ->.
      destruct (IH x eq_refl) as ([[c1 e1]|] & H1 & E1); [apply HR; left| |done]. injection E1 as -> ->.
      destruct (IH2 r eq_refl) as ([[cs1 e2]|] & H2 & E2); [intros y Hy; apply HR; by right| |done]. injection E2 as -> ->.
      eexists. split; [by eapply oc_cons|done].
  Qed.
  Lemma top_unname s2 ps2 r2 : oc_top g2 lxs2 s2 ps2 r2 -> forall s ps, s2 = f s -> ps2 = map (map f) ps -> (forall p x, p ∈ ps -> x ∈ p -> R x) ->
    exists r, oc_top g1 lxs s ps r /\ r2 = option_map (rn_tree f) r.
  Proof using Hr Hf.
    induction 1 as [s2|s2 p2 ps2 cs H|s2 p2 ps2 cs e r H Hne H2 IH|s2 p2 ps2 r H H2 IH]; intros s ps -> E HR; (destruct ps as [|p ps]; [try done|try done; injection E as -> ->]).
    - exists None. split; [constructor|done].
    - destruct (proj2 (proj2 oc_unname) _ _ _ H p eq_refl) as ([[cs1 e1]|] & H1 & E1); [intros x; apply HR; left| |done]. injection E1 as -> E1.
      rewrite map_length in E1. subst e1. eexists. split; [by apply ot_hit|done].
    - destruct (proj2 (proj2 oc_unname) _ _ _ H p eq_refl) as ([[cs1 e1]|] & H1 & E1); [intros x; apply HR; left| |done]. injection E1 as -> ->.
      rewrite map_length in Hne. destruct (IH s ps eq_refl eq_refl) as (r1 & H3 & ->); [intros q x Hq; apply HR; by right|].
      exists r1. split; [by eapply ot_short|done].
    - destruct (proj2 (proj2 oc_unname) _ _ _ H p eq_refl) as ([[cs1 e1]|] & H1 & E1); [intros x; apply HR; left|done|].
      destruct (IH s ps eq_refl eq_refl) as (r1 & H3 & ->); [intros q x Hq; apply HR; by right|].
      exists r1. split; [by eapply ot_miss|done].
  Qed.
  Lemma parse_unname r2 : oc_parse g2 lxs2 r2 -> exists r, oc_parse g1 lxs r /\ r2 = option_map (rn_tree f) r.
  Proof using Hr Hf.
    intros H. inversion H as [Hn|s0 rest ps r' Hn Hps Ht]; subst; destruct (Hr) as [Hh Hp]; rewrite Hn in Hh; cbn in Hh;
      destruct (g_nts g1) as [|s1 r1] eqn:E; try done.
    - exists None. split; [by apply op_no_start|done].
    - injection Hh as ->. assert (HR : R s1) by by eapply reach_start. rewrite Hp in Hps by done.
      destruct (g_prods g1 s1) as [ps1|] eqn:Eg; [|done]. injection Hps as <-.
      destruct (top_unname _ _ _ Ht s1 ps1 eq_refl eq_refl) as (r3 & H3 & ->). { intros p x Hin Hx. by eapply reach_step. }
      exists r3. split; [by eapply op_start|done].
  Qed.
End Rn.

Lemma td_rename f g1 g2 lexemes r2 : g_wf g1 -> g_wf g2 -> one_to_one f -> renamed f g1 g2 ->
  returns (fun n => td_parse n g2 (map (rn_lexeme f) lexemes)) r2
  <-> exists r1, returns (fun n => td_parse n g1 lexemes) r1 /\ r2 = option_map (rn_tree f) r1.
Proof.
  intros H1 H2 Hf Hr. rewrite td_parse_oc by done. split.
  - intros H. destruct (parse_unname f g1 g2 Hf Hr lexemes r2 H) as (r1 & Hr1 & ->). exists r1. split; [by apply td_parse_oc|done].
  - intros (r1 & Hr1 & ->). apply td_parse_oc in Hr1; [|done]. by apply (parse_rename f g1 g2 Hf Hr).
Qed.

(** * Example: every name with an apostrophe in front *)
Definition quoted (x : gostring) : gostring := L "'" ++ x.
Lemma quoted_one : one_to_one quoted.
Proof. intros x y [= E]. exact E. Qed.
Definition paren_quoted : grammar :=
  gram_of [(L "'T", [[L "'S"]]); (L "'S", [[L "'("; L "'S"; L "')"]; [L "'x"]])].
Definition paren_quoted2 : grammar :=
  gram_of [(L "'S", [[L "'("; L "'S"; L "')"]; [L "'x"]]); (L "'T", [[L "'S"]])].
Lemma rename_example : g_wf paren /\ g_wf paren_quoted2 /\ one_to_one quoted /\ renamed quoted paren paren_quoted2
  /\ ~ renamed quoted paren paren_quoted
  /\ exists t, td_parse 20 paren paren_in = Ok (Some t) /\ td_parse 20 paren_quoted2 (map (rn_lexeme quoted) paren_in) = Ok (Some (rn_tree quoted t))
     /\ t <> rn_tree quoted t.
Proof.
  split; [apply gram_of_wf|]. split; [apply gram_of_wf|]. split; [exact quoted_one|]. split_and!.
  - split; [reflexivity|]. intros x [-> | [-> | [-> | -> ] ] ]%paren_reach; reflexivity.
  - intros [H _]. discriminate H.
  - eexists. split_and!; [vm_compute; reflexivity|vm_compute; reflexivity|vm_compute; discriminate].
Qed.
