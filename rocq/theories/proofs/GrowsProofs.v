(** Adding productions. *)
From Coq Require Import String Lia.
From Verif.model Require Import Topdown Packrat.
From Verif.spec Require Import TopdownSpec PackratSpec Outcome Grows.
From Verif.proofs Require Import Fuel PackratFuel PackratThms TopdownProofs TopdownThms PackratWit TopdownWit.
Local Open Scope nat_scope.
Local Open Scope list_scope.

Lemma grows_derives g1 g2 : grows g1 g2 ->
  forall s w, derives g1 s w -> (forall k, k ∈ w -> g_prods g2 k = None) -> derives g2 s w.
Proof.
  intros [_ Hg]. apply (derives_mut g1 (fun s w _ => (forall k, k ∈ w -> g_prods g2 k = None) -> derives g2 s w)
    (fun p w _ => (forall k, k ∈ w -> g_prods g2 k = None) -> derives_seq g2 p w)).
  - intros s _ H. apply der_term, H. left.
  - intros s ps p w Hps Hin _ IH H. destruct (Hg s ps Hps) as (qs & Hq & Hi). eapply der_nt; [done|by apply Hi|by apply IH].
  - constructor.
  - intros s r u v _ IH1 _ IH2 H. constructor; [apply IH1|apply IH2]; intros k Hk; apply H, elem_of_app; first [by left|by right].
Qed.
Lemma grows_generates g1 g2 lexemes : grows g1 g2 -> terminal_kinds g2 lexemes ->
  generates g1 (map lx_kind lexemes) -> generates g2 (map lx_kind lexemes).
Proof.
  intros Hg Ht (s0 & rest & Hn & Hd). pose proof (proj1 Hg) as Hh. rewrite Hn in Hh. destruct (g_nts g2) as [|s rest2] eqn:E; [done|].
  injection Hh as <-. exists s0, rest2. split; [done|]. apply (grows_derives g1 g2 Hg); [done|].
  intros k (lx & -> & Hlx)%elem_of_list_fmap. by apply Ht.
Qed.
Lemma grows_terminal g1 g2 lexemes : grows g1 g2 -> terminal_kinds g2 lexemes -> terminal_kinds g1 lexemes.
Proof.
  intros [_ Hg] Ht lx Hlx. destruct (g_prods g1 (lx_kind lx)) as [ps|] eqn:E; [|done].
  destruct (Hg _ _ E) as (qs & Hq & _). rewrite (Ht lx Hlx) in Hq. done.
Qed.
Lemma packrat_grows g1 g2 lexemes t : g_wf g1 -> g_wf g2 -> grows g1 g2 -> terminal_kinds g2 lexemes ->
  returns (fun n => packrat_parse n g1 lexemes) (Some t) -> exists t', returns (fun n => packrat_parse n g2 lexemes) (Some t').
Proof.
  intros H1 H2 Hg Ht Hr. pose proof (grows_terminal g1 g2 lexemes Hg Ht) as Ht1. destruct lexemes as [|lx0 lxs].
  - destruct (g_nts g1) as [|s0 rest] eqn:E.
    + exfalso. destruct Hr as [F Hr]. specialize (Hr F ltac:(lia)). revert Hr. unfold packrat_parse. rewrite E. discriminate.
    + pose proof (proj1 Hg) as Hh. rewrite E in Hh. destruct (g_nts g2) as [|s rest2] eqn:E2; [done|].
      destruct (packrat_empty g2 s rest2 H2 E2) as (t' & H & _). by exists t'.
  - apply packrat_complete; [done|done|]. eapply grows_generates; [done|done|].
    destruct (packrat_sound g1 (lx0 :: lxs) H1 Ht1 t ltac:(done) Hr) as (s0 & rest & Hn & Htr). exists s0, rest. split; [done|].
    by apply (proj1 (is_tree_derives g1)) in Htr.
Qed.
Lemma topdown_grows g1 g2 lexemes t : g_wf g1 -> g_wf g2 -> grows g1 g2 -> terminal_kinds g2 lexemes ->
  ~ left_recursive g2 -> prefix_free g2 ->
  returns (fun n => td_parse n g1 lexemes) (Some t) -> exists t', returns (fun n => td_parse n g2 lexemes) (Some t').
Proof.
  intros H1 H2 Hg Ht Hl Hp Hr. apply topdown_complete; [done|done|done|]. eapply grows_generates; [done|done|].
  destruct (topdown_sound g1 lexemes t H1 Hr) as (s0 & rest & Hn & Htr). exists s0, rest. split; [done|].
  by apply (proj1 (is_tree_derives g1)) in Htr.
Qed.

(** One production more, at the end of A's, hides the second one of B. *)
Definition few : grammar := gram_of [(L "S", [[L "B"; L "d"]]); (L "B", [[L "A"]; [L "x"; L "y"]]); (L "A", [[L "z"]])].
Definition more : grammar := gram_of [(L "S", [[L "B"; L "d"]]); (L "B", [[L "A"]; [L "x"; L "y"]]); (L "A", [[L "z"]; [L "x"]])].
Definition xyd := [lx (L "x"); lx (L "y"); lx (L "d")].
Definition rank (x : gostring) : nat :=
  if decide (x = L "S") then 3 else if decide (x = L "B") then 2 else if decide (x = L "A") then 1 else 0.
Lemma more_step x y : left_step more x y -> rank y < rank x.
Proof.
  intros (ps & p & a & b & Hp & Hin & -> & _). revert Hp. unfold more, gram_of, g_prods, assoc_prods.
  assert (Hy : y ∈ a ++ y :: b) by (apply elem_of_app; right; left).
  revert Hin Hy. generalize (a ++ y :: b). clear a b. intros p Hin Hy.
  repeat case_decide; try discriminate; subst; intros [= <-];
    repeat (apply elem_of_cons in Hin as [->|Hin]; [repeat (apply elem_of_cons in Hy as [->|Hy]; [vm_compute; lia|]); inversion Hy|]); inversion Hin.
Qed.
Lemma more_not_lr : ~ left_recursive more.
Proof.
  intros (A & H). assert (Hr : forall x y, tc (left_step more) x y -> rank y < rank x).
  { clear. intros x y H. induction H as [x y H|x y z H _ IH]; apply more_step in H; lia. }
  apply Hr in H. lia.
Qed.
Lemma few_more : grows few more.
Proof.
  split; [done|]. intros x ps. unfold few, more, gram_of, g_prods, assoc_prods.
  repeat case_decide; intros [= <-]; eexists; (split; [reflexivity|]); intros p Hp; [done|done|]. apply elem_of_list_singleton in Hp as ->. left.
Qed.
Lemma xyd_terminal : terminal_kinds more xyd.
Proof. intros l Hl. repeat (apply elem_of_cons in Hl as [->|Hl]; [by vm_compute|]). inversion Hl. Qed.
Lemma topdown_loses : exists g1 g2 lexemes t, g_wf g1 /\ g_wf g2 /\ grows g1 g2 /\ terminal_kinds g2 lexemes /\ ~ left_recursive g2
  /\ returns (fun n => td_parse n g1 lexemes) (Some t) /\ returns (fun n => td_parse n g2 lexemes) None.
Proof.
  eexists few, more, xyd, _. split_and!; [apply gram_of_wf|apply gram_of_wf|apply few_more|apply xyd_terminal|apply more_not_lr| |];
    (apply (returns_at _ 20); [intros; by apply td_parse_mono|vm_compute; reflexivity]).
Qed.
Lemma packrat_example : g_wf few /\ g_wf more /\ grows few more /\ terminal_kinds more xyd
  /\ (exists t, packrat_parse 200 few xyd = Ok (Some t) /\ length (pn_children t) = 2) /\ g_prods few (L "A") <> g_prods more (L "A").
Proof.
  split_and!; [apply gram_of_wf|apply gram_of_wf|apply few_more|apply xyd_terminal|eexists; split; [vm_compute; reflexivity|reflexivity]|vm_compute; discriminate].
Qed.
(** [S -> x] grows into [S -> ( S ) | x]. *)
Definition single : grammar := gram_of [(L "S", [[L "x"]])].
Lemma paren_example : g_wf single /\ g_wf paren /\ grows single paren /\ terminal_kinds paren [lx (L "x")] /\ ~ left_recursive paren /\ prefix_free paren
  /\ exists t, td_parse 20 single [lx (L "x")] = Ok (Some t) /\ length (pn_children t) = 1.
Proof.
  split_and!; [apply gram_of_wf|apply gram_of_wf| | |apply paren_not_lr|apply paren_pf|eexists; split; [vm_compute; reflexivity|reflexivity]].
  - split; [done|]. intros x ps. unfold single, paren, gram_of, g_prods, assoc_prods. case_decide; intros [= <-].
    eexists. split; [reflexivity|]. intros p ->%elem_of_list_singleton. right. left.
  - intros l ->%elem_of_list_singleton. by vm_compute.
Qed.

(** Productions added to a start symbol that stands in no production. *)
Section Start.
  Variables (g1 g2 : grammar) (s0 : gostring) (lxs : list lexeme).
  Hypothesis Hsame : forall x, x <> s0 -> g_prods g1 x = g_prods g2 x.
  Hypothesis Hout : forall A ps p, g_prods g1 A = Some ps -> p ∈ ps -> s0 ∉ p.
  Lemma oc_kept :
    (forall s pos r, oc_sym g1 lxs s pos r -> s <> s0 -> oc_sym g2 lxs s pos r)
    /\ (forall s pos ps r, oc_prods g1 lxs s pos ps r -> (forall p, p ∈ ps -> s0 ∉ p) -> oc_prods g2 lxs s pos ps r)
    /\ (forall p pos r, oc_seq g1 lxs p pos r -> s0 ∉ p -> oc_seq g2 lxs p pos r).
  Proof using Hsame Hout.
    assert (Hc : forall x (r : list gostring), s0 ∉ x :: r -> x <> s0 /\ s0 ∉ r) by (intros x r H; apply not_elem_of_cons in H as [? ?]; by split).
    apply oc_mut.
    - intros s pos lx Hn Hl Hk Hs. rewrite Hsame in Hn by done. by apply oc_term.
    - intros s pos lx Hn Hl Hk Hs. rewrite Hsame in Hn by done. by eapply oc_term_other.
    - intros s pos Hn Hl Hs. rewrite Hsame in Hn by done. by apply oc_term_end.
    - intros s pos ps r Hp _ IH Hs. eapply oc_nt; [by rewrite <- Hsame|]. apply IH. intros p Hin. by eapply Hout.
    - constructor.
    - intros s pos p ps cs e _ IH H. apply oc_hit, IH, H. left.
    - intros s pos p ps r _ IH1 _ IH2 H. apply oc_miss; [apply IH1, H; left|apply IH2; intros q Hq; apply H; by right].
    - constructor.
    - intros x r pos _ IH H. apply Hc in H as [? ?]. by apply oc_fail, IH.
    - intros x r pos c e _ IH1 _ IH2 H. apply Hc in H as [? ?]. eapply oc_fail_later; [by apply IH1|by apply IH2].
    - intros x r pos c e cs e' _ IH1 _ IH2 H. apply Hc in H as [? ?]. eapply oc_cons; [by apply IH1|by apply IH2].
  Qed.
End Start.
Lemma top_some g lxs s ps t : oc_top g lxs s ps (Some t) -> exists p cs, p ∈ ps /\ oc_seq g lxs p 0 (Some (cs, length lxs)).
Proof.
  intros H. remember (Some t) as r eqn:E. induction H as [|s p ps cs Hp|s p ps cs e r Hp Hne Ht IH|s p ps r Hp Ht IH]; [done| | |].
  - exists p, cs. split; [left|done].
  - destruct (IH E) as (q & cs' & Hq & H). exists q, cs'. split; [by right|done].
  - destruct (IH E) as (q & cs' & Hq & H). exists q, cs'. split; [by right|done].
Qed.
Lemma top_none g lxs s ps p cs : oc_top g lxs s ps None -> p ∈ ps -> ~ oc_seq g lxs p 0 (Some (cs, length lxs)).
Proof.
  intros H. remember None as r eqn:E. induction H as [|s q ps cs' Hp|s q ps cs' e r Hp Hne Ht IH|s q ps r Hp Ht IH]; intros Hin Hs; [inversion Hin|done| |];
    apply elem_of_cons in Hin as [->|Hin]; try (by apply IH).
  - pose proof (proj2 (proj2 (oc_det g lxs)) _ _ _ Hp _ Hs) as Hd. congruence.
  - pose proof (proj2 (proj2 (oc_det g lxs)) _ _ _ Hp _ Hs) as Hd. congruence.
Qed.
Lemma topdown_start g1 g2 s0 lexemes t : g_wf g1 -> g_wf g2 -> grows g1 g2 -> head (g_nts g1) = Some s0 ->
  (forall x, x <> s0 -> g_prods g1 x = g_prods g2 x) ->
  (forall A ps p, g_prods g1 A = Some ps -> p ∈ ps -> s0 ∉ p) -> ~ left_recursive g2 ->
  returns (fun n => td_parse n g1 lexemes) (Some t) -> exists t', returns (fun n => td_parse n g2 lexemes) (Some t').
Proof.
  intros H1 H2 [Hh Hg] Hs0 Hsame Hout Hl Ht. destruct (topdown_terminates g2 lexemes H2 Hl) as ([t'|] & Hr); [by exists t'|exfalso].
  apply td_parse_oc in Ht; [|done]. apply td_parse_oc in Hr; [|done].
  inversion Ht as [|s rest ps r Hn Hp Htop]; subst. rewrite Hn in Hs0, Hh. injection Hs0 as ->.
  destruct (top_some _ _ _ _ _ Htop) as (p & cs & Hin & Hq).
  destruct (Hg s0 ps Hp) as (qs & Hqs & Hsub).
  inversion Hr as [E|s' rest' ps' r' Hn' Hp' Htop']; subst; [by rewrite E in Hh|]. rewrite Hn' in Hh. injection Hh as <-.
  assert (ps' = qs) as -> by congruence.
  apply (top_none _ _ _ _ p cs Htop'); [by apply Hsub|].
  apply (proj2 (proj2 (oc_kept g1 g2 s0 lexemes Hsame Hout))); [done|]. by eapply Hout.
Qed.
(** [S -> A c; A -> a b | a] gets [S -> A], tried first. *)
Definition wider : grammar := gram_of [(L "S", [[L "A"]; [L "A"; L "c"]]); (L "A", [[L "a"; L "b"]; [L "a"]])].
Definition narrow : grammar := gram_of [(L "S", [[L "A"; L "c"]]); (L "A", [[L "a"; L "b"]; [L "a"]])].
Definition ac := [lx (L "a"); lx (L "c")].
Definition rank2 (x : gostring) : nat := if decide (x = L "S") then 2 else if decide (x = L "A") then 1 else 0.
Lemma wider_step x y : left_step wider x y -> rank2 y < rank2 x.
Proof.
  intros (ps & p & a & b & Hp & Hin & -> & _). revert Hp. unfold wider, gram_of, g_prods, assoc_prods.
  assert (Hy : y ∈ a ++ y :: b) by (apply elem_of_app; right; left).
  revert Hin Hy. generalize (a ++ y :: b). clear a b. intros p Hin Hy.
  repeat case_decide; try discriminate; subst; intros [= <-];
    repeat (apply elem_of_cons in Hin as [->|Hin]; [repeat (apply elem_of_cons in Hy as [->|Hy]; [vm_compute; lia|]); inversion Hy|]); inversion Hin.
Qed.
Lemma wider_not_lr : ~ left_recursive wider.
Proof.
  intros (A & H). assert (Hr : forall x y, tc (left_step wider) x y -> rank2 y < rank2 x).
  { clear. intros x y H. induction H as [x y H|x y z H _ IH]; apply wider_step in H; lia. }
  apply Hr in H. lia.
Qed.
Lemma start_example : g_wf narrow /\ g_wf wider /\ grows narrow wider /\ head (g_nts narrow) = Some (L "S")
  /\ (forall x, x <> L "S" -> g_prods narrow x = g_prods wider x)
  /\ (forall A ps p, g_prods narrow A = Some ps -> p ∈ ps -> L "S" ∉ p) /\ ~ left_recursive wider
  /\ exists t, td_parse 20 narrow ac = Ok (Some t) /\ length (pn_children t) = 2.
Proof.
  split_and!; [apply gram_of_wf|apply gram_of_wf| |done| | |apply wider_not_lr|eexists; split; [vm_compute; reflexivity|reflexivity]].
  - split; [done|]. intros x ps. unfold narrow, wider, gram_of, g_prods, assoc_prods.
    repeat case_decide; intros [= <-]; eexists; (split; [reflexivity|]); intros p Hp; [|done]. by right.
  - intros x Hx. unfold narrow, wider, gram_of, g_prods, assoc_prods. repeat case_decide; done.
  - intros A ps p Hp Hin Hs.
    revert Hp. unfold narrow, gram_of, g_prods, assoc_prods. repeat case_decide; try discriminate; intros [= <-];
    repeat (apply elem_of_cons in Hin as [->|Hin]; [repeat (apply elem_of_cons in Hs as [Hs|Hs]; [discriminate|]); inversion Hs|]); inversion Hin.
Qed.
