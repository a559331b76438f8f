(** Where both parsers return the same tree. *)
From Coq Require Import String Lia.
From Verif.model Require Import Topdown Packrat.
From Verif.spec Require Import TopdownSpec PackratSpec Outcome.
From Verif.proofs Require Import Fuel PackratFuel PackratThms TopdownProofs TopdownThms PackratWit TopdownWit.
Local Open Scope nat_scope.
Local Open Scope list_scope.

Scheme earliest_tree_mut := Minimality for earliest_tree Sort Prop
  with earliest_trees_mut := Minimality for earliest_trees Sort Prop.
Combined Scheme earliest_mut from earliest_tree_mut, earliest_trees_mut.

Section Same.
  Variable g : grammar.
  Hypothesis Hpf : prefix_free g.
  Notation used := (used g).

  Lemma earliest_derives :
    (forall s t lxs, earliest_tree g s t lxs -> derives g s (map lx_kind lxs))
    /\ (forall p ts lxs, earliest_trees g p ts lxs -> derives_seq g p (map lx_kind lxs)).
  Proof using.
    apply earliest_mut.
    - intros lx H. by apply der_term.
    - intros lx ps k p cs lxs Hp Hk _ IH _. eapply der_nt; [done| |done]. by eapply elem_of_list_lookup_2.
    - constructor.
    - intros s r c cs u v _ IH1 _ IH2. rewrite map_app. by constructor.
  Qed.
  Lemma used_split x p u v u2 v2 : used p -> x ∈ p -> u ++ v = u2 ++ v2 -> derives g x (map lx_kind u) -> derives g x (map lx_kind u2) -> u = u2 /\ v = v2.
  Proof using Hpf.
    intros (A & ps & HA & Hp) Hx E H1 H2. destruct (prefix_cmp _ _ _ _ E) as [[c ->]|[c ->]].
    - rewrite map_app in H2. pose proof (Hpf A ps p x _ _ HA Hp Hx H1 H2) as Hc. destruct c; [|done]. rewrite app_nil_r in *. split; [done|]. by apply app_inv_head in E.
    - rewrite map_app in H1. pose proof (Hpf A ps p x _ _ HA Hp Hx H2 H1) as Hc. destruct c; [|done]. rewrite app_nil_r in *. split; [done|]. by apply app_inv_head in E.
  Qed.
  Lemma earliest_unique :
    (forall s t lxs, earliest_tree g s t lxs -> forall t', earliest_tree g s t' lxs -> shape t = shape t')
    /\ (forall p ts lxs, earliest_trees g p ts lxs -> (forall x, x ∈ p -> exists q, used q /\ x ∈ q) ->
          forall ts', earliest_trees g p ts' lxs -> map shape ts = map shape ts').
  Proof using Hpf.
    apply earliest_mut.
    - intros lx H t' Ht. inversion Ht as [|lx' ? ? ? ? ? Hp' ? ? ? Ek]; subst; [done|]. rewrite Ek in Hp'. congruence.
    - intros lx ps k p cs lxs Hp Hk Hcs IH Hmin t' Ht. inversion Ht as [lx' Hn Ek|lx' ps' k' p' cs' ? Hp' Hk' Hcs' Hmin' Ek]; subst.
      + rewrite Ek in Hn. congruence.
      + rewrite Ek in Hp'. assert (ps' = ps) as -> by congruence.
        pose proof (proj2 earliest_derives _ _ _ Hcs) as D. pose proof (proj2 earliest_derives _ _ _ Hcs') as D'.
        assert (k' = k) as ->.
        { destruct (lt_eq_lt_dec k' k) as [[Hl|Hl]|Hl]; [|done|]; exfalso; [by eapply Hmin|by eapply Hmin']. }
        assert (p' = p) as -> by congruence. cbn [shape]. rewrite Ek. f_equal. apply IH; [|done].
        intros x Hx. exists p. split; [|done]. exists (lx_kind lx), ps. split; [done|]. by eapply elem_of_list_lookup_2.
    - intros _ ts' H. inversion H. done.
    - intros s r c cs u v Hc IH1 Hcs IH2 Hu ts' H. inversion H as [|? ? c' cs' u' v' Hc' Hcs']; subst.
      destruct (Hu s ltac:(left)) as (q & Hq & Hs).
      destruct (used_split s q u v u' v' Hq Hs ltac:(done) (proj1 earliest_derives _ _ _ Hc) (proj1 earliest_derives _ _ _ Hc')) as [<- <-].
      cbn [map]. f_equal; [by apply IH1|]. apply IH2; [|done]. intros x Hx. apply Hu. by right.
  Qed.

  Variable lxs : list lexeme.
  Definition e_sym s pos (r : option (pn * nat)) := match r with
    | Some (t, e) => (exists p, used p /\ s ∈ p) -> pos <= length lxs -> earliest_tree g s t (seg lxs pos e)
    | None => True end.
  Definition e_node s (ps : list (list gostring)) (t : pn) (w : list lexeme) : Prop :=
    exists k p cs, ps !! k = Some p /\ t = PN (Lx s [] (-1) 0) cs /\ earliest_trees g p cs w
      /\ forall k' p', k' < k -> ps !! k' = Some p' -> ~ derives_seq g p' (map lx_kind w).
  Definition e_prods s pos (ps : list (list gostring)) (r : option (pn * nat)) := match r with
    | Some (t, e) => (forall p, p ∈ ps -> used p) -> pos <= length lxs -> e_node s ps t (seg lxs pos e)
    | None => True end.
  Definition e_seq (p : list gostring) pos (r : option (list pn * nat)) := match r with
    | Some (ts, e) => (forall x, x ∈ p -> exists q, used q /\ x ∈ q) -> pos <= length lxs -> earliest_trees g p ts (seg lxs pos e)
    | None => True end.
  Lemma e_later s p ps t w : ~ derives_seq g p (map lx_kind w) -> e_node s ps t w -> e_node s (p :: ps) t w.
  Proof using.
    intros Hn (k & q & cs & Hk & Ht & Hcs & Hmin). exists (S k), q, cs. split_and!; try done.
    intros [|k'] p' Hl Hp'; [by injection Hp' as <-|]. eapply (Hmin k'); [lia|done].
  Qed.
  Lemma oc_earliest :
    (forall s pos r, oc_sym g lxs s pos r -> e_sym s pos r)
    /\ (forall s pos ps r, oc_prods g lxs s pos ps r -> e_prods s pos ps r)
    /\ (forall p pos r, oc_seq g lxs p pos r -> e_seq p pos r).
  Proof using Hpf.
    apply oc_mut; try done.
    - intros s pos lx Hn Hl Hk _ _. rewrite (seg_one _ _ _ Hl). subst s. by constructor.
    - intros s pos ps [[t e]|] Hp _ IH; [|done]. intros _ Hle.
      destruct (IH ltac:(intros p Hp'; by exists s, ps) Hle) as (k & p & cs & Hk & -> & Hcs & Hmin).
      by apply (et_node g (Lx s [] (-1) 0) ps k p).
    - intros s pos p ps cs e _ IH Hu Hle. exists 0, p, cs. split_and!; [done|done| |lia].
      apply IH; [|done]. intros x Hx. exists p. split; [apply Hu; left|done].
    - intros s pos p ps [[t e]|] Hn _ Ho IH; [|done]. intros Hu Hle. apply e_later.
      + destruct (proj1 (proj2 (oc_sound g lxs)) _ _ _ _ Ho Hle) as (q0 & cs0 & _ & _ & H1 & H2 & _).
        rewrite seg_map. eapply (proj2 (proj2 (oc_complete g lxs Hpf)) _ _ _ Hn); [|done|done|].
        * intros x Hx. exists p. split; [apply Hu; left|done].
        * apply seg_drop; [done|by rewrite map_length].
      + apply IH; [|done]. intros q Hq. apply Hu. by right.
    - intros pos _ _. rewrite seg_nil. constructor.
    - intros x r pos c e cs e' Ho IH1 Ho2 IH2 Hu Hle. destruct (oc_sym_le _ _ _ _ _ _ Ho Hle) as (H1 & H2 & _). destruct (oc_seq_le _ _ _ _ _ _ Ho2 H2) as (H3 & H4 & _).
      rewrite (seg_app _ pos e e') by lia. constructor; [apply IH1; [apply Hu; left|done]|]. apply IH2; [|done]. intros y Hy. apply Hu. by right.
  Qed.
  Lemma top_earliest s ps t : oc_top g lxs s ps (Some t) -> (forall p, p ∈ ps -> used p) -> e_node s ps t lxs.
  Proof using Hpf.
    intros H. remember (Some t) as r eqn:E. induction H as [|s p ps cs Hp|s p ps cs e r Hp Hne Ht IH|s p ps r Hp Ht IH]; intros Hu; [done| | |].
    - injection E as <-. exists 0, p, cs. split_and!; [done|done| |lia].
      pose proof (proj2 (proj2 oc_earliest) _ _ _ Hp) as H. cbn in H. rewrite seg_all in H. apply H; [|lia]. intros x Hx. exists p. split; [apply Hu; left|done].
    - apply e_later; [|apply IH; [done|]; intros q Hq; apply Hu; by right]. intros Hd.
      destruct (oc_seq_le _ _ _ _ _ _ Hp ltac:(lia)) as (H1 & H2 & H3). apply Hne.
      pose proof (seg_drop (map lx_kind lxs) 0 e ltac:(lia) ltac:(rewrite map_length; lia)) as E2. rewrite drop_0 in E2. rewrite E2 in Hd.
      apply (seq_prefix_free g Hpf p) in Hd; [|intros x Hx; exists p; split; [apply Hu; left|done]|done].
      apply (f_equal length) in Hd. rewrite drop_length, map_length in Hd. simpl in Hd. lia.
    - apply e_later; [|apply IH; [done|]; intros q Hq; apply Hu; by right].
      eapply (proj2 (proj2 (oc_complete g lxs Hpf)) _ _ _ Hp); [|lia|done|by rewrite drop_0, app_nil_r].
      intros x Hx. exists p. split; [apply Hu; left|done].
  Qed.
  Lemma parse_earliest t : oc_parse g lxs (Some t) -> exists s0 rest, g_nts g = s0 :: rest /\ earliest_tree g s0 t lxs.
  Proof using Hpf.
    intros H. inversion H as [|s0 rest ps r Hn Hps Ht]; subst. exists s0, rest. split; [done|].
    destruct (top_earliest s0 ps t Ht) as (k & p & cs & Hk & -> & Hcs & Hmin); [intros p Hp; by exists s0, ps|].
    by apply (et_node g (Lx s0 [] (-1) 0) ps k p).
  Qed.
End Same.

Lemma td_earliest g lexemes t : g_wf g -> prefix_free g -> returns (fun n => td_parse n g lexemes) (Some t) ->
  exists s0 rest, g_nts g = s0 :: rest /\ earliest_tree g s0 t lexemes.
Proof. intros Hg Hpf H%td_parse_oc; [|done]. by apply parse_earliest. Qed.
Lemma same_tree g lexemes t : g_wf g -> acyclic_grammar g -> prefix_free g ->
  returns (fun n => td_parse n g lexemes) (Some t) ->
  exists t', returns (fun n => packrat_parse n g lexemes) (Some t') /\ shape t = shape t'.
Proof.
  intros Hg Ha Hpf Ht. destruct (td_earliest g lexemes t Hg Hpf Ht) as (s0 & rest & Hn & He).
  destruct (topdown_packrat g lexemes t Hg Ht) as (t' & Ht'). exists t'. split; [done|].
  pose proof (proj1 (earliest_derives g) _ _ _ He) as Hd.
  assert (Hk : terminal_kinds g lexemes).
  { destruct (topdown_sound g lexemes t Hg Ht) as (? & ? & _ & Htr). intros lx Hlx. by eapply (is_tree_terminals g _ _ _ Htr). }
  pose proof (packrat_earliest g lexemes Hg Hk s0 rest t' Ha Hn Hd Ht') as He'.
  by eapply (proj1 (earliest_unique g Hpf)).
Qed.

Lemma solid_acyclic g : ~ left_recursive g -> acyclic_grammar g.
Proof.
  intros H A Hc. apply H. exists A. revert Hc. generalize A at 1 3. intros B Hc.
  assert (Hs : forall x y, unit_step g x y -> left_step g x y) by (intros x y (ps & p & a & b & ? & ? & ? & ? & _); by exists ps, p, a, b).
  induction Hc as [x y H1|x y z H1 _ IH]; [apply tc_once; auto|eapply tc_l; [by apply Hs|done]].
Qed.
Lemma paren_same : g_wf paren /\ acyclic_grammar paren /\ prefix_free paren
  /\ exists t t', td_parse 20 paren paren_in = Ok (Some t) /\ packrat_parse 200 paren paren_in = Ok (Some t')
       /\ shape t = shape t' /\ t <> t' /\ length (pn_children t) = 3.
Proof.
  split_and!; [apply gram_of_wf|apply solid_acyclic, paren_not_lr|apply paren_pf|].
  eexists _, _. split; [vm_compute; reflexivity|]. split; [vm_compute; reflexivity|]. split_and!; [vm_compute; reflexivity|vm_compute; discriminate|reflexivity].
Qed.

(** A grammar without any recursion for which the trees differ. *)
Definition split2 : grammar := gram_of
  [(L "S", [[L "A"; L "T"]]); (L "A", [[L "C"; L "b"]; [L "a"]]); (L "C", [[L "a"; L "b"]; [L "a"]]); (L "T", [[L "b"]; []])].
Definition split2_in := [lx (L "a"); lx (L "b")].
Definition rank (x : gostring) : nat :=
  if decide (x = L "S") then 3 else if decide (x = L "A") then 2 else if decide (x = L "C") then 1 else if decide (x = L "T") then 1 else 0.
Lemma split2_step x y : left_step split2 x y -> rank y < rank x.
Proof.
  intros (ps & p & a & b & Hp & Hin & -> & _). revert Hp. unfold split2, gram_of, g_prods, assoc_prods.
  assert (Hy : y ∈ a ++ y :: b) by (apply elem_of_app; right; left).
  revert Hin Hy. generalize (a ++ y :: b). clear a b. intros p Hin Hy.
  repeat case_decide; try discriminate; subst; intros [= <-];
    repeat (apply elem_of_cons in Hin as [->|Hin]; [repeat (apply elem_of_cons in Hy as [->|Hy]; [vm_compute; lia|]); inversion Hy|]); inversion Hin.
Qed.
Lemma split2_not_lr : ~ left_recursive split2.
Proof.
  intros (A & H). assert (Hr : forall x y, tc (left_step split2) x y -> rank y < rank x).
  { clear. intros x y H. induction H as [x y H|x y z H _ IH]; apply split2_step in H; lia. }
  apply Hr in H. lia.
Qed.
Lemma trees_differ : exists g lexemes t t', g_wf g /\ ~ left_recursive g /\ acyclic_grammar g
  /\ returns (fun n => td_parse n g lexemes) (Some t) /\ returns (fun n => packrat_parse n g lexemes) (Some t') /\ shape t <> shape t'.
Proof.
  eexists split2, split2_in, _, _. split_and!; [apply gram_of_wf|apply split2_not_lr|apply solid_acyclic, split2_not_lr| | |].
  - apply (returns_at _ 20); [|vm_compute; reflexivity]. intros n m Hle. by apply td_parse_mono.
  - apply (returns_at _ 300); [|vm_compute; reflexivity]. intros n m Hle. by apply packrat_parse_mono.
  - vm_compute. discriminate.
Qed.

(** Without prefix freedom, for lexemes that have one tree only. *)
Lemma same_only_tree g lexemes t : g_wf g -> lexemes <> [] ->
  (forall s0 rest t1 t2, g_nts g = s0 :: rest -> is_tree g s0 t1 lexemes -> is_tree g s0 t2 lexemes -> shape t1 = shape t2) ->
  returns (fun n => td_parse n g lexemes) (Some t) ->
  exists t', returns (fun n => packrat_parse n g lexemes) (Some t') /\ shape t = shape t'.
Proof.
  intros Hg Hne Hu Ht. destruct (topdown_packrat g lexemes t Hg Ht) as (t' & Ht'). exists t'. split; [done|].
  destruct (topdown_sound g lexemes t Hg Ht) as (s0 & rest & Hn & Htr).
  destruct (packrat_sound g lexemes Hg (is_tree_terminals g _ _ _ Htr) t' Hne Ht') as (s1 & rest1 & Hn1 & Htr1).
  assert (s1 = s0) as -> by congruence. by eapply Hu.
Qed.
(** [A -> a b | a] is not prefix free. *)
Definition opt2 : grammar := gram_of [(L "S", [[L "A"; L "c"]]); (L "A", [[L "a"; L "b"]; [L "a"]])].
Definition opt2_in := [lx (L "a"); lx (L "c")].
Lemma opt2_term x : x <> L "S" -> x <> L "A" -> g_prods opt2 x = None.
Proof. intros H1 H2. unfold opt2, gram_of, g_prods, assoc_prods. repeat case_decide; congruence. Qed.
Lemma opt2_leaf x t l : x <> L "S" -> x <> L "A" -> is_tree opt2 x t l -> shape t = PN (Lx x [] 0 0) [] /\ map lx_kind l = [x].
Proof. intros H1 H2 H. inversion H as [lx' Hp|lx' ps p cs lxs Hp]; subst; [done|]. rewrite opt2_term in Hp; done. Qed.
Lemma opt2_A t l : is_tree opt2 (L "A") t l ->
  map lx_kind l = [L "a"; L "b"] \/ (map lx_kind l = [L "a"] /\ shape t = PN (Lx (L "A") [] 0 0) [PN (Lx (L "a") [] 0 0) []]).
Proof.
  intros H. inversion H as [lx' Hp Hk|lx' ps p cs lxs Hp Hin Hcs Hk]; subst; rewrite Hk in Hp; [by vm_compute in Hp|].
  vm_compute in Hp. injection Hp as <-. apply elem_of_cons in Hin as [->|Hin].
  - left. inversion Hcs as [|? ? c1 cs1 u v H1 H2]; subst. inversion H2 as [|? ? c2 cs2 u2 v2 H3 H4]; subst. inversion H4; subst.
    apply opt2_leaf in H1 as [_ E1]; [|done|done]. apply opt2_leaf in H3 as [_ E3]; [|done|done]. by rewrite !map_app, E1, E3.
  - apply elem_of_list_singleton in Hin as ->. right. inversion Hcs as [|? ? c1 cs1 u v H1 H2]; subst. inversion H2; subst.
    apply opt2_leaf in H1 as [S1 E1]; [|done|done]. split; [by rewrite !map_app, E1|]. cbn [shape map]. by rewrite S1, Hk.
Qed.
Lemma opt2_S t : is_tree opt2 (L "S") t opt2_in ->
  shape t = PN (Lx (L "S") [] 0 0) [PN (Lx (L "A") [] 0 0) [PN (Lx (L "a") [] 0 0) []]; PN (Lx (L "c") [] 0 0) []].
Proof.
  intros H. inversion H as [lx' Hp Hk|lx' ps p cs lxs Hp Hin Hcs Hk]; subst. rewrite Hk in Hp.
  vm_compute in Hp. injection Hp as <-. apply elem_of_list_singleton in Hin as ->. remember opt2_in as w eqn:Ew.
  inversion Hcs as [|? ? c1 cs1 u v H1 H2 E1 E2 E3]; subst cs. inversion H2 as [|? ? c2 cs2 u2 v2 H3 H4 E4 E5 E6]; subst cs1. inversion H4; subst cs2 v2.
  apply opt2_leaf in H3 as [S3 K3]; [|done|done]. apply (f_equal (map lx_kind)) in E3. rewrite map_app in E3.
  rewrite <- E6, map_app, K3, Ew in E3. apply opt2_A in H1 as [K1|[K1 S1]]; rewrite K1 in E3; [discriminate|].
  cbn [shape map]. by rewrite S1, S3, Hk.
Qed.
Lemma opt2_same : g_wf opt2 /\ opt2_in <> [] /\ ~ prefix_free opt2
  /\ (forall s0 rest t1 t2, g_nts opt2 = s0 :: rest -> is_tree opt2 s0 t1 opt2_in -> is_tree opt2 s0 t2 opt2_in -> shape t1 = shape t2)
  /\ exists t, td_parse 20 opt2 opt2_in = Ok (Some t) /\ length (pn_children t) = 2.
Proof.
  split_and!; [apply gram_of_wf|done| | |eexists; split; [vm_compute; reflexivity|reflexivity]].
  - intros Hpf. assert (Ha : forall x, x <> L "S" -> x <> L "A" -> derives opt2 x [x]) by (intros; by apply der_term, opt2_term).
    enough ([L "b"] = []) by done.
    apply (Hpf (L "S") [[L "A"; L "c"]] [L "A"; L "c"] (L "A") [L "a"] [L "b"]); [by vm_compute|left|left| |].
    + eapply der_nt; [vm_compute; reflexivity|right; left|]. apply (der_cons _ _ _ [L "a"] []); [by apply Ha|constructor].
    + eapply der_nt; [vm_compute; reflexivity|left|]. apply (der_cons _ _ _ [L "a"] [L "b"]); [by apply Ha|].
      apply (der_cons _ _ _ [L "b"] []); [by apply Ha|constructor].
  - intros s0 rest t1 t2 Hn H1 H2. assert (s0 = L "S") as -> by (vm_compute in Hn; by injection Hn as <- _).
    apply opt2_S in H1, H2. congruence.
Qed.
