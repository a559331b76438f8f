From Coq Require Import String.
From Verif.model Require Import Topdown Packrat.
From Verif.spec Require Import TopdownSpec PackratSpec Outcome.
From Verif.proofs Require Import Fuel TopdownProofs LeftRecProofs PackratThms PackratWit.
From Coq Require Import Lia.

(** ** Derivation trees *)
Lemma is_tree_derives g :
  (forall s t l, is_tree g s t l -> derives g s (map lx_kind l))
  /\ (forall p ts l, are_trees g p ts l -> derives_seq g p (map lx_kind l)).
Proof.
  enough (H : forall s t l, is_tree g s t l -> derives g s (map lx_kind l)).
  { split; [exact H|]. induction 1 as [|s r c cs u v Hc Hr IH]; [constructor|].
    rewrite map_app. constructor; eauto. }
  apply (is_tree_mut g (fun s t l _ => derives g s (map lx_kind l)) (fun p ts l _ => derives_seq g p (map lx_kind l))).
  - intros lx H. constructor; done.
  - intros lx ps p cs l Hp Hin _ IH. econstructor; eauto.
  - constructor.
  - intros s r c cs u v _ IH1 _ IH2. rewrite map_app. constructor; done.
Qed.
Lemma is_tree_terminals g :
  forall s t l, is_tree g s t l -> terminal_kinds g l.
Proof.
  apply (is_tree_mut g (fun s t l _ => terminal_kinds g l) (fun p ts l _ => terminal_kinds g l)).
  - intros lx H x Hx. apply elem_of_list_singleton in Hx as ->. done.
  - done.
  - intros x Hx. inversion Hx.
  - intros s r c cs u v _ IH1 _ IH2 x Hx. apply elem_of_app in Hx as [Hx|Hx]; auto.
Qed.

(** ** Segments of the input *)
Definition seg {A} (l : list A) (a b : nat) : list A := take (b - a) (drop a l).
Lemma seg_nil {A} (l : list A) a : seg l a a = [].
Proof. unfold seg. rewrite Nat.sub_diag. done. Qed.
Lemma seg_app {A} (l : list A) a b c : a <= b -> b <= c -> c <= length l -> seg l a c = seg l a b ++ seg l b c.
Proof.
  intros H1 H2 H3. unfold seg. replace (c - a) with ((b - a) + (c - b)) by lia.
  rewrite <- (take_take_drop (drop a l) (b - a) (c - b)). rewrite drop_drop.
  replace (a + (b - a)) with b by lia. done.
Qed.
Lemma seg_one {A} (l : list A) a x : l !! a = Some x -> seg l a (S a) = [x].
Proof.
  intros H. unfold seg. replace (S a - a) with 1 by lia. rewrite (drop_S l x a H). done.
Qed.
Lemma seg_all {A} (l : list A) : seg l 0 (length l) = l.
Proof. unfold seg. rewrite Nat.sub_0_r, drop_0. apply firstn_all. Qed.
Lemma seg_length {A} (l : list A) a b : a <= b -> b <= length l -> length (seg l a b) = b - a.
Proof. intros. unfold seg. rewrite take_length, drop_length. lia. Qed.
Lemma seg_drop {A} (l : list A) a b : a <= b -> b <= length l -> drop a l = seg l a b ++ drop b l.
Proof.
  intros. unfold seg. rewrite <- (take_drop (b - a) (drop a l)) at 1. rewrite drop_drop.
  replace (a + (b - a)) with b by lia. done.
Qed.
Lemma seg_map {A B} (f : A -> B) (l : list A) a b : map f (seg l a b) = seg (map f l) a b.
Proof. unfold seg. rewrite <- firstn_map, <- skipn_map. done. Qed.

(** ** Soundness of ordered choice *)
Section Sound.
  Variable g : grammar.
  Variable lxs : list lexeme.
  Definition sound_sym s pos (r : option (pn * nat)) := match r with
    | Some (t, e) => pos <= length lxs -> pos <= e /\ e <= length lxs /\ is_tree g s t (seg lxs pos e)
    | None => True end.
  Definition sound_prods s pos (ps : list (list gostring)) (r : option (pn * nat)) := match r with
    | Some (t, e) => pos <= length lxs -> exists p cs, p ∈ ps /\ t = PN (Lx s [] (-1) 0) cs /\ pos <= e /\ e <= length lxs /\ are_trees g p cs (seg lxs pos e)
    | None => True end.
  Definition sound_seq (p : list gostring) pos (r : option (list pn * nat)) := match r with
    | Some (ts, e) => pos <= length lxs -> pos <= e /\ e <= length lxs /\ are_trees g p ts (seg lxs pos e)
    | None => True end.
  Lemma oc_sound :
    (forall s pos r, oc_sym g lxs s pos r -> sound_sym s pos r)
    /\ (forall s pos ps r, oc_prods g lxs s pos ps r -> sound_prods s pos ps r)
    /\ (forall p pos r, oc_seq g lxs p pos r -> sound_seq p pos r).
  Proof.
    apply oc_mut; try done.
    - intros s pos lx Hn Hl Hk _. apply lookup_lt_Some in Hl as Hlt. split_and!; [lia|lia|].
      rewrite (seg_one _ _ _ Hl). subst s. constructor; done.
    - intros s pos ps [[t e]|] Hp _ IH; [|done]. intros Hle. destruct (IH Hle) as (p & cs & Hin & -> & H1 & H2 & H3).
      split_and!; [done|done|]. apply (tree_node g (Lx s [] (-1) 0) ps p); done.
    - intros s pos p ps cs e _ IH Hle. destruct (IH Hle) as (H1 & H2 & H3). exists p, cs. split_and!; try done. left.
    - intros s pos p ps [[t e]|] _ _ _ IH; [|done]. intros Hle. destruct (IH Hle) as (q & cs & Hin & H). exists q, cs.
      split; [right; done|done].
    - intros pos Hle. split_and!; [lia|done|]. rewrite seg_nil. constructor.
    - intros x r pos c e cs e' _ IH1 _ IH2 Hle. destruct (IH1 Hle) as (H1 & H2 & H3). destruct (IH2 H2) as (H4 & H5 & H6).
      split_and!; [lia|done|]. rewrite (seg_app _ pos e e') by lia. constructor; done.
  Qed.
  Lemma oc_top_sound s ps t : oc_top g lxs s ps (Some t) -> exists p cs, p ∈ ps /\ t = PN (Lx s [] (-1) 0) cs /\ are_trees g p cs lxs.
  Proof.
    intros H. remember (Some t) as r eqn:E. induction H as [|s p ps cs Hp|s p ps cs e r Hp Hne Ht IH|s p ps r Hp Ht IH].
    - done.
    - injection E as <-. exists p, cs. destruct (proj2 (proj2 oc_sound) _ _ _ Hp ltac:(lia)) as (_ & _ & H).
      rewrite seg_all in H. split_and!; [left|done|done].
    - destruct (IH E) as (q & cs' & Hq & H). exists q, cs'. split; [right; done|done].
    - destruct (IH E) as (q & cs' & Hq & H). exists q, cs'. split; [right; done|done].
  Qed.
  Lemma oc_parse_sound t : oc_parse g lxs (Some t) -> exists s0 rest, g_nts g = s0 :: rest /\ is_tree g s0 t lxs.
  Proof.
    intros H. inversion H as [|s0 rest ps r Hn Hps Ht]; subst. exists s0, rest. split; [done|].
    destruct (oc_top_sound _ _ _ Ht) as (p & cs & Hin & -> & Hts). apply (tree_node g (Lx s0 [] (-1) 0) ps p); done.
  Qed.
  Lemma oc_sym_le s pos t e : oc_sym g lxs s pos (Some (t, e)) -> pos <= length lxs ->
    pos <= e /\ e <= length lxs /\ derives g s (seg (map lx_kind lxs) pos e).
  Proof.
    intros H Hle. destruct (proj1 oc_sound _ _ _ H Hle) as (H1 & H2 & H3). split_and!; [done|done|].
    rewrite <- seg_map. apply (proj1 (is_tree_derives g)) in H3. done.
  Qed.
  Lemma oc_seq_le p pos ts e : oc_seq g lxs p pos (Some (ts, e)) -> pos <= length lxs ->
    pos <= e /\ e <= length lxs /\ derives_seq g p (seg (map lx_kind lxs) pos e).
  Proof.
    intros H Hle. destruct (proj2 (proj2 oc_sound) _ _ _ H Hle) as (H1 & H2 & H3). split_and!; [done|done|].
    rewrite <- seg_map. apply (proj2 (is_tree_derives g)) in H3. done.
  Qed.

  (** ** Termination *)
  Hypothesis Hwf : g_wf g.
  Hypothesis Hlr : ~ left_recursive g.
  Definition all_syms : list gostring :=
    List.concat (map (fun nt => List.concat (default [] (g_prods g nt))) (g_nts g)).
  Lemma left_step_in A B : left_step g A B -> B ∈ all_syms.
  Proof.
    intros (ps & p & a & b & Hp & Hin & -> & _). unfold all_syms. apply elem_of_list_In, in_concat.
    exists (List.concat ps). split.
    - apply in_map_iff. exists A. rewrite Hp. split; [done|]. apply elem_of_list_In. apply Hwf. rewrite Hp. eauto.
    - apply in_concat. exists (a ++ B :: b). split; [apply elem_of_list_In; done|]. apply in_app_iff. right. left. done.
  Qed.
  Lemma left_sn A : sn (left_step g) A.
  Proof.
    apply tc_finite_sn.
    - intros x Hx. apply Hlr. exists x. done.
    - exists all_syms. intros x Hx. induction Hx; eauto using left_step_in.
  Qed.
  Lemma derives_null_snoc a x : derives_seq g a [] -> derives g x [] -> derives_seq g (a ++ [x]) [].
  Proof. apply derives_null_app. Qed.

  Lemma oc_total_sym m : forall pos s, length lxs - pos <= m -> pos <= length lxs -> exists r, oc_sym g lxs s pos r.
  Proof.
    induction m as [m IHm] using lt_wf_ind. intros pos s Hm Hpos.
    induction (left_sn s) as [s _ IHs].
    destruct (g_prods g s) as [ps|] eqn:Hg.
    2:{ destruct (lxs !! pos) as [lx|] eqn:Hl; [|exists None; apply oc_term_end; done].
        destruct (decide (lx_kind lx = s)); eexists; [apply oc_term; done|eapply oc_term_other; done]. }
    assert (Hseq : forall p, p ∈ ps -> forall q a pos', p = a ++ q -> pos <= pos' -> pos' <= length lxs ->
        (pos' = pos -> derives_seq g a []) -> exists r, oc_seq g lxs q pos' r).
    { intros p Hp. induction q as [|x q IHq]; intros a pos' E Hle Hle' Ha; [eexists; constructor|].
      assert (exists r, oc_sym g lxs x pos' r) as [[[c e]|] Hx].
      { destruct (decide (pos' = pos)) as [->|Hne].
        - apply IHs. exists ps, p, a, q. auto.
        - apply (IHm (length lxs - pos')); lia. }
      - destruct (oc_sym_le _ _ _ _ Hx Hle') as (H1 & H2 & H3).
        destruct (IHq (a ++ [x]) e) as [[[cs e2]|] Hr].
        + rewrite <- app_assoc. done.
        + lia.
        + done.
        + intros ->. assert (pos' = pos) as -> by lia. rewrite seg_nil in H3. apply derives_null_snoc; auto.
        + eexists. eapply oc_cons; eauto.
        + eexists. eapply oc_fail_later; eauto.
      - eexists. apply oc_fail. done. }
    assert (Hps : forall qs, (forall q, q ∈ qs -> q ∈ ps) -> exists r, oc_prods g lxs s pos qs r).
    { induction qs as [|q qs IHq]; intros Hin; [eexists; constructor|].
      destruct (Hseq q (Hin q ltac:(left)) q [] pos eq_refl ltac:(lia) Hpos ltac:(constructor)) as [[[cs e]|] Hq].
      - eexists. apply oc_hit; eauto.
      - destruct IHq as [r Hr]; [intros; apply Hin; right; done|]. exists r. apply oc_miss; done. }
    destruct (Hps ps ltac:(done)) as [r Hr]. exists r. eapply oc_nt; eauto.
  Qed.
  Lemma oc_total_seq p : forall pos, pos <= length lxs -> exists r, oc_seq g lxs p pos r.
  Proof.
    induction p as [|x p IH]; intros pos Hle; [eexists; constructor|].
    destruct (oc_total_sym (length lxs - pos) pos x ltac:(lia) Hle) as [[[c e]|] Hx].
    - destruct (oc_sym_le _ _ _ _ Hx Hle) as (H1 & H2 & _). destruct (IH e H2) as [[[cs e2]|] Hr].
      + eexists. eapply oc_cons; eauto.
      + eexists. eapply oc_fail_later; eauto.
    - eexists. apply oc_fail. done.
  Qed.
  Lemma oc_total_top s ps : exists r, oc_top g lxs s ps r.
  Proof.
    induction ps as [|p ps [r IH]]; [eexists; constructor|].
    destruct (oc_total_seq p 0 ltac:(lia)) as [[[cs e]|] Hp].
    - destruct (decide (e = length lxs)) as [->|Hne]; eexists; [eapply ot_hit; eauto|eapply ot_short; eauto].
    - eexists. eapply ot_miss; eauto.
  Qed.
  Lemma oc_total : exists r, oc_parse g lxs r.
  Proof.
    destruct (g_nts g) as [|s0 rest] eqn:Hn; [eexists; apply op_no_start; done|].
    destruct (proj1 (Hwf s0) ltac:(rewrite Hn; left)) as [ps Hps].
    destruct (oc_total_top s0 ps) as [r Hr]. exists r. eapply op_start; eauto.
  Qed.
End Sound.

(** ** Completeness for prefix-free grammars *)
Section Complete.
  Variable g : grammar.
  Variable lxs : list lexeme.
  Hypothesis Hpf : prefix_free g.
  Notation kinds := (map lx_kind lxs).

  Lemma prefix_cmp {A} (u v a b : list A) : u ++ a = v ++ b -> (exists c, v = u ++ c) \/ (exists c, u = v ++ c).
  Proof.
    revert v. induction u as [|x u IH]; intros [|y v] H; simpl in *.
    - left. exists []. done.
    - left. eauto.
    - right. eauto.
    - injection H as -> H. destruct (IH v H) as [[c ->]|[c ->]]; [left|right]; exists c; done.
  Qed.
  Definition used (p : list gostring) := exists A ps, g_prods g A = Some ps /\ p ∈ ps.

  Definition comp_sym s pos (r : option (pn * nat)) := (exists p, used p /\ s ∈ p) -> pos <= length lxs -> r = None ->
    forall u rest, drop pos kinds = u ++ rest -> ~ derives g s u.
  Definition comp_prods (s : gostring) pos (ps : list (list gostring)) (r : option (pn * nat)) := (forall p, p ∈ ps -> used p) -> pos <= length lxs -> r = None ->
    forall p u rest, p ∈ ps -> drop pos kinds = u ++ rest -> ~ derives_seq g p u.
  Definition comp_seq (p : list gostring) pos (r : option (list pn * nat)) := (forall x, x ∈ p -> exists q, used q /\ x ∈ q) -> pos <= length lxs -> r = None ->
    forall u rest, drop pos kinds = u ++ rest -> ~ derives_seq g p u.

  Lemma drop_nth pos : drop pos kinds = match lxs !! pos with Some lx => lx_kind lx :: drop (S pos) kinds | None => [] end.
  Proof.
    destruct (lxs !! pos) as [lx|] eqn:E.
    - apply drop_S. rewrite list_lookup_fmap, E. done.
    - apply lookup_ge_None in E. apply drop_ge. rewrite map_length. done.
  Qed.

  Lemma sym_unique s pos t e u rest : (exists p, used p /\ s ∈ p) -> oc_sym g lxs s pos (Some (t, e)) ->
    pos <= length lxs -> drop pos kinds = u ++ rest -> derives g s u ->
    e <= length lxs /\ u = seg kinds pos e /\ rest = drop e kinds.
  Proof.
    intros (p & (A & ps & HA & Hp) & Hs) Ho Hle E Hd.
    destruct (oc_sym_le _ _ _ _ _ _ Ho Hle) as (H1 & H2 & H3).
    rewrite (seg_drop kinds pos e) in E by (rewrite ?map_length; lia).
    assert (u = seg kinds pos e) as ->.
    { destruct (prefix_cmp _ _ _ _ E) as [[c Hc]|[c Hc]].
      - rewrite Hc in Hd. pose proof (Hpf A ps p s _ c HA Hp Hs H3 Hd) as ->. rewrite app_nil_r in Hc. done.
      - rewrite Hc in H3. pose proof (Hpf A ps p s _ c HA Hp Hs Hd H3) as ->. rewrite app_nil_r in Hc. done. }
    apply app_inv_head in E. done.
  Qed.

  Lemma oc_complete :
    (forall s pos r, oc_sym g lxs s pos r -> comp_sym s pos r)
    /\ (forall s pos ps r, oc_prods g lxs s pos ps r -> comp_prods s pos ps r)
    /\ (forall p pos r, oc_seq g lxs p pos r -> comp_seq p pos r).
  Proof.
    apply oc_mut.
    - intros s pos lx Hn Hl Hk _ _ [=].
    - intros s pos lx Hn Hl Hk _ _ _ u rest E Hd. inversion Hd; subst; [|congruence].
      rewrite drop_nth, Hl in E. cbn in E. congruence.
    - intros s pos Hn Hl _ _ _ u rest E Hd. inversion Hd; subst; [|congruence].
      rewrite drop_nth, Hl in E. cbn in E. congruence.
    - intros s pos ps r Hp _ IH Hu Hle -> u rest E Hd. inversion Hd as [|? ps' p ? Hp' Hin Hs]; subst; [congruence|].
      assert (ps' = ps) as -> by congruence. eapply IH; eauto. intros q Hq. exists s, ps. done.
    - intros s pos _ _ _ p u rest H. inversion H.
    - intros s pos p ps cs e _ _ _ _ [=].
    - intros s pos p ps r _ IH1 _ IH2 Hu Hle -> q u rest Hq E. apply elem_of_cons in Hq as [->|Hq].
      + eapply IH1; eauto. intros x Hx. exists p. split; [apply Hu; left|done].
      + eapply IH2; eauto. intros; apply Hu; right; done.
    - intros pos _ _ [=].
    - intros x r pos _ IH Hu Hle _ u rest E Hd. apply derives_seq_inv in Hd as (u1 & u2 & -> & H1 & H2).
      rewrite <- app_assoc in E. eapply IH; eauto. apply Hu. left.
    - intros x r pos c e Hx _ _ IH2 Hu Hle _ u rest E Hd. apply derives_seq_inv in Hd as (u1 & u2 & -> & H1 & H2).
      rewrite <- app_assoc in E. destruct (sym_unique x pos c e u1 (u2 ++ rest)) as (He & -> & E2); auto.
      { apply Hu. left. }
      eapply IH2; [|done|done| |exact H2]; [intros; apply Hu; right; done|symmetry; exact E2].
    - intros x r pos c e cs e' _ _ _ _ _ _ [=].
  Qed.

  (** Words of a sequence of prefix-free symbols are prefix-free too. *)
  Lemma seq_prefix_free p : (forall x, x ∈ p -> exists q, used q /\ x ∈ q) -> forall u v,
    derives_seq g p u -> derives_seq g p (u ++ v) -> v = [].
  Proof.
    induction p as [|x p IH]; intros Hu u v H1 H2.
    - inversion H1; subst. inversion H2; done.
    - apply derives_seq_inv in H1 as (a & b & -> & Ha & Hb). apply derives_seq_inv in H2 as (a' & b' & E & Ha' & Hb').
      destruct (Hu x ltac:(left)) as (q & (A & ps & HA & Hq) & Hx). rewrite <- app_assoc in E.
      assert (a' = a) as ->.
      { destruct (prefix_cmp _ _ _ _ E) as [[c ->]|[c ->]].
        - pose proof (Hpf A ps q x _ c HA Hq Hx Ha Ha') as ->. rewrite app_nil_r. done.
        - pose proof (Hpf A ps q x _ c HA Hq Hx Ha' Ha) as ->. rewrite app_nil_r. done. }
      apply app_inv_head in E. subst b'. apply (IH ltac:(intros; apply Hu; right; done) b v Hb Hb').
  Qed.

  Lemma oc_top_complete s ps r p : oc_top g lxs s ps r -> (forall q, q ∈ ps -> used q) -> p ∈ ps -> derives_seq g p kinds ->
    r <> None.
  Proof.
    induction 1 as [|s q ps cs Hq|s q ps cs e r Hq Hne Ht IH|s q ps r Hq Ht IH]; intros Hu Hin Hd.
    - inversion Hin.
    - done.
    - apply elem_of_cons in Hin as [->|Hin]; [|apply IH; auto; intros; apply Hu; right; done].
      exfalso. apply Hne. destruct (oc_seq_le _ _ _ _ _ _ Hq ltac:(lia)) as (H1 & H2 & H3).
      pose proof (seg_drop kinds 0 e ltac:(lia) ltac:(rewrite map_length; lia)) as E. rewrite drop_0 in E. rewrite E in Hd.
      apply (seq_prefix_free q) in Hd; [|intros x Hx; exists q; split; [apply Hu; left|done]|done].
      apply (f_equal length) in Hd. rewrite drop_length, map_length in Hd. simpl in Hd. lia.
    - apply elem_of_cons in Hin as [->|Hin]; [|apply IH; auto; intros; apply Hu; right; done].
      exfalso. eapply (proj2 (proj2 oc_complete) _ _ _ Hq); [|lia|done| |exact Hd].
      + intros x Hx. exists q. split; [apply Hu; left|done].
      + rewrite drop_0, app_nil_r. done.
  Qed.
  Lemma oc_parse_complete r : oc_parse g lxs r -> generates g kinds -> r <> None.
  Proof.
    intros H (s0 & rest & Hn & Hd). inversion H as [|s1 rest' ps r' Hn' Hps Ht]; subst; [congruence|].
    assert (s1 = s0) as -> by congruence.
    inversion Hd as [|? ps' p ? Hp' Hin Hs]; subst; [congruence|]. assert (ps' = ps) as -> by congruence.
    eapply oc_top_complete; eauto. intros q Hq. exists s0, ps. done.
  Qed.
End Complete.

(** ** The properties *)
Lemma topdown_sound g lexemes t : g_wf g -> returns (fun n => td_parse n g lexemes) (Some t) ->
  exists s0 rest, g_nts g = s0 :: rest /\ is_tree g s0 t lexemes.
Proof. intros Hg H. apply td_parse_oc in H; [|done]. apply oc_parse_sound; done. Qed.

Lemma topdown_terminates g lexemes : g_wf g -> ~ left_recursive g -> exists r, returns (fun n => td_parse n g lexemes) r.
Proof.
  intros Hg Hl. destruct (oc_total g lexemes Hg Hl) as [r Hr]. exists r. apply td_parse_oc; done.
Qed.
Lemma topdown_complete g lexemes : g_wf g -> ~ left_recursive g -> prefix_free g -> generates g (map lx_kind lexemes) ->
  exists t, returns (fun n => td_parse n g lexemes) (Some t).
Proof.
  intros Hg Hl Hp Hgen. destruct (oc_total g lexemes Hg Hl) as [r Hr].
  pose proof (oc_parse_complete _ _ Hp _ Hr Hgen). destruct r as [t|]; [|done]. exists t. apply td_parse_oc; done.
Qed.
Lemma topdown_packrat g lexemes t : g_wf g -> returns (fun n => td_parse n g lexemes) (Some t) ->
  exists t', returns (fun n => packrat_parse n g lexemes) (Some t').
Proof.
  intros Hg H. destruct (topdown_sound _ _ _ Hg H) as (s0 & rest & Hn & Ht).
  apply packrat_complete; [done|eapply is_tree_terminals; eauto|]. exists s0, rest. split; [done|].
  apply (proj1 (is_tree_derives g)) in Ht. done.
Qed.
Lemma td_new_total g : g_wf g -> exists b, returns (fun n => td_new n g) b.
Proof.
  intros Hg. destruct (is_lr_total g Hg) as [b [F HF]]. exists (negb b). exists F. intros n Hn. unfold td_new. rewrite HF; done.
Qed.
Lemma td_new_lr g b : returns (fun n => td_new n g) b -> g_wf g -> returns (fun n => is_left_recursive n g) (negb b).
Proof.
  intros Hn Hg. destruct (is_lr_total g Hg) as [b' Hb]. destruct Hb as [F HF]. destruct Hn as [F' HF'].
  assert (b = negb b').
  { specialize (HF (F + F') ltac:(lia)). specialize (HF' (F + F') ltac:(lia)). simpl in *. unfold td_new in HF'. rewrite HF in HF'. simpl in HF'. congruence. }
  subst b. rewrite negb_involutive. exists F. done.
Qed.
Lemma td_new_no_false_alarm g : g_wf g -> returns (fun n => td_new n g) false -> left_recursive g.
Proof. intros Hg H. apply is_lr_sound; [done|]. apply (td_new_lr g false); done. Qed.
Lemma td_new_exact g b : g_wf g -> solid_starts g -> returns (fun n => td_new n g) b -> b = true <-> ~ left_recursive g.
Proof.
  intros Hg Hs H. apply td_new_lr in H; [|done]. destruct b; simpl in H.
  - split; [|done]. intros _. apply is_lr_complete; done.
  - split; [done|]. intros Hl. apply is_lr_sound in H; done.
Qed.
Lemma td_new_parse g lexemes : g_wf g -> solid_starts g -> returns (fun n => td_new n g) true ->
  exists r, returns (fun n => td_parse n g lexemes) r.
Proof. intros Hg Hs H. apply topdown_terminates; [done|]. apply (td_new_exact g true); done. Qed.
