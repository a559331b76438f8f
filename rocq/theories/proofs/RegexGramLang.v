(** The language of the grammar regexgram builds. *)
From Coq Require Import String Lia.
From Verif.spec Require Import RegexGramSpec GrammarSpec.
From Verif.proofs Require Import Fuel RegexGramProofs.
From Verif.proofs Require GrammarProofs.
Local Open Scope nat_scope.
Local Open Scope list_scope.

Section Lang.
  Variable R : rxs.
  Variable g : grammar.
  Hypothesis Hdist : distinct_names R.
  Hypothesis Hne : no_empty_groups R.
  Hypothesis G1 : forall s, ~ generated R s -> g_prods g s = some_prods (prods_of R s).
  Hypothesis G2 : forall e, e ∈ all_repeats R -> g_prods g (rep_name e) = Some (gen_prods e).

  Record good (e : rx) : Prop := {
    gd_sym : forall x, x ∈ symbols e -> ~ generated R x;
    gd_rep : forall x, x ∈ repeats e -> x ∈ all_repeats R;
    gd_ne : no_empty_group e
  }.
  Lemma good_in nt es e : (nt, es) ∈ R -> e ∈ es -> good e.
  Proof.
    intros Hin He. constructor.
    - intros x Hx. apply (proj2 Hdist). unfold all_symbols. apply in_fm. exists (nt, es). split; [done|].
      right. apply in_fm. eauto.
    - intros x Hx. apply in_all_repeats. eauto 10.
    - eapply Hne; eauto.
  Qed.
  Lemma good_opt e : good (XOpt e) -> e = XGroup [] \/ good e.
  Proof. intros [H1 H2 [H3|H3]]; [by left|right]. constructor; auto. Qed.
  Lemma foldr_in l e : foldr (fun e P => no_empty_group e /\ P) True l -> e ∈ l -> no_empty_group e.
  Proof. induction 2; cbn in *; [tauto|]. apply IHelem_of_list. tauto. Qed.
  Lemma good_or l e : good (XOr l) -> e ∈ l -> good e.
  Proof.
    intros [H1 H2 [H3 H4]] He. constructor.
    - intros x Hx. apply H1. cbn. apply in_fm. eauto.
    - intros x Hx. apply H2. cbn. apply in_fm. eauto.
    - eapply foldr_in; eauto.
  Qed.
  Lemma good_group l e : good (XGroup l) -> e ∈ l -> good e.
  Proof.
    intros [H1 H2 [H3 H4]] He. constructor.
    - intros x Hx. apply H1. cbn. apply in_fm. eauto.
    - intros x Hx. apply H2. cbn. apply in_fm. eauto.
    - eapply foldr_in; eauto.
  Qed.
  Lemma good_rep e : good (XRep e) -> (e = XGroup [] \/ good e) /\ e ∈ all_repeats R.
  Proof.
    intros [H1 H2 H3]. split; [destruct H3 as [H3|H3]; [by left|right]; constructor; auto|].
    - intros x Hx. apply H2. cbn. right. done.
    - apply H2. cbn. left.
  Qed.
  Lemma empty_group w : matches R (XGroup []) w -> w = [].
  Proof. intros H. inversion H as [| | | | | | |? ? H1]; subst. inversion H1. done. Qed.
  Lemma repeat_good e : e ∈ all_repeats R -> e = XGroup [] \/ good e.
  Proof.
    intros He. apply in_all_repeats in He as (nt & es & x & Hin & Hx & He).
    pose proof (good_in nt es x Hin Hx) as Hg. revert Hg He. clear Hin Hx. revert e.
    induction x as [v|x IH|x IH|l IH|l IH] using rx_ind'; cbn [repeats]; intros e Hg He; [inversion He| | | |].
    - apply good_opt in Hg as [->|Hg]; [inversion He|]. auto.
    - apply good_rep in Hg as [Hg _]. apply elem_of_cons in He as [->|He]; [done|].
      destruct Hg as [->|Hg]; [inversion He|auto].
    - apply in_fm in He as (y & Hy & He). rewrite Forall_forall in IH. eapply IH; eauto. eapply good_or; eauto.
    - apply in_fm in He as (y & Hy & He). rewrite Forall_forall in IH. eapply IH; eauto. eapply good_group; eauto.
  Qed.

  Lemma generated_dec s : Decision (generated R s).
  Proof.
    destruct (decide (s ∈ map rep_name (all_repeats R))) as [H|H]; [left|right].
    - apply elem_of_list_fmap in H as (e & -> & He). exists e. done.
    - intros (e & He & ->). apply H. apply elem_of_list_fmap_1. done.
  Qed.

  (** *** From derivations to meaning *)
  Definition sem (s : gostring) (w : list gostring) : Prop :=
    (~ generated R s -> matches R (XSym s) w) /\ forall e, e ∈ all_repeats R -> s = rep_name e -> matches R (XRep e) w.
  Inductive sem_seq : list gostring -> list gostring -> Prop :=
  | sem_nil : sem_seq [] []
  | sem_cons s r u v : sem s u -> sem_seq r v -> sem_seq (s :: r) (u ++ v).
  Lemma sem_app p q w : sem_seq (p ++ q) w -> exists u v, w = u ++ v /\ sem_seq p u /\ sem_seq q v.
  Proof.
    revert w. induction p as [|s p IH]; intros w H; cbn in H.
    - exists [], w. split_and!; [done|constructor|done].
    - inversion H as [|? ? u v Hs Hr]; subst. apply IH in Hr as (u' & v' & -> & H1 & H2).
      exists (u ++ u'), v'. split_and!; [rewrite app_assoc; done|constructor; done|done].
  Qed.
  Lemma seq_sem es : (forall e, e ∈ es -> forall p w, p ∈ expansions e -> sem_seq p w -> matches R e w) ->
    forall p w, p ∈ expansions_seq es -> sem_seq p w -> matches_seq R es w.
  Proof.
    induction es as [|e es IH]; intros He p w Hp Hw; unfold expansions_seq in *; cbn [foldr] in *.
    - apply elem_of_list_singleton in Hp as ->. inversion Hw. constructor.
    - apply in_pairs in Hp as (x & y & Hx & Hy & ->). apply sem_app in Hw as (u & v & -> & Hu & Hv).
      constructor; [eapply He; eauto; left|]. eapply IH; eauto. intros e' He'. apply He. right. done.
  Qed.
  Lemma exp_sem e : good e -> forall p w, p ∈ expansions e -> sem_seq p w -> matches R e w.
  Proof.
    induction e as [v|e IH|e IH|l IH|l IH] using rx_ind'; intros Hg p w Hp Hw.
    - cbn in Hp. apply elem_of_list_singleton in Hp as ->. inversion Hw as [|? ? u v' Hs Hr]; subst. inversion Hr; subst.
      rewrite app_nil_r. apply Hs. apply (gd_sym _ Hg). cbn. left.
    - cbn [expansions] in Hp. apply elem_of_app in Hp as [Hp|Hp].
      + apply m_some. apply good_opt in Hg as [->|Hg]; [inversion Hp|]. eapply IH; eauto.
      + apply elem_of_list_singleton in Hp as ->. inversion Hw. constructor.
    - cbn in Hp. apply elem_of_list_singleton in Hp as ->. inversion Hw as [|? ? u v' Hs Hr]; subst. inversion Hr; subst.
      rewrite app_nil_r. apply Hs; [|done]. apply good_rep. done.
    - cbn [expansions] in Hp. apply in_fm in Hp as (e & He & Hp). rewrite Forall_forall in IH.
      eapply m_or; [done|]. eapply IH; eauto. eapply good_or; eauto.
    - destruct l as [|e l]; [inversion Hp|]. rewrite expansions_group_cons in Hp. apply m_group.
      rewrite Forall_forall in IH. eapply seq_sem; [|done|done].
      intros x Hx p' w' Hp' Hw'. eapply IH; eauto. eapply good_group; eauto.
  Qed.

  Lemma no_empty_exp e : no_empty_group e -> expansions e <> [].
  Proof.
    induction e as [v|e IH|e IH|l IH|l IH] using rx_ind'; intros Hg.
    - done.
    - cbn [expansions]. intros H. apply app_eq_nil in H as [_ H]. done.
    - done.
    - destruct Hg as [Hl Hg]. destruct l as [|e l]; [done|]. cbn [expansions flat_map]. intros H.
      apply app_eq_nil in H as [H _]. inversion IH as [|? ? He]; subst. destruct Hg as [Hge _]. by apply He in Hge.
    - destruct Hg as [Hl Hg]. destruct l as [|e l]; [done|]. rewrite expansions_group_cons. clear Hl.
      revert IH Hg. generalize (e :: l). clear. intros l IH Hg. unfold expansions_seq.
      induction IH as [|e l He _ IHl]; cbn [foldr]; [done|]. destruct Hg as [H1 H2]. apply He in H1. apply IHl in H2.
      destruct (expansions e) as [|x xs]; [done|]. destruct (foldr _ [[]] l) as [|y ys]; [done|]. done.
  Qed.
  Lemma no_empty_exp_seq es : (forall e, e ∈ es -> no_empty_group e) -> expansions_seq es <> [].
  Proof.
    unfold expansions_seq. induction es as [|e es IH]; intros H; cbn [foldr]; [done|].
    pose proof (no_empty_exp e (H e ltac:(left))) as H1. specialize (IH (fun x Hx => H x (elem_of_list_further _ _ _ Hx))).
    destruct (expansions e) as [|x xs]; [done|]. destruct (foldr _ [[]] es); done.
  Qed.
  Lemma in_prods_of s p : p ∈ prods_of R s <-> exists es, (s, es) ∈ R /\ p ∈ expansions_seq es.
  Proof.
    unfold prods_of. rewrite in_fm. split.
    - intros ([nt es] & Hin & Hp). cbn in Hp. destruct (decide (nt = s)) as [->|]; [eauto|inversion Hp].
    - intros (es & Hin & Hp). exists (s, es). split; [done|]. cbn. rewrite decide_True; done.
  Qed.
  Lemma prods_of_some s : s ∈ map fst R -> prods_of R s <> [].
  Proof.
    intros Hs E. apply elem_of_list_fmap in Hs as ([nt es] & -> & Hin). cbn in E.
    destruct (expansions_seq es) as [|p ps] eqn:Ee.
    - eapply no_empty_exp_seq; [|exact Ee]. intros e He. eapply Hne; eauto.
    - assert (p ∈ prods_of R nt) as H; [|rewrite E in H; inversion H]. apply in_prods_of. exists es. rewrite Ee. split; [done|left].
  Qed.

  Lemma derives_sem s w : derives g s w -> sem s w.
  Proof.
    revert s w. apply (derives_mut g (fun s w _ => sem s w) (fun p w _ => sem_seq p w)).
    - intros s E. split.
      + intros Hn. apply m_term. intros Hin. rewrite G1 in E by done. pose proof (prods_of_some s Hin).
        destruct (prods_of R s); done.
      + intros e He ->. rewrite G2 in E by done. done.
    - intros s ps p w E Hp _ Hw. split.
      + intros Hn. rewrite G1 in E by done. destruct (prods_of R s) as [|x xs] eqn:Ex; [done|]. injection E as <-.
        rewrite <- Ex in Hp. apply in_prods_of in Hp as (es & Hin & Hp). eapply m_nt; [done|].
        eapply seq_sem; eauto. intros e He p' w' Hp' Hw'. eapply exp_sem; eauto. eapply good_in; eauto.
      + intros e He ->. rewrite G2 in E by done. injection E as <-. unfold gen_prods in Hp.
        apply elem_of_app in Hp as [Hp|Hp].
        * apply elem_of_list_fmap in Hp as (q & -> & Hq). apply sem_app in Hw as (u & v & -> & Hu & Hv).
          inversion Hv as [|? ? u' v' Hs Hr]; subst. inversion Hr; subst. rewrite app_nil_r.
          apply m_more; [|apply Hs; done]. destruct (repeat_good e He) as [->|Hg]; [inversion Hq|]. eapply exp_sem; eauto.
        * apply elem_of_list_singleton in Hp as ->. inversion Hw. constructor.
    - constructor.
    - intros s r u v _ Hs _ Hr. constructor; done.
  Qed.

  (** *** From meaning to derivations *)
  Lemma derives_seq_app p q u v : derives_seq g p u -> derives_seq g q v -> derives_seq g (p ++ q) (u ++ v).
  Proof. induction 1; cbn; [done|]. intros H'. rewrite <- app_assoc. constructor; auto. Qed.
  Lemma derives_one s w : derives_seq g [s] w -> derives g s w.
  Proof. intros H. inversion H as [|? ? u v Hs Hr]; subst. inversion Hr; subst. rewrite app_nil_r. done. Qed.
  Lemma one_derives s w : derives g s w -> derives_seq g [s] w.
  Proof. intros H. rewrite <- (app_nil_r w). constructor; [done|constructor]. Qed.

  Lemma matches_derives e w : matches R e w -> good e -> exists p, p ∈ expansions e /\ derives_seq g p w.
  Proof.
    revert e w. apply (matches_mut R
      (fun e w _ => good e -> exists p, p ∈ expansions e /\ derives_seq g p w)
      (fun es w _ => (forall e, e ∈ es -> good e) -> exists p, p ∈ expansions_seq es /\ derives_seq g p w)).
    - intros s Hs Hg. exists [s]. split; [cbn; left|]. apply one_derives. constructor.
      rewrite G1; [|apply (gd_sym _ Hg); cbn; left]. rewrite prods_of_none; done.
    - intros s es w Hin _ IH Hg. destruct IH as (p & Hp & Hd); [intros; eapply good_in; eauto|].
      exists [s]. split; [cbn; left|]. apply one_derives.
      assert (p ∈ prods_of R s) as Hps by (apply in_prods_of; eauto).
      eapply der_nt; [|exact Hps|done].
      rewrite G1; [|apply (gd_sym _ Hg); cbn; left]. destruct (prods_of R s); [inversion Hps|done].
    - intros e Hg. exists []. split; [cbn [expansions]; apply elem_of_app; right; left|constructor].
    - intros e w Hm IH Hg. apply good_opt in Hg as [->|Hg].
      { apply empty_group in Hm as ->. exists []. split; [left|constructor]. }
      destruct IH as (p & Hp & Hd); [done|]. exists p. split; [|done].
      cbn [expansions]. apply elem_of_app. left. done.
    - intros e Hg. exists [rep_name e]. split; [cbn; left|]. apply one_derives.
      apply good_rep in Hg as [_ He]. eapply der_nt; [exact (G2 e He)| |constructor].
      unfold gen_prods. apply elem_of_app. right. left.
    - intros e u v Hm IH1 _ IH2 Hg. destruct (IH2 Hg) as (q & Hq & Hdq). pose proof Hq as Hq'. cbn in Hq. apply elem_of_list_singleton in Hq as ->.
      apply good_rep in Hg as [[->|Hg] He].
      { apply empty_group in Hm as ->. exists [rep_name (XGroup [])]. split; [exact Hq'|exact Hdq]. }
      destruct (IH1 Hg) as (p & Hp & Hd).
      exists [rep_name e]. split; [cbn; left|]. apply one_derives.
      eapply der_nt; [exact (G2 e He)| |apply derives_seq_app; [exact Hd|exact Hdq]].
      unfold gen_prods. apply elem_of_app. left. apply elem_of_list_fmap. exists p. done.
    - intros l e w He _ IH Hg. destruct IH as (p & Hp & Hd); [eapply good_or; eauto|]. exists p. split; [|done].
      cbn [expansions]. apply in_fm. eauto.
    - intros l w _ IH Hg. destruct IH as (p & Hp & Hd); [intros; eapply good_group; eauto|]. exists p. split; [|done].
      destruct l as [|e l]; [|done]. destruct (gd_ne _ Hg). done.
    - intros _. exists []. split; [left|constructor].
    - intros e es u v _ IH1 _ IH2 Hg. destruct IH1 as (p & Hp & Hd); [apply Hg; left|].
      destruct IH2 as (q & Hq & Hdq); [intros x Hx; apply Hg; right; done|]. exists (p ++ q).
      split; [|apply derives_seq_app; done]. unfold expansions_seq. cbn [foldr]. apply in_pairs. eauto.
  Qed.

  Lemma language s w : ~ generated R s -> derives g s w <-> matches R (XSym s) w.
  Proof.
    intros Hn. split.
    - intros H. apply derives_sem in H. apply H. done.
    - intros H. destruct (matches_derives _ _ H) as (p & Hp & Hd).
      + constructor; [|intros x Hx; inversion Hx|done]. intros x Hx. cbn in Hx. apply elem_of_list_singleton in Hx as ->. done.
      + cbn in Hp. apply elem_of_list_singleton in Hp as ->. apply derives_one. done.
  Qed.
  Lemma language_rep e w : e ∈ all_repeats R -> derives g (rep_name e) w <-> matches R (XRep e) w.
  Proof.
    intros He. split.
    - intros H. apply derives_sem in H. by apply H.
    - intros H. destruct (matches_derives _ _ H) as (p & Hp & Hd).
      + destruct (repeat_good e He) as [->|[H1 H2 H3]].
        * constructor; [intros x Hx; inversion Hx| |left; done]. cbn. intros x Hx. apply elem_of_list_singleton in Hx as ->. done.
        * constructor; [done| |right; done]. cbn. intros x [->|Hx]%elem_of_cons; auto.
      + cbn in Hp. apply elem_of_list_singleton in Hp as ->. apply derives_one. done.
  Qed.
End Lang.

(** The grammar of a tree. *)
Lemma view_prods t R g r : shows_grammar t R -> distinct_names R -> returns (eval_grammar t) (g, r) ->
  (forall s, ~ generated R s -> g_prods (gr_view g) s = some_prods (prods_of R s))
  /\ (forall e, e ∈ all_repeats R -> g_prods (gr_view g) (rep_name e) = Some (gen_prods e)).
Proof.
  intros Ht Hd Hr. destruct (eval_grammar_result t R Ht) as (g' & A & B & P & new & Hr' & HR & Hs & EP).
  pose proof (returns_fun _ _ _ Hr Hr') as E. injection E as -> _.
  destruct (GrammarProofs.gr_view_R _ _ HR) as [_ Hp].
  assert (Hall : forall s, g_prods (gr_view g') s = some_prods (prods_of R s ++ prods_of (flat_map gen_items new) s)).
  { intros s. rewrite Hp. change (g_prods (gram_of A) s) with (assoc_prods A s).
    pose proof (se_prods _ _ _ _ Hs) as EA. cbn in EA. rewrite EA, adds_get by done. cbn [default from_option assoc_prods app].
    rewrite EP, prods_of_app. done. }
  split.
  - intros s Hn. rewrite Hall, prods_of_gens_none, app_nil_r; [done|].
    intros H. apply elem_of_list_fmap in H as (e & -> & He). apply Hn. exists e. split; [|done].
    apply (se_new _ _ _ _ Hs). done.
  - intros e He. rewrite Hall, prods_of_none.
    + rewrite prods_of_gens.
      * unfold gen_prods. destruct (map _ (expansions e)); done.
      * exact (se_nodup _ _ _ _ Hs).
      * eapply seen_repeats; eauto.
    + intros H. apply elem_of_list_fmap in H as ([nt es] & E & Hin). cbn in E.
      apply (proj2 Hd nt).
      * unfold all_symbols. apply in_fm. exists (nt, es). split; [done|left].
      * exists e. done.
Qed.

Lemma derives_same g h : (forall s, g_prods g s = g_prods h s) -> forall s w, derives g s w -> derives h s w.
Proof.
  intros E. apply (derives_mut g (fun s w _ => derives h s w) (fun p w _ => derives_seq h p w)).
  - intros s H. constructor. rewrite <- E. done.
  - intros s ps p w H Hp _ IH. eapply der_nt; [rewrite <- E; exact H|done|done].
  - constructor.
  - intros. constructor; done.
Qed.

(** The first non-terminal stays the start symbol. *)
Lemma am_add_head nt ps A nt' p : exists ps', am_add ((nt, ps) :: A) nt' p = (nt, ps') :: (if decide (nt = nt') then A else am_add A nt' p).
Proof. cbn [am_add]. case_decide; eauto. Qed.
Lemma adds_one_head nt' qs : forall nt ps A, exists ps' A', fold_left (fun A p => am_add A nt' p) qs ((nt, ps) :: A) = (nt, ps') :: A'.
Proof.
  induction qs as [|q qs IH]; intros nt ps A; cbn [fold_left]; [eauto|].
  destruct (am_add_head nt ps A nt' q) as (ps' & ->). apply IH.
Qed.
Lemma adds_head P : forall nt ps A, exists ps' A', fold_left adds P ((nt, ps) :: A) = (nt, ps') :: A'.
Proof.
  induction P as [|it P IH]; intros nt ps A; cbn [fold_left]; [eauto|]. unfold adds at 2.
  destruct (adds_one_head (fst it) (expansions_seq (snd it)) nt ps A) as (ps' & A' & ->). apply IH.
Qed.
Lemma start_symbol t R g r s0 es R' : shows_grammar t R -> no_empty_groups R -> returns (eval_grammar t) (g, r) ->
  R = (s0, es) :: R' -> exists rest, g_nts (gr_view g) = s0 :: rest.
Proof.
  intros Ht Hne Hr ER. destruct (eval_grammar_result t R Ht) as (g' & A & B & P & new & Hr' & HR & Hs & EP).
  pose proof (returns_fun _ _ _ Hr Hr') as E. injection E as -> _.
  destruct (GrammarProofs.gr_view_R _ _ HR) as [Hn _]. rewrite Hn.
  pose proof (se_prods _ _ _ _ Hs) as EA. cbn in EA. rewrite EP, ER in EA. cbn [app fold_left] in EA.
  assert (expansions_seq es <> []) as He.
  { apply no_empty_exp_seq. intros e He. eapply (Hne s0); [rewrite ER; left|done]. }
  unfold adds at 2 in EA. cbn [fst snd] in EA. destruct (expansions_seq es) as [|p ps]; [done|]. cbn [fold_left am_add] in EA.
  destruct (adds_one_head s0 ps s0 [p] []) as (ps' & A' & E1). rewrite E1 in EA.
  destruct (adds_head (R' ++ flat_map gen_items new) s0 ps' A') as (ps2 & A2 & E2). rewrite E2 in EA.
  exists (map fst A2). cbn. rewrite EA. done.
Qed.
