(** The grammar RemoveLeftRecursion returns derives the same strings and is not
    left recursive. *)
From Coq Require Import String Lia.
From Verif.model Require Import LrRemove.
From Verif.spec Require Import LrSpec Outcome.
From Verif.proofs Require Import Fuel GrammarProofs LrRemoveProofs LrRemoveDirect LrRemoveMain LrUnfold LeftRecProofs SetProofs.
Local Open Scope nat_scope.
Local Open Scope list_scope.

Lemma derives_ext g h : (forall s, g_prods g s = g_prods h s) -> forall s w, derives g s w -> derives h s w.
Proof.
  intros E. apply (derives_mut g (fun s w _ => derives h s w) (fun p w _ => derives_seq h p w)).
  - intros s H. constructor. rewrite <- E. exact H.
  - intros s ps p w Hps Hp _ IH. eapply der_nt; [rewrite <- E; exact Hps|exact Hp|exact IH].
  - constructor.
  - intros s r u v _ H1 _ H2. constructor; assumption.
Qed.
Lemma derives_seq_ext g h : (forall s, g_prods g s = g_prods h s) -> forall p w, derives_seq g p w -> derives_seq h p w.
Proof.
  intros E p w H. induction H as [|s r u v H1 H2 IH]; [constructor|]. constructor; [apply (derives_ext g h E); exact H1|exact IH].
Qed.

Lemma derives_seq_app g p q u v : derives_seq g p u -> derives_seq g q v -> derives_seq g (p ++ q) (u ++ v).
Proof.
  intros H Hq. induction H as [|s r a b H1 H2 IH]; [exact Hq|]. cbn [app]. rewrite <- app_assoc. constructor; assumption.
Qed.
Lemma derives_seq_split g p q w : derives_seq g (p ++ q) w -> exists u v, w = u ++ v /\ derives_seq g p u /\ derives_seq g q v.
Proof.
  revert w. induction p as [|x p IH]; intros w H.
  - exists [], w. split; [reflexivity|]. split; [constructor|exact H].
  - cbn [app] in H. apply derives_seq_inv in H as (u & v & -> & H1 & H2). destruct (IH v H2) as (a & b & -> & H3 & H4).
    exists (u ++ a), b. split; [rewrite app_assoc; reflexivity|]. split; [constructor; assumption|exact H4].
Qed.
Lemma derives_seq_one g x w : derives_seq g [x] w <-> derives g x w.
Proof.
  split.
  - intros H. apply derives_seq_inv in H as (u & v & -> & H1 & H2). inversion H2; subst. rewrite app_nil_r. exact H1.
  - intros H. rewrite <- (app_nil_r w). constructor; [exact H|constructor].
Qed.

(** Unfolded productions are right for their non-terminal. *)
Lemma unfolds_sound g dn :
  (forall p qs, unfolds g dn p qs -> forall q w, q ∈ qs -> derives_seq g q w -> derives_seq g p w) /\
  (forall t ps qs, unfolds_each g dn t ps qs -> forall q w, q ∈ qs -> derives_seq g q w ->
     exists p, p ∈ ps /\ derives_seq g (p ++ t) w).
Proof.
  apply (unfolds_ind2 g dn
    (fun p qs => forall q w, q ∈ qs -> derives_seq g q w -> derives_seq g p w)
    (fun t ps qs => forall q w, q ∈ qs -> derives_seq g q w -> exists p, p ∈ ps /\ derives_seq g (p ++ t) w)).
  - intros p _ q w Hq H. apply elem_of_list_singleton in Hq. subst q. exact H.
  - intros B t ps qs HB Hps _ IH q w Hq H. destruct (IH q w Hq H) as (p & Hp & Hd).
    apply derives_seq_split in Hd as (u & v & -> & H1 & H2). constructor; [|exact H2]. eapply der_nt; eassumption.
  - intros t q w Hq. inversion Hq.
  - intros t p ps qs rs _ IH1 _ IH2 q w Hq H. apply elem_of_app in Hq as [Hq|Hq].
    + exists p. split; [left|apply (IH1 q w Hq H)].
    + destruct (IH2 q w Hq H) as (p' & Hp' & Hd). exists p'. split; [right; exact Hp'|exact Hd].
Qed.
Lemma unfolded_sound g dn A ps qs q w : g_prods g A = Some ps -> unfolds_each g dn [] ps qs -> q ∈ qs ->
  derives_seq g q w -> derives g A w.
Proof.
  intros Hps HU Hq Hd. destruct (proj2 (unfolds_sound g dn) [] ps qs HU q w Hq Hd) as (p & Hp & H).
  rewrite app_nil_r in H. eapply der_nt; eassumption.
Qed.
Lemma unfolds_symbols g dn (P : gostring -> Prop) : (forall A ps p x, g_prods g A = Some ps -> p ∈ ps -> x ∈ p -> P x) ->
  (forall p qs, unfolds g dn p qs -> Forall P p -> Forall (Forall P) qs) /\
  (forall t ps qs, unfolds_each g dn t ps qs -> Forall P t -> Forall (Forall P) ps -> Forall (Forall P) qs).
Proof.
  intros HP.
  apply (unfolds_ind2 g dn (fun p qs => Forall P p -> Forall (Forall P) qs)
    (fun t ps qs => Forall P t -> Forall (Forall P) ps -> Forall (Forall P) qs)).
  - intros p _ H. constructor; [exact H|constructor].
  - intros B t ps qs _ Hps _ IH H. inversion H as [|? ? _ Ht]; subst. apply IH; [exact Ht|].
    apply Forall_forall. intros p Hp. apply Forall_forall. intros x Hx. apply (HP B ps p x Hps Hp Hx).
  - intros. constructor.
  - intros t p ps qs rs _ IH1 _ IH2 Ht Hps. inversion Hps as [|? ? H1 H2]; subst. apply Forall_app. split.
    + apply IH1. apply Forall_app. split; assumption.
    + apply IH2; assumption.
Qed.
Lemma unfolds_nonempty_prods g dn : no_empty_productions g ->
  (forall p qs, unfolds g dn p qs -> p <> [] -> [] ∉ qs) /\
  (forall t ps qs, unfolds_each g dn t ps qs -> [] ∉ ps -> [] ∉ qs).
Proof.
  intros HN.
  apply (unfolds_ind2 g dn (fun p qs => p <> [] -> [] ∉ qs) (fun t ps qs => [] ∉ ps -> [] ∉ qs)).
  - intros p _ H Hin. apply elem_of_list_singleton in Hin. congruence.
  - intros B t ps qs _ Hps _ IH _. apply IH. apply (HN B ps Hps).
  - intros t _ H. inversion H.
  - intros t p ps qs rs _ IH1 _ IH2 Hps Hin. apply not_elem_of_cons in Hps as [H1 H2].
    apply elem_of_app in Hin as [Hin|Hin]; [|apply (IH2 H2 Hin)]. apply IH1; [|exact Hin].
    intros E. apply app_eq_nil in E as [E _]. congruence.
Qed.

Lemma tc_first {B} (Q : B -> B -> Prop) x y : tc Q x y -> exists z, Q x z.
Proof. intros H. destruct H as [x y H|x y z H _]; eexists; exact H. Qed.

Lemma el_head g dn nts M : eliminates g dn nts M ->
  nts = [] /\ M = [] \/ exists A nts' ps M', nts = A :: nts' /\ M = (A, ps) :: M'.
Proof.
  intros [d|d A n ps qs M0 ? ? ? ?|d A n ps qs t M0 ? ? ? ? ?]; [left; split; reflexivity| |]; right; eexists _, _, _, _; split; reflexivity.
Qed.

(** What a result says about each non-terminal. *)
Definition treated (g : grammar) (dn : list gostring) (A : gostring) (M : amap) : Prop :=
  exists ps qs, g_prods g A = Some ps /\ unfolds_each g dn [] ps qs /\
    ((forall t, A :: t ∉ qs) /\ assoc_prods M A = Some qs /\ assoc_prods M (prime A) = None \/
     (exists t, A :: t ∈ qs) /\
     assoc_prods M A = Some (map (fun q => q ++ [prime A]) (bases A qs)) /\
     assoc_prods M (prime A) = Some (map (fun q => q ++ [prime A]) (rests A qs) ++ [[]])).

Lemma el_keys g dn nts M : eliminates g dn nts M -> forall x, x ∈ map fst M -> x ∈ nts \/ exists A, A ∈ nts /\ x = prime A.
Proof.
  induction 1 as [dn|dn A nts ps qs M Hps HU Hno HE IH|dn A nts ps qs t M Hps HU Ht Hb HE IH]; intros x Hx.
  - inversion Hx.
  - cbn [map fst] in Hx. apply elem_of_cons in Hx as [->|Hx]; [left; left|].
    destruct (IH x Hx) as [H|(B & H & ->)]; [left; right; exact H|]. right. exists B. split; [right; exact H|reflexivity].
  - cbn [map fst] in Hx. apply elem_of_cons in Hx as [->|Hx]; [left; left|].
    apply elem_of_cons in Hx as [->|Hx]; [right; exists A; split; [left|reflexivity]|].
    destruct (IH x Hx) as [H|(B & H & ->)]; [left; right; exact H|]. right. exists B. split; [right; exact H|reflexivity].
Qed.

Lemma el_treated g dn nts M : eliminates g dn nts M -> NoDup nts -> (forall A B, A ∈ nts -> B ∈ nts -> prime A <> B) ->
  forall pre A post, nts = pre ++ A :: post -> treated g (dn ++ pre) A M.
Proof.
  induction 1 as [dn|dn A nts ps qs M Hps HU Hno HE IH|dn A nts ps qs t M Hps HU Ht Hb HE IH]; intros ND Hpr pre A' post E.
  - destruct pre; discriminate E.
  - apply NoDup_cons in ND as [N1 N2].
    destruct pre as [|B pre]; injection E as <- E.
    + rewrite app_nil_r. exists ps, qs. split; [exact Hps|]. split; [exact HU|]. left. split; [exact Hno|].
      cbn [assoc_prods]. rewrite decide_True by reflexivity. split; [reflexivity|].
      rewrite decide_False by (intros E'; apply (prime_ne A); congruence). apply assoc_None. intros Hin.
      destruct (el_keys _ _ _ _ HE _ Hin) as [H|(B & H & H2)].
      * apply (Hpr A (prime A)); [left|right; exact H|reflexivity].
      * apply prime_inj in H2. subst B. contradiction.
    + destruct (IH N2) with (pre := pre) (A := A') (post := post) as (ps' & qs' & H1 & H2 & H3).
      { intros X Y HX HY. apply Hpr; right; assumption. } { exact E. }
      assert (HA' : A' ∈ nts) by (rewrite E; apply elem_of_app; right; left).
      exists ps', qs'. split; [exact H1|]. split; [rewrite <- app_assoc in H2; exact H2|].
      cbn [assoc_prods].
      rewrite !(decide_False (P := A = A')) by congruence.
      rewrite !(decide_False (P := A = prime A')).
      2:{ intros E'. apply (Hpr A' A); [right; exact HA'|left|congruence]. }
      exact H3.
  - apply NoDup_cons in ND as [N1 N2].
    destruct pre as [|B pre]; injection E as <- E.
    + rewrite app_nil_r. exists ps, qs. split; [exact Hps|]. split; [exact HU|]. right. split; [exists t; exact Ht|].
      cbn [assoc_prods]. rewrite (decide_True (P := A = A)) by reflexivity. split; [reflexivity|].
      rewrite decide_False by (intros E'; apply (prime_ne A); congruence).
      rewrite decide_True by reflexivity. reflexivity.
    + destruct (IH N2) with (pre := pre) (A := A') (post := post) as (ps' & qs' & H1 & H2 & H3).
      { intros X Y HX HY. apply Hpr; right; assumption. } { exact E. }
      assert (HA' : A' ∈ nts) by (rewrite E; apply elem_of_app; right; left).
      exists ps', qs'. split; [exact H1|]. split; [rewrite <- app_assoc in H2; exact H2|].
      cbn [assoc_prods].
      rewrite !(decide_False (P := A = A')) by congruence.
      rewrite !(decide_False (P := prime A = A')) by (apply Hpr; [left|right; exact HA']).
      rewrite !(decide_False (P := A = prime A')).
      2:{ intros E'. apply (Hpr A' A); [right; exact HA'|left|congruence]. }
      rewrite !(decide_False (P := prime A = prime A')) by (intros E'; apply prime_inj in E'; congruence).
      exact H3.
Qed.

Section Lang.
  Variable g : grammar.
  Variable M : amap.
  Hypothesis Htame : lr_tame g.
  Hypothesis HE : eliminates g [] (g_nts g) M.
  Notation g' := (gram_of M).

  Let Hwf : g_wf g := proj1 Htame.
  Let ND : NoDup (g_nts g) := proj1 (proj2 Htame).
  Let Hfresh : forall A, A ∈ g_nts g -> ~ mentions g (prime A) := proj2 (proj2 (proj2 Htame)).

  (** Not one of the names made up for the result. *)
  Definition orig (s : gostring) : Prop := forall A, A ∈ g_nts g -> s <> prime A.

  Lemma mentions_orig s : mentions g s -> orig s.
  Proof. intros H A HA ->. apply (Hfresh A HA H). Qed.
  Lemma nt_orig A : A ∈ g_nts g -> orig A.
  Proof. intros H. apply mentions_orig. left; exact H. Qed.

  Lemma nt_treated A : A ∈ g_nts g -> exists pre post, g_nts g = pre ++ A :: post /\ treated g pre A M.
  Proof.
    intros H. apply elem_of_list_split in H as (pre & post & E). exists pre, post. split; [exact E|].
    apply (el_treated g [] (g_nts g) M HE ND) with (post := post); [|exact E].
    intros X Y HX HY <-. apply (Hfresh X HX). left; exact HY.
  Qed.
  Lemma term_same s : orig s -> g_prods g' s = None <-> g_prods g s = None.
  Proof.
    intros Ho. cbn [g_prods gram_of]. split.
    - intros H. destruct (g_prods g s) as [ps|] eqn:E; [|reflexivity]. exfalso.
      assert (Hs : s ∈ g_nts g) by (apply Hwf; eexists; exact E).
      destruct (nt_treated s Hs) as (pre & post & _ & ps' & qs & _ & _ & [(_ & H1 & _)|(_ & H1 & _)]); congruence.
    - intros H. apply assoc_None. intros Hin. destruct (el_keys _ _ _ _ HE s Hin) as [Hs|(A & HA & ->)].
      + apply Hwf in Hs as [ps Hps]. congruence.
      + apply (Ho A HA eq_refl).
  Qed.
  Lemma unfolded_orig A ps qs q pre : g_prods g A = Some ps -> unfolds_each g pre [] ps qs -> q ∈ qs -> Forall orig q.
  Proof.
    intros Hps HU Hq.
    assert (HF : Forall (Forall orig) qs).
    { apply (proj2 (unfolds_symbols g pre orig (fun A ps p x H1 H2 H3 => mentions_orig x (or_intror (ex_intro _ A (ex_intro _ ps (ex_intro _ p (conj H1 (conj H2 H3)))))))) [] ps qs HU).
      - constructor.
      - apply Forall_forall. intros p Hp. apply Forall_forall. intros x Hx. apply mentions_orig. right. exists A, ps, p. auto. }
    rewrite Forall_forall in HF. apply HF; exact Hq.
  Qed.

  Lemma in_bases A qs q : q ∈ bases A qs <-> q ∈ qs /\ forall t, q <> A :: t.
  Proof.
    rewrite !elem_of_list_In. unfold bases. rewrite filter_In. split.
    - intros [H1 H2]. split; [exact H1|]. intros t ->. cbn [starts] in H2. rewrite bool_decide_true in H2 by reflexivity. discriminate H2.
    - intros [H1 H2]. split; [exact H1|]. destruct q as [|x t]; [reflexivity|]. cbn [starts].
      rewrite bool_decide_false; [reflexivity|]. intros ->. apply (H2 t eq_refl).
  Qed.
  Lemma in_rests A qs r : r ∈ rests A qs <-> r <> [] /\ exists t, A :: t ∈ qs /\ r = drop_self A t.
  Proof.
    rewrite elem_of_list_In. unfold rests. rewrite filter_In, in_map_iff. split.
    - intros [(q & <- & Hq) Hn]. apply filter_In in Hq as [Hq Hs]. destruct q as [|x t]; [discriminate Hs|].
      cbn [starts] in Hs. apply bool_decide_eq_true in Hs. subst x. cbn [drop_self] in *.
      rewrite bool_decide_true in * by reflexivity. split; [intros E; rewrite E in Hn; discriminate Hn|].
      exists t. split; [apply elem_of_list_In; exact Hq|reflexivity].
    - intros (Hr & t & Ht & ->). split.
      + exists (A :: t). split; [cbn [drop_self]; rewrite bool_decide_true by reflexivity; reflexivity|].
        apply filter_In. split; [apply elem_of_list_In; exact Ht|]. cbn [starts]. apply bool_decide_eq_true. reflexivity.
      + destruct (drop_self A t); [congruence|reflexivity].
  Qed.

  (** Not left recursive. *)
  Section NotLR.
    Hypothesis Hnn : no_empty_productions g.

    Lemma unfolded_nonempty A ps qs pre : g_prods g A = Some ps -> unfolds_each g pre [] ps qs -> [] ∉ qs.
    Proof. intros Hps HU. apply (proj2 (unfolds_nonempty_prods g pre Hnn) [] ps qs HU). apply (Hnn A ps Hps). Qed.

    Lemma drop_self_orig A q : Forall orig q -> Forall orig (drop_self A q).
    Proof. induction 1 as [|x q Hx Hq IH]; cbn [drop_self]; [constructor|]. destruct (bool_decide (x = A)); [exact IH|]. constructor; assumption. Qed.

    (** Every non-empty production of the result begins with an original symbol. *)
    Lemma result_starts X ps p : g_prods g' X = Some ps -> p ∈ ps -> p = [] /\ ~ orig X \/ exists x r, p = x :: r /\ orig x.
    Proof.
      intros HX Hp. assert (Hin : X ∈ map fst M).
      { destruct (decide (X ∈ map fst M)) as [H|H]; [exact H|]. apply assoc_None in H. cbn [g_prods gram_of] in HX. congruence. }
      cbn [g_prods gram_of] in HX.
      assert (Hsnoc : forall q, q <> [] -> Forall orig q -> forall z, exists x r, q ++ [z] = x :: r /\ orig x).
      { intros q Hq Ho z. destruct Ho as [|x r Hx Hr]; [congruence|]. exists x, (r ++ [z]). auto. }
      destruct (el_keys _ _ _ _ HE X Hin) as [HXn|(A & HA & ->)].
      - destruct (nt_treated X HXn) as (pre & post & _ & ps' & qs & Hps & HU & [(_ & H1 & _)|(_ & H1 & _)]).
        + assert (ps = qs) as -> by congruence. right. pose proof (unfolded_orig X ps' qs p pre Hps HU Hp) as Ho.
          destruct Ho as [|x r Hx Hr]; [destruct (unfolded_nonempty X ps' qs pre Hps HU Hp)|]. exists x, r. auto.
        + right. rewrite H1 in HX. injection HX as <-. apply elem_of_list_fmap in Hp as (q & -> & Hq). apply in_bases in Hq as [Hq _].
          apply Hsnoc; [|apply (unfolded_orig X ps' qs q pre Hps HU Hq)].
          intros ->. apply (unfolded_nonempty X ps' qs pre Hps HU Hq).
      - destruct (nt_treated A HA) as (pre & post & _ & ps' & qs & Hps & HU & [(_ & _ & H1)|(_ & _ & H1)]); [congruence|].
        rewrite H1 in HX. injection HX as <-. apply elem_of_app in Hp as [Hp|Hp].
        + right. apply elem_of_list_fmap in Hp as (r & -> & Hr). apply in_rests in Hr as (Hr & t & Ht & ->).
          apply Hsnoc; [exact Hr|]. apply drop_self_orig. pose proof (unfolded_orig A ps' qs _ pre Hps HU Ht) as Ho.
          inversion Ho; assumption.
        + left. apply elem_of_list_singleton in Hp. split; [exact Hp|]. intros Ho. apply (Ho A HA eq_refl).
    Qed.

    Lemma orig_not_nullable : forall s w, derives g' s w -> orig s -> w <> [].
    Proof.
      apply (derives_mut g' (fun s w _ => orig s -> w <> []) (fun p w _ => forall x r, p = x :: r -> orig x -> w <> [])).
      - discriminate.
      - intros s ps p w Hps Hp _ IH Ho. destruct (result_starts s ps p Hps Hp) as [[_ H]|(x & r & -> & Hx)]; [contradiction|].
        apply (IH x r eq_refl Hx).
      - discriminate.
      - intros s r u v _ IH _ _ x r' [= <- <-] Hx E. apply app_eq_nil in E as [E _]. apply (IH Hx E).
    Qed.

    Lemma left_step_first X Y : left_step g' X Y -> orig Y /\ exists ps r, g_prods g' X = Some ps /\ Y :: r ∈ ps.
    Proof.
      intros (ps & p & a & b & Hps & Hp & E & Ha).
      destruct (result_starts X ps p Hps Hp) as [[Hn _]|(x & r & Ex & Hx)]; [rewrite Hn in E; destruct a; discriminate E|].
      destruct a as [|y a].
      - cbn [app] in E. rewrite Ex in E. injection E as -> ->. split; [exact Hx|]. exists ps, b. split; [exact Hps|]. rewrite <- Ex. exact Hp.
      - cbn [app] in E. rewrite Ex in E. injection E as -> ->. exfalso.
        apply derives_seq_null_inv in Ha as [Hy _]. apply (orig_not_nullable _ _ Hy Hx eq_refl).
    Qed.

    Lemma left_step_later pre X post Y : g_nts g = pre ++ X :: post -> left_step g' X Y -> Y ∉ pre ++ [X].
    Proof.
      intros E HS. destruct (left_step_first X Y HS) as (_ & ps & r & Hps & Hin).
      assert (HT : treated g pre X M).
      { apply (el_treated g [] (g_nts g) M HE ND) with (post := post); [|exact E].
        intros U V HU HV <-. apply (Hfresh U HU). left; exact HV. }
      destruct HT as (ps' & qs & Hps' & HU & Hc). cbn [g_prods gram_of] in Hps.
      assert (Hq : exists t, Y :: t ∈ qs /\ Y <> X).
      { destruct Hc as [(Hno & H1 & _)|(_ & H1 & _)].
        - assert (ps = qs) as -> by congruence. exists r. split; [exact Hin|]. intros ->. apply (Hno r Hin).
        - rewrite H1 in Hps. injection Hps as <-. apply elem_of_list_fmap in Hin as (q & Eq & Hq). apply in_bases in Hq as [Hq Hn].
          destruct q as [|y q].
          + destruct (unfolded_nonempty X ps' qs pre Hps' HU Hq).
          + cbn [app] in Eq. injection Eq as -> _. exists q. split; [exact Hq|]. intros ->. apply (Hn q eq_refl). }
      destruct Hq as (t & Ht & HYX). intros Hin'. apply elem_of_app in Hin' as [H|H].
      - apply (proj2 (unfolds_members g pre) [] ps' qs HU) in Ht as [_ Hu]. apply (Hu Y t eq_refl H).
      - apply elem_of_list_singleton in H. contradiction.
    Qed.

    Lemma tc_orig X Y : tc (left_step g') X Y -> orig Y.
    Proof.
      induction 1 as [X Y H|X Y Z H _ IH]; [apply (left_step_first X Y H)|exact IH].
    Qed.

    Lemma tc_later X Y : tc (left_step g') X Y -> forall pre post, g_nts g = pre ++ X :: post -> Y ∉ pre ++ [X].
    Proof.
      intros H. induction H as [X Y H|X Y Z H HT IH]; intros pre post E; [apply (left_step_later pre X post Y E H)|].
      pose proof (left_step_later pre X post Y E H) as HY.
      (* Y has a step, so it is a non-terminal of the input *)
      destruct (left_step_first X Y H) as [HYo _].
      assert (HYn : Y ∈ g_nts g).
      { assert (Hs : is_Some (g_prods g' Y)).
        { assert (Hst : exists Z', left_step g' Y Z').
          { apply (tc_first (left_step g') Y Z HT). }
          destruct Hst as (Z' & ps & p & a & b & Hps & _). eexists; exact Hps. }
        destruct Hs as [ps Hps]. destruct (decide (Y ∈ map fst M)) as [HM|HM].
        - destruct (el_keys _ _ _ _ HE Y HM) as [HYn|(A & HA & ->)]; [exact HYn|]. destruct (HYo A HA eq_refl).
        - apply assoc_None in HM. cbn [g_prods gram_of] in Hps. congruence. }
      assert (HYp : Y ∈ post).
      { rewrite E in HYn. apply elem_of_app in HYn as [H1|H1]; [destruct HY; apply elem_of_app; left; exact H1|].
        apply elem_of_cons in H1 as [->|H1]; [destruct HY; apply elem_of_app; right; left|exact H1]. }
      apply elem_of_list_split in HYp as (mid & post' & ->).
      specialize (IH (pre ++ X :: mid) post'). rewrite E in IH. intros Hin. apply IH.
      - rewrite <- app_assoc. reflexivity.
      - apply elem_of_app in Hin as [Hin|Hin].
        + apply elem_of_app. left. apply elem_of_app. left; exact Hin.
        + apply elem_of_list_singleton in Hin. subst Z. apply elem_of_app. left. apply elem_of_app. right. left.
    Qed.

    Lemma result_not_left_recursive : ~ left_recursive g'.
    Proof.
      intros [X HX]. pose proof (tc_orig X X HX) as Ho.
      assert (HXn : X ∈ g_nts g).
      { assert (Hst : exists Z', left_step g' X Z').
        { apply (tc_first (left_step g') X X HX). }
        destruct Hst as (Z' & ps & p & a & b & Hps & _).
        destruct (decide (X ∈ map fst M)) as [HM|HM].
        - destruct (el_keys _ _ _ _ HE X HM) as [HXn|(A & HA & ->)]; [exact HXn|]. destruct (Ho A HA eq_refl).
        - apply assoc_None in HM. cbn [g_prods gram_of] in Hps. congruence. }
      apply elem_of_list_split in HXn as (pre & post & E).
      apply (tc_later X X HX pre post E). apply elem_of_app. right. left.
    Qed.
  End NotLR.

  (** The same strings. *)
  Section Same.
    Hypothesis Hnd : no_double g.

    Lemma rest_once pre A post ps qs r : g_nts g = pre ++ A :: post -> g_prods g A = Some ps -> unfolds_each g pre [] ps qs ->
      r ∈ rests A qs -> A :: r ∈ qs /\ r <> [].
    Proof.
      intros E Hps HU Hr. apply in_rests in Hr as (Hr & t & Ht & ->).
      assert (Hd : drop_self A t = t); [|rewrite Hd in *; auto].
      destruct t as [|x t]; [reflexivity|]. cbn [drop_self]. rewrite bool_decide_false; [reflexivity|]. intros ->.
      apply (proj2 (unfolds_members g pre) [] ps qs HU) in Ht as [(p & Hp & Hrt) _]. rewrite app_nil_r in Hrt.
      apply (Hnd pre A post ps p t E Hps Hp Hrt).
    Qed.

    Lemma prime_not_orig A : A ∈ g_nts g -> ~ orig (prime A).
    Proof. intros HA H. apply (H A HA eq_refl). Qed.
    Lemma snoc_forall {B} (P : B -> Prop) l x : Forall P (l ++ [x]) -> P x.
    Proof. intros H. apply Forall_app in H as [_ H]. inversion H; assumption. Qed.

    Definition cont (A : gostring) (w : list gostring) : Prop := forall u, derives g A u -> derives g A (u ++ w).

    Lemma result_sound : forall s w, derives g' s w ->
      (orig s -> derives g s w) /\ (forall A, A ∈ g_nts g -> s = prime A -> is_Some (g_prods g' s) -> cont A w).
    Proof.
      apply (derives_mut g'
        (fun s w _ => (orig s -> derives g s w) /\ (forall A, A ∈ g_nts g -> s = prime A -> is_Some (g_prods g' s) -> cont A w))
        (fun p w _ => (Forall orig p -> derives_seq g p w) /\
           (forall a A, p = a ++ [prime A] -> A ∈ g_nts g -> is_Some (g_prods g' (prime A)) -> Forall orig a ->
              exists u v, w = u ++ v /\ derives_seq g a u /\ cont A v))).
      - intros s H. split.
        + intros Ho. constructor. apply (term_same s Ho). exact H.
        + intros A _ _ [ps Hps]. congruence.
      - intros s ps p w Hps Hp _ [IH1 IH2]. split.
        + intros Ho. assert (Hs : s ∈ g_nts g).
          { destruct (decide (s ∈ map fst M)) as [HM|HM].
            - destruct (el_keys _ _ _ _ HE s HM) as [H|(A & HA & ->)]; [exact H|]. destruct (Ho A HA eq_refl).
            - apply assoc_None in HM. cbn [g_prods gram_of] in Hps. congruence. }
          destruct (nt_treated s Hs) as (pre & post & E & ps' & qs & Hps' & HU & [(Hno & H1 & _)|(_ & H1 & H2)]).
          * cbn [g_prods gram_of] in Hps. assert (ps = qs) as -> by congruence.
            apply (unfolded_sound g pre s ps' qs p w Hps' HU Hp). apply IH1. apply (unfolded_orig s ps' qs p pre Hps' HU Hp).
          * cbn [g_prods gram_of] in Hps. rewrite H1 in Hps. injection Hps as <-.
            apply elem_of_list_fmap in Hp as (q & -> & Hq). apply in_bases in Hq as [Hq _].
            destruct (IH2 q s eq_refl Hs) as (u & v & -> & Hu & Hv).
            { cbn [g_prods gram_of]. rewrite H2. eexists; reflexivity. }
            { apply (unfolded_orig s ps' qs q pre Hps' HU Hq). }
            apply Hv. apply (unfolded_sound g pre s ps' qs q u Hps' HU Hq Hu).
        + intros A HA -> Hsome u Hu.
          destruct (nt_treated A HA) as (pre & post & E & ps' & qs & Hps' & HU & [(_ & _ & H2)|(_ & H1 & H2)]).
          { cbn [g_prods gram_of] in Hps. congruence. }
          cbn [g_prods gram_of] in Hps. rewrite H2 in Hps. injection Hps as <-. apply elem_of_app in Hp as [Hp|Hp].
          * apply elem_of_list_fmap in Hp as (r & -> & Hr). destruct (rest_once pre A post ps' qs r E Hps' HU Hr) as [Hin Hr'].
            pose proof (unfolded_orig A ps' qs _ pre Hps' HU Hin) as Ho.
            destruct (IH2 r A eq_refl HA Hsome) as (x & y & -> & Hx & Hy); [inversion Ho; assumption|].
            rewrite app_assoc. apply Hy. apply (unfolded_sound g pre A ps' qs (A :: r) (u ++ x) Hps' HU Hin). constructor; assumption.
          * apply elem_of_list_singleton in Hp. subst p. specialize (IH1 (Forall_nil_2 _)). inversion IH1; subst.
            rewrite app_nil_r. exact Hu.
      - split; [intros _; constructor|]. intros a A E. destruct a; discriminate E.
      - intros s r u v _ [IHs1 IHs2] _ [IHr1 IHr2]. split.
        + intros H. inversion H; subst. constructor; auto.
        + intros a A E HA Hsome Ho. destruct a as [|x a].
          * cbn [app] in E. injection E as -> ->. specialize (IHr1 (Forall_nil_2 _)). inversion IHr1; subst.
            exists [], u. split; [rewrite app_nil_r; reflexivity|]. split; [constructor|].
            apply (IHs2 A HA eq_refl Hsome).
          * cbn [app] in E. injection E as -> ->. inversion Ho as [|? ? Hx Ha]; subst.
            destruct (IHr2 a A eq_refl HA Hsome Ha) as (u' & v' & -> & H1 & H2).
            exists (u ++ u'), v'. split; [rewrite app_assoc; reflexivity|]. split; [constructor; auto|exact H2].
    Qed.

    (** One more round at the end of [A']. *)
    Lemma prime_snoc A r w2 ps : g_prods g' (prime A) = Some ps -> r ++ [prime A] ∈ ps -> [] ∈ ps ->
      (forall p, p ∈ ps -> p = [] \/ exists q, p = q ++ [prime A]) ->
      derives_seq g' r w2 -> forall w, derives g' (prime A) w -> derives g' (prime A) (w ++ w2).
    Proof.
      intros Hps Hr Hn Hform Hd.
      assert (H : forall s w, derives g' s w -> s = prime A -> derives g' (prime A) (w ++ w2)).
      { apply (derives_mut g' (fun s w _ => s = prime A -> derives g' (prime A) (w ++ w2))
                 (fun p w _ => forall q, p = q ++ [prime A] -> derives_seq g' p (w ++ w2))).
        - intros s H ->. congruence.
        - intros s ps' p w Hps' Hp Hw IH ->. assert (ps' = ps) as -> by congruence.
          destruct (Hform p Hp) as [->|[q ->]].
          + inversion Hw; subst. cbn [app]. eapply der_nt; [exact Hps|exact Hr|].
            rewrite <- (app_nil_r w2). apply derives_seq_app; [exact Hd|]. apply derives_seq_one.
            eapply der_nt; [exact Hps|exact Hn|constructor].
          + eapply der_nt; [exact Hps|exact Hp|]. apply (IH q eq_refl).
        - intros q E. destruct q; discriminate E.
        - intros s r' u v Hs IHs Hr' IHr q E. destruct q as [|x q].
          + cbn [app] in E. injection E as -> ->. inversion Hr'; subst. rewrite app_nil_r.
            rewrite <- (app_nil_r (u ++ w2)). constructor; [apply IHs; reflexivity|constructor].
          + cbn [app] in E. injection E as -> ->. rewrite <- app_assoc. constructor; [exact Hs|apply (IHr q eq_refl)]. }
      intros w Hw. apply (H (prime A) w Hw eq_refl).
    Qed.

    Lemma dern_derives h : forall n, (forall m, m < n -> forall s w, orig s -> dern g s w m -> derives h s w) ->
      forall p w m, m < n -> Forall orig p -> dern_seq g p w m -> derives_seq h p w.
    Proof.
      intros n IH p. induction p as [|x p IHp]; intros w m Hm Ho Hd; inversion Hd as [|s r u v a b H1 H2]; subst; [constructor|].
      inversion Ho; subst. constructor.
      - apply (IH a ltac:(lia) x u); assumption.
      - apply (IHp v b ltac:(lia)); assumption.
    Qed.

    Lemma result_complete : forall n s w, orig s -> dern g s w n -> derives g' s w.
    Proof.
      intros n. induction (lt_wf n) as [n _ IH]. intros s w Ho Hd.
      assert (IHp : forall p w m, m < n -> Forall orig p -> dern_seq g p w m -> derives_seq g' p w).
      { apply dern_derives. intros m Hm s' w' Ho' Hd'. apply (IH m Hm s' w' Ho' Hd'). }
      destruct (g_prods g s) as [ps|] eqn:Eps.
      - assert (Hs : s ∈ g_nts g) by (apply Hwf; eexists; exact Eps).
        destruct (nt_treated s Hs) as (pre & post & E & ps' & qs & Hps' & HU & Hc).
        destruct (nt_dern g pre s ps' qs w n Hps' HU Hd) as (q & m & Hq & Hm & Hq2).
        pose proof (unfolded_orig s ps' qs q pre Hps' HU Hq) as Hqo.
        destruct Hc as [(Hno & H1 & _)|(_ & H1 & H2)].
        + eapply der_nt; [exact H1|exact Hq|]. apply (IHp q w m Hm Hqo Hq2).
        + assert (Hnull : derives g' (prime s) []).
          { eapply der_nt; [exact H2| |constructor]. apply elem_of_app. right. left. }
          destruct (starts s q) eqn:Est.
          * destruct q as [|x r]; [discriminate Est|]. cbn [starts] in Est. apply bool_decide_eq_true in Est. subst x.
            inversion Hq2 as [|s' r' u v a b Ha Hb]; subst. inversion Hqo as [|? ? _ Hro]; subst.
            pose proof (IH a ltac:(lia) s u Ho Ha) as HA.
            pose proof (IHp r v b ltac:(lia) Hro Hb) as Hr.
            destruct r as [|y r].
            { inversion Hr; subst. rewrite app_nil_r. exact HA. }
            assert (Hrest : (y :: r) ∈ rests s qs).
            { apply in_rests. split; [discriminate|]. exists (y :: r). split; [exact Hq|].
              cbn [drop_self]. rewrite bool_decide_false; [reflexivity|]. intros ->.
              apply (proj2 (unfolds_members g pre) [] ps' qs HU) in Hq as [(p & Hp & Hrt) _]. rewrite app_nil_r in Hrt.
              apply (Hnd pre s post ps' p r E Hps' Hp Hrt). }
            inversion HA as [s' Hn|s' ps2 p w' Hps2 Hp2 Hd2]; subst; [cbn [g_prods gram_of] in Hn; congruence|].
            cbn [g_prods gram_of] in Hps2. assert (Ep : ps2 = map (fun q => q ++ [prime s]) (bases s qs)) by congruence. subst ps2.
            apply elem_of_list_fmap in Hp2 as (q & -> & Hq').
            apply derives_seq_split in Hd2 as (c & d & -> & Hc & Hd2). apply derives_seq_one in Hd2.
            eapply der_nt; [exact H1|apply elem_of_list_fmap; exists q; split; [reflexivity|exact Hq']|].
            rewrite <- app_assoc. apply derives_seq_app; [exact Hc|]. apply derives_seq_one.
            eapply prime_snoc; [exact H2| | | |exact Hr|exact Hd2].
            -- apply elem_of_app. left. apply elem_of_list_fmap. exists (y :: r). split; [reflexivity|exact Hrest].
            -- apply elem_of_app. right. left.
            -- intros p Hp. apply elem_of_app in Hp as [Hp|Hp].
               ++ apply elem_of_list_fmap in Hp as (q0 & -> & _). right. exists q0. reflexivity.
               ++ left. apply elem_of_list_singleton in Hp. exact Hp.
          * eapply der_nt; [exact H1| |].
            { apply elem_of_list_fmap. exists q. split; [reflexivity|]. apply in_bases. split; [exact Hq|].
              intros t ->. cbn [starts] in Est. rewrite bool_decide_true in Est by reflexivity. discriminate Est. }
            rewrite <- (app_nil_r w). apply derives_seq_app; [apply (IHp q w m Hm Hqo Hq2)|].
            apply derives_seq_one. exact Hnull.
      - inversion Hd as [s' Hn|s' ps2 p w' k Hps2 Hp2 Hd2]; subst; [|congruence].
        constructor. apply (term_same s Ho). exact Eps.
    Qed.

    Lemma result_derives s w : orig s -> derives g' s w <-> derives g s w.
    Proof.
      intros Ho. split.
      - intros H. apply (proj1 (result_sound s w H) Ho).
      - intros H. apply derives_dern in H as [n Hn]. apply (result_complete n s w Ho Hn).
    Qed.
    Lemma result_generates w : generates g' w <-> generates g w.
    Proof.
      destruct (el_head _ _ _ _ HE) as [[En EM]|(A & nts & ps & M' & En & EM)]; unfold generates; rewrite En.
      - rewrite EM. split; intros (s0 & r & E & _); discriminate E.
      - assert (Ho : orig A) by (apply nt_orig; rewrite En; left).
        split.
        + intros (s0 & r & E & Hd). rewrite EM in E. cbn [g_nts gram_of map fst] in E. injection E as <- <-.
          exists A, nts. split; [reflexivity|]. apply (result_derives A w Ho). exact Hd.
        + intros (s0 & r & E & Hd). injection E as <- <-. exists A, (map fst M').
          split; [rewrite EM; reflexivity|]. apply (result_derives A w Ho). exact Hd.
    Qed.
  End Same.
End Lang.
