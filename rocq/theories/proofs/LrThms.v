(** RemoveLeftRecursion, put together. *)
From Coq Require Import String Lia.
From Verif.model Require Import LrRemove Topdown.
From Verif.spec Require Import LrSpec Outcome.
From Verif.proofs Require Import Fuel GrammarProofs LrRemoveProofs LrRemoveDirect LrRemoveMain LrUnfold LrLang LeftRecProofs TopdownThms SetProofs.
Local Open Scope nat_scope.
Local Open Scope list_scope.

Notation rlr g := (fun n => remove_left_recursion n g).

Lemma same_derives G M s w : same_grammar (gr_view G) (gram_of M) -> derives (gr_view G) s w <-> derives (gram_of M) s w.
Proof.
  intros [_ H]. split; apply derives_ext; [exact H|]. intros x. symmetry. apply H.
Qed.
Lemma same_generates G M w : same_grammar (gr_view G) (gram_of M) -> generates (gr_view G) w <-> generates (gram_of M) w.
Proof.
  intros HS. pose proof HS as [HN _]. unfold generates. rewrite HN. split; intros (s0 & r & E & Hd); exists s0, r; (split; [exact E|]);
    apply (same_derives G M s0 w HS); exact Hd.
Qed.
Lemma left_step_ext g h : (forall s, g_prods g s = g_prods h s) -> forall A B, left_step g A B -> left_step h A B.
Proof.
  intros E A B (ps & p & a & b & H1 & H2 & H3 & H4). exists ps, p, a, b. rewrite <- E. split_and!; auto.
  apply (derives_seq_ext g h E). exact H4.
Qed.
Lemma same_left_recursive G M : same_grammar (gr_view G) (gram_of M) -> left_recursive (gr_view G) -> left_recursive (gram_of M).
Proof.
  intros [_ H] [A HA]. exists A. revert HA. generalize A at 1 3 as X. generalize A as Y. intros Y X HT.
  induction HT as [X Y HXY|X Y Z HXY _ IH].
  - apply tc_once. apply (left_step_ext _ _ H _ _ HXY).
  - eapply tc_l; [apply (left_step_ext _ _ H _ _ HXY)|exact IH].
Qed.

Lemma rlr_exact g M : lr_tame g -> eliminates g [] (g_nts g) M ->
  exists G, returns (rlr g) G /\ same_grammar (gr_view G) (gram_of M).
Proof.
  intros Ht HE. destruct (rlr_eliminates g M Ht HE) as (G & HG & HR). exists G. split; [exact HG|apply gr_view_R; exact HR].
Qed.
Lemma rlr_exact_only g G : lr_tame g -> productive g -> returns (rlr g) G ->
  exists M, eliminates g [] (g_nts g) M /\ same_grammar (gr_view G) (gram_of M).
Proof.
  intros Ht Hp HG. destruct (rlr_returned g G Ht Hp HG) as (M & HE & HR & _). exists M. split; [exact HE|apply gr_view_R; exact HR].
Qed.
Lemma rlr_ends_iff g : lr_tame g -> productive g -> (exists G, returns (rlr g) G) <-> unfolding_ends g.
Proof.
  intros Ht Hp. split.
  - intros [G HG]. destruct (rlr_returned g G Ht Hp HG) as (M & _ & _ & H). exact H.
  - intros Hu. destruct (rlr_returns g Ht Hp Hu) as (M & G & _ & HG & _). exists G. exact HG.
Qed.
Lemma rlr_wf g G : lr_tame g -> productive g -> returns (rlr g) G -> g_wf (gr_view G).
Proof. intros Ht Hp HG. destruct (rlr_returned g G Ht Hp HG) as (M & _ & HR & _). apply (gr_view_wf G M HR). Qed.

Lemma rlr_generates g G : lr_tame g -> productive g -> no_double g -> returns (rlr g) G ->
  forall w, generates (gr_view G) w <-> generates g w.
Proof.
  intros Ht Hp Hd HG w. destruct (rlr_exact_only g G Ht Hp HG) as (M & HE & HS).
  rewrite (same_generates G M w HS). apply (result_generates g M Ht HE Hd w).
Qed.
Lemma rlr_derives g G : lr_tame g -> productive g -> no_double g -> returns (rlr g) G ->
  forall s w, (forall A, A ∈ g_nts g -> s <> prime A) -> derives (gr_view G) s w <-> derives g s w.
Proof.
  intros Ht Hp Hd HG s w Ho. destruct (rlr_exact_only g G Ht Hp HG) as (M & HE & HS).
  rewrite (same_derives G M s w HS). apply (result_derives g M Ht HE Hd s w Ho).
Qed.
Lemma rlr_not_left_recursive g G : lr_tame g -> productive g -> no_empty_productions g -> returns (rlr g) G ->
  ~ left_recursive (gr_view G).
Proof.
  intros Ht Hp Hn HG Hlr. destruct (rlr_exact_only g G Ht Hp HG) as (M & HE & HS).
  apply (result_not_left_recursive g M Ht HE Hn). apply (same_left_recursive G M HS Hlr).
Qed.
Lemma rlr_topdown g G : lr_tame g -> productive g -> no_empty_productions g -> returns (rlr g) G ->
  returns (fun n => td_new n (gr_view G)) true /\
  forall lexemes, exists r, returns (fun n => td_parse n (gr_view G) lexemes) r.
Proof.
  intros Ht Hp Hn HG. pose proof (rlr_wf g G Ht Hp HG) as Hwf. pose proof (rlr_not_left_recursive g G Ht Hp Hn HG) as Hlr.
  split.
  - destruct (td_new_total _ Hwf) as [[|] Hb]; [exact Hb|]. destruct (Hlr (td_new_no_false_alarm _ Hwf Hb)).
  - intros lexemes. apply (topdown_terminates _ lexemes Hwf Hlr).
Qed.

(** Ends: no production begins with an earlier non-terminal. *)
Lemma forward_ends g : forward_starts g -> unfolding_ends g.
Proof.
  intros HF pre A post ps p E Hps Hp. constructor. intros q (B & t & ps' & lead & Ep & HB & _). subst p.
  destruct (HF pre A post ps B t E Hps Hp HB).
Qed.
Lemma forward_no_double g : forward_starts g ->
  (forall A ps t, g_prods g A = Some ps -> A :: A :: t ∉ ps) -> no_double g.
Proof.
  intros HF H pre A post ps p t E Hps Hp Hr.
  apply rtc_inv in Hr as [->|(y & (B & t' & ps' & lead & Ep & HB & _) & _)].
  - apply (H A ps t Hps Hp).
  - subst p. apply (HF pre A post ps B t' E Hps Hp HB).
Qed.

(** Ends: the grammar is not left recursive to begin with. *)
Lemma left_acc g : g_wf g -> ~ left_recursive g -> forall x, Acc (fun b a => left_step g a b) x.
Proof.
  intros Hwf Hlr.
  assert (H : forall n (V : list gostring) x, NoDup V -> (forall v, v ∈ V -> v ∈ g_nts g /\ tc (left_step g) v x) ->
    length (g_nts g) <= n + length V -> Acc (fun b a => left_step g a b) x).
  { induction n as [|n IH]; intros V x ND HV Hn; constructor; intros y Hy.
    - assert (Hx : x ∈ g_nts g) by (destruct Hy as (ps & p & a & b & Hps & _); apply Hwf; eexists; exact Hps).
      assert (HxV : x ∈ V).
      { destruct (decide (x ∈ V)) as [Hin|Hin]; [exact Hin|]. exfalso.
        assert (Hs : length (x :: V) <= length (g_nts g)).
        { apply NoDup_incl_length; [apply NoDup_ListNoDup; constructor; assumption|].
          intros z Hz. apply elem_of_list_In in Hz. apply elem_of_list_In. apply elem_of_cons in Hz as [->|Hz]; [exact Hx|apply (HV z Hz)]. }
        cbn [length] in Hs. lia. }
      exfalso. apply Hlr. exists x. apply (HV x HxV).
    - assert (Hx : x ∈ g_nts g) by (destruct Hy as (ps & p & a & b & Hps & _); apply Hwf; eexists; exact Hps).
      destruct (decide (x ∈ V)) as [Hin|Hin].
      + exfalso. apply Hlr. exists x. apply (HV x Hin).
      + apply (IH (x :: V)).
        * constructor; assumption.
        * intros v Hv. apply elem_of_cons in Hv as [->|Hv]; [split; [exact Hx|apply tc_once; exact Hy]|].
          destruct (HV v Hv) as [H1 H2]. split; [exact H1|]. eapply tc_r; [exact H2|exact Hy].
        * cbn [length]. lia. }
  intros x. apply (H (length (g_nts g)) [] x); [constructor|intros v Hv; inversion Hv|cbn [length]; lia].
Qed.
Lemma not_left_recursive_ends g : g_wf g -> ~ left_recursive g -> unfolding_ends g.
Proof.
  intros Hwf Hlr pre A post ps p _ _ _. clear A post ps.
  set (acc := Acc (fun q p => unfold_step g pre p q)).
  assert (HC : forall s t, (derives g s [] -> acc t) -> acc (s :: t)).
  { intros s. induction (left_acc g Hwf Hlr s) as [s _ IH]. intros t Ht. constructor.
    intros q (B & t' & ps & lead & E & HB & Hps & Hl & ->). injection E as <- <-.
    assert (Hsuf : forall b a, lead = a ++ b -> derives_seq g a [] -> acc (b ++ t)).
    { induction b as [|x b IHb]; intros a Ea Ha.
      - rewrite app_nil_r in Ea. subst a. apply Ht. eapply der_nt; eassumption.
      - cbn [app]. apply IH.
        + exists ps, lead, a, b. auto.
        + intros Hx. apply (IHb (a ++ [x])).
          * rewrite <- app_assoc. exact Ea.
          * apply (derives_null_app g a x Ha Hx). }
    apply (Hsuf lead [] eq_refl). constructor. }
  induction p as [|x p IHp]; [|apply HC; intros _; exact IHp].
  constructor. intros q (B & t & ps & lead & E & _). discriminate E.
Qed.

(** Directly left recursive grammars. *)
Lemma rlr_direct g : lr_tame g -> productive g -> no_empty_productions g -> forward_starts g ->
  (forall A ps t, g_prods g A = Some ps -> A :: A :: t ∉ ps) ->
  exists G, returns (rlr g) G /\ ~ left_recursive (gr_view G) /\ forall w, generates (gr_view G) w <-> generates g w.
Proof.
  intros Ht Hp Hn Hf Hd. destruct (proj2 (rlr_ends_iff g Ht Hp) (forward_ends g Hf)) as [G HG].
  exists G. split; [exact HG|]. split; [apply (rlr_not_left_recursive g G Ht Hp Hn HG)|].
  apply (rlr_generates g G Ht Hp (forward_no_double g Hf Hd) HG).
Qed.
Lemma rlr_all g : lr_tame g -> productive g -> no_empty_productions g -> unfolding_ends g -> no_double g ->
  exists G, returns (rlr g) G /\ g_wf (gr_view G) /\ ~ left_recursive (gr_view G) /\ forall w, generates (gr_view G) w <-> generates g w.
Proof.
  intros Ht Hp Hn Hf Hd. destruct (proj2 (rlr_ends_iff g Ht Hp) Hf) as [G HG].
  exists G. split; [exact HG|]. split; [apply (rlr_wf g G Ht Hp HG)|]. split; [apply (rlr_not_left_recursive g G Ht Hp Hn HG)|].
  apply (rlr_generates g G Ht Hp Hd HG).
Qed.
