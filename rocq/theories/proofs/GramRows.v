(** Grammars given by a text, production by production. *)
From Coq Require Import String.
From Verif.model Require Import GrammarGo.
From Verif.spec Require Import GrammarSpec CFG.
From Verif.proofs Require Import GrammarProofs GrammarText.

Lemma new_wf def g : gr_new def = Some g -> g_wf (gr_view g).
Proof. intros H. destruct (gr_new_means _ _ H) as (A & _ & HR & _). eapply gr_view_wf; eauto. Qed.

Section Rows.
  Variable g : grammar.
  Variable rows : list (gostring * list (list gostring)).
  Hypothesis Hwf : g_wf g.
  Hypothesis Hnts : g_nts g = map fst rows.
  Hypothesis Hrows : Forall (fun r => g_prods g (fst r) = Some (snd r)) rows.

  Lemma rows_prods s ps : g_prods g s = Some ps -> (s, ps) ∈ rows.
  Proof.
    intros H. assert (Hin : s ∈ g_nts g) by (apply Hwf; eauto). rewrite Hnts in Hin.
    apply elem_of_list_fmap in Hin as ([s' ps'] & -> & Hin). cbn [fst] in *.
    rewrite Forall_forall in Hrows. pose proof (Hrows _ Hin) as E. cbn [fst snd] in E.
    rewrite E in H. injection H as <-. exact Hin.
  Qed.
  Lemma rows_rule s ps p : g_prods g s = Some ps -> p ∈ ps ->
    (s, p) ∈ flat_map (fun r => map (pair (fst r)) (snd r)) rows.
  Proof.
    intros H Hp. apply rows_prods in H. apply elem_of_list_In, in_flat_map. exists (s, ps).
    split; [apply elem_of_list_In; exact H|]. cbn [fst snd]. apply in_map, elem_of_list_In; exact Hp.
  Qed.
  Lemma rows_none s : s ∉ map fst rows -> g_prods g s = None.
  Proof.
    intros H. destruct (g_prods g s) eqn:E; [|done]. exfalso. apply H. rewrite <-Hnts. apply Hwf. eauto.
  Qed.
  Lemma rows_some r : r ∈ rows -> g_prods g (fst r) = Some (snd r).
  Proof. rewrite Forall_forall in Hrows. apply Hrows. Qed.
  Lemma rows_derive s p w : (s, p) ∈ flat_map (fun r => map (pair (fst r)) (snd r)) rows ->
    derives_seq g p w -> derives g s w.
  Proof.
    intros H Hd. apply elem_of_list_In, in_flat_map in H as ([s' ps] & Hin & H). cbn [fst snd] in H.
    apply in_map_iff in H as (p' & E & Hp). injection E as -> ->.
    apply elem_of_list_In in Hin. apply rows_some in Hin. cbn [fst snd] in Hin.
    eapply der_nt; [exact Hin|apply elem_of_list_In; exact Hp|exact Hd].
  Qed.
End Rows.

Lemma are_trees_nil g cs lxs : are_trees g [] cs lxs -> cs = [] /\ lxs = [].
Proof. inversion 1. done. Qed.
Lemma are_trees_cons g s r cs lxs : are_trees g (s :: r) cs lxs ->
  exists c cs' u v, cs = c :: cs' /\ lxs = u ++ v /\ is_tree g s c u /\ are_trees g r cs' v.
Proof. inversion 1; subst. eauto 10. Qed.
Lemma derives_one g s w : derives g s w -> derives_seq g [s] w.
Proof. intros H. rewrite <-(app_nil_r w). apply der_cons; [done|constructor]. Qed.
Lemma derives_tok g s r w : g_prods g s = None -> derives_seq g r w -> derives_seq g (s :: r) (s :: w).
Proof. intros H Hr. apply (der_cons g s r [s] w); [apply der_term; exact H|exact Hr]. Qed.
(** Whatever is derived has a tree over any lexemes of these kinds. *)
Lemma derives_tree g :
  (forall s w, derives g s w -> forall lxs, map lx_kind lxs = w -> exists t, is_tree g s t lxs)
  /\ (forall p w, derives_seq g p w -> forall lxs, map lx_kind lxs = w -> exists cs, are_trees g p cs lxs).
Proof.
  split.
  1: apply (derives_mut g (fun s w _ => forall lxs, map lx_kind lxs = w -> exists t, is_tree g s t lxs)
    (fun p w _ => forall lxs, map lx_kind lxs = w -> exists cs, are_trees g p cs lxs)).
  5: apply (derives_seq_mut g (fun s w _ => forall lxs, map lx_kind lxs = w -> exists t, is_tree g s t lxs)
    (fun p w _ => forall lxs, map lx_kind lxs = w -> exists cs, are_trees g p cs lxs)).
  1,5: intros s H lxs E; destruct lxs as [|x [|y lxs]]; try done; injection E as <-; exists (PN x []); by constructor.
  1,4: intros s ps p w H1 H2 _ IH lxs E; destruct (IH lxs E) as [cs Hcs]; exists (PN (Lx s [] 0 0) cs);
       by apply (tree_node g (Lx s [] 0 0) ps p).
  1,3: intros lxs E; destruct lxs; [|done]; exists []; constructor.
  1,2: intros s r u v _ IH1 _ IH2 lxs E; apply map_eq_app in E as (l1 & l2 & -> & E1 & E2);
       destruct (IH1 l1 E1) as [t Ht], (IH2 l2 E2) as [cs Hcs]; exists (t :: cs); by constructor.
Qed.
