(** The theorems about regexgram, for a tree of a grammar. *)
From Coq Require Import String.
From Verif.spec Require Import RegexGramSpec GrammarSpec TreeSpec.
From Verif.proofs Require Import Fuel RegexGramProofs RegexGramLang RegexGramFlat RegexGramNames.
Local Open Scope nat_scope.
Local Open Scope list_scope.

Lemma evaluates t R : shows_grammar t R -> exists g r, returns (eval_grammar t) (g, r).
Proof. intros H. destruct (eval_grammar_result t R H) as (g & A & B & P & new & Hr & _). eauto. Qed.
Lemma same_language t R g r s w : shows_grammar t R -> distinct_names R -> no_empty_groups R ->
  returns (eval_grammar t) (g, r) -> ~ generated R s -> (derives (gr_view g) s w <-> matches R (XSym s) w).
Proof.
  intros Ht Hd Hne Hr Hn. destruct (view_prods t R g r Ht Hd Hr) as [G1 G2]. apply language; done.
Qed.
Lemma repeat_language t R g r e w : shows_grammar t R -> distinct_names R -> no_empty_groups R ->
  returns (eval_grammar t) (g, r) -> e ∈ all_repeats R -> (derives (gr_view g) (rep_name e) w <-> matches R (XRep e) w).
Proof.
  intros Ht Hd Hne Hr Hn. destruct (view_prods t R g r Ht Hd Hr) as [G1 G2]. apply language_rep; done.
Qed.
Lemma productions t R g r s : shows_grammar t R -> distinct_names R -> returns (eval_grammar t) (g, r) -> ~ generated R s ->
  default [] (g_prods (gr_view g) s) = flat_map (fun it => if decide (fst it = s) then expansions_seq (snd it) else []) R.
Proof.
  intros Ht Hd Hr Hn. destruct (view_prods t R g r Ht Hd Hr) as [G1 G2]. rewrite G1 by done.
  unfold prods_of. destruct (flat_map _ R); done.
Qed.
Lemma repeat_productions t R g r e : shows_grammar t R -> distinct_names R -> returns (eval_grammar t) (g, r) -> e ∈ all_repeats R ->
  g_prods (gr_view g) (rep_name e) = Some (map (fun p => p ++ [rep_name e]) (expansions e) ++ [[]]).
Proof. intros Ht Hd Hr He. destruct (view_prods t R g r Ht Hd Hr) as [G1 G2]. exact (G2 e He). Qed.
Lemma first_symbol t g r s0 es R : shows_grammar t ((s0, es) :: R) -> no_empty_groups ((s0, es) :: R) -> returns (eval_grammar t) (g, r) ->
  head (g_nts (gr_view g)) = Some s0.
Proof. intros Ht Hne Hr. destruct (start_symbol t _ g r s0 es R Ht Hne Hr eq_refl) as (rest & ->). done. Qed.
Lemma plain_names t R g r : shows_grammar t R -> proper_rxs R -> no_underscores R -> returns (eval_grammar t) (g, r) ->
  distinct_names R.
Proof. intros _ Hp Hu _. apply names_distinct; done. Qed.
Lemma reduced_tree t R g r s p lxs : shows_grammar t R -> distinct_names R -> returns (eval_grammar t) (g, r) ->
  ~ generated R s -> is_tree (gr_view g) s p lxs -> raw_reduce r p = dissolved R p.
Proof.
  intros Ht Hd Hr Hn Hp. destruct (view_prods t R g r Ht Hd Hr) as [G1 G2].
  destruct (view_notes t R g r Ht Hd Hr) as (B & -> & B0 & B1 & B2). eapply reduce_dissolves; eauto.
Qed.
Lemma reduced_written t R g r s p lxs : shows_grammar t R -> distinct_names R -> no_empty_groups R -> returns (eval_grammar t) (g, r) ->
  ~ generated R s -> is_tree (gr_view g) s p lxs -> rx_tree R s (raw_reduce r p) lxs.
Proof.
  intros Ht Hd Hne Hr Hn Hp. destruct (view_prods t R g r Ht Hd Hr) as [G1 G2].
  destruct (view_notes t R g r Ht Hd Hr) as (B & -> & B0 & B1 & B2).
  erewrite reduce_dissolves; eauto. eapply written_tree; eauto.
Qed.

Lemma clean_items R t : foldr (fun c P => (~ generated R (lx_kind (pn_lexeme c)) /\ clean_below R c) /\ P) True (items_of (is_generated R) t).
Proof.
  assert (Happ : forall Q (a b : list pn), foldr (fun c P => Q c /\ P) True a -> foldr (fun c P => Q c /\ P) True b -> foldr (fun c P => Q c /\ P) True (a ++ b)).
  { intros Q a b H1 H2. induction a; cbn in *; tauto. }
  revert t. fix IH 1. intros [lx cs]. cbn [items_of].
  assert (foldr (fun c P => (~ generated R (lx_kind (pn_lexeme c)) /\ clean_below R c) /\ P) True (flat_map (items_of (is_generated R)) cs)) as H.
  { induction cs as [|c cs IHc]; cbn [flat_map]; [done|]. apply (Happ (fun c => ~ generated R (lx_kind (pn_lexeme c)) /\ clean_below R c)); [apply IH|exact IHc]. }
  destruct (is_generated R (lx_kind lx)) eqn:E; [exact H|]. cbn [foldr]. split; [|done]. split; [|exact H].
  cbn. intros (e & He & Ee). apply bool_decide_eq_false in E. apply E. rewrite Ee. apply elem_of_list_fmap_1. done.
Qed.
Lemma clean_dissolved R t : clean_below R (dissolved R t).
Proof.
  destruct t as [lx cs]. unfold dissolved. cbn [pn_lexeme pn_children clean_below].
  induction cs as [|c cs IH]; cbn [flat_map]; [done|]. rewrite foldr_app.
  pose proof (clean_items R c) as H. induction (items_of (is_generated R) c) as [|x l IHl]; cbn [foldr] in *; [exact IH|]. tauto.
Qed.
Lemma reduced_clean t R g r s p lxs : shows_grammar t R -> distinct_names R -> returns (eval_grammar t) (g, r) ->
  ~ generated R s -> is_tree (gr_view g) s p lxs -> clean_below R (raw_reduce r p).
Proof. intros Ht Hd Hr Hn Hp. erewrite reduced_tree; eauto. apply clean_dissolved. Qed.
