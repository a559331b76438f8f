(** C49-C51: regexgram. [t] is the tree of the grammar [R], with its operators. *)
From Coq Require Import String.
From Verif.spec Require Import RegexGramSpec.
From Verif.proofs Require RegexGramThms RegexGramFlat RegexGramNames RegexGramWit.

(** C49 *)
Theorem c49_returns t R : shows_grammar t R -> exists g r, returns (eval_grammar t) (g, r).
Proof. exact (RegexGramThms.evaluates t R). Qed.
Print Assumptions c49_returns.
Theorem c49_language t R g r s w :
  shows_grammar t R -> distinct_names R -> no_empty_groups R -> returns (eval_grammar t) (g, r) ->
  ~ generated R s -> (derives (gr_view g) s w <-> matches R (XSym s) w).
Proof. exact (RegexGramThms.same_language t R g r s w). Qed.
Print Assumptions c49_language.
Theorem c49_repeat_language t R g r e w :
  shows_grammar t R -> distinct_names R -> no_empty_groups R -> returns (eval_grammar t) (g, r) ->
  e ∈ all_repeats R -> (derives (gr_view g) (rep_name e) w <-> matches R (XRep e) w).
Proof. exact (RegexGramThms.repeat_language t R g r e w). Qed.
Print Assumptions c49_repeat_language.
Theorem c49_productions t R g r s :
  shows_grammar t R -> distinct_names R -> returns (eval_grammar t) (g, r) -> ~ generated R s ->
  default [] (g_prods (gr_view g) s) = flat_map (fun it => if decide (fst it = s) then expansions_seq (snd it) else []) R.
Proof. exact (RegexGramThms.productions t R g r s). Qed.
Print Assumptions c49_productions.
Theorem c49_repeat_productions t R g r e :
  shows_grammar t R -> distinct_names R -> returns (eval_grammar t) (g, r) -> e ∈ all_repeats R ->
  g_prods (gr_view g) (rep_name e) = Some (map (fun p => p ++ [rep_name e]) (expansions e) ++ [[]]).
Proof. exact (RegexGramThms.repeat_productions t R g r e). Qed.
Print Assumptions c49_repeat_productions.
Theorem c49_start t g r s0 es R :
  shows_grammar t ((s0, es) :: R) -> no_empty_groups ((s0, es) :: R) -> returns (eval_grammar t) (g, r) ->
  head (g_nts (gr_view g)) = Some s0.
Proof. exact (RegexGramThms.first_symbol t g r s0 es R). Qed.
Print Assumptions c49_start.
Example c49_example : shows_grammar (RegexGramWit.tree_rxs RegexGramWit.demo) RegexGramWit.demo
  /\ distinct_names RegexGramWit.demo /\ no_empty_groups RegexGramWit.demo
  /\ returns (eval_grammar (RegexGramWit.tree_rxs RegexGramWit.demo)) RegexGramWit.demo_result
  /\ ~ generated RegexGramWit.demo (L "S")
  /\ matches RegexGramWit.demo (XSym (L "S")) [L "a"; L "b"; L "c"; L "x"; L "e"].
Proof. exact RegexGramWit.demo_hyps. Qed.
Example c49_example_grammar :
  g_nts (gr_view (fst RegexGramWit.demo_result)) = [L "S"; L "T"; RegexGramWit.rep_bc; RegexGramWit.rep_c]
  /\ g_prods (gr_view (fst RegexGramWit.demo_result)) (L "S") = Some [[L "a"; RegexGramWit.rep_bc; L "e"]; [L "a"; RegexGramWit.rep_bc]]
  /\ g_prods (gr_view (fst RegexGramWit.demo_result)) (L "T") = Some [[RegexGramWit.rep_c; L "x"]]
  /\ g_prods (gr_view (fst RegexGramWit.demo_result)) RegexGramWit.rep_bc
     = Some [[L "b"; RegexGramWit.rep_bc]; [L "c"; L "T"; RegexGramWit.rep_bc]; []]
  /\ g_prods (gr_view (fst RegexGramWit.demo_result)) RegexGramWit.rep_c = Some [[L "c"; RegexGramWit.rep_c]; []].
Proof. exact RegexGramWit.demo_view. Qed.

(** C50. Two repetitions can share a name: A -> (x y)* and B -> (x_y)*. *)
Theorem c50_names_refuted : exists t R g r s w, shows_grammar t R /\ proper_rxs R /\ no_empty_groups R
  /\ returns (eval_grammar t) (g, r) /\ ~ generated R s /\ matches R (XSym s) w /\ ~ derives (gr_view g) s w.
Proof. exact RegexGramWit.clash_refuted. Qed.
Print Assumptions c50_names_refuted.
(** An empty group makes its production disappear: B -> b (). *)
Theorem c50_empty_group_refuted : exists t R g r s w, shows_grammar t R /\ proper_rxs R /\ distinct_names R
  /\ returns (eval_grammar t) (g, r) /\ ~ generated R s /\ matches R (XSym s) w /\ ~ derives (gr_view g) s w.
Proof. exact RegexGramWit.hollow_refuted. Qed.
Print Assumptions c50_empty_group_refuted.
(** Without underscores in the symbols the names are distinct. *)
Theorem c50_names_partial R : proper_rxs R -> no_underscores R -> distinct_names R.
Proof. exact (RegexGramNames.names_distinct R). Qed.
Print Assumptions c50_names_partial.
(** A generated name is never a symbol of the text. *)
Theorem c50_not_symbols R s : proper_rxs R -> s ∈ all_symbols R -> ~ generated R s.
Proof. intros H. exact (RegexGramNames.words_not_generated R H s). Qed.
Print Assumptions c50_not_symbols.
Example c50_example : proper_rxs RegexGramWit.demo /\ no_underscores RegexGramWit.demo
  /\ all_repeats RegexGramWit.demo = [XGroup [XOr [XSym (L "b"); XGroup [XSym (L "c"); XSym (L "T")]]]; XGroup [XSym (L "c")]].
Proof. exact (conj RegexGramWit.demo_proper (conj RegexGramWit.demo_plain eq_refl)). Qed.

(** C51 *)
Theorem c51_splices ks t : bludgeon ks t = PN (pn_lexeme t) (flat_map (splice ks) (pn_children t)).
Proof. exact (RegexGramFlat.bludgeon_spec ks t). Qed.
Print Assumptions c51_splices.
Theorem c51_dissolves t R g r s p lxs :
  shows_grammar t R -> distinct_names R -> returns (eval_grammar t) (g, r) ->
  ~ generated R s -> is_tree (gr_view g) s p lxs -> raw_reduce r p = dissolved R p.
Proof. exact (RegexGramThms.reduced_tree t R g r s p lxs). Qed.
Print Assumptions c51_dissolves.
Theorem c51_none_left t R g r s p lxs :
  shows_grammar t R -> distinct_names R -> returns (eval_grammar t) (g, r) ->
  ~ generated R s -> is_tree (gr_view g) s p lxs -> clean_below R (raw_reduce r p).
Proof. exact (RegexGramThms.reduced_clean t R g r s p lxs). Qed.
Print Assumptions c51_none_left.
Theorem c51_as_written t R g r s p lxs :
  shows_grammar t R -> distinct_names R -> no_empty_groups R -> returns (eval_grammar t) (g, r) ->
  ~ generated R s -> is_tree (gr_view g) s p lxs -> rx_tree R s (raw_reduce r p) lxs.
Proof. exact (RegexGramThms.reduced_written t R g r s p lxs). Qed.
Print Assumptions c51_as_written.
Example c51_example : is_tree (gr_view (fst RegexGramWit.demo_result)) (L "S") RegexGramWit.demo_tree RegexGramWit.demo_lexemes
  /\ raw_reduce (snd RegexGramWit.demo_result) RegexGramWit.demo_tree
     = RegexGramWit.node (L "S") [] [RegexGramWit.tk "a"; RegexGramWit.tk "b"; RegexGramWit.tk "c";
         RegexGramWit.node (L "T") [] [RegexGramWit.tk "c"; RegexGramWit.tk "x"]; RegexGramWit.tk "e"].
Proof. exact (conj RegexGramWit.demo_is_tree RegexGramWit.demo_reduced). Qed.
