(** C103: where topdown and packrat return the same tree. *)
From Coq Require Import String.
From Verif.model Require Import Topdown Packrat.
From Verif.spec Require Import TopdownSpec PackratSpec Outcome.
From Verif.proofs Require SameTree TopdownWit.
Local Open Scope list_scope.

(** Not in general: two trees of different shapes for a grammar without recursion. *)
Theorem c103_same_tree_refuted : exists g lexemes t t', g_wf g /\ ~ left_recursive g /\ acyclic_grammar g
  /\ returns (fun n => td_parse n g lexemes) (Some t) /\ returns (fun n => packrat_parse n g lexemes) (Some t') /\ shape t <> shape t'.
Proof. exact SameTree.trees_differ. Qed.
Print Assumptions c103_same_tree_refuted.

Theorem c103_same_tree_partial g lexemes t : g_wf g -> acyclic_grammar g -> prefix_free g ->
  returns (fun n => td_parse n g lexemes) (Some t) ->
  exists t', returns (fun n => packrat_parse n g lexemes) (Some t') /\ shape t = shape t'.
Proof. exact (SameTree.same_tree g lexemes t). Qed.
Print Assumptions c103_same_tree_partial.
(** Every node of topdown's tree takes the first production that derives its lexemes. *)
Theorem c103_topdown_earliest_partial g lexemes t : g_wf g -> prefix_free g ->
  returns (fun n => td_parse n g lexemes) (Some t) ->
  exists s0 rest, g_nts g = s0 :: rest /\ earliest_tree g s0 t lexemes.
Proof. exact (SameTree.td_earliest g lexemes t). Qed.
Print Assumptions c103_topdown_earliest_partial.
(** The two trees have the same shape but give the inner nodes different positions. *)
Example c103_example : g_wf TopdownWit.paren /\ acyclic_grammar TopdownWit.paren /\ prefix_free TopdownWit.paren
  /\ exists t t', td_parse 20 TopdownWit.paren TopdownWit.paren_in = Ok (Some t)
       /\ packrat_parse 200 TopdownWit.paren TopdownWit.paren_in = Ok (Some t')
       /\ shape t = shape t' /\ t <> t' /\ length (pn_children t) = 3.
Proof. exact SameTree.paren_same. Qed.

(** Also without prefix freedom, for lexemes that have only one tree. *)
Theorem c103_only_tree_partial g lexemes t : g_wf g -> lexemes <> nil ->
  (forall s0 rest t1 t2, g_nts g = s0 :: rest -> is_tree g s0 t1 lexemes -> is_tree g s0 t2 lexemes -> shape t1 = shape t2) ->
  returns (fun n => td_parse n g lexemes) (Some t) ->
  exists t', returns (fun n => packrat_parse n g lexemes) (Some t') /\ shape t = shape t'.
Proof. exact (SameTree.same_only_tree g lexemes t). Qed.
Print Assumptions c103_only_tree_partial.
(** [S -> A c; A -> a b | a] on "a c". *)
Example c103_only_tree_example : g_wf SameTree.opt2 /\ SameTree.opt2_in <> nil /\ ~ prefix_free SameTree.opt2
  /\ (forall s0 rest t1 t2, g_nts SameTree.opt2 = s0 :: rest -> is_tree SameTree.opt2 s0 t1 SameTree.opt2_in -> is_tree SameTree.opt2 s0 t2 SameTree.opt2_in -> shape t1 = shape t2)
  /\ exists t, td_parse 20 SameTree.opt2 SameTree.opt2_in = Ok (Some t) /\ length (pn_children t) = 2.
Proof. exact SameTree.opt2_same. Qed.
