(** C96: parse trees do not go in circles. *)
From Coq Require Import String.
From Verif.model Require Import Packrat Topdown.
From Verif.spec Require Import Outcome PackratSpec TopdownSpec TreeShape.
From Verif.proofs Require PackratWit TopdownWit LeanProofs LeanWit.

(** In a tree from the packrat parser a node's descendants of the node's own kind cover fewer
    lexemes than the node, also when the grammar is cyclic; so the tree is not high. *)
Theorem c96_packrat g lexemes t : g_wf g -> not_mistaken g lexemes ->
  returns (fun n => packrat_parse n g lexemes) (Some t) ->
  lean g t /\ height t <= length (g_nts g) * S (length lexemes) + 1.
Proof. exact (LeanProofs.packrat_lean g lexemes t). Qed.
Print Assumptions c96_packrat.

Theorem c96_topdown g lexemes t : g_wf g -> ~ left_recursive g ->
  returns (fun n => td_parse n g lexemes) (Some t) ->
  lean g t /\ height t <= length (g_nts g) * S (length lexemes) + 1.
Proof. exact (LeanProofs.topdown_lean g lexemes t). Qed.
Print Assumptions c96_topdown.

(** [A -> A | A A | a | ] on [a]: the tree returned, and one with a circle. *)
Example c96_example : g_wf PackratWit.cyc /\ not_mistaken PackratWit.cyc LeanWit.one
  /\ returns (fun n => packrat_parse n PackratWit.cyc LeanWit.one) (Some LeanWit.short_tree)
  /\ is_tree PackratWit.cyc (L "A") LeanWit.long_tree LeanWit.one /\ ~ lean PackratWit.cyc LeanWit.long_tree.
Proof. exact LeanWit.one_trees. Qed.
(** [S -> ( S ) | x] for topdown. *)
Example c96_example_topdown :
  g_wf TopdownWit.paren /\ ~ left_recursive TopdownWit.paren /\ solid_starts TopdownWit.paren
  /\ prefix_free TopdownWit.paren
  /\ exists t, td_parse 20 TopdownWit.paren TopdownWit.paren_in = Ok (Some t) /\ length (pn_children t) = 3.
Proof. exact TopdownWit.paren_ok. Qed.
