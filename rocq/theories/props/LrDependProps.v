(** C102: what IsLeftRecursive, and so topdown's New, depends on. *)
From Coq Require Import String.
From Verif.model Require Import Topdown.
From Verif.spec Require Import Outcome TopdownSpec SameRules.
From Verif.proofs Require LrDepends TopdownWit.

(** Not on names. *)
Theorem c102_names f g1 g2 b :
  one_to_one f -> renamed_all f g1 g2 ->
  (returns (fun n => is_left_recursive n g2) b <-> returns (fun n => is_left_recursive n g1) b).
Proof. exact (LrDepends.lr_names f g1 g2 b). Qed.
Print Assumptions c102_names.
Example c102_names_example : one_to_one LrDepends.dotted /\ renamed_all LrDepends.dotted LrDepends.no_dots LrDepends.dots
  /\ is_left_recursive 20 LrDepends.dots = Ok true.
Proof. exact LrDepends.names_example. Qed.
(** But on the order in which NonTerminals lists the non-terminals: of
    [S -> x A; A -> N A | a; N -> ] New accepts the grammar with N before A only. *)
Theorem c102_order_refuted : exists g1 g2, g_wf g1 /\ g_wf g2 /\ head (g_nts g1) = head (g_nts g2) /\ g_nts g1 ≡ₚ g_nts g2
  /\ (forall x, g_prods g1 x = g_prods g2 x)
  /\ returns (fun n => td_new n g1) true /\ returns (fun n => td_new n g2) false.
Proof. exact LrDepends.order_matters. Qed.
Print Assumptions c102_order_refuted.
(** Where no longer production starts with a symbol that derives nothing, order and
    repetition of non-terminals and productions do not matter. *)
Theorem c102_order_partial g1 g2 b :
  g_wf g1 -> g_wf g2 -> solid_starts g1 -> same_rules g1 g2 ->
  (returns (fun n => td_new n g1) b <-> returns (fun n => td_new n g2) b).
Proof. exact (LrDepends.new_order g1 g2 b). Qed.
Print Assumptions c102_order_partial.
Example c102_order_example : g_wf TopdownWit.paren /\ g_wf LrDepends.paren_turned /\ solid_starts TopdownWit.paren
  /\ same_rules TopdownWit.paren LrDepends.paren_turned
  /\ g_prods TopdownWit.paren (L "S") <> g_prods LrDepends.paren_turned (L "S").
Proof. exact LrDepends.order_example. Qed.
