(** C106: productions that derive no word. *)
From Coq Require Import String.
From Verif.model Require Import Topdown Packrat.
From Verif.spec Require Import TopdownSpec PackratSpec Outcome Dead.
From Verif.proofs Require DeadProofs TopdownWit.

(** Where topdown returns it returns the same without them, ... *)
Theorem c106_topdown g1 g2 lexemes r : g_wf g1 -> g_wf g2 -> cleared g1 g2 ->
  returns (fun n => td_parse n g1 lexemes) r -> returns (fun n => td_parse n g2 lexemes) r.
Proof. exact (DeadProofs.td_cleared g1 g2 lexemes r). Qed.
Print Assumptions c106_topdown.
Theorem c106_topdown_same g1 g2 lexemes r : g_wf g1 -> g_wf g2 -> cleared g1 g2 -> ~ left_recursive g1 ->
  (returns (fun n => td_parse n g1 lexemes) r <-> returns (fun n => td_parse n g2 lexemes) r).
Proof. exact (DeadProofs.td_cleared_iff g1 g2 lexemes r). Qed.
Print Assumptions c106_topdown_same.
(** ... but a left recursive one can keep it from returning: [S -> A | x; A -> A y]. *)
Theorem c106_topdown_diverges : exists g1 g2 lexemes t, g_wf g1 /\ g_wf g2 /\ cleared g1 g2
  /\ diverges (fun n => td_parse n g1 lexemes) /\ returns (fun n => td_parse n g2 lexemes) (Some t).
Proof. exact DeadProofs.dead_matters. Qed.
Print Assumptions c106_topdown_diverges.
Theorem c106_packrat g1 g2 lexemes : g_wf g1 -> g_wf g2 -> cleared g1 g2 -> terminal_kinds g1 lexemes ->
  ((exists t, returns (fun n => packrat_parse n g1 lexemes) (Some t)) <-> (exists t, returns (fun n => packrat_parse n g2 lexemes) (Some t))).
Proof. exact (DeadProofs.packrat_cleared g1 g2 lexemes). Qed.
Print Assumptions c106_packrat.
(** [S -> ( S ) | B x | x; B -> y B] on "( ( x ) )", with and without [S -> B x]. *)
Example c106_example : g_wf DeadProofs.blind /\ g_wf DeadProofs.sighted /\ cleared DeadProofs.blind DeadProofs.sighted
  /\ ~ left_recursive DeadProofs.blind /\ terminal_kinds DeadProofs.blind TopdownWit.paren_in
  /\ g_prods DeadProofs.blind (L "S") <> g_prods DeadProofs.sighted (L "S")
  /\ (exists t, td_parse 20 DeadProofs.blind TopdownWit.paren_in = Ok (Some t) /\ length (pn_children t) = 3)
  /\ (exists t, packrat_parse 300 DeadProofs.blind TopdownWit.paren_in = Ok (Some t) /\ length (pn_children t) = 3).
Proof. exact DeadProofs.blind_example. Qed.
