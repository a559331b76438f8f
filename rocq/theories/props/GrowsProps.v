(** C104: adding productions. *)
From Coq Require Import String.
From Verif.model Require Import Topdown Packrat.
From Verif.spec Require Import TopdownSpec PackratSpec Outcome Grows.
From Verif.proofs Require GrowsProofs TopdownWit.

Theorem c104_packrat g1 g2 lexemes t : g_wf g1 -> g_wf g2 -> grows g1 g2 -> terminal_kinds g2 lexemes ->
  returns (fun n => packrat_parse n g1 lexemes) (Some t) ->
  exists t', returns (fun n => packrat_parse n g2 lexemes) (Some t').
Proof. exact (GrowsProofs.packrat_grows g1 g2 lexemes t). Qed.
Print Assumptions c104_packrat.
Example c104_packrat_example : g_wf GrowsProofs.few /\ g_wf GrowsProofs.more /\ grows GrowsProofs.few GrowsProofs.more
  /\ terminal_kinds GrowsProofs.more GrowsProofs.xyd
  /\ (exists t, packrat_parse 200 GrowsProofs.few GrowsProofs.xyd = Ok (Some t) /\ length (pn_children t) = 2)
  /\ g_prods GrowsProofs.few (L "A") <> g_prods GrowsProofs.more (L "A").
Proof. exact GrowsProofs.packrat_example. Qed.

(** Not so for topdown: with [S -> B d; B -> A | x y; A -> z] it accepts "x y d", and with
    [x] added as A's last production it does not. *)
Theorem c104_topdown_refuted : exists g1 g2 lexemes t, g_wf g1 /\ g_wf g2 /\ grows g1 g2 /\ terminal_kinds g2 lexemes /\ ~ left_recursive g2
  /\ returns (fun n => td_parse n g1 lexemes) (Some t) /\ returns (fun n => td_parse n g2 lexemes) None.
Proof. exact GrowsProofs.topdown_loses. Qed.
Print Assumptions c104_topdown_refuted.
Theorem c104_topdown_partial g1 g2 lexemes t : g_wf g1 -> g_wf g2 -> grows g1 g2 -> terminal_kinds g2 lexemes ->
  ~ left_recursive g2 -> prefix_free g2 ->
  returns (fun n => td_parse n g1 lexemes) (Some t) ->
  exists t', returns (fun n => td_parse n g2 lexemes) (Some t').
Proof. exact (GrowsProofs.topdown_grows g1 g2 lexemes t). Qed.
Print Assumptions c104_topdown_partial.
Example c104_topdown_example : g_wf GrowsProofs.single /\ g_wf TopdownWit.paren /\ grows GrowsProofs.single TopdownWit.paren
  /\ terminal_kinds TopdownWit.paren (cons (TopdownWit.lx (L "x")) nil) /\ ~ left_recursive TopdownWit.paren /\ prefix_free TopdownWit.paren
  /\ exists t, td_parse 20 GrowsProofs.single (cons (TopdownWit.lx (L "x")) nil) = Ok (Some t) /\ length (pn_children t) = 1.
Proof. exact GrowsProofs.paren_example. Qed.

(** Nor is anything lost by productions added, in any place, to a start symbol that
    stands in no production. *)
Theorem c104_topdown_start_partial g1 g2 s0 lexemes t : g_wf g1 -> g_wf g2 -> grows g1 g2 -> head (g_nts g1) = Some s0 ->
  (forall x, x <> s0 -> g_prods g1 x = g_prods g2 x) ->
  (forall A ps p, g_prods g1 A = Some ps -> p ∈ ps -> s0 ∉ p) -> ~ left_recursive g2 ->
  returns (fun n => td_parse n g1 lexemes) (Some t) ->
  exists t', returns (fun n => td_parse n g2 lexemes) (Some t').
Proof. exact (GrowsProofs.topdown_start g1 g2 s0 lexemes t). Qed.
Print Assumptions c104_topdown_start_partial.
(** [S -> A c; A -> a b | a] gets [S -> A], which is tried first. *)
Example c104_topdown_start_example : g_wf GrowsProofs.narrow /\ g_wf GrowsProofs.wider /\ grows GrowsProofs.narrow GrowsProofs.wider
  /\ head (g_nts GrowsProofs.narrow) = Some (L "S")
  /\ (forall x, x <> L "S" -> g_prods GrowsProofs.narrow x = g_prods GrowsProofs.wider x)
  /\ (forall A ps p, g_prods GrowsProofs.narrow A = Some ps -> p ∈ ps -> L "S" ∉ p) /\ ~ left_recursive GrowsProofs.wider
  /\ exists t, td_parse 20 GrowsProofs.narrow GrowsProofs.ac = Ok (Some t) /\ length (pn_children t) = 2.
Proof. exact GrowsProofs.start_example. Qed.
