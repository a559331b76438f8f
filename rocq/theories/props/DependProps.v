(** C98, C99: what the results of the parsers depend on. *)
From Coq Require Import String.
From Verif.model Require Import Packrat Topdown.
From Verif.spec Require Import Outcome PackratSpec TopdownSpec Reach.
From Verif.proofs Require TdDepends PackratRename TopdownWit.

(** C98. [shape] forgets values and positions. *)
Theorem c98_topdown_shape g l1 l2 r1 :
  g_wf g -> map lx_kind l1 = map lx_kind l2 ->
  returns (fun n => td_parse n g l1) r1 ->
  exists r2, returns (fun n => td_parse n g l2) r2
    /\ option_map shape r1 = option_map shape r2.
Proof. exact (TdDepends.td_shapes g l1 l2 r1). Qed.
Print Assumptions c98_topdown_shape.
Theorem c98_topdown_diverges g l1 l2 :
  g_wf g -> map lx_kind l1 = map lx_kind l2 ->
  diverges (fun n => td_parse n g l1) -> diverges (fun n => td_parse n g l2).
Proof. exact (TdDepends.td_shapes_diverges g l1 l2). Qed.
Print Assumptions c98_topdown_diverges.
(** "( x )" twice, with other values and positions. *)
Example c98_example :
  g_wf TopdownWit.paren /\ map lx_kind TdDepends.paren_in1 = map lx_kind TdDepends.paren_in2
  /\ exists t1 t2, td_parse 20 TopdownWit.paren TdDepends.paren_in1 = Ok (Some t1)
     /\ td_parse 20 TopdownWit.paren TdDepends.paren_in2 = Ok (Some t2) /\ t1 <> t2.
Proof. exact TdDepends.shapes_example. Qed.

(** C99 *)
Theorem c99_topdown g1 g2 lexemes r :
  g_wf g1 -> g_wf g2 -> same_reachable g1 g2 ->
  (returns (fun n => td_parse n g1 lexemes) r <-> returns (fun n => td_parse n g2 lexemes) r).
Proof. exact (TdDepends.td_reachable g1 g2 lexemes r). Qed.
Print Assumptions c99_topdown.
(** For all inputs, whatever their kinds. *)
Theorem c99_packrat g1 g2 lexemes r :
  g_wf g1 -> g_wf g2 -> same_reachable g1 g2 ->
  (returns (fun n => packrat_parse n g1 lexemes) r <-> returns (fun n => packrat_parse n g2 lexemes) r).
Proof. exact (PackratRename.packrat_reachable g1 g2 lexemes r). Qed.
Print Assumptions c99_packrat.
(** [S -> ( S ) | x] with and without rules for a T that S does not use. *)
Example c99_example :
  g_wf TopdownWit.paren /\ g_wf TdDepends.paren_more /\ same_reachable TopdownWit.paren TdDepends.paren_more
  /\ g_prods TopdownWit.paren (L "T") <> g_prods TdDepends.paren_more (L "T").
Proof. exact TdDepends.paren_more_same. Qed.
