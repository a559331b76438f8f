(** A grammar with more productions. *)
From Verif.spec Require Export CFG.

(** The same start symbol, and every production of [g1] is one of [g2]. *)
Definition grows (g1 g2 : grammar) : Prop :=
  head (g_nts g1) = head (g_nts g2)
  /\ forall x ps, g_prods g1 x = Some ps ->
       exists qs, g_prods g2 x = Some qs /\ forall p, p ∈ ps -> p ∈ qs.
