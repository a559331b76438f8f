(** Symbols that matter to a grammar. *)
From Verif.spec Require Export CFG.

Inductive reachable (g : grammar) : gostring -> Prop :=
| reach_start s0 rest : g_nts g = s0 :: rest -> reachable g s0
| reach_step A ps p x : reachable g A -> g_prods g A = Some ps -> p ∈ ps -> x ∈ p -> reachable g x.

(** The same start symbol, and the same productions, in the same order, of every symbol
    that can be reached from it. *)
Definition same_reachable (g1 g2 : grammar) : Prop :=
  head (g_nts g1) = head (g_nts g2) /\ forall x, reachable g1 x -> g_prods g1 x = g_prods g2 x.
