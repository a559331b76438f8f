(** The same grammar written differently. *)
From Verif.spec Require Export Rename.

(** The same non-terminals with the same productions, in any order, any number of times. *)
Definition same_rules (g1 g2 : grammar) : Prop :=
  forall x, match g_prods g1 x, g_prods g2 x with
            | Some ps, Some qs => forall p, p ∈ ps <-> p ∈ qs
            | None, None => True
            | _, _ => False
            end.
(** All symbols renamed, all rules in the same order. *)
Definition renamed_all (f : gostring -> gostring) (g1 g2 : grammar) : Prop :=
  g_nts g2 = map f (g_nts g1)
  /\ forall x, g_prods g2 (f x) = option_map (map (map f)) (g_prods g1 x).
