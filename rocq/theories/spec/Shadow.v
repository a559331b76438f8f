(** Productions that ordered choice never takes. *)
From Verif.spec Require Export CFG.

(** [ps'] is [ps] without some of the productions that begin with the whole of an earlier
    one or of one in [seen]; where [repeats_only], without some that repeat an earlier one. *)
Inductive pruned (repeats_only : Prop) : list (list gostring) -> list (list gostring) -> list (list gostring) -> Prop :=
| pr_nil seen : pruned repeats_only seen [] []
| pr_keep seen p ps ps' : pruned repeats_only (p :: seen) ps ps' -> pruned repeats_only seen (p :: ps) (p :: ps')
| pr_drop seen p q ps ps' : p ∈ seen -> (repeats_only -> q = []) ->
    pruned repeats_only seen ps ps' -> pruned repeats_only seen ((p ++ q) :: ps) ps'.

(** Of the start symbol only repeated productions are left out. *)
Definition pruned_grammar (g1 g2 : grammar) : Prop :=
  head (g_nts g1) = head (g_nts g2)
  /\ forall x, match g_prods g1 x, g_prods g2 x with
               | Some ps, Some ps' => pruned (head (g_nts g1) = Some x) [] ps ps'
               | None, None => True
               | _, _ => False
               end.
