(** Productions that derive no word. *)
From Verif.spec Require Export CFG.

Section Dead.
  Variable g : grammar.
  Definition dead (p : list gostring) : Prop := forall w, ~ derives_seq g p w.
  (** [qs] is [ps] without some of the dead productions. *)
  Inductive less_dead : list (list gostring) -> list (list gostring) -> Prop :=
  | ld_nil : less_dead [] []
  | ld_keep p ps qs : less_dead ps qs -> less_dead (p :: ps) (p :: qs)
  | ld_drop p ps qs : dead p -> less_dead ps qs -> less_dead (p :: ps) qs.
End Dead.
(** [g2] is [g1] without some of its dead productions. *)
Definition cleared (g1 g2 : grammar) : Prop :=
  head (g_nts g1) = head (g_nts g2)
  /\ forall x, match g_prods g1 x, g_prods g2 x with
               | Some ps, Some qs => less_dead g1 ps qs
               | None, None => True
               | _, _ => False
               end.
