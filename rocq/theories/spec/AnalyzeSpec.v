(** First symbols of derivations. *)
From Verif.model Require Export Analyze.
From Verif.spec Require Export Outcome CFG.

Section S.
  Variable g : grammar.

  (** One step of a derivation on sentential forms. *)
  Inductive rewrites : list gostring -> list gostring -> Prop :=
  | rw_step a x b ps p : g_prods g x = Some ps -> p ∈ ps -> rewrites (a ++ x :: b) (a ++ p ++ b).
  (** [t] is the first symbol of something [x] derives. *)
  Definition first_of (x t : gostring) : Prop := exists r, rtc rewrites [x] (t :: r).

  (** An empty production is reached from [x] through leftmost children. *)
  Inductive left_empty : gostring -> Prop :=
  | le_here x ps : g_prods g x = Some ps -> [] ∈ ps -> left_empty x
  | le_left x ps y r : g_prods g x = Some ps -> (y :: r) ∈ ps -> left_empty y -> left_empty x.

  (** [y] occurs in a production of [x] with only such symbols to its left. *)
  Definition left_child (x y : gostring) : Prop :=
    exists ps a b, g_prods g x = Some ps /\ (a ++ y :: b) ∈ ps /\ Forall left_empty a.
  (** [t] can be reached through such children. *)
  Definition leftmost (x t : gostring) : Prop := tc left_child x t.
  (** No symbol is its own leftmost descendant. *)
  Definition left_acyclic : Prop := forall x, ~ tc left_child x x.

  Definition terminal (x : gostring) : Prop := g_prods g x = None.
  (** Symbols that occur in the grammar. *)
  Definition occurs (x : gostring) : Prop :=
    x ∈ g_nts g \/ exists nt ps p, g_prods g nt = Some ps /\ p ∈ ps /\ x ∈ p.
End S.

(** Every non-terminal has a production that is not empty. *)
Definition no_blank (g : grammar) : Prop :=
  forall nt ps, g_prods g nt = Some ps -> exists y r, (y :: r) ∈ ps.

(** What stands to the left of another symbol in a production and reaches an empty
    production through leftmost children does derive the empty string. *)
Definition skips_empty (g : grammar) : Prop :=
  forall nt ps a y b z, g_prods g nt = Some ps -> (a ++ y :: b) ∈ ps -> z ∈ a -> left_empty g z -> derives g z [].
