(** Ordered-choice recursive descent without memo, and left recursion. *)
From Verif.spec Require Export CFG.

Section OC.
  Variable g : grammar.
  Variable lxs : list lexeme.

  (** [oc_sym s pos r]: symbol [s] at position [pos] gives the node and end position
      [r], or fails ([None]). A non-terminal takes its first production that matches. *)
  Inductive oc_sym : gostring -> nat -> option (pn * nat) -> Prop :=
  | oc_term s pos lx : g_prods g s = None -> lxs !! pos = Some lx -> lx_kind lx = s ->
      oc_sym s pos (Some (PN lx [], S pos))
  | oc_term_other s pos lx : g_prods g s = None -> lxs !! pos = Some lx -> lx_kind lx <> s ->
      oc_sym s pos None
  | oc_term_end s pos : g_prods g s = None -> lxs !! pos = None -> oc_sym s pos None
  | oc_nt s pos ps r : g_prods g s = Some ps -> oc_prods s pos ps r -> oc_sym s pos r
  with oc_prods : gostring -> nat -> list (list gostring) -> option (pn * nat) -> Prop :=
  | oc_none s pos : oc_prods s pos [] None
  | oc_hit s pos p ps cs e : oc_seq p pos (Some (cs, e)) ->
      oc_prods s pos (p :: ps) (Some (PN (Lx s [] (-1) 0) cs, e))
  | oc_miss s pos p ps r : oc_seq p pos None -> oc_prods s pos ps r -> oc_prods s pos (p :: ps) r
  with oc_seq : list gostring -> nat -> option (list pn * nat) -> Prop :=
  | oc_nil pos : oc_seq [] pos (Some ([], pos))
  | oc_fail x r pos : oc_sym x pos None -> oc_seq (x :: r) pos None
  | oc_fail_later x r pos c e : oc_sym x pos (Some (c, e)) -> oc_seq r e None -> oc_seq (x :: r) pos None
  | oc_cons x r pos c e cs e' : oc_sym x pos (Some (c, e)) -> oc_seq r e (Some (cs, e')) ->
      oc_seq (x :: r) pos (Some (c :: cs, e')).

  (** The outermost non-terminal takes its first production that matches and
      consumes everything. *)
  Inductive oc_top : gostring -> list (list gostring) -> option pn -> Prop :=
  | ot_none s : oc_top s [] None
  | ot_hit s p ps cs : oc_seq p 0 (Some (cs, length lxs)) -> oc_top s (p :: ps) (Some (PN (Lx s [] (-1) 0) cs))
  | ot_short s p ps cs e r : oc_seq p 0 (Some (cs, e)) -> e <> length lxs -> oc_top s ps r -> oc_top s (p :: ps) r
  | ot_miss s p ps r : oc_seq p 0 None -> oc_top s ps r -> oc_top s (p :: ps) r.
  Inductive oc_parse : option pn -> Prop :=
  | op_no_start : g_nts g = [] -> oc_parse None
  | op_start s0 rest ps r : g_nts g = s0 :: rest -> g_prods g s0 = Some ps -> oc_top s0 ps r -> oc_parse r.
End OC.
Scheme oc_sym_mut := Induction for oc_sym Sort Prop
  with oc_prods_mut := Induction for oc_prods Sort Prop
  with oc_seq_mut := Induction for oc_seq Sort Prop.
Combined Scheme oc_mut from oc_sym_mut, oc_prods_mut, oc_seq_mut.

Section LR.
  Variable g : grammar.
  (** [B] can come first in what [A] is rewritten to, in one step. *)
  Definition left_step (A B : gostring) : Prop :=
    exists ps p a b, g_prods g A = Some ps /\ p ∈ ps /\ p = a ++ B :: b /\ derives_seq g a [].
  Definition left_recursive : Prop := exists A, tc left_step A A.

  (** No production starts with a symbol that derives the empty string, except
      possibly as its only symbol. Implied by having no empty productions. *)
  Definition solid_starts : Prop :=
    forall A ps x r, g_prods g A = Some ps -> (x :: r) ∈ ps -> r <> [] -> ~ derives g x [].

  (** No word of a symbol used in a production is a proper prefix of another. *)
  Definition prefix_free : Prop :=
    forall A ps p x u v, g_prods g A = Some ps -> p ∈ ps -> x ∈ p ->
      derives g x u -> derives g x (u ++ v) -> v = [].
End LR.
