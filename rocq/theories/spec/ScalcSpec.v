(** The stack calculator: the texts it accepts, and a stack machine. *)
From Coq Require Import String.
From Verif.model Require Export ScalcEx.
From Verif.spec Require Export CFG LexTable.
Local Open Scope nat_scope.
Local Open Scope list_scope.

(** scalc.go:15-26, the lexer as a table. *)
Definition sc_char (a : string) : re := RSet (N.eqb (hd 0%N (L a))).
Definition sc_digit (x : N) : bool := ((48 <=? x) && (x <=? 57))%N.
Fixpoint sc_word (s : gostring) : re :=
  match s with [] => REps | c :: r => RCat (RSet (N.eqb c)) (sc_word r) end.
(** The words in parentheses, alternatives; the first group has number [n]. *)
Fixpoint sc_words (n : nat) (w : string) (l : list string) : re :=
  match l with
  | [] => RGroup n (sc_word (L w))
  | w' :: r => RAlt (RGroup n (sc_word (L w))) (sc_words (S n) w' r)
  end.
Definition sc_table : list lrow := [
  LRow (L "space") (L "\s+") (RPlus (RSet lx_space)) true;
  LRow (L "int") (L "(\+|-)?\d+") (RCat (ROpt (RGroup 1 (RAlt (sc_char "+") (sc_char "-")))) (RPlus (RSet sc_digit))) false;
  LRow (L "dec") (L "\.\d+") (RCat (sc_char ".") (RPlus (RSet sc_digit))) false;
  LRow (L "uop") (L "(--)|(abs)") (sc_words 1 "--" ["abs"%string]) false;
  LRow (L "bop") (L "(cmpr)|[\*\/+\-\^%><=]") (RAlt (sc_words 1 "cmpr" []) (RSet (fun x => existsb (N.eqb x) (L "*/+-^%><=")))) false;
  LRow (L "sop") (L "(len)|(sum)|(avg)|(min)|(max)|(first)|(last)") (sc_words 1 "len" ["sum"; "avg"; "min"; "max"; "first"; "last"]%string) false;
  LRow (L "smp") (L "(swap)|(drop)|(clear)") (sc_words 1 "swap" ["drop"; "clear"]%string) false;
  LRow (L "?") (L "\?") (sc_char "?") false;
  LRow (L "(") (L "\(") (sc_char "(") false;
  LRow (L ")") (L "\)") (sc_char ")") false].
Definition sc_calls (texts : list gostring) : list sl_call := table_calls sc_table [] texts.
(** The text's tokens. *)
Definition sc_tokens (s : gostring) (lxs : list lexeme) : Prop := lexes_to (sc_calls []) s lxs.

(** * Programs, as sequences of kinds: lists of expressions, expressions and operators *)
Definition op_kind (k : gostring) : Prop := k = L "uop" \/ k = L "bop" \/ k = L "sop" \/ k = L "smp".
Inductive program : list gostring -> Prop :=
| pr_nil : program []
| pr_smp u o : program u -> operator (L "smp") o -> program (u ++ o)
| pr_expr e u : expression e -> program u -> program (e ++ u)
| pr_parens u v w : program u -> program v -> program w -> program (u ++ [L "("] ++ v ++ [L ")"] ++ w)
with expression : list gostring -> Prop :=
| ex_int : expression [L "int"]
| ex_dec : expression [L "int"; L "dec"]
| ex_uop a o : expression a -> operator (L "uop") o -> expression (a ++ o)
| ex_bop a b o : expression a -> expression b -> operator (L "bop") o -> expression (a ++ b ++ o)
| ex_sop u o : program u -> operator (L "sop") o -> expression (u ++ o)
| ex_if a b c : expression a -> expression b -> expression c -> expression (a ++ b ++ c ++ [L "?"])
with operator : gostring -> list gostring -> Prop :=
| op_one k : op_kind k -> operator k [k]
| op_if k a b c : operator k a -> operator k b -> expression c -> operator k (a ++ b ++ c ++ [L "?"]).

(** * The stack machine, on numbers and operators *)
Section Machine.
  Variable A : sarith.
  Notation pf := (pfloat A).
  (** The operators. Precisions of results are those of the operands, never negative. *)
  Inductive uop_value : gostring -> pf -> pf -> Prop :=
  | uv_neg a : uop_value (L "--") a (PF (sf_neg A (pf_v a)) (pf_p a))
  | uv_abs_neg a : sf_lt A (pf_v a) (sf_zero A) = true -> uop_value (L "abs") a (PF (sf_neg A (pf_v a)) (pf_p a))
  | uv_abs a : sf_lt A (pf_v a) (sf_zero A) = false -> uop_value (L "abs") a a.
  Definition truth (b : bool) : sf A := if b then sf_one A else sf_zero A.
  Inductive bop_value (x y : sf A) : gostring -> sf A -> Prop :=
  | bv_add : bop_value x y (L "+") (sf_add A x y)
  | bv_sub : bop_value x y (L "-") (sf_sub A x y)
  | bv_mul : bop_value x y (L "*") (sf_mul A x y)
  | bv_div : bop_value x y (L "/") (sf_div A x y)
  | bv_pow : bop_value x y (L "^") (sf_pow A x y)
  | bv_mod : bop_value x y (L "%") (sf_mod A x y)
  | bv_gt : bop_value x y (L ">") (truth (sf_lt A y x))
  | bv_lt : bop_value x y (L "<") (truth (sf_lt A x y))
  | bv_eq : bop_value x y (L "=") (truth (sf_eq A x y))
  | bv_cmpr_gt : sf_lt A y x = true -> bop_value x y (L "cmpr") (sf_one A)
  | bv_cmpr_lt : sf_lt A y x = false -> sf_lt A x y = true -> bop_value x y (L "cmpr") (sf_minus_one A)
  | bv_cmpr_eq : sf_lt A y x = false -> sf_lt A x y = false -> bop_value x y (L "cmpr") (sf_zero A).
  (** What swap, drop and clear make of a stack, top first. *)
  Inductive smp_value : gostring -> list pf -> list pf -> Prop :=
  | sv_swap a b st : smp_value (L "swap") (a :: b :: st) (b :: a :: st)
  | sv_swap_less st : length st < 2 -> smp_value (L "swap") st st
  | sv_drop a st : smp_value (L "drop") (a :: st) st
  | sv_drop_nil : smp_value (L "drop") [] []
  | sv_clear st : smp_value (L "clear") st [].

  (** What the stack operators make of a stack, bottom first: first is its top and last its
      bottom. *)
  Definition sum_of (st : list pf) : sf A := fold_left (fun t p => sf_add A t (pf_v p)) st (sf_zero A).
  Definition widest (st : list pf) : Z := fold_right (fun p z => Z.max (pf_p p) z) 0%Z st.
  (** The value no later one beats, from bottom to top. *)
  Inductive wins (beats : sf A -> sf A -> bool) : list pf -> pf -> Prop :=
  | w_one x : wins beats [x] x
  | w_stays st x y : wins beats st x -> beats (pf_v y) (pf_v x) = false -> wins beats (st ++ [y]) x
  | w_next st x y : wins beats st x -> beats (pf_v y) (pf_v x) = true -> wins beats (st ++ [y]) y.
  Inductive sop_value : gostring -> list pf -> pf -> Prop :=
  | so_sum st : sop_value (L "sum") st (PF (sum_of st) (widest st))
  | so_avg_nil : sop_value (L "avg") [] pf_zero
  | so_avg st : st <> [] -> sop_value (L "avg") st (PF (sf_div A (sum_of st) (sf_of_len A (length st))) (widest st))
  | so_len st : sop_value (L "len") st (PF (sf_of_len A (length st)) 0)
  | so_min_nil : sop_value (L "min") [] pf_zero
  | so_min st z : wins (fun y x => sf_lt A y x) st z -> sop_value (L "min") st z
  | so_max_nil : sop_value (L "max") [] pf_zero
  | so_max st z : wins (fun y x => sf_lt A x y) st z -> sop_value (L "max") st z
  | so_first_nil : sop_value (L "first") [] pf_zero
  | so_first st z : sop_value (L "first") (st ++ [z]) z
  | so_last_nil : sop_value (L "last") [] pf_zero
  | so_last st z : sop_value (L "last") (z :: st) z.

  Definition not_dec (r : list lexeme) : Prop := forall x r', r = x :: r' -> lx_kind x <> L "dec".
  (** [machine whole st u st']: run on the tokens [u], the machine goes from the stack [st] to
      [st'], both top first. A stack operator takes the whole stack, or any number of values
      from the top if [whole] is false. *)
  Inductive machine (whole : bool) : list pf -> list lexeme -> list pf -> Prop :=
  | m_done st : machine whole st [] st
  | m_int x u st st' : lx_kind x = L "int" -> not_dec u ->
      machine whole (PF (sf_parse A (lx_val x)) 0 :: st) u st' -> machine whole st (x :: u) st'
  | m_dec x y u st st' : lx_kind x = L "int" -> lx_kind y = L "dec" ->
      machine whole (PF (sf_parse A (lx_val x ++ lx_val y)) (Z.of_nat (length (lx_val y)) - 1) :: st) u st' ->
      machine whole st (x :: y :: u) st'
  | m_uop o a z u st st' : lx_kind o = L "uop" -> uop_value (lx_val o) a z ->
      machine whole (z :: st) u st' -> machine whole (a :: st) (o :: u) st'
  | m_bop o a b z u st st' : lx_kind o = L "bop" -> bop_value (pf_v a) (pf_v b) (lx_val o) z ->
      machine whole (PF z (Z.max 0 (Z.max (pf_p a) (pf_p b))) :: st) u st' -> machine whole (b :: a :: st) (o :: u) st'
  | m_sop o vs z u st st' : lx_kind o = L "sop" -> (whole = true -> st = []) -> sop_value (lx_val o) (rev vs) z ->
      machine whole (z :: st) u st' -> machine whole (vs ++ st) (o :: u) st'
  (** The stack operations act on the stack as it is, and a conditional takes the second of
      its operands if the third is positive and the first otherwise. *)
  | m_smp o u st st1 st' : lx_kind o = L "smp" -> smp_value (lx_val o) st st1 ->
      machine whole st1 u st' -> machine whole st (o :: u) st'
  | m_if_pos o a b c u st st' : lx_kind o = L "?" -> sf_lt A (sf_zero A) (pf_v c) = true ->
      machine whole (b :: st) u st' -> machine whole (c :: b :: a :: st) (o :: u) st'
  | m_if_not o a b c u st st' : lx_kind o = L "?" -> sf_lt A (sf_zero A) (pf_v c) = false ->
      machine whole (a :: st) u st' -> machine whole (c :: b :: a :: st) (o :: u) st'
  (** Parentheses only group. *)
  | m_paren o u st st' : lx_kind o = L "(" \/ lx_kind o = L ")" -> machine whole st u st' -> machine whole st (o :: u) st'.
End Machine.
(** Tokens of numbers and of operators that take values and give a value. *)
Definition arithmetic (u : list lexeme) : Prop :=
  Forall (fun x => lx_kind x = L "int" \/ lx_kind x = L "dec" \/ lx_kind x = L "uop" \/ lx_kind x = L "bop") u.
(** The same with stack operators. *)
Definition operators (u : list lexeme) : Prop :=
  Forall (fun x => lx_kind x = L "int" \/ lx_kind x = L "dec" \/ lx_kind x = L "uop" \/ lx_kind x = L "bop" \/ lx_kind x = L "sop") u.
