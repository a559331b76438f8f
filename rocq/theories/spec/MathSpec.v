(** Arithmetic expressions as token sequences, with their values. *)
From Coq Require Import String.
From Verif.model Require Export MathEx.
From Verif.spec Require Export CFG LexTable.
Local Open Scope nat_scope.
Local Open Scope list_scope.

Section Values.
  Variable A : arith.
  Definition op_value (v : gostring) (x y z : fl A) : Prop :=
    (v = L "+" /\ z = f_add A x y) \/ (v = L "-" /\ z = f_sub A x y)
    \/ (v = L "*" /\ z = f_mul A x y) \/ (v = L "/" /\ z = f_div A x y).
  (** Sums of terms, terms of factors. Nothing is said about how a - b - c is read. *)
  Inductive is_sum : list lexeme -> fl A -> Prop :=
  | sum_term u x : is_term u x -> is_sum u x
  | sum_op u o v x y z : lx_kind o = L "op2" -> is_sum u x -> is_sum v y -> op_value (lx_val o) x y z ->
      is_sum (u ++ o :: v) z
  with is_term : list lexeme -> fl A -> Prop :=
  | term_factor u x : is_factor u x -> is_term u x
  | term_op u o v x y z : lx_kind o = L "op1" -> is_term u x -> is_term v y -> op_value (lx_val o) x y z ->
      is_term (u ++ o :: v) z
  with is_factor : list lexeme -> fl A -> Prop :=
  | factor_number n : lx_kind n = L "number" -> is_factor [n] (f_parse A (lx_val n))
  | factor_plus o n : lx_kind o = L "op2" -> lx_val o = L "+" -> lx_kind n = L "number" ->
      is_factor [o; n] (f_parse A (lx_val n))
  | factor_minus o n : lx_kind o = L "op2" -> lx_val o = L "-" -> lx_kind n = L "number" ->
      is_factor [o; n] (f_neg A (f_parse A (lx_val n)))
  | factor_parens o u c x : lx_kind o = L "(" -> is_sum u x -> lx_kind c = L ")" -> is_factor (o :: u ++ [c]) x.

  (** The same, operators of one kind taken from the left. *)
  Inductive left_sum : list lexeme -> fl A -> Prop :=
  | lsum_term u x : left_term u x -> left_sum u x
  | lsum_op u o v x y z : lx_kind o = L "op2" -> left_sum u x -> left_term v y -> op_value (lx_val o) x y z ->
      left_sum (u ++ o :: v) z
  with left_term : list lexeme -> fl A -> Prop :=
  | lterm_factor u x : left_factor u x -> left_term u x
  | lterm_op u o v x y z : lx_kind o = L "op1" -> left_term u x -> left_factor v y -> op_value (lx_val o) x y z ->
      left_term (u ++ o :: v) z
  with left_factor : list lexeme -> fl A -> Prop :=
  | lfactor_number n : lx_kind n = L "number" -> left_factor [n] (f_parse A (lx_val n))
  | lfactor_plus o n : lx_kind o = L "op2" -> lx_val o = L "+" -> lx_kind n = L "number" ->
      left_factor [o; n] (f_parse A (lx_val n))
  | lfactor_minus o n : lx_kind o = L "op2" -> lx_val o = L "-" -> lx_kind n = L "number" ->
      left_factor [o; n] (f_neg A (f_parse A (lx_val n)))
  | lfactor_parens o u c x : lx_kind o = L "(" -> left_sum u x -> lx_kind c = L ")" -> left_factor (o :: u ++ [c]) x.
End Values.

(** Expressions of any structure. *)
Inductive is_expr : list lexeme -> Prop :=
| ex_number n : lx_kind n = L "number" -> is_expr [n]
| ex_signed o n : lx_kind o = L "op2" -> lx_kind n = L "number" -> is_expr [o; n]
| ex_parens o u c : lx_kind o = L "(" -> is_expr u -> lx_kind c = L ")" -> is_expr (o :: u ++ [c])
| ex_op u o v : lx_kind o = L "op1" \/ lx_kind o = L "op2" -> is_expr u -> is_expr v -> is_expr (u ++ o :: v).

(** math.go:12-19, the lexer as a table. *)
Definition mx_one (a : string) : re := RSet (N.eqb (hd 0%N (L a))).
Definition mx_digit (x : N) : bool := ((48 <=? x) && (x <=? 57))%N.
Definition mx_table : list lrow := [
  LRow (L "space") (L "\s+") (RPlus (RSet lx_space)) true;
  LRow (L "number") (L "\d*\.?\d+") (RCat (RStar (RSet mx_digit)) (RCat (ROpt (mx_one ".")) (RPlus (RSet mx_digit)))) false;
  LRow (L "op1") (L "[\*\/]") (RSet (fun x => (x =? 42) || (x =? 47))%N) false;
  LRow (L "op2") (L "[\+\-]") (RSet (fun x => (x =? 43) || (x =? 45))%N) false;
  LRow (L "(") (L "\(") (mx_one "(") false;
  LRow (L ")") (L "\)") (mx_one ")") false].
Definition mx_calls (texts : list gostring) : list sl_call := table_calls mx_table [] texts.
(** The text's tokens. *)
Definition mx_tokens (s : gostring) (lxs : list lexeme) : Prop := lexes_to (mx_calls []) s lxs.
