(** examples/parlexmath/math.go. Strings are bytes. *)
From Coq Require Import String.
From Verif.model Require Export Run GrammarGo.
Local Open Scope string_scope.
Local Open Scope nat_scope.
Local Open Scope list_scope.

(** math.go:12-19 [lexerRules], 21-28 [grammarRules] *)
Definition mx_nl := String (Ascii.ascii_of_nat 10) EmptyString.
Definition mx_lexer_text : gostring := L (
  mx_nl ++ "  space  /\s+/ -" ++
  mx_nl ++ "  number /\d*\.?\d+/" ++
  mx_nl ++ "  op1 /[\*\/]/" ++
  mx_nl ++ "  op2 /[\+\-]/" ++
  mx_nl ++ "  ( /\(/" ++
  mx_nl ++ "  ) /\)/" ++
  mx_nl)%string.
Definition mx_grammar_text : gostring := L (
  mx_nl ++ "  E -> E op2 E" ++
  mx_nl ++ "    -> E op1 E" ++
  mx_nl ++ "    -> number" ++
  mx_nl ++ "    -> op2 number" ++
  mx_nl ++ "    -> P" ++
  mx_nl ++ "  P -> ( E )" ++
  mx_nl)%string.
(** math.go:30-31. [compile] is regexp.Compile. *)
Definition mx_lexer (compile : compiler) : option slexer := slexer_new compile [mx_lexer_text].
Definition mx_grammar : option gr := gr_new mx_grammar_text.

(** math.go:34-44 [reducer] *)
Definition mx_reduce_e (node : pn) : pn :=
  match length (pn_children node) with
  | 1 | 2 => fst (promote_child 0 node)
  | 3 => fst (promote_child 1 node)
  | _ => node
  end.
Definition mx_rdcr : reducer :=
  list_to_map [(L "E", Some mx_reduce_e); (L "P", Some (fun node => fst (replace_with_child 1 node)))].

(** float64: the arithmetic and what ParseFloat returns (its error is dropped, math.go:62)
    are left open. *)
Record arith := Arith {
  fl : Type;
  f_zero : fl;
  f_parse : gostring -> fl;
  f_neg : fl -> fl;
  f_add : fl -> fl -> fl;
  f_sub : fl -> fl -> fl;
  f_mul : fl -> fl -> fl;
  f_div : fl -> fl -> fl
}.

Section Eval.
  Variable A : arith.
  (** math.go:73-88, the operator; 0 for an operator it does not know. *)
  Definition mx_apply (v : gostring) (a b : fl A) : fl A :=
    if decide (v = L "+") then f_add A a b
    else if decide (v = L "*") then f_mul A a b
    else if decide (v = L "/") then f_div A a b
    else if decide (v = L "-") then f_sub A a b
    else f_zero A.
  (** math.go:58-88 [eval]. Child(i) out of range is nil, and Kind of it panics. *)
  Fixpoint mx_eval (node : pn) : res (fl A) :=
    match node with
    | PN lx cs =>
        if decide (lx_kind lx = L "number") then Ok (f_parse A (lx_val lx))
        else if decide (lx_kind lx = L "op2" \/ lx_kind lx = L "op1") then
          match cs with
          | [] => Panic
          | [c] =>
              a <-! mx_eval c;
              if decide (lx_kind lx = L "op2")
              then Ok (if decide (lx_val lx = L "-") then f_neg A a else a)
              else Panic
          | c :: d :: _ =>
              a <-! mx_eval c;
              b <-! mx_eval d;
              Ok (mx_apply (lx_val lx) a b)
          end
        else Ok (f_zero A)
    end.
  (** math.go:50-56 [Eval], with the lexer afterwards. On an error the number is 0. *)
  Definition mx_run (l : slexer) (g : gr) (expr : gostring) (fuel : nat) : res ((fl A * option run_error) * slexer) :=
    '(t, e, l') <-! pipeline l (gr_view g) [mx_rdcr] expr fuel;
    match e, t with
    | Some e, _ => Ok ((f_zero A, Some e), l')
    | None, Some t => x <-! mx_eval t; Ok ((x, None), l')
    | None, None => Panic
    end.
End Eval.
