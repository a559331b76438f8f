(** examples/scalc/scalc.go. Strings are bytes. *)
From Coq Require Import String.
From Verif.model Require Export Run GrammarGo.
Local Open Scope string_scope.
Local Open Scope nat_scope.
Local Open Scope list_scope.

(** scalc.go:15-26 [lexerRules], 28-49 [grammarRules] *)
Definition sc_nl := String (Ascii.ascii_of_nat 10) EmptyString.
Definition sc_lexer_text : gostring := L (
  sc_nl ++ "  space /\s+/ -" ++
  sc_nl ++ "  int   /(\+|-)?\d+/" ++
  sc_nl ++ "  dec   /\.\d+/" ++
  sc_nl ++ "  uop   /(--)|(abs)/" ++
  sc_nl ++ "  bop   /(cmpr)|[\*\/+\-\^%><=]/" ++
  sc_nl ++ "  sop   /(len)|(sum)|(avg)|(min)|(max)|(first)|(last)/" ++
  sc_nl ++ "  smp   /(swap)|(drop)|(clear)/" ++
  sc_nl ++ "  ?     /\?/" ++
  sc_nl ++ "  (     /\(/" ++
  sc_nl ++ "  )     /\)/" ++
  sc_nl)%string.
Definition sc_grammar_text : gostring := L (
  sc_nl ++ "  Stack  -> Stack Smp" ++
  sc_nl ++ "         -> E Stack" ++
  sc_nl ++ "         -> Stack P Stack" ++
  sc_nl ++ "         ->" ++
  sc_nl ++ "  E      -> Stack Sop" ++
  sc_nl ++ "         -> E E E ?" ++
  sc_nl ++ "         -> E Uop" ++
  sc_nl ++ "         -> E E Bop" ++
  sc_nl ++ "         -> Number" ++
  sc_nl ++ "  Number -> int" ++
  sc_nl ++ "         -> int dec" ++
  sc_nl ++ "  P      -> ( Stack )" ++
  sc_nl ++ "  Bop    -> bop" ++
  sc_nl ++ "         -> Bop Bop E ?" ++
  sc_nl ++ "  Uop    -> uop" ++
  sc_nl ++ "         -> Uop Uop E ?" ++
  sc_nl ++ "  Sop    -> sop" ++
  sc_nl ++ "         -> Sop Sop E ?" ++
  sc_nl ++ "  Smp    -> Smp Smp E ?" ++
  sc_nl ++ "         -> smp" ++
  sc_nl)%string.
(** scalc.go:75-76. [compile] is regexp.Compile. *)
Definition sc_lexer (compile : compiler) : option slexer := slexer_new compile [sc_lexer_text].
Definition sc_grammar : option gr := gr_new sc_grammar_text.

(** scalc.go:61-73 [stack] *)
Definition sc_reduce_stack (node : pn) : pn :=
  let node := if child_at node (-1) [L "Stack"] then fst (promote_children_of (-1) node) else node in
  let node := if child_at node 0 [L "Stack"] then fst (promote_children_of 0 node) else node in
  if child_at node (-1) [L "smp"; L "?"] then fst (promote_child (-1) node)
  else fst (promote_single_child node).
(** scalc.go:51-59 [rdcr] *)
Definition sc_promote_last (node : pn) : pn := fst (promote_child (-1) node).
Definition sc_rdcr : reducer :=
  list_to_map [(L "Stack", Some sc_reduce_stack); (L "E", Some sc_promote_last);
    (L "P", Some (fun node => fst (replace_with_child 1 node)));
    (L "Bop", Some sc_promote_last); (L "Uop", Some sc_promote_last);
    (L "Sop", Some sc_promote_last); (L "Smp", Some sc_promote_last)].

(** float64: the arithmetic, math.Pow and math.Mod, the comparisons, the constants 1 and -1,
    the conversion from int and what ParseFloat returns (its error is dropped, scalc.go:154
    and 157) are left open. *)
Record sarith := SArith {
  sf : Type;
  sf_zero : sf;
  sf_one : sf;
  sf_minus_one : sf;
  sf_parse : gostring -> sf;
  sf_of_len : nat -> sf;
  sf_neg : sf -> sf;
  sf_add : sf -> sf -> sf;
  sf_sub : sf -> sf -> sf;
  sf_mul : sf -> sf -> sf;
  sf_div : sf -> sf -> sf;
  sf_pow : sf -> sf -> sf;
  sf_mod : sf -> sf -> sf;
  sf_lt : sf -> sf -> bool;
  sf_eq : sf -> sf -> bool
}.

Section Eval.
  Variable A : sarith.
  (** scalc.go:94-97 [Pfloat]; line 167, the zero Pfloat. String (100-103) is not modelled. *)
  Record pfloat := PF { pf_v : sf A; pf_p : Z }.
  Definition pf_zero : pfloat := PF (sf_zero A) 0.

  (** scalc.go:268-276 [maxPrecision] *)
  Definition max_precision (pfs : list pfloat) : Z :=
    fold_left (fun m p => if (m <? pf_p p)%Z then pf_p p else m) pfs 0%Z.

  (** scalc.go:133-147 [evalSmp] *)
  Definition sc_smp (op : pn) : pn :=
    let v := lx_val (pn_lexeme op) in
    let C := pn_children op in
    let ln := length C in
    if decide (v = L "swap") then
      match C !! (ln - 1), C !! (ln - 2) with
      | Some a, Some b => if 1 <? ln then PN (pn_lexeme op) (<[ln - 1 := b]> (<[ln - 2 := a]> C)) else op
      | _, _ => op
      end
    else if decide (v = L "drop") then
      if 0 <? ln then PN (pn_lexeme op) (take (ln - 1) C) else op
    else if decide (v = L "clear") then PN (pn_lexeme op) []
    else op.

  (** scalc.go:170-181 [evalUop], the operand evaluated. *)
  Definition sc_uop (v : gostring) (ae : pfloat) : pfloat :=
    if decide (v = L "--") then PF (sf_neg A (pf_v ae)) (pf_p ae)
    else if decide (v = L "abs") then
      if sf_lt A (pf_v ae) (sf_zero A) then PF (sf_neg A (pf_v ae)) (pf_p ae) else ae
    else ae.

  (** scalc.go:183-222 [evalBop], the operands evaluated; a > b is b < a. *)
  Definition sc_bop_value (v : gostring) (a b : sf A) : sf A :=
    if decide (v = L "+") then sf_add A a b
    else if decide (v = L "*") then sf_mul A a b
    else if decide (v = L "/") then sf_div A a b
    else if decide (v = L "-") then sf_sub A a b
    else if decide (v = L "^") then sf_pow A a b
    else if decide (v = L "%") then sf_mod A a b
    else if decide (v = L ">") then if sf_lt A b a then sf_one A else sf_zero A
    else if decide (v = L "<") then if sf_lt A a b then sf_one A else sf_zero A
    else if decide (v = L "=") then if sf_eq A a b then sf_one A else sf_zero A
    else if decide (v = L "cmpr") then
      if sf_lt A b a then sf_one A else if sf_lt A a b then sf_minus_one A else sf_zero A
    else sf_zero A.
  Definition sc_bop (v : gostring) (ae be : pfloat) : pfloat :=
    PF (sc_bop_value v (pf_v ae) (pf_v be)) (max_precision [ae; be]).

  (** scalc.go:224-266 [evalSop] *)
  Definition sc_sop (v : gostring) (stack : list pfloat) : pfloat :=
    if decide (v = L "sum" \/ v = L "avg") then
      let total := fold_left (fun t p => sf_add A t (pf_v p)) stack (sf_zero A) in
      PF (if decide (v = L "avg" /\ 0 < length stack) then sf_div A total (sf_of_len A (length stack)) else total)
         (max_precision stack)
    else if decide (v = L "len") then PF (sf_of_len A (length stack)) 0
    else if decide (v = L "min") then
      match stack with
      | [] => pf_zero
      | x :: r => fold_left (fun v p => if sf_lt A (pf_v p) (pf_v v) then p else v) r x
      end
    else if decide (v = L "max") then
      match stack with
      | [] => pf_zero
      | x :: r => fold_left (fun v p => if sf_lt A (pf_v v) (pf_v p) then p else v) r x
      end
    else if decide (v = L "last") then
      match stack with [] => pf_zero | x :: _ => x end
    else if decide (v = L "first") then
      match last stack with None => pf_zero | Some x => x end
    else pf_zero.

  (** scalc.go:105-131 [evalStack] and 149-168 [evalE]. The tree is fresh from Reduce and
      every node is evaluated at most once, so mutating it is passing on the new node.
      Child(-1) of a node without children is nil, and the type assertion panics, as do
      C[0] and C[1] out of range. *)
  Fixpoint sc_stack (fuel : nat) (node : pn) : res (list pfloat) :=
    match fuel with
    | O => OutOfFuel
    | S n =>
        let kind := lx_kind (pn_lexeme node) in
        if decide (kind = L "?") then
          match child node (-1) with
          | None => Panic
          | Some c =>
              v <-! sc_e n c;
              let node := fst (remove_child (-1) node) in
              let node := if sf_lt A (sf_zero A) (pf_v v)
                          then fst (promote_child (-1) (fst (remove_child (-2) node)))
                          else fst (promote_child (-1) (fst (remove_child (-1) node))) in
              sc_stack n node
          end
        else if decide (kind = L "smp") then rmap (sc_e n) (pn_children (sc_smp node))
        else if decide (kind = L "Stack") then rmap (sc_e n) (pn_children node)
        else v <-! sc_e n node; Ok [v]
    end
  with sc_e (fuel : nat) (node : pn) : res pfloat :=
    match fuel with
    | O => OutOfFuel
    | S n =>
        let kind := lx_kind (pn_lexeme node) in
        let v := lx_val (pn_lexeme node) in
        if decide (kind = L "Number") then
          Ok match pn_children node with
             | [a; b] => PF (sf_parse A (lx_val (pn_lexeme a) ++ lx_val (pn_lexeme b)))
                            (Z.of_nat (length (lx_val (pn_lexeme b))) - 1)
             | [a] => PF (sf_parse A (lx_val (pn_lexeme a))) 0
             | _ => pf_zero
             end
        else if decide (kind = L "uop") then
          match pn_children node with
          | a :: _ => ae <-! sc_e n a; Ok (sc_uop v ae)
          | [] => Panic
          end
        else if decide (kind = L "bop") then
          match pn_children node with
          | a :: b :: _ => ae <-! sc_e n a; be <-! sc_e n b; Ok (sc_bop v ae be)
          | _ => Panic
          end
        else if decide (kind = L "sop") then
          match pn_children node with
          | a :: _ => s <-! sc_stack n a; Ok (sc_sop v s)
          | [] => Panic
          end
        else Ok pf_zero
    end.

  (** scalc.go:80-82 [Parse], with the lexer afterwards; [None] is nil. *)
  Definition sc_parse (l : slexer) (g : gr) (str : gostring) (fuel : nat) : res (option pn * slexer) :=
    '(xs, l') <-! slex l str fuel;
    t <-! packrat_parse fuel (gr_view g) (map olex_lx xs);
    Ok (match t with Some t => Some (raw_reduce sc_rdcr t) | None => None end, l').
  (** scalc.go:85-91 [Eval]; [None] is nil. *)
  Definition sc_eval (l : slexer) (g : gr) (str : gostring) (fuel : nat) : res (option (list pfloat) * slexer) :=
    '(t, l') <-! sc_parse l g str fuel;
    match t with
    | None => Ok (None, l')
    | Some t => x <-! sc_stack fuel t; Ok (Some x, l')
    end.
End Eval.
Arguments PF {A}.
Arguments pf_v {A}.
Arguments pf_p {A}.
Arguments pf_zero {A}.
