(** tree/reducer/reducer.go. Strings are bytes. *)
From Coq Require Import String.
From Verif.model Require Export RegexGram.
Local Open Scope string_scope.
Local Open Scope nat_scope.
Local Open Scope list_scope.

(** reducer.go:13-35 [lexerRules], 39-60 [grammarRules] *)
Definition rd_lexer_text : gostring := L (
  nl ++ "  If" ++
  nl ++ "  ChildIs" ++
  nl ++ "  PromoteChild" ++
  nl ++ "  PromoteChildrenOf" ++
  nl ++ "  PromoteChildValue" ++
  nl ++ "  PromoteGrandChildren" ++
  nl ++ "  RemoveAll" ++
  nl ++ "  RemoveChild" ++
  nl ++ "  RemoveChildren" ++
  nl ++ "  PromoteSingleChild" ++
  nl ++ "  ReplaceWithChild" ++
  nl ++ "  Nil" ++
  nl ++ "  number  /-?\d*\.?\d+/" ++
  nl ++ "  rule    /(\w+)/" ++
  nl ++ "  string  /\""([^\""\\]|(\\.))*\""/" ++
  nl ++ "  lp      /\(/" ++
  nl ++ "  rp      /\)/" ++
  nl ++ "  comma   /,/" ++
  nl ++ "  period  /\./" ++
  nl ++ "  comment /\/\/[^\n]*/ -" ++
  nl ++ "  space   /\s+/ -" ++
  nl)%string.
Definition rd_grammar_text : gostring := L (
  nl ++ "  Rules        -> Rule*" ++
  nl ++ "  Rule         -> rule Chain" ++
  nl ++ "  Chain        -> (Reduction period)* Reduction" ++
  nl ++ "  Reduction    -> PromoteSingleChild NoArgs" ++
  nl ++ "               -> RemoveChildren VarNumArg" ++
  nl ++ "               -> PromoteChildValue OneNumArg" ++
  nl ++ "               -> RemoveChild OneNumArg" ++
  nl ++ "               -> ReplaceWithChild OneNumArg" ++
  nl ++ "               -> PromoteGrandChildren NoArgs" ++
  nl ++ "               -> PromoteSingleChild NoArgs" ++
  nl ++ "               -> PromoteChildrenOf OneNumArg" ++
  nl ++ "               -> PromoteChild OneNumArg" ++
  nl ++ "               -> RemoveAll VarStrArg" ++
  nl ++ "               -> Nil" ++
  nl ++ "               -> If lp Condition comma Chain comma Chain rp" ++
  nl ++ "  VarNumArg    -> lp (number comma)* number rp" ++
  nl ++ "  VarStrArg    -> lp (string comma)* string rp" ++
  nl ++ "  OneNumArg    -> lp number rp" ++
  nl ++ "  NoArgs       -> lp rp" ++
  nl ++ "  Condition    -> ChildIs lp number comma string rp" ++
  nl)%string.
(** reducer.go:37, 62-63. [l] and [g] are regexgram's lexer, in whatever state it is in, and
    grammar; Must panics on an error. *)
Definition rd_lexer (compile : compiler) : option slexer := slexer_new compile [rd_lexer_text].
Definition rd_made (l : slexer) (g : gr) (fuel : nat) : res (gr * reducer * slexer) :=
  '(x, l') <-! rg_new l g rd_grammar_text fuel;
  match x with inl gr => Ok (gr, l') | inr _ => Panic end.

(** reducer.go:65-72 [rdcr]; the chained constructors run their methods in order
    (chain_reductions.go:57-158). Merge ranges over its arguments in the orders [ks1], [ks2]. *)
Definition rd_own : reducer :=
  list_to_map [
    (L "Rule", Some (fun n =>
       remove_all [L "period"] (fst (promote_children_of 0 (promote_child_value 0 n)))));
    (L "Reduction", Some (fun n => fst (promote_child 0 (remove_all [L "comma"; L "lp"; L "rp"] n))));
    (L "VarNumArg", Some (fun n => remove_all [L "comma"] (remove_children [0; -1]%Z n)));
    (L "VarStrArg", Some (fun n => remove_all [L "comma"] (remove_children [0; -1]%Z n)));
    (L "OneNumArg", Some (fun n => remove_children [0; -1]%Z n));
    (L "Condition", Some (fun n => fst (promote_child 0 (remove_all [L "comma"; L "lp"; L "rp"] n))))].
Definition rd_rdcr (ks1 ks2 : list gostring) (made : reducer) : reducer := merge_reducers ks1 ks2 made rd_own.

(** strconv.Atoi for a 64-bit int, without its error: ParseUint's loop over the digits, which
    stops at the first overflow; None for a byte that is not a digit. *)
Definition max_uint64 : Z := (2 ^ 64 - 1)%Z.
Definition digit_of (c : N) : option Z :=
  if ((48 <=? c) && (c <=? 57))%N then Some (Z.of_N c - 48)%Z else None.
Fixpoint parse_uint (s : gostring) (n : Z) : option Z :=
  match s with
  | [] => Some n
  | c :: r =>
      match digit_of c with
      | None => None
      | Some d => let n1 := (n * 10 + d)%Z in if (n1 >? max_uint64)%Z then Some max_uint64 else parse_uint r n1
      end
  end.
Definition atoi (s : gostring) : Z :=
  let '(neg, t) := match s with
    | 43%N :: t => (false, t)
    | 45%N :: t => (true, t)
    | _ => (false, s)
    end in
  match t with
  | [] => 0
  | _ =>
      match parse_uint t 0 with
      | None => 0
      | Some un =>
          if neg then if (un >? 2 ^ 63)%Z then - 2 ^ 63 else - un
          else if (un >=? 2 ^ 63)%Z then 2 ^ 63 - 1 else un
      end
  end%Z.

(** n.C[i]; v[1 : len(v)-1]. *)
Definition child_or_panic (cs : list pn) (i : nat) : res pn :=
  match cs !! i with Some c => Ok c | None => Panic end.
Definition unquote (v : gostring) : res gostring :=
  if length v <? 2 then Panic else Ok (take (length v - 2) (drop 1 v)).

(** reducer.go:137-143 [evalVarNumArgs], 145-153 [evalVarStrArgs], 155-161 [evalOneNumArg] *)
Definition eval_var_num_args (n : pn) : list Z := map (fun c => atoi (lx_val (pn_lexeme c))) (pn_children n).
Definition eval_var_str_args (n : pn) : res (list gostring) :=
  rmap (fun c => unquote (lx_val (pn_lexeme c))) (pn_children n).
Definition eval_one_num_arg (n : pn) : Z :=
  match pn_children n with [] => 0%Z | c :: _ => atoi (lx_val (pn_lexeme c)) end.
(** reducer.go:168-175 [evalConditional], with 163-166 [evalOneStrArg]; None for nil. *)
Definition eval_conditional (n : pn) : res (option (pn -> bool)) :=
  if decide (lx_kind (pn_lexeme n) = L "ChildIs") then
    c0 <-! child_or_panic (pn_children n) 0;
    c1 <-! child_or_panic (pn_children n) 1;
    k <-! unquote (lx_val (pn_lexeme c1));
    Ok (Some (fun p => child_is p (atoi (lx_val (pn_lexeme c0))) k))
  else Ok None.

(** reducer.go:105-135 [evalReduction]: [eval_step] is one round, extending r. The methods
    on Reduction are Chain(r, ...) (chain_reductions.go:38-112). *)
Fixpoint eval_step (n : pn) (r : option reduction) : res (option reduction) :=
  match n with
  | PN lx cs =>
      let steps := (fix steps (ns : list pn) (r : option reduction) : res (option reduction) :=
        match ns with
        | [] => Ok r
        | m :: ms => r1 <-! eval_step m r; steps ms r1
        end) in
      let arg0 (f : pn -> reduction) :=
        c <-! child_or_panic cs 0; Ok (chain r (Some (f c))) in
      let k := lx_kind lx in
      if decide (k = L "PromoteSingleChild") then Ok (chain r (Some (fun p => fst (promote_single_child p))))
      else if decide (k = L "RemoveChildren") then arg0 (fun c p => remove_children (eval_var_num_args c) p)
      else if decide (k = L "PromoteChildValue") then arg0 (fun c p => promote_child_value (eval_one_num_arg c) p)
      else if decide (k = L "RemoveChild") then arg0 (fun c p => fst (remove_child (eval_one_num_arg c) p))
      else if decide (k = L "ReplaceWithChild") then arg0 (fun c p => fst (replace_with_child (eval_one_num_arg c) p))
      else if decide (k = L "PromoteGrandChildren") then Ok (chain r (Some promote_grand_children))
      else if decide (k = L "PromoteChildrenOf") then arg0 (fun c p => fst (promote_children_of (eval_one_num_arg c) p))
      else if decide (k = L "RemoveAll") then
        c <-! child_or_panic cs 0;
        xs <-! eval_var_str_args c;
        Ok (chain r (Some (remove_all xs)))
      else if decide (k = L "PromoteChild") then arg0 (fun c p => fst (promote_child (eval_one_num_arg c) p))
      else if decide (k = L "If") then
        match cs with
        | [] => Panic
        | c0 :: rest =>
            c <-! eval_conditional c0;
            match rest with
            | [] => Panic
            | PN _ ts :: rest =>
                t <-! steps ts None;
                match rest with
                | [] => Panic
                | PN _ es :: _ => e <-! steps es None; Ok (chain r (Some (if_ c t e)))
                end
            end
        end
      else Ok r
  end.
Fixpoint eval_steps (ns : list pn) (r : option reduction) : res (option reduction) :=
  match ns with
  | [] => Ok r
  | m :: ms => r1 <-! eval_step m r; eval_steps ms r1
  end.
Definition eval_reduction (ns : list pn) : res (option reduction) := eval_steps ns None.

(** reducer.go:77-91 [Parse], with 101-103 [evalRule]. *)
Definition rd_rule (acc : reducer) (n : pn) : res reducer :=
  if decide (lx_kind (pn_lexeme n) = L "Rule") then
    v <-! eval_reduction (pn_children n);
    Ok (<[lx_val (pn_lexeme n) := v]> acc)
  else Ok acc.
Definition rd_parse (l : slexer) (g : gr) (rd : reducer) (s : gostring) (fuel : nat)
  : res ((reducer + run_error) * slexer) :=
  '(t, e, l') <-! pipeline l (gr_view g) [rd] s fuel;
  match t, e with
  | _, Some e => Ok (inr e, l')
  | Some root, None => r <-! rfold rd_rule (pn_children root) ∅; Ok (inl r, l')
  | None, None => Panic
  end.
