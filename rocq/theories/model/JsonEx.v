(** examples/parlexjson/json.go. Strings are bytes. *)
From Coq Require Import String.
From Verif.model Require Export ReducerText Topdown.
Local Open Scope string_scope.
Local Open Scope nat_scope.
Local Open Scope list_scope.

(** json.go:15-27 [lexerRules], 28-35 [grammarRules], 36-45 [reduceRules] *)
Definition tab := String (Ascii.ascii_of_nat 9) EmptyString.
Definition js_lexer_text : gostring := L (
  nl ++ tab ++ tab ++ "space  /\s+/ -" ++
  nl ++ tab ++ tab ++ "number /\d*\.?\d+/" ++
  nl ++ tab ++ tab ++ "string /(\""([^\""\\]|(\\.))*\"")/" ++
  nl ++ tab ++ tab ++ "bool   /(true)|(false)/" ++
  nl ++ tab ++ tab ++ "null" ++
  nl ++ tab ++ tab ++ "comma  /,/" ++
  nl ++ tab ++ tab ++ "lcb    /\{/" ++
  nl ++ tab ++ tab ++ "rcb    /\}/" ++
  nl ++ tab ++ tab ++ "lb     /\[/" ++
  nl ++ tab ++ tab ++ "rb     /\]/" ++
  nl ++ tab ++ tab ++ "colon  /:/" ++
  nl ++ tab)%string.
Definition js_grammar_text : gostring := L (
  nl ++ " " ++ tab ++ tab ++ "Value       -> string | number | bool | null | Array | Object" ++
  nl ++ " " ++ tab ++ tab ++ "Array       -> lb ( Value MoreVals* )? rb" ++
  nl ++ " " ++ tab ++ tab ++ "MoreVals    -> comma Value" ++
  nl ++ " " ++ tab ++ tab ++ "Object      -> lcb ( KeyVal MoreKeyVals* )? rcb" ++
  nl ++ " " ++ tab ++ tab ++ "MoreKeyVals -> comma KeyVal" ++
  nl ++ " " ++ tab ++ tab ++ "KeyVal      -> string colon Value" ++
  nl ++ tab ++ " ")%string.
Definition js_reduce_text : gostring := L (
  nl ++ tab ++ tab ++ "Value PromoteSingleChild()" ++
  nl ++ tab ++ tab ++ "Object      RemoveChildren(0, -1)  // remove { }" ++
  nl ++ tab ++ tab ++ "Array       RemoveChildren(0, -1)  // remove [ ]" ++
  nl ++ tab ++ tab ++ "KeyVal      PromoteChildValue(0)   // Promote key" ++
  nl ++ tab ++ tab ++ tab ++ tab ++ tab ++ ".RemoveChild(0) " ++ tab ++ tab ++ "   // remove :" ++
  nl ++ tab ++ tab ++ "MoreVals    ReplaceWithChild(1)" ++ tab ++ "   // MoreVals -> {, Val} ==> Val" ++
  nl ++ tab ++ tab ++ "MoreKeyVals ReplaceWithChild(1)" ++ tab ++ "   // MoreKeyVals -> {, KeyVal} ==> KeyVal" ++
  nl ++ tab)%string.

(** json.go:49-51. MustLexer, Must and MustParser panic on an error. [l] and [g] are
    regexgram's variables, in whatever state its lexer is in; [fuel] also bounds the walk of
    IsLeftRecursive. *)
Definition js_lexer (compile : compiler) : option slexer := slexer_new compile [js_lexer_text].
Definition js_made (l : slexer) (g : gr) (fuel : nat) : res (gr * reducer * slexer) :=
  '(x, l') <-! rg_new l g js_grammar_text fuel;
  match x with
  | inl (gj, made) =>
      ok <-! td_new fuel (gr_view gj);
      if ok : bool then Ok (gj, made, l') else Panic
  | inr _ => Panic
  end.
(** json.go:52, reducer.Must (reducer.go:93-99); [l], [g] and [rd] are the reducer
    package's variables. *)
Definition js_described (l : slexer) (g : gr) (rd : reducer) (fuel : nat) : res (reducer * slexer) :=
  '(x, l') <-! rd_parse l g rd js_reduce_text fuel;
  match x with inl r => Ok (r, l') | inr _ => Panic end.
Definition js_rdcr (ks1 ks2 : list gostring) (made described : reducer) : reducer :=
  merge_reducers ks1 ks2 made described.

(** topdown.go:32-51 as Run sees it. The tree is a value here: topdown shares the nodes of
    its memo, but no two nodes of one tree of this grammar have the same symbol and
    position, so none is shared. *)
Definition topdown_parser (fuel : nat) (g : grammar) : parser_fn slexer pn :=
  fun xs l => t <-! td_parse fuel g (map olex_lx xs); Ok (t, l).
(** json.go:53 [runner], and runner.Run (parlex.go:50-52) *)
Definition js_run (l : slexer) (g : gr) (rd : reducer) (s : gostring) (fuel : nat)
  : res (option pn * option run_error * slexer) :=
  runner_run (runner_new (simple_lexer fuel) (topdown_parser fuel (gr_view g)) [Some (tree_reducer rd)]) s l.

(** json.go:68-121 [prettyPrint]: the bytes it adds to buf. Child(0) of a node without
    children is nil, and Kind of it panics. *)
Fixpoint pretty (node : pn) (pad : gostring) : res gostring :=
  match node with
  | PN lx cs =>
      let cpad := pad ++ L "  " in
      let array := (fix array (cs : list pn) (first prepend : bool) : res gostring :=
        match cs with
        | [] => Ok ((if prepend then [c_nl] ++ pad else []) ++ L "]")
        | c :: r =>
            let k := lx_kind (pn_lexeme c) in
            let nested := bool_decide (k = L "Array") || bool_decide (k = L "Object") in
            x <-! pretty c cpad;
            y <-! array r false (prepend || nested);
            Ok ((if first then [] else L ",") ++ (if nested then [c_nl] ++ cpad else []) ++ x ++ y)
        end) in
      let object := (fix object (cs : list pn) (first : bool) : res gostring :=
        match cs with
        | [] => Ok ([c_nl] ++ pad ++ L "}")
        | c :: r =>
            x <-! pretty c cpad;
            y <-! object r false;
            Ok ((if first then [] else L "," ++ [c_nl]) ++ cpad ++ x ++ y)
        end) in
      if decide (lx_kind lx = L "Array") then
        x <-! array cs true false; Ok (L "[" ++ x)
      else if decide (lx_kind lx = L "Object") then
        match cs with
        | [] => Ok (L "{}")
        | [c] => x <-! pretty c pad; Ok (L "{" ++ x ++ L "}")
        | _ => x <-! object cs true; Ok (L "{" ++ [c_nl] ++ x)
        end
      else if decide (lx_kind lx = L "KeyVal") then
        match cs with
        | [] => Panic
        | c :: _ => x <-! pretty c pad; Ok (lx_val lx ++ L ": " ++ x)
        end
      else Ok (lx_val lx)
  end.

(** json.go:58-66 [Format], with the lexer afterwards; on an error the string is empty. *)
Definition js_format (l : slexer) (g : gr) (rd : reducer) (s : gostring) (fuel : nat)
  : res ((gostring * option run_error) * slexer) :=
  '(t, e, l') <-! js_run l g rd s fuel;
  match e, t with
  | Some e, _ => Ok (([], Some e), l')
  | None, Some t => x <-! pretty t []; Ok ((x, None), l')
  | None, None => Panic
  end.
