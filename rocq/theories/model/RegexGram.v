(** grammar/regexgram/regexgram.go *)
From Coq Require Import String.
From Verif.model Require Export Run GrammarGo.
Local Open Scope string_scope.
Local Open Scope nat_scope.
Local Open Scope list_scope.

(** regexgram.go:15-26 [lexerProductions], 28-61 [grammarProductions] *)
Definition nl := String (Ascii.ascii_of_nat 10) EmptyString.
Definition rg_lexer_text : gostring := L (
  nl ++ "  rarr     /->/" ++
  nl ++ "  symbol   /\w+/" ++
  nl ++ "  repeats  /\*/" ++
  nl ++ "  optional /\?/" ++
  nl ++ "  or       /\|/" ++
  nl ++ "  (        /\(/" ++
  nl ++ "  )        /\)/" ++
  nl ++ "  comment  /[\n\r]\s*\/\/[^\n\r]*/ -" ++
  nl ++ "  nl       /[\n\r]\s*/" ++
  nl ++ "  space    /[ \t]+/ -" ++
  nl)%string.
Definition rg_grammar_text : gostring := L (
  nl ++ "  Grammar      -> NL Production Productions NL " ++
  nl ++ "  Productions  -> Production Productions" ++
  nl ++ "               -> ContinueProd Productions" ++
  nl ++ "               -> " ++
  nl ++ "  Production   -> nl symbol rarr Symbols" ++
  nl ++ "  ContinueProd -> nl rarr Symbols" ++
  nl ++ "  Symbols      -> Symbol Symbols" ++
  nl ++ "               ->" ++
  nl ++ "  Symbol       -> Group" ++
  nl ++ "               -> OrSymbol" ++
  nl ++ "               -> RepSymbol" ++
  nl ++ "               -> OptSymbol" ++
  nl ++ "               -> symbol" ++
  nl ++ "  Group        -> ( Symbols )" ++
  nl ++ "  OptSymbol    -> Group optional" ++
  nl ++ "               -> symbol optional" ++
  nl ++ "  RepSymbol    -> Group repeats" ++
  nl ++ "               -> symbol repeats" ++
  nl ++ "  OrSymbol     -> Group or MoreOr" ++
  nl ++ "               -> OptSymbol or MoreOr" ++
  nl ++ "               -> RepSymbol or MoreOr" ++
  nl ++ "               -> symbol or MoreOr" ++
  nl ++ "  MoreOr       -> Group or MoreOr" ++
  nl ++ "               -> OptSymbol or MoreOr" ++
  nl ++ "               -> RepSymbol or MoreOr" ++
  nl ++ "               -> symbol or MoreOr" ++
  nl ++ "               -> Group" ++
  nl ++ "               -> OptSymbol" ++
  nl ++ "               -> RepSymbol" ++
  nl ++ "               -> symbol" ++
  nl ++ "  NL           -> nl" ++
  nl ++ "               ->" ++
  nl)%string.

(** regexgram.go:63-101 [rdcr]. tree.If(c, t, nil).If(...) chains the two; the chained
    constructors run their methods in order (chain_reductions.go:37-105). *)
Definition rg_rdcr : reducer :=
  list_to_map [
    (L "Grammar", Some (fun n =>
       let n := if child_is n 0 (L "NL") then fst (remove_child 0 n) else n in
       let n := if child_is n (-1) (L "NL") then fst (remove_child (-1) n) else n in
       fst (promote_children_of 1 n)));
    (L "Productions", Some (fun n => fst (promote_children_of 1 n)));
    (L "Production", Some (fun n =>
       fst (promote_children_of 0 (promote_child_value 0 (remove_children [0; 2]%Z n)))));
    (L "ContinueProd", Some (fun n => fst (promote_children_of 0 (remove_children [0; 1]%Z n))));
    (L "Symbols", Some (fun n => fst (promote_children_of (-1) n)));
    (L "Symbol", Some (fun n => fst (promote_single_child n)));
    (L "OptSymbol", Some (fun n => fst (remove_child (-1) n)));
    (L "RepSymbol", Some (fun n => fst (remove_child (-1) n)));
    (L "OrSymbol", Some (fun n => fst (promote_children_of 1 (fst (remove_child 1 n)))));
    (L "MoreOr", Some (fun n => fst (promote_children_of 1 (fst (remove_child 1 n)))));
    (L "Group", Some (fun n => fst (promote_children_of 0 (remove_children [0; -1]%Z n))))].

(** regexgram.go:277-279 [rule], [rules], [ruleComb] *)
Notation rg_rule := (list gostring).
Notation rg_rules := (list (list gostring)).

(** regexgram.go:281-291 [mergeRules]; each result is a fresh copy. *)
Definition merge_rules (a b : rg_rules) : rg_rules :=
  flat_map (fun ra => map (fun rb => ra ++ rb) b) a.
(** regexgram.go:293-302 [reduce]; a nil result is the empty list. *)
Definition comb_reduce (rc : list rg_rules) : rg_rules :=
  match rc with
  | [] => []
  | ra :: r => fold_left merge_rules r ra
  end.

(** regexgram.go:110-118 [evalOp]. [set] only turns strings into symbols with those
    strings (C10), so symbols are written as strings and it is left out; [rdcr] is built
    from [bludgeons] at the end. *)
Record rgop := RgOp {
  rg_gram : gr;
  rg_stack : list pn;
  rg_nonterm : gostring;
  rg_bludgeons : gmap gostring (list gostring);
  rg_done : gmap gostring rg_rules
}.

(** regexgram.go:244-267 [getName]; node.C[0] panics when there is no child. *)
Fixpoint get_name (node : pn) : res gostring :=
  match node with
  | PN lx cs =>
      let names := (fix names (cs : list pn) : res (list gostring) :=
        match cs with
        | [] => Ok []
        | c :: r => x <-! get_name c; xs <-! names r; Ok (x :: xs)
        end) in
      let first (suffix : gostring) :=
        match cs with [] => Panic | c :: _ => x <-! get_name c; Ok (x ++ suffix) end in
      let k := lx_kind lx in
      if decide (k = L "symbol") then Ok (lx_val lx)
      else if decide (k = L "OptSymbol") then first (L "?")
      else if decide (k = L "RepSymbol") then first (L "*")
      else if decide (k = L "OrSymbol") then strs <-! names cs; Ok (strjoin (L "|") strs)
      else if decide (k = L "Group") then strs <-! names cs; Ok (L "(" ++ strjoin (L "_") strs ++ L ")")
      else Ok []
  end.

(** regexgram.go:187-231 [addRepeatAsProduction]. tree.Clone copies the node (C37), so
    cp.C is node.C; parent links are not part of these values. *)
Definition fresh_lexeme (k v : gostring) : lexeme := Lx k v 0 0.
Definition add_repeat (node : pn) (op : rgop) : res (rg_rules * rgop) :=
  sym_name <-! get_name node;
  let b := <[rg_nonterm op := default [] (rg_bludgeons op !! rg_nonterm op) ++ [sym_name]]> (rg_bludgeons op) in
  match rg_done op !! sym_name with
  | Some rs => Ok (rs, RgOp (rg_gram op) (rg_stack op) (rg_nonterm op) b (rg_done op))
  | None =>
      let sym_node := PN (fresh_lexeme (L "symbol") sym_name) [] in
      let prod := PN (fresh_lexeme (L "Production") sym_name) (pn_children node ++ [sym_node]) in
      let nil_prod := PN (fresh_lexeme (L "Production") sym_name) [] in
      let rs := [[sym_name]] in
      Ok (rs, RgOp (rg_gram op) (rg_stack op ++ [prod; nil_prod]) (rg_nonterm op) b (<[sym_name := rs]> (rg_done op)))
  end.

(** regexgram.go:163-185 [evalSymbol] *)
Fixpoint eval_symbol (node : pn) (op : rgop) : res (rg_rules * rgop) :=
  match node with
  | PN lx cs =>
      let each := (fix each (cs : list pn) (op : rgop) : res (list rg_rules * rgop) :=
        match cs with
        | [] => Ok ([], op)
        | c :: r =>
            '(rs, op1) <-! eval_symbol c op;
            '(rest, op2) <-! each r op1;
            Ok (rs :: rest, op2)
        end) in
      let k := lx_kind lx in
      if decide (k = L "symbol") then Ok ([[lx_val lx]], op)
      else if decide (k = L "OptSymbol") then
        match cs with
        | [] => Panic
        | c :: _ => '(rs, op1) <-! eval_symbol c op; Ok (rs ++ [[]], op1)
        end
      else if decide (k = L "OrSymbol") then '(rc, op1) <-! each cs op; Ok (List.concat rc, op1)
      else if decide (k = L "Group") then '(rc, op1) <-! each cs op; Ok (comb_reduce rc, op1)
      else if decide (k = L "RepSymbol") then add_repeat node op
      else Ok ([], op)
  end.

(** regexgram.go:150-161 [evalProd], with 269-275 [ruleToProd] *)
Definition merge_symbol (st : rg_rules * rgop) (c : pn) : res (rg_rules * rgop) :=
  '(more, op1) <-! eval_symbol c (snd st);
  Ok (merge_rules (fst st) more, op1).
Definition add_rule_as_prod (nt : gostring) (g : gr) (r : rg_rule) : gr :=
  gr_add g (Foreign nt) (Some (map Foreign r)).
Definition eval_prod (node : pn) (op : rgop) : res rgop :=
  let nt := lx_val (pn_lexeme node) in
  let op1 := RgOp (rg_gram op) (rg_stack op) nt (rg_bludgeons op) (rg_done op) in
  '(rs, op2) <-! rfold merge_symbol (pn_children node) ([[]], op1);
  Ok (RgOp (fold_left (add_rule_as_prod nt) rs (rg_gram op2)) (rg_stack op2) (rg_nonterm op2)
           (rg_bludgeons op2) (rg_done op2)).

(** regexgram.go:233-242 [bludgeon]. A round that promotes leaves i as it is (i-- and
    i++) and the tree smaller by a node; any other advances i past a child. *)
Fixpoint bludgeon_loop (fuel : nat) (symbols : list gostring) (i : Z) (p : pn) : pn :=
  match fuel with
  | O => p
  | S f =>
      if (i <? zlen (pn_children p))%Z then
        if child_at p i symbols
        then bludgeon_loop f symbols i (fst (promote_children_of i p))
        else bludgeon_loop f symbols (i + 1)%Z p
      else p
  end.
(** Nodes of a tree, counting it. *)
Fixpoint pn_nodes (t : pn) : nat :=
  match t with PN _ cs => S (fold_right (fun c n => pn_nodes c + n) 0 cs) end.
Definition bludgeon (symbols : list gostring) (p : pn) : pn := bludgeon_loop (pn_nodes p) symbols 0 p.

(** regexgram.go:120-148 [evalGrammar]. The loop over node.C writes the current
    non-terminal into the lexemes of the others; [rg_loop] is the loop over the stack.
    Go ranges over bludgeons in any order, but every key is set once, from its own entry. *)
Fixpoint rg_fill (cs : list pn) (nonterm : gostring) : list pn :=
  match cs with
  | [] => []
  | PN lx ch :: r =>
      if decide (lx_kind lx = L "Production")
      then PN lx ch :: rg_fill r (lx_val lx)
      else PN (Lx (lx_kind lx) nonterm (lx_line lx) (lx_col lx)) ch :: rg_fill r nonterm
  end.
Fixpoint rg_loop (fuel : nat) (op : rgop) : res rgop :=
  match fuel with
  | O => OutOfFuel
  | S f =>
      match rg_stack op with
      | [] => Ok op
      | node :: rest =>
          op1 <-! eval_prod node (RgOp (rg_gram op) rest (rg_nonterm op) (rg_bludgeons op) (rg_done op));
          rg_loop f op1
      end
  end.
Definition eval_grammar (node : pn) (fuel : nat) : res (gr * reducer) :=
  op <-! rg_loop fuel (RgOp gr_empty (rg_fill (pn_children node) []) [] ∅ ∅);
  Ok (rg_gram op, (fun symbols => Some (bludgeon symbols)) <$> rg_bludgeons op).

(** regexgram.go:103-108. [compile] is regexp.Compile. The rules of lexerProductions all
    compile and have distinct kinds, the grammar parses. *)
Definition rg_lexer (compile : compiler) : option slexer :=
  option_map (fun l => insert_start l (L "nl") [c_nl]) (slexer_new compile [rg_lexer_text]).
Definition rg_grammar : option gr := gr_new rg_grammar_text.

(** regexgram.go:304-312 [New]. [l] is the package's lexer; None for the error Run
    returned. A tree.Reducer always returns a tree. *)
Definition rg_new (l : slexer) (g : gr) (s : gostring) (fuel : nat)
  : res ((gr * reducer + run_error) * slexer) :=
  '(t, e, l') <-! pipeline l (gr_view g) [rg_rdcr] s fuel;
  match t, e with
  | Some t, None => x <-! eval_grammar t fuel; Ok (inl x, l')
  | _, Some e => Ok (inr e, l')
  | None, None => Panic
  end.
