(** The texts of lexemes and errors: helpers.go:9-52, lexeme/lexeme.go, errors.go. *)
From Coq Require Import String.
From Coq Require Import Decimal.
From Verif.model Require Export TreeText Run.
Local Open Scope nat_scope.
Local Open Scope list_scope.

(** fmt's %d *)
Fixpoint uint_text (u : Decimal.uint) : gostring :=
  match u with
  | Nil => []
  | D0 u => 48%N :: uint_text u
  | D1 u => 49%N :: uint_text u
  | D2 u => 50%N :: uint_text u
  | D3 u => 51%N :: uint_text u
  | D4 u => 52%N :: uint_text u
  | D5 u => 53%N :: uint_text u
  | D6 u => 54%N :: uint_text u
  | D7 u => 55%N :: uint_text u
  | D8 u => 56%N :: uint_text u
  | D9 u => 57%N :: uint_text u
  end.
Definition int_text (z : Z) : gostring :=
  match Z.to_int z with
  | Decimal.Pos u => uint_text u
  | Decimal.Neg u => L "-" ++ uint_text u
  end.

(** lexeme.go:32-37 [String], 44-47 [Set], 53-56 [At], 59-61 [Copy]; they change the lexeme
    they are called on, which is the result here. *)
Definition lexeme_of (k : gostring) : lexeme := Lx k [] (-1)%Z 0%Z.
Definition lexeme_set (v : gostring) (l : lexeme) : lexeme := Lx (lx_kind l) v (lx_line l) (lx_col l).
Definition lexeme_at (line col : Z) (l : lexeme) : lexeme := Lx (lx_kind l) (lx_val l) line col.
Definition lexeme_copy (l : lexeme) : lexeme :=
  lexeme_at (lx_line l) (lx_col l) (lexeme_set (lx_val l) (lexeme_new (lx_kind l))).

(** lexeme.go:74-83 [Lexeme.String] *)
Definition lexeme_text (print : N -> bool) (l : lexeme) : gostring :=
  let pos := if (lx_line l =? -1)%Z then []
             else L " (" ++ int_text (lx_line l) ++ L ", " ++ int_text (lx_col l) ++ L ")" in
  match lx_val l with
  | [] => L "Lexeme{" ++ lx_kind l ++ pos ++ L "}"
  | v => L "Lexeme{" ++ lx_kind l ++ L ":" ++ quote print v ++ pos ++ L "}"
  end.

(** helpers.go:14-31 [LexemeString] *)
Definition lexemes_string (ls : list lexeme) : gostring :=
  match ls with
  | [] => []
  | _ =>
      let strs := map (fun l => match lx_val l with [] => lx_kind l | v => lx_kind l ++ L ": " ++ v end) ls in
      match strs with
      | [x] => x
      | _ => L "[" ++ strjoin (L ", ") strs ++ L "]"
      end
  end.

(** helpers.go:35-52 [LexemeList] *)
Definition lexeme_list (print : N -> bool) (ls : list lexeme) : gostring :=
  match ls with
  | [] => []
  | _ =>
      strjoin [c_nl] (map (fun l =>
        if (0 <? lx_line l)%Z || (0 <? lx_col l)%Z
        then lx_kind l ++ L ": " ++ quote print (lx_val l) ++ L " (" ++ int_text (lx_line l) ++ L ", " ++ int_text (lx_col l) ++ L ")"
        else lx_kind l ++ L ": " ++ quote print (lx_val l)) ls)
  end.

(** simplelexer/lexer.go:56-58, stacklexer/construct.go:261-263 [errLexeme.Error] *)
Definition lex_error_text (l : lexeme) : gostring :=
  L "Lex Error " ++ int_text (lx_line l) ++ L ":" ++ int_text (lx_col l) ++ L ") " ++ lx_val l.
(** errors.go, and the LexErrors of this repository's lexers. *)
Definition run_error_text (e : run_error) : gostring :=
  match e with
  | ErrCouldNotLex => L "Could Not Lex"
  | ErrLex l => lex_error_text l
  | ErrCouldNotParse => L "Could Not Parse"
  | ErrCouldNotReduce => L "Could Not Reduce"
  end.
