(** parlex.go (Run, Runner) and helpers.go (LexErrors) *)
From Coq Require Import String.
From Verif.model Require Export SimpleLexer Packrat TreeOps.
Local Open Scope nat_scope.
Local Open Scope list_scope.

Section Run.
  (** [W] is whatever state the components keep between calls; [N] is the type of parse
      nodes. Calls may panic. *)
  Context {W N : Type}.
  (** interfaces.go:35-37 [Lexer]; None for a nil slice, which is not an empty one. *)
  Definition lexer_fn := gostring -> W -> res (option (list olex) * W).
  (** interfaces.go:48-52 [Parser]; None for a nil ParseNode. *)
  Definition parser_fn := list olex -> W -> res (option N * W).
  (** interfaces.go:64-69 [Reducer]; only Reduce is called. *)
  Definition reducer_fn := N -> W -> res (option N * W).

  (** errors.go:7-13, and the LexError returned as it is (parlex.go:10-12). *)
  Inductive run_error := ErrCouldNotLex | ErrLex (x : lexeme) | ErrCouldNotParse | ErrCouldNotReduce.

  (** parlex.go:20-27, the loop; a nil Reducer is None. *)
  Fixpoint run_reducers (rs : list (option reducer_fn)) (t : N) (w : W)
    : res (option N * option run_error * W) :=
    match rs with
    | [] => Ok (Some t, None, w)
    | None :: r => run_reducers r t w
    | Some f :: r =>
        '(o, w1) <-! f t w;
        match o with
        | None => Ok (None, Some ErrCouldNotReduce, w1)
        | Some t1 => run_reducers r t1 w1
        end
    end.

  (** parlex.go:4-30 [Run]: the two results and the state afterwards. *)
  Definition run (input : gostring) (lexer : lexer_fn) (parser : parser_fn)
    (reducers : list (option reducer_fn)) (w : W) : res (option N * option run_error * W) :=
    '(lexemes, w1) <-! lexer input w;
    match lexemes with
    | None => Ok (None, Some ErrCouldNotLex, w1)
    | Some lexemes =>
        match lex_errors lexemes with
        | e :: _ => Ok (None, Some (ErrLex e), w1)
        | [] =>
            '(tree, w2) <-! parser lexemes w1;
            match tree with
            | None => Ok (None, Some ErrCouldNotParse, w2)
            | Some t => run_reducers reducers t w2
            end
        end
    end.

  (** parlex.go:34-38 [Runner], 41-47 [New], 50-52 [Runner.Run] *)
  Record runner := Runner {
    rn_lexer : lexer_fn;
    rn_parser : parser_fn;
    rn_reducers : list (option reducer_fn)
  }.
  Definition runner_new (lexer : lexer_fn) (parser : parser_fn) (reducers : list (option reducer_fn)) : runner :=
    Runner lexer parser reducers.
  Definition runner_run (r : runner) (input : gostring) (w : W) : res (option N * option run_error * W) :=
    run input (rn_lexer r) (rn_parser r) (rn_reducers r) w.
End Run.
Arguments lexer_fn : clear implicits.
Arguments parser_fn : clear implicits.
Arguments reducer_fn : clear implicits.
Arguments runner : clear implicits.

(** The components this repository provides, as Run sees them; [W] is the simple lexer, the
    only component that keeps state. simplelexer.Lex always returns a non-nil slice
    (lexer.go:77). LoadLexemes copies kind, value and position of each lexeme (set.go:294-300),
    so whether one was an error is lost, as here. *)
Definition simple_lexer (fuel : nat) : lexer_fn slexer :=
  fun s l => '(xs, l') <-! slex l s fuel; Ok (Some xs, l').
Definition packrat_parser (fuel : nat) (g : grammar) : parser_fn slexer pn :=
  fun xs l => t <-! packrat_parse fuel g (map olex_lx xs); Ok (t, l).
(** tree/reducer.go:53-59 [Reduce]: never nil. *)
Definition tree_reducer (r : reducer) : reducer_fn slexer pn :=
  fun t l => Ok (Some (raw_reduce r t), l).
(** Run with these. *)
Definition pipeline (l : slexer) (g : grammar) (rs : list reducer) (s : gostring) (fuel : nat)
  : res (option pn * option run_error * slexer) :=
  run s (simple_lexer fuel) (packrat_parser fuel g) (map (fun r => Some (tree_reducer r)) rs) l.
