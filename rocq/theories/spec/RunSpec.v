(** What Run should return, from what its components return. *)
From Verif.model Require Export Run.
From Verif.spec Require Export Outcome LexSpec PackratSpec.

Section S.
  Context {W N : Type}.

  (** Applying reducers in order; nil ones are skipped. *)
  Inductive reduces : list (option (reducer_fn W N)) -> N -> W -> option N -> W -> Prop :=
  | red_done t w : reduces [] t w (Some t) w
  | red_skip rs t w o w' : reduces rs t w o w' -> reduces (None :: rs) t w o w'
  | red_nil f rs t w w' : f t w = Ok (None, w') -> reduces (Some f :: rs) t w None w'
  | red_next f rs t w t1 w1 o w' : f t w = Ok (Some t1, w1) -> reduces rs t1 w1 o w' ->
      reduces (Some f :: rs) t w o w'.

  (** An error among the lexemes, with no error before it. *)
  Definition first_error (xs : list olex) (e : lexeme) : Prop :=
    exists a b, xs = a ++ LErr e :: b /\ forall x, LErr x ∉ a.
  Definition no_error (xs : list olex) : Prop := forall x, LErr x ∉ xs.

  Inductive ran (input : gostring) (lexer : lexer_fn W) (parser : parser_fn W N)
    (rs : list (option (reducer_fn W N))) (w : W) : option N -> option run_error -> W -> Prop :=
  | ran_nolex w1 : lexer input w = Ok (None, w1) ->
      ran input lexer parser rs w None (Some ErrCouldNotLex) w1
  | ran_error xs w1 e : lexer input w = Ok (Some xs, w1) -> first_error xs e ->
      ran input lexer parser rs w None (Some (ErrLex e)) w1
  | ran_noparse xs w1 w2 : lexer input w = Ok (Some xs, w1) -> no_error xs -> parser xs w1 = Ok (None, w2) ->
      ran input lexer parser rs w None (Some ErrCouldNotParse) w2
  | ran_noreduce xs w1 t w2 w3 : lexer input w = Ok (Some xs, w1) -> no_error xs ->
      parser xs w1 = Ok (Some t, w2) -> reduces rs t w2 None w3 ->
      ran input lexer parser rs w None (Some ErrCouldNotReduce) w3
  | ran_ok xs w1 t w2 t' w3 : lexer input w = Ok (Some xs, w1) -> no_error xs ->
      parser xs w1 = Ok (Some t, w2) -> reduces rs t w2 (Some t') w3 ->
      ran input lexer parser rs w (Some t') None w3.

  (** A component that Run gets to panics. *)
  Inductive reduce_breaks : list (option (reducer_fn W N)) -> N -> W -> Prop :=
  | rb_here f rs t w : f t w = Panic -> reduce_breaks (Some f :: rs) t w
  | rb_skip rs t w : reduce_breaks rs t w -> reduce_breaks (None :: rs) t w
  | rb_next f rs t w t1 w1 : f t w = Ok (Some t1, w1) -> reduce_breaks rs t1 w1 ->
      reduce_breaks (Some f :: rs) t w.
  Inductive breaks (input : gostring) (lexer : lexer_fn W) (parser : parser_fn W N)
    (rs : list (option (reducer_fn W N))) (w : W) : Prop :=
  | br_lexer : lexer input w = Panic -> breaks input lexer parser rs w
  | br_parser xs w1 : lexer input w = Ok (Some xs, w1) -> no_error xs -> parser xs w1 = Panic ->
      breaks input lexer parser rs w
  | br_reducer xs w1 t w2 : lexer input w = Ok (Some xs, w1) -> no_error xs ->
      parser xs w1 = Ok (Some t, w2) -> reduce_breaks rs t w2 -> breaks input lexer parser rs w.
End S.

(** Lexemes of a cutting without junk, in order, with what the lexer inserts around them. *)
Definition all_lexemes (cs : list sl_call) (ps : list piece) (lxs : list lexeme) : Prop :=
  exists pre out post,
    extra (st_start (settings_of cs)) pre /\ extra (st_end (settings_of cs)) post
    /\ emits tok_newlines (rules_of cs) (st_error (settings_of cs)) [] ps out
    /\ lxs = map olex_lx (pre ++ out ++ post).

(** Reducers of tree/reducer.go applied in order. *)
Definition reduced (rs : list reducer) (t : pn) : pn := fold_left (fun t r => raw_reduce r t) rs t.
