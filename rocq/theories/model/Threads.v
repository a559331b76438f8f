(** Goroutines that share one grammar.Grammar: the parsers of parser/packrat and
    parser/topdown and leftrecursion.go, written as sequences of calls of the grammar's
    methods, and the interleavings of such sequences. *)
From Verif.model Require Export GrammarClient Packrat Topdown.
From Verif.spec Require Import GrammarSpec.

(** A computation that calls methods of the grammar: a result, or the next call and how to
    go on with its answer. *)
Inductive prog (R : Type) : Type :=
| Done (r : R)
| Call (c : call) (k : answer -> prog R).
Arguments Done {R} r.
Arguments Call {R} c k.

Fixpoint pbind {A B} (p : prog A) (f : A -> prog B) : prog B :=
  match p with
  | Done a => f a
  | Call c k => Call c (fun a => pbind (k a) f)
  end.
(** Sequencing of computations that may panic or run out of fuel. *)
Definition mbind' {A B} (p : prog (res A)) (f : A -> prog (res B)) : prog (res B) :=
  pbind p (fun r => match r with Ok a => f a | Panic => Done Panic | OutOfFuel => Done OutOfFuel end).
Notation "x <~ e ; k" := (mbind' e (fun x => k))
  (at level 100, e at next level, k at level 200, right associativity).
Notation "' p <~ e ; k" := (mbind' e (fun x => match x with p => k end))
  (at level 100, p pattern, e at next level, k at level 200, right associativity).

(** grammar.NonTerminals() and grammar.Productions(symbol); [own] tells whether the symbol is
    one of the grammar's own. The answer's symbols are read by their names. Productions
    answers with a reference to the grammar's table, which the caller reads until it ends. *)
Definition ask_nts : prog (res (list gostring)) :=
  Call CNonTerminals (fun a => Done (Ok (match a with ANames l => l | _ => [] end))).
Definition ask_prods (s : gostring) (own : bool) : prog (res (option (list (list gostring)))) :=
  Call (CProductions (s, own)) (fun a => Done (Ok (match a with AProds o => o | _ => None end))).

(** set.go:281-290 [LoadGrammar]; the symbols of NonTerminals are the grammar's own. *)
Fixpoint load_nts_p (nts : list gostring) (s : set) : prog (res set) :=
  match nts with
  | [] => Done (Ok s)
  | nt :: r =>
      let s1 := snd (set_str s nt) in
      o <~ ask_prods nt true;
      match o with
      | None => Done Panic
      | Some ps => load_nts_p r (fold_left load_prod ps s1)
      end
  end.
Definition load_grammar_p (s : set) : prog (res set) := nts <~ ask_nts; load_nts_p nts s.

Section Op.
  (** As in section Op of model/Packrat.v, but asking the grammar: [st] is op.set. *)
  Variable fuel0 : nat.
  Variable st : set.
  Variable nonterms : list bool.
  Variable kinds : list nat.

  (** packrat.go:123-124: op.grmr.Productions(op.set.ByIdx(idx)), a foreign symbol. *)
  Definition ask_idx (idx : nat) : prog (res (option (list (list nat)))) :=
    match symb2str st !! idx with
    | Some nm =>
        o <~ ask_prods nm false;
        Done (Ok (option_map (map (map (fun x => fst (set_str st x)))) o))
    | None => Done (Ok None)
    end.

  (** packrat.go:118-149 [addProds] and 229-241 [addPartial] *)
  Fixpoint add_prods_p (fuel : nat) (root : marker) (s : pst) : prog (res pst) :=
    match fuel with
    | O => Done OutOfFuel
    | S f =>
        let add_partial (tp : tpart) (requires : marker) (s : pst) : prog (res pst) :=
          match nonterms !! fst requires with
          | None => Done Panic
          | Some isnt =>
              s1 <~ Done (if (isnt : bool)
                      then Ok (set_partials s
                             (<[requires := lget (partials s) requires ++ [tp]]> (partials s)))
                      else '(s', _) <-! check_non_terminal fuel0 kinds s requires; Ok s');
              let s2 := fold_left (fun s td => push s tp (td_key td))
                                  (lget (markers s1) requires) s1 in
              add_prods_p f requires s2
          end in
        if bool_decide (root ∈ queued s) then Done (Ok s)
        else
          let s1 := set_queued s ({[root]} ∪ queued s) in
          o <~ ask_idx (fst root);
          match o with
          | None => Done (Ok s1)
          | Some ps =>
              (fix loop (i : nat) (ps : list (list nat)) (s : pst) : prog (res pst) :=
                 match ps with
                 | [] => Done (Ok s)
                 | [] :: r =>
                     s' <~ Done (add_to_memo fuel0 s (TDef (root, snd root) [] i));
                     loop (S i) r s'
                 | ((sym :: _) as p) :: r =>
                     s' <~ add_partial (TPart (TDef (root, 0) [] i) p) (sym, snd root) s;
                     loop (S i) r s'
                 end) 0 ps s1
          end
    end.

  (** packrat.go:229-241 [addPartial] as called from update. *)
  Definition add_partial_p (fuel : nat) (tp : tpart) (requires : marker) (s : pst) : prog (res pst) :=
    match nonterms !! fst requires with
    | None => Done Panic
    | Some isnt =>
        s1 <~ Done (if (isnt : bool)
                then Ok (set_partials s
                       (<[requires := lget (partials s) requires ++ [tp]]> (partials s)))
                else '(s', _) <-! check_non_terminal fuel0 kinds s requires; Ok s');
        let s2 := fold_left (fun s td => push s tp (td_key td))
                            (lget (markers s1) requires) s1 in
        add_prods_p fuel requires s2
    end.

  (** packrat.go:151-178 [update] *)
  Fixpoint update_p (fuel : nat) (base : tpart) (ext : key) (s : pst) : prog (res pst) :=
    match fuel with
    | O => Done OutOfFuel
    | S f =>
        let ex := extend base ext in
        let ln := length (td_children (tp_def base)) in
        if S ln =? length (tp_prod ex) then Done (add_to_memo fuel0 s (tp_def ex))
        else
          match tp_prod ex !! S ln with
          | None => Done Panic
          | Some sym =>
              let requires := (sym, snd ext) in
              '(s', o) <~ Done (check_non_terminal fuel0 kinds s (td_marker (tp_def ex)));
              match o with
              | Some td => update_p f ex (td_key td) s'
              | None => add_partial_p fuel0 ex requires s'
              end
          end
    end.

  (** packrat.go:102-106 *)
  Fixpoint run_p (fuel : nat) (s : pst) : prog (res pst) :=
    match stack s with
    | [] => Done (Ok s)
    | (base, ext) :: rest =>
        match fuel with
        | O => Done OutOfFuel
        | S f =>
            s' <~ update_p fuel0 base ext (set_stack s rest);
            run_p f s'
        end
    end.
End Op.

(** packrat.go:76-116 [Parse]: NonTerminals is called on lines 77 and 93 and by LoadGrammar. *)
Definition packrat_p (fuel : nat) (lexemes : list lexeme) : prog (res (option pn)) :=
  nts <~ ask_nts;
  match nts with
  | [] => Done (Ok None)
  | nt0 :: _ =>
      set1 <~ load_grammar_p set_new;
      let '(lxms, st) := load_lexemes set1 lexemes in
      nts2 <~ ask_nts;
      let nonterms := mark_nonterms st nts2 (replicate (sym_count st) false) in
      let kinds := map fst lxms in
      let start := fst (set_str st nt0) in
      s1 <~ add_prods_p fuel st nonterms kinds fuel (start, 0) pst_init;
      s2 <~ run_p fuel st nonterms kinds fuel s1;
      let accept := ((start, 0), length lexemes) in
      let accepted := mget (memo s2) accept in
      if td_end accepted =? length lexemes then
        t <~ Done (to_pn fuel lxms (memo s2) (name_of st) accepted);
        Done (Ok (Some t))
      else Done (Ok None)
  end.

Section Acc.
  (** As in section Acc of model/Topdown.v, but asking the grammar. *)
  Variable lxs : list (nat * lexeme).
  Variable accept : tdst -> tdkey -> bool -> prog (res (aresp * tdst)).

  (** topdown.go:123-133 *)
  Fixpoint accept_seq_p (p : list gostring) (pos : nat) (st : tdst)
    : prog (res (option (list pn * nat) * tdst)) :=
    match p with
    | [] => Done (Ok (Some ([], pos), st))
    | x :: r =>
        let '(v, s1) := set_symbol (td_set st) (Foreign x) in
        ' (a, st1) <~ accept (TdSt (td_memo st) s1) (v, pos) false;
        match a with
        | None => Done (Ok (None, st1))
        | Some (c, e) =>
            ' (b, st2) <~ accept_seq_p r e st1;
            match b with
            | None => Done (Ok (None, st2))
            | Some (cs, e2) => Done (Ok (Some (c :: cs, e2), st2))
            end
        end
    end.
  (** topdown.go:122-137 [acceptProd] *)
  Definition accept_prod_p (k : tdkey) (p : list gostring) (st : tdst) : prog (res (aresp * tdst)) :=
    ' (b, st1) <~ accept_seq_p p (snd k) st;
    match b with
    | None => Done (Ok (None, st1))
    | Some (cs, e) =>
        name <~ Done (sym_string (td_set st1) (Z.of_nat (fst k)));
        Done (Ok (Some (PN (lexeme_new name) cs, e), st1))
    end.
  (** topdown.go:112-117 *)
  Fixpoint accept_prods_p (k : tdkey) (all : bool) (ps : list (list gostring)) (st : tdst)
    : prog (res (aresp * tdst)) :=
    match ps with
    | [] => Done (Ok (None, st))
    | p :: r =>
        ' (a, st1) <~ accept_prod_p k p st;
        match a with
        | Some (t, e) => if negb all || (e =? length lxs) then Done (Ok (a, st1)) else accept_prods_p k all r st1
        | None => accept_prods_p k all r st1
        end
    end.
  (** topdown.go:101-120 [tryAccept]; op.set's symbol is foreign to the grammar. *)
  Definition try_accept_p (k : tdkey) (all : bool) (st : tdst) : prog (res (aresp * tdst)) :=
    name <~ Done (sym_string (td_set st) (Z.of_nat (fst k)));
    o <~ ask_prods name false;
    match o with
    | None =>
        match lxs !! snd k with
        | Some (v, lx) => if fst k =? v then Done (Ok (Some (PN lx [], S (snd k)), st)) else Done (Ok (None, st))
        | None => Done (Ok (None, st))
        end
    | Some ps => accept_prods_p k all ps st
    end.
End Acc.

(** topdown.go:88-95 [accept] *)
Fixpoint td_accept_p (fuel : nat) (lxs : list (nat * lexeme)) (st : tdst) (k : tdkey) (all : bool)
  : prog (res (aresp * tdst)) :=
  match fuel with
  | O => Done OutOfFuel
  | S f =>
      match td_memo st !! k with
      | Some a => Done (Ok (a, st))
      | None =>
          ' (a, st1) <~ try_accept_p lxs (td_accept_p f lxs) k all st;
          Done (Ok (a, TdSt (<[k := a]> (td_memo st1)) (td_set st1)))
      end
  end.

(** topdown.go:32-51 [Parse] *)
Definition td_parse_p (fuel : nat) (lexemes : list lexeme) : prog (res (option pn)) :=
  nts <~ ask_nts;
  match nts with
  | [] => Done (Ok None)
  | s0 :: _ =>
      s1 <~ load_grammar_p set_new;
      let '(lxs, s2) := load_lexemes s1 lexemes in
      let '(start, s3) := set_symbol s2 (Foreign s0) in
      ' (a, _) <~ td_accept_p fuel lxs (TdSt ∅ s3) (start, 0) true;
      Done (Ok (option_map fst a))
  end.

Section LR.
  (** As in section LR of model/LeftRec.v. *)
  Variable check : lrst -> gostring -> prog (res (bool * bool * lrst)).
  (** leftrecursion.go:47-52 *)
  Fixpoint lr_prod_p (p : list gostring) (st : lrst) : prog (res (bool * lrst)) :=
    match p with
    | [] => Done (Ok (false, st))
    | x :: r =>
        ' (isLR, checkNext, st1) <~ check st x;
        if isLR : bool then Done (Ok (true, st1))
        else if checkNext : bool then lr_prod_p r st1 else Done (Ok (false, st1))
    end.
  (** leftrecursion.go:41-53 *)
  Fixpoint lr_prods_p (ps : list (list gostring)) (ret : bool) (st : lrst) : prog (res (bool * bool * lrst)) :=
    match ps with
    | [] => Done (Ok (false, ret, st))
    | [] :: r => lr_prods_p r true st
    | p :: r =>
        ' (isLR, st1) <~ lr_prod_p p st;
        if isLR : bool then Done (Ok (true, false, st1)) else lr_prods_p r ret st1
    end.
End LR.
(** leftrecursion.go:24-58 [lrOp.check]; its symbols are the grammar's own. *)
Fixpoint lr_check_p (fuel : nat) (st : lrst) (s : gostring) : prog (res (bool * bool * lrst)) :=
  match fuel with
  | O => Done OutOfFuel
  | S f =>
      let '(checked, stack) := st in
      if decide (s ∈ checked) then Done (Ok (false, false, st))
      else
        o <~ ask_prods s true;
        match o with
        | None => Done (Ok (false, false, ({[s]} ∪ checked, stack)))
        | Some ps =>
            if decide (s ∈ stack) then Done (Ok (true, false, st))
            else
              ' (isLR, ret, st1) <~ lr_prods_p (lr_check_p f) ps false (checked, {[s]} ∪ stack);
              if isLR : bool then Done (Ok (true, false, st1))
              else Done (Ok (false, ret, ({[s]} ∪ fst st1, snd st1 ∖ {[s]})))
        end
  end.
(** leftrecursion.go:4-17 [IsLeftRecursive], called by topdown.New *)
Fixpoint lr_all_p (fuel : nat) (nts : list gostring) (checked : gset gostring) : prog (res bool) :=
  match nts with
  | [] => Done (Ok false)
  | nt :: r =>
      ' (isLR, _, st) <~ lr_check_p fuel (checked, ∅) nt;
      if isLR : bool then Done (Ok true) else lr_all_p fuel r (fst st)
  end.
Definition is_left_recursive_p (fuel : nat) : prog (res bool) := nts <~ ask_nts; lr_all_p fuel nts ∅.

(** What a goroutine does with the grammar, and what it gets. *)
Inductive job := JPackrat (lexemes : list lexeme) | JTopdown (lexemes : list lexeme) | JLeftRecursive | JCall (c : call).
Inductive outcome := OTree (t : res (option pn)) | OBool (b : res bool) | OAnswer (a : answer).
Definition job_prog (fuel : nat) (j : job) : prog outcome :=
  match j with
  | JPackrat lexemes => pbind (packrat_p fuel lexemes) (fun r => Done (OTree r))
  | JTopdown lexemes => pbind (td_parse_p fuel lexemes) (fun r => Done (OTree r))
  | JLeftRecursive => pbind (is_left_recursive_p fuel) (fun r => Done (OBool r))
  | JCall c => Call c (fun a => Done (OAnswer a))
  end.

(** One goroutine makes its next call. *)
Inductive turn {R} : gr * list (prog R) -> gr * list (prog R) -> Prop :=
| turn_call g ts i c k : ts !! i = Some (Call c k) ->
    turn (g, ts) (snd (gr_call g c), <[i := k (fst (gr_call g c))]> ts).
