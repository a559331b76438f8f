(** analyze/analysis.go *)
From Verif.model Require Export SetSym.
Local Open Scope nat_scope.
Local Open Scope list_scope.

(** analysis.go:9-17 [Analytics] while firsts runs. Slices are lists of the same length; a
    nil []int is the empty list, as only appending makes one that is not nil. The set may
    grow (Symbol interns), the slices do not. *)
Record astate := AState {
  as_set : set;
  as_done : list bool;
  as_firsts : list (list nat);
  as_nil : list bool;
  as_terms : list bool
}.
(** Go's [xs[i]] and [xs[i] = x], which panic out of range. *)
Definition lget {A} (l : list A) (i : nat) : res A := match l !! i with Some x => Ok x | None => Panic end.
Definition lput {A} (l : list A) (i : nat) (x : A) : res (list A) :=
  match l !! i with Some _ => Ok (<[i := x]> l) | None => Panic end.

(** analysis.go:78-90, the loop over the symbols of a production: (fs, nilInFirst, state).
    [rec] is a.firsts. Productions is asked by name; nil for a terminal. *)
Fixpoint an_symbols (rec : nat -> astate -> res (list nat * bool * astate)) (g : grammar)
  (p : list gostring) (fs : list nat) (nf : bool) (st : astate) : res (list nat * bool * astate) :=
  match p with
  | [] => Ok (fs, nf, st)
  | x :: r =>
      let '(i, s') := set_str (as_set st) x in
      let st := AState s' (as_done st) (as_firsts st) (as_nil st) (as_terms st) in
      match g_prods g x with
      | None =>
          ts <-! lput (as_terms st) i true;
          Ok (fs ++ [i], nf, AState (as_set st) (as_done st) (as_firsts st) (as_nil st) ts)
      | Some _ =>
          '(firsts, do_next, st1) <-! rec i st;
          let nf1 := nf || do_next in
          let fs1 := fs ++ firsts in
          if do_next then an_symbols rec g r fs1 nf1 st1 else Ok (fs1, nf1, st1)
      end
  end.

(** analysis.go:72-91, the loop over the productions. *)
Fixpoint an_prods (rec : nat -> astate -> res (list nat * bool * astate)) (g : grammar)
  (ps : list (list gostring)) (fs : list nat) (nf : bool) (st : astate) : res (list nat * bool * astate) :=
  match ps with
  | [] => Ok (fs, nf, st)
  | [] :: r => an_prods rec g r fs true st
  | p :: r =>
      '(fs1, nf1, st1) <-! an_symbols rec g p fs nf st;
      an_prods rec g r fs1 nf1 st1
  end.

(** analysis.go:62-95 [firsts]; the symbol is given by its index in the set. Iter on a nil
    Productions panics. *)
Fixpoint an_firsts (fuel : nat) (g : grammar) (i : nat) (st : astate) : res (list nat * bool * astate) :=
  match fuel with
  | O => OutOfFuel
  | S f =>
      d <-! lget (as_done st) i;
      if (d : bool) then
        fs <-! lget (as_firsts st) i;
        nf <-! lget (as_nil st) i;
        Ok (fs, nf, st)
      else
        done <-! lput (as_done st) i true;
        name <-! sym_string (as_set st) (Z.of_nat i);
        match g_prods g name with
        | None => Panic
        | Some ps =>
            '(fs, nf, st1) <-! an_prods (an_firsts f g) g ps [] false
                 (AState (as_set st) done (as_firsts st) (as_nil st) (as_terms st));
            n2f <-! lput (as_firsts st1) i fs;
            nil <-! lput (as_nil st1) i nf;
            Ok (fs, nf, AState (as_set st1) (as_done st1) n2f nil (as_terms st1))
        end
  end.

(** analysis.go:9-17 [Analytics]; a nil []bool in first2nonterms is None. *)
Record analytics := Analytics {
  an_set : set;
  an_f2n : list (option (list bool));
  an_n2f : list (list nat);
  an_nil : list bool;
  an_terms : list bool
}.

(** analysis.go:47-58, populating first2nonterms. *)
Definition an_mark (ln symbol : nat) (f2n : list (option (list bool))) (first : nat)
  : res (list (option (list bool))) :=
  o <-! lget f2n first;
  row <-! lput (match o with Some r => r | None => replicate ln false end) symbol true;
  lput f2n first (Some row).
Definition an_marks (ln : nat) (f2n : list (option (list bool))) (sf : nat * list nat)
  : res (list (option (list bool))) :=
  rfold (an_mark ln (fst sf)) (snd sf) f2n.

(** analysis.go:21-60 [Analyze] of a grammar that is not an *Analytics itself. *)
Definition an_nonterm (fuel : nat) (g : grammar) (st : astate) (nt : gostring) : res astate :=
  let '(i, s') := set_str (as_set st) nt in
  '(_, _, st1) <-! an_firsts fuel g i (AState s' (as_done st) (as_firsts st) (as_nil st) (as_terms st));
  Ok st1.
Definition analyze (fuel : nat) (g : grammar) : res analytics :=
  s <-! load_grammar g set_new;
  let ln := sym_count s in
  st <-! rfold (an_nonterm fuel g) (g_nts g)
     (AState s (replicate ln false) (replicate ln []) (replicate ln false) (replicate ln false));
  f2n <-! rfold (an_marks ln) (imap pair (as_firsts st)) (replicate ln None);
  Ok (Analytics (as_set st) f2n (as_firsts st) (as_nil st) (as_terms st)).

(** analysis.go:99-106 [Contains]; a symbol is given by its string, as it is foreign to the
    set, which Analytics does not hand out. *)
Definition an_contains (a : analytics) (x : gostring) : res bool :=
  match set_has_symbol (an_set a) (Foreign x) with
  | None => Ok false
  | Some i =>
      fs <-! lget (an_n2f a) i;
      match fs with
      | _ :: _ => Ok true
      | [] => lget (an_terms a) i
      end
  end.
(** analysis.go:109-119 [NonTerminal] *)
Definition an_nonterminal (a : analytics) (x : gostring) : res bool :=
  match set_has_symbol (an_set a) (Foreign x) with
  | None => Ok false
  | Some i =>
      if length (an_n2f a) <=? i then Ok false
      else fs <-! lget (an_n2f a) i; Ok (match fs with _ :: _ => true | [] => false end)
  end.
(** analysis.go:123-137 [HasFirst] *)
Definition an_has_first (a : analytics) (x f : gostring) : res bool :=
  match set_has_symbol (an_set a) (Foreign f) with
  | None => Ok false
  | Some j =>
      match set_has_symbol (an_set a) (Foreign x) with
      | None => Ok false
      | Some i =>
          o <-! lget (an_f2n a) j;
          match o with
          | None => Ok (i =? j)
          | Some row => lget row i
          end
      end
  end.
(** analysis.go:141-147 [HasNilInFirst] *)
Definition an_has_nil (a : analytics) (x : gostring) : res bool :=
  match set_has_symbol (an_set a) (Foreign x) with
  | None => Ok false
  | Some i => lget (an_nil a) i
  end.
