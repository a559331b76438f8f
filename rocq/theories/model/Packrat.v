(** parser/packrat/packrat.go *)
From Verif.model Require Export GoBase SetSym.

(** packrat.go:18-21 [treeMarker] (idx, start); 23-26 [treeKey] (marker, end). *)
Notation marker := (nat * nat)%type.
Notation key := (nat * nat * nat)%type.

(** packrat.go:28-32 [treeDef] *)
Record tdef := TDef { td_key : key; td_children : list key; td_prio : nat }.
(** packrat.go:34-37 [treePartial] *)
Record tpart := TPart { tp_def : tdef; tp_prod : list nat }.

Definition td_marker (d : tdef) : marker := fst (td_key d).
Definition td_end (d : tdef) : nat := snd (td_key d).

(** Go's zero value of treeDef, returned by a map lookup that misses. *)
Definition tdef_zero : tdef := TDef ((0, 0), 0) [] 0.

(** packrat.go:48-58 [prOp]: the mutable part. The linked list of updaters
    (packrat.go:41-45) is a list of (base, extension), top first. *)
Record pst := PSt {
  memo : gmap key tdef;
  markers : gmap marker (list tdef);
  partials : gmap marker (list tpart);
  queued : gset marker;
  stack : list (tpart * key)
}.

Definition mget (m : gmap key tdef) (k : key) : tdef := default tdef_zero (m !! k).
Definition lget {V} (m : gmap marker (list V)) (k : marker) : list V := default [] (m !! k).

(** packrat.go:205-227 [comparePriority]; [td2.children[i]] panics when td2 has
    fewer children. *)
Fixpoint compare_priority (fuel : nat) (m : gmap key tdef) (td td2 : tdef) : res Z :=
  match fuel with
  | O => OutOfFuel
  | S f =>
      if td_prio td =? td_prio td2 then
        (fix loop (cs1 cs2 : list key) : res Z :=
           match cs1 with
           | [] => Ok 0%Z
           | ck1 :: r1 =>
               match cs2 with
               | [] => Panic
               | ck2 :: r2 =>
                   if decide (ck1 = ck2) then loop r1 r2
                   else
                     p <-! compare_priority f m (mget m ck1) (mget m ck2);
                     if (p =? 0)%Z then loop r1 r2 else Ok p
               end
           end) (td_children td) (td_children td2)
      else if td_prio td <? td_prio td2 then Ok 1%Z else Ok (-1)%Z
  end.

(** packrat.go:193-200 [createsCircularDep] *)
Fixpoint circular (fuel : nat) (m : gmap key tdef) (node : tdef) (root : key) : res bool :=
  match fuel with
  | O => OutOfFuel
  | S f =>
      (fix loop (cs : list key) : res bool :=
         match cs with
         | [] => Ok false
         | ck :: r =>
             if decide (ck = root) then Ok true
             else
               b <-! circular f m (mget m ck) root;
               if (b : bool) then Ok true else loop r
         end) (td_children node)
  end.

(** packrat.go:255-261 [push] *)
Definition push (s : pst) (tp : tpart) (tk : key) : pst :=
  PSt (memo s) (markers s) (partials s) (queued s) ((tp, tk) :: stack s).

Definition set_memo (s : pst) (m : gmap key tdef) : pst :=
  PSt m (markers s) (partials s) (queued s) (stack s).
Definition set_markers (s : pst) (m : gmap marker (list tdef)) : pst :=
  PSt (memo s) m (partials s) (queued s) (stack s).
Definition set_partials (s : pst) (m : gmap marker (list tpart)) : pst :=
  PSt (memo s) (markers s) m (queued s) (stack s).
Definition set_queued (s : pst) (q : gset marker) : pst :=
  PSt (memo s) (markers s) (partials s) q (stack s).
Definition set_stack (s : pst) (k : list (tpart * key)) : pst :=
  PSt (memo s) (markers s) (partials s) (queued s) k.

(** packrat.go:180-191 [addToMemo] *)
Definition add_to_memo (fuel : nat) (s : pst) (td : tdef) : res pst :=
  match memo s !! td_key td with
  | None =>
      let s1 := set_memo s (<[td_key td := td]> (memo s)) in
      let s2 := set_markers s1
                  (<[td_marker td := lget (markers s1) (td_marker td) ++ [td]]> (markers s1)) in
      Ok (fold_left (fun s tp => push s tp (td_key td)) (lget (partials s2) (td_marker td)) s2)
  | Some old =>
      c <-! compare_priority fuel (memo s) td old;
      if (c =? 1)%Z then
        b <-! circular fuel (memo s) td (td_key td);
        Ok (if (b : bool) then s else set_memo s (<[td_key td := td]> (memo s)))
      else Ok s
  end.

Section Op.
  (** What prOp reads but never writes. Symbols are the indexes interned in
      op.set; [prods] is op.grmr.Productions composed with ByIdx and re-interning
      (packrat.go:123-124, 139, 165): LoadGrammar has already interned every
      symbol, so re-interning never changes op.set.
      [nonterms] is op.nonterms (a []bool); [kinds] the indexes of the lexemes'
      kinds (op.lxms[i].K.Idx()). *)
  Variable fuel0 : nat.   (* for compare_priority and circular *)
  Variable prods : nat -> option (list (list nat)).
  Variable nonterms : list bool.
  Variable kinds : list nat.

  (** packrat.go:243-253 [checkNonTerminal] *)
  Definition check_non_terminal (s : pst) (at_ : marker) : res (pst * option tdef) :=
    match kinds !! snd at_ with
    | Some k =>
        if fst at_ =? k then
          let td := TDef (at_, S (snd at_)) [] 0 in
          s' <-! add_to_memo fuel0 s td;
          Ok (s', Some td)
        else Ok (s, None)
    | None => Ok (s, None)
    end.

  (** packrat.go:118-149 [addProds] and 229-241 [addPartial], mutually recursive.
      [op.nonterms[requires.idx]] panics when out of range. *)
  Fixpoint add_prods (fuel : nat) (root : marker) (s : pst) : res pst :=
    match fuel with
    | O => OutOfFuel
    | S f =>
        let add_partial (tp : tpart) (requires : marker) (s : pst) : res pst :=
          match nonterms !! fst requires with
          | None => Panic
          | Some isnt =>
              s1 <-! (if (isnt : bool)
                      then Ok (set_partials s
                             (<[requires := lget (partials s) requires ++ [tp]]> (partials s)))
                      else '(s', _) <-! check_non_terminal s requires; Ok s');
              let s2 := fold_left (fun s td => push s tp (td_key td))
                                  (lget (markers s1) requires) s1 in
              add_prods f requires s2
          end in
        if bool_decide (root ∈ queued s) then Ok s
        else
          let s1 := set_queued s ({[root]} ∪ queued s) in
          match prods (fst root) with
          | None => Ok s1
          | Some ps =>
              (fix loop (i : nat) (ps : list (list nat)) (s : pst) : res pst :=
                 match ps with
                 | [] => Ok s
                 | [] :: r =>
                     s' <-! add_to_memo fuel0 s (TDef (root, snd root) [] i);
                     loop (S i) r s'
                 | ((sym :: _) as p) :: r =>
                     s' <-! add_partial (TPart (TDef (root, 0) [] i) p) (sym, snd root) s;
                     loop (S i) r s'
                 end) 0 ps s1
          end
    end.

  (** packrat.go:229-241 [addPartial] as called from update. *)
  Definition add_partial (fuel : nat) (tp : tpart) (requires : marker) (s : pst) : res pst :=
    match nonterms !! fst requires with
    | None => Panic
    | Some isnt =>
        s1 <-! (if (isnt : bool)
                then Ok (set_partials s
                       (<[requires := lget (partials s) requires ++ [tp]]> (partials s)))
                else '(s', _) <-! check_non_terminal s requires; Ok s');
        let s2 := fold_left (fun s td => push s tp (td_key td))
                            (lget (markers s1) requires) s1 in
        add_prods fuel requires s2
    end.

  (** packrat.go:152-157: base extended with one more child *)
  Definition extend (base : tpart) (ext : key) : tpart :=
    TPart (TDef (td_marker (tp_def base), snd ext)
                (td_children (tp_def base) ++ [ext])
                (td_prio (tp_def base)))
          (tp_prod base).

  (** packrat.go:151-178 [update]. Line 169 looks up [extended.treeMarker], as in
      the code. A missing production symbol is a nil *Symbol, whose Idx() panics. *)
  Fixpoint update (fuel : nat) (base : tpart) (ext : key) (s : pst) : res pst :=
    match fuel with
    | O => OutOfFuel
    | S f =>
        let ex := extend base ext in
        let ln := length (td_children (tp_def base)) in
        if S ln =? length (tp_prod ex) then add_to_memo fuel0 s (tp_def ex)
        else
          match tp_prod ex !! S ln with
          | None => Panic
          | Some sym =>
              let requires := (sym, snd ext) in
              '(s', o) <-! check_non_terminal s (td_marker (tp_def ex));
              match o with
              | Some td => update f ex (td_key td) s'
              | None => add_partial fuel0 ex requires s'
              end
          end
    end.

  (** packrat.go:102-106, the main loop *)
  Fixpoint run (fuel : nat) (s : pst) : res pst :=
    match stack s with
    | [] => Ok s
    | (base, ext) :: rest =>
        match fuel with
        | O => OutOfFuel
        | S f =>
            s' <-! update fuel0 base ext (set_stack s rest);
            run f s'
        end
    end.
End Op.

Definition pst_init : pst := PSt ∅ ∅ ∅ ∅ [].

(** packrat.go:263-286 [toPN]. [lxms] pairs each lexeme with its kind's index,
    [name] is set.ByIdx(idx).String(). *)
Fixpoint to_pn (fuel : nat) (lxms : list (nat * lexeme)) (m : gmap key tdef)
    (name : nat -> gostring) (td : tdef) : res pn :=
  match fuel with
  | O => OutOfFuel
  | S f =>
      let '((idx, start), _) := td_key td in
      let own := match lxms !! start with
                 | Some (k, lx) => if k =? idx then Some lx else None
                 | None => None
                 end in
      cs <-! rmap (fun c => to_pn f lxms m name (mget m c)) (td_children td);
      match own with
      | Some lx => Ok (PN lx cs)
      | None =>
          let lx := lexeme_new (name idx) in
          Ok (PN (match cs with
                  | [] => lx
                  | c :: _ => Lx (lx_kind lx) (lx_val lx)
                                 (lx_line (pn_lexeme c)) (lx_col (pn_lexeme c))
                  end) cs)
      end
  end.

(** packrat.go:93-95: the nonterms table *)
Fixpoint mark_nonterms (s : set) (nts : list gostring) (tbl : list bool) : list bool :=
  match nts with
  | [] => tbl
  | nt :: r => mark_nonterms s r (<[fst (set_str s nt) := true]> tbl)
  end.

(** op.grmr.Productions(op.set.ByIdx(idx)), symbols re-interned in op.set. *)
Definition prods_of (g : grammar) (s : set) (idx : nat) : option (list (list nat)) :=
  match symb2str s !! idx with
  | Some nm => option_map (map (map (fun x => fst (set_str s x)))) (g_prods g nm)
  | None => None
  end.

Definition name_of (s : set) (idx : nat) : gostring := default [] (symb2str s !! idx).

(** packrat.go:76-116 [Parse]; [Ok None] is a nil ParseNode. *)
Definition packrat_parse (fuel : nat) (g : grammar) (lexemes : list lexeme) : res (option pn) :=
  match g_nts g with
  | [] => Ok None
  | nt0 :: _ =>
      set1 <-! load_grammar g set_new;
      let '(lxms, st) := load_lexemes set1 lexemes in
      let nonterms := mark_nonterms st (g_nts g) (replicate (sym_count st) false) in
      let kinds := map fst lxms in
      let start := fst (set_str st nt0) in
      s1 <-! add_prods fuel (prods_of g st) nonterms kinds fuel (start, 0) pst_init;
      s2 <-! run fuel (prods_of g st) nonterms kinds fuel s1;
      let accept := ((start, 0), length lexemes) in
      let accepted := mget (memo s2) accept in
      if td_end accepted =? length lexemes then
        t <-! to_pn fuel lxms (memo s2) (name_of st) accepted;
        Ok (Some t)
      else Ok None
  end.
