(** grammar/grammar.go *)
From Coq Require Import String.
From Verif.model Require Export GoStrings SetSym.

(** grammar.go:61-67 [Grammar]; the fields longest and totalCount are never read.
    [gr_prods !! i = Some None] is a nil *Productions. *)
Record gr := Gr {
  gr_order : list nat;
  gr_prods : list (option (list (list nat)));
  gr_set : set
}.

(** grammar.go:112-117 [Empty] *)
Definition gr_empty : gr := Gr [] [] set_new.

(** grammar.go:15-29 [trimAndSplit] *)
Fixpoint intern_words (s : set) (strs : list gostring) : list nat * set :=
  match strs with
  | [] => ([], s)
  | x :: r =>
      let x := trim x in
      match x with
      | [] => intern_words s r
      | _ =>
          let '(v, s1) := set_str s x in
          let '(vs, s2) := intern_words s1 r in
          (v :: vs, s2)
      end
  end.
(** Line 28 re-casts symbols that already belong to the set, which changes nothing. *)
Definition trim_and_split (s : set) (str : gostring) : list nat * set :=
  intern_words s (split1 c_sp (trim str)).

(** grammar.go:39-57 [productionFromLine]: non-terminal, production, new set, or an
    error ([None]). *)
Definition production_from_line (s : set) (line : gostring)
  : option (option nat * option (list nat) * set) :=
  let line := trim line in
  match line with
  | [] => Some (None, None, s)
  | _ =>
      match split2 c_minus c_gt line with
      | [p0] => let '(prod, s1) := trim_and_split s p0 in Some (None, Some prod, s1)
      | [p0; p1] =>
          let ntstr := trim p0 in
          let '(nt, s1) := match ntstr with
                           | [] => (None, s)
                           | _ => let '(v, s1) := set_str s ntstr in (Some v, s1)
                           end in
          let '(prod, s2) := trim_and_split s1 p1 in
          Some (nt, Some prod, s2)
      | _ => None
      end
  end.

(** grammar.go:92-103 and 153-165: append [prod] to the productions of symbol
    [cur], growing the table and the order as needed. *)
Definition gr_add_idx (g : gr) (cur : nat) (prod : list nat) : gr :=
  let '(prods, tbl) :=
    if cur <? length (gr_prods g)
    then (default None (gr_prods g !! cur), gr_prods g)
    else (None, gr_prods g ++ replicate (1 + cur - length (gr_prods g)) None) in
  match prods with
  | None => Gr (gr_order g ++ [cur]) (<[cur := Some [prod]]> tbl) (gr_set g)
  | Some ps => Gr (gr_order g) (<[cur := Some (ps ++ [prod])]> tbl) (gr_set g)
  end.

(** grammar.go:79-104, the loop of [New]; [cur] is [None] for -1. The result is
    [None] for ErrBadGrammar. *)
Fixpoint new_loop (lines : list gostring) (cur : option nat) (g : gr) : option gr :=
  match lines with
  | [] => Some g
  | line :: r =>
      match production_from_line (gr_set g) line with
      | None => None
      | Some (nt, prod, s1) =>
          let g1 := Gr (gr_order g) (gr_prods g) s1 in
          match prod with
          | None => new_loop r cur g1
          | Some p =>
              let '(c, s2) := match nt, cur with
                              | Some v, _ => (v, s1)
                              | None, Some c => (c, s1)
                              | None, None => set_str s1 (L "START")
                              end in
              new_loop r (Some c) (gr_add_idx (Gr (gr_order g) (gr_prods g) s2) c p)
          end
      end
  end.

(** grammar.go:73-106 [New] *)
Definition gr_new (def : gostring) : option gr :=
  new_loop (split1 c_nl def) None gr_empty.

(** grammar.go:122-132 [Productions]; [None] for nil. Interning the symbol may grow
    the set, so the new grammar is returned too. *)
Definition gr_productions (g : gr) (x : psym) : option (list (list nat)) * gr :=
  let '(idx, s1) := set_symbol (gr_set g) x in
  let g1 := Gr (gr_order g) (gr_prods g) s1 in
  (if length (gr_prods g) <=? idx then None else default None (gr_prods g !! idx), g1).

(** grammar.go:138-144 [NonTerminals], as indexes of the grammar's own set. *)
Definition gr_nonterminals (g : gr) : list nat := gr_order g.

(** grammar.go:147-166 [Add]; a nil production ([None]) means the empty one. The
    production's symbols are cast by Productions/AddProductions (set.go:229, 275)
    after [from] has been interned. *)
Definition gr_add (g : gr) (from : psym) (to : option (list psym)) : gr :=
  let '(f, s1) := set_symbol (gr_set g) from in
  let '(vs, s2) := set_syms s1 (default [] to) in
  gr_add_idx (Gr (gr_order g) (gr_prods g) s2) f vs.

(** Names of own symbols. All indexes a grammar holds are in range (proved). *)
Definition sym_name (s : set) (i : nat) : gostring := default [] (symb2str s !! i).
Definition prod_names (s : set) (p : list nat) : list gostring := map (sym_name s) p.

(** set.go:165-171 [Production.String] *)
Definition prod_string (s : set) (p : list nat) : gostring := strjoin [c_sp] (prod_names s p).

(** grammar.go:170-194 [String]. Productions(nt) of a symbol in [order] is never
    nil or empty (proved), so iter.Next() on line 187 succeeds. *)
Definition gr_prods_of (g : gr) (i : nat) : list (list nat) :=
  default [] (fst (gr_productions g (Own i))).
Definition gr_string (g : gr) : gostring :=
  let nts := gr_nonterminals g in
  let longest := fold_left (fun m nt => Nat.max m (length (sym_name (gr_set g) nt))) nts 0 in
  let row nm p := pad_right longest nm ++ L " -> " ++ prod_string (gr_set g) p in
  let rows nt :=
    match gr_prods_of g nt with
    | [] => []
    | p :: r => row (sym_name (gr_set g) nt) p :: map (row []) r
    end in
  strjoin [c_nl] (List.concat (map rows nts)).

(** What a client of the Grammar interface sees: names of non-terminals, and the
    productions for a symbol of any other type with the given name. *)
Definition gr_view (g : gr) : grammar :=
  Gram (map (sym_name (gr_set g)) (gr_nonterminals g))
       (fun s => option_map (map (prod_names (gr_set g)))
                            (fst (gr_productions g (Foreign s)))).

(** A client's symbol argument: the grammar's own *Symbol for that name, if it has
    one and the client uses it, or another Symbol. *)
Definition resolve (g : gr) (x : gostring * bool) : psym :=
  match str2sym (gr_set g) !! fst x with
  | Some i => if snd x then Own i else Foreign (fst x)
  | None => Foreign (fst x)
  end.
