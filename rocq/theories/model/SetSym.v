(** symbol/setsymbol/set.go *)
From Verif.model Require Export GoBase.

(** set.go:11-14 [Set] *)
Record set := MkSet { str2sym : gmap gostring nat; symb2str : list gostring }.

(** set.go:17-21 [New] *)
Definition set_new : set := MkSet ∅ [].

(** set.go:24 [Size] *)
Definition sym_count (s : set) : nat := length (symb2str s).

(** A parlex.Symbol as seen by a Set: one of its own *Symbol values (set.go:101-104,
    [cast.set == s]), or any other Symbol, of which only String() is used. *)
Inductive psym := Own (val : nat) | Foreign (name : gostring).

(** set.go:107 [Symbol.String]: index into symb2str, panics when out of range. *)
Definition sym_string (s : set) (val : Z) : res gostring :=
  if (val <? 0)%Z then Panic
  else match symb2str s !! Z.to_nat val with Some x => Ok x | None => Panic end.

(** set.go:27-35 [ByIdx]: nil, or the symbol with that index. The guard is
    [idx > len], as in the code, and negative indexes pass it. *)
Definition by_idx (s : set) (idx : Z) : option Z :=
  if (Z.of_nat (length (symb2str s)) <? idx)%Z then None else Some idx.

(** set.go:39-48 [Idx]; -1 when absent. The set is not changed. *)
Definition set_idx (s : set) (x : psym) : Z :=
  match x with
  | Own v => Z.of_nat v
  | Foreign n => match str2sym s !! n with Some i => Z.of_nat i | None => (-1)%Z end
  end.

(** set.go:63-77 [Str]; returns the symbol's index and the updated set. *)
Definition set_str (s : set) (x : gostring) : nat * set :=
  match str2sym s !! x with
  | Some v => (v, s)
  | None =>
      let v := length (symb2str s) in
      (v, MkSet (<[x := v]> (str2sym s)) (symb2str s ++ [x]))
  end.

(** set.go:51-59 [Symbol] for a non-nil symbol. *)
Definition set_symbol (s : set) (x : psym) : nat * set :=
  match x with
  | Own v => (v, s)
  | Foreign n => set_str s n
  end.

(** set.go:80-83 [Has] *)
Definition set_has (s : set) (x : gostring) : bool :=
  match str2sym s !! x with Some _ => true | None => false end.

(** set.go:86-98 [HasSymbol] *)
Definition set_has_symbol (s : set) (x : psym) : option nat :=
  match x with
  | Own v => Some v
  | Foreign n => str2sym s !! n
  end.

(** set.go:119-128 [Production], set.go:137-142 [AddSymbols] and the copying branch
    of set.go:146-162 [CastProduction]: intern each symbol in order. (The
    non-copying branch returns the production itself, whose indexes are already
    this set's.) *)
Fixpoint set_syms (s : set) (xs : list psym) : list nat * set :=
  match xs with
  | [] => ([], s)
  | x :: r =>
      let '(v, s1) := set_symbol s x in
      let '(vs, s2) := set_syms s1 r in
      (v :: vs, s2)
  end.

(** set.go:281-290 [LoadGrammar]. [grammar.Productions(nt).Iter()] on a nil
    interface panics. *)
Definition load_prod (s : set) (p : list gostring) : set :=
  snd (set_syms s (map Foreign p)).
Fixpoint load_nts (g : grammar) (nts : list gostring) (s : set) : res set :=
  match nts with
  | [] => Ok s
  | nt :: r =>
      let s1 := snd (set_str s nt) in
      match g_prods g nt with
      | None => Panic
      | Some ps => load_nts g r (fold_left load_prod ps s1)
      end
  end.
Definition load_grammar (g : grammar) (s : set) : res set := load_nts g (g_nts g) s.

(** set.go:294-300 [LoadLexemes]: each lexeme copied with its kind interned; the
    copy is represented by the kind's index paired with the lexeme. *)
Fixpoint load_lexemes (s : set) (lxs : list lexeme) : list (nat * lexeme) * set :=
  match lxs with
  | [] => ([], s)
  | lx :: r =>
      let '(v, s1) := set_str s (lx_kind lx) in
      let '(o, s2) := load_lexemes s1 r in
      ((v, lx) :: o, s2)
  end.

(** The operations that may change a set: Str, Symbol, Production / AddSymbols /
    CastProduction, LoadGrammar, LoadLexemes (set.go:51-77, 119-162, 281-300). *)
Inductive set_op :=
| SStr (x : gostring)
| SSymbol (x : psym)
| SProduction (xs : list psym)
| SGrammar (g : grammar)
| SLexemes (lxs : list lexeme).
Definition set_step (s : set) (o : set_op) : res set :=
  match o with
  | SStr x => Ok (snd (set_str s x))
  | SSymbol x => Ok (snd (set_symbol s x))
  | SProduction xs => Ok (snd (set_syms s xs))
  | SGrammar g => load_grammar g s
  | SLexemes lxs => Ok (snd (load_lexemes s lxs))
  end.
Definition set_after (s : set) (ops : list set_op) : res set := rfold set_step ops s.
