(** symbol/setsymbol/set.go:107-278, symbol/stringsymbol/symbol.go: productions as values of
    interfaces, and a Set's productions in memory. *)
From Coq Require Import String.
From Verif.model Require Export SetSym GoStrings.
Local Open Scope nat_scope.
Local Open Scope list_scope.

(** * Interface values *)
(** A parlex.Symbol: nil, or something of which only String() is used. For a Set's own
    symbols, whose indexes are used, see [iprod]. *)
Notation isym := (option gostring).
(** A parlex.Production: the nil interface; a stringsymbol.Production; a *setsymbol.Production
    with its set's number (None: a nil pointer); any other implementation, by what its
    Symbols() and Symbol(i) return. Such an implementation could return a Set's own symbols,
    whose index is then not looked up again; it would be found to be the same. *)
Inductive iprod :=
| PrNil
| PrStr (xs : list gostring)
| PrSet (set : nat) (p : option (list nat))
| PrOther (xs : list isym).
(** A parlex.Productions, in the same way. *)
Inductive iprods :=
| PsNil
| PsStr (ps : list (list gostring))
| PsSet (set : nat) (p : option (list (list nat)))
| PsOther (ps : list iprod).

Section Sets.
  (** The sets, by number. *)
  Notation sets := (nat -> set).
  Definition upd (W : sets) (k : nat) (s : set) : sets := fun j => if j =? k then s else W j.

  (** The strings of the symbols of a *setsymbol.Production: set.go:107 [String], 182-190
      [Symbol]. *)
  Definition names (s : set) (vs : list nat) : res (list gostring) := rmap (fun v => sym_string s (Z.of_nat v)) vs.

  (** set.go:153-160, symbol.go:45-49: Symbols() and Symbol(i) for each i below; stringsymbol's
      Symbol and setsymbol's Symbol return their elements. Each is the symbol's String(), and a
      nil symbol panics. A nil *Production has no symbols (set.go:174-179). *)
  Definition symbols (W : sets) (p : iprod) : res (list gostring) :=
    match p with
    | PrNil => Panic
    | PrStr xs => Ok xs
    | PrSet _ None => Ok []
    | PrSet k (Some vs) => names (W k) vs
    | PrOther xs => rmap (fun x => match x with Some v => Ok v | None => Panic end) xs
    end.

  (** set.go:146-162 [CastProduction] of the set [k]: the pointer, and the sets afterwards. The
      type assertion succeeds for a nil *Production, and [p.set] then panics. *)
  Definition cast_prod (W : sets) (k : nat) (p : iprod) : res (option (list nat) * sets) :=
    match p with
    | PrNil => Ok (None, W)
    | PrSet _ None => Panic
    | PrSet j (Some vs) =>
        if j =? k then Ok (Some vs, W)
        else
          xs <-! names (W j) vs;
          let '(is, s') := set_syms (W k) (map Foreign xs) in Ok (Some is, upd W k s')
    | _ =>
        xs <-! symbols W p;
        let '(is, s') := set_syms (W k) (map Foreign xs) in Ok (Some is, upd W k s')
    end.

  (** The productions of a parlex.Productions: set.go:262-270 [Production] and the like, for
      each i below Productions(). *)
  Definition members (q : iprods) : list iprod :=
    match q with
    | PsNil => []
    | PsStr ps => map PrStr ps
    | PsSet _ None => []
    | PsSet k (Some ps) => map (fun vs => PrSet k (Some vs)) ps
    | PsOther ps => ps
    end.
  (** set.go:247-249: [s.CastProduction(p).symbs] panics on a nil pointer. *)
  Fixpoint cast_members (W : sets) (k : nat) (ps : list iprod) : res (list (list nat) * sets) :=
    match ps with
    | [] => Ok ([], W)
    | p :: r =>
        '(o, W1) <-! cast_prod W k p;
        match o with
        | None => Panic
        | Some vs => '(vss, W2) <-! cast_members W1 k r; Ok (vs :: vss, W2)
        end
    end.
  (** set.go:235-251 [CastProductions] *)
  Definition cast_prods (W : sets) (k : nat) (q : iprods) : res (option (list (list nat)) * sets) :=
    match q with
    | PsNil => Ok (None, W)
    | PsSet _ None => Panic
    | PsSet j (Some ps) =>
        if j =? k then Ok (Some ps, W) else '(vss, W') <-! cast_members W k (members q); Ok (Some vss, W')
    | _ => '(vss, W') <-! cast_members W k (members q); Ok (Some vss, W')
    end.

  (** symbol.go:38-51 [CastProduction]; nil and an empty slice are the same here. *)
  Definition str_cast (W : sets) (p : iprod) : res (list gostring) :=
    match p with
    | PrStr xs => Ok xs
    | PrNil => Ok []
    | _ => symbols W p
    end.
  (** symbol.go:90-103 [CastProductions] *)
  Definition str_casts (W : sets) (q : iprods) : res (list (list gostring)) :=
    match q with
    | PsStr ps => Ok ps
    | PsNil => Ok []
    | _ => rmap (str_cast W) (members q)
    end.

  (** symbol.go:71-76, 114-119 [Symbol], [Production]; set.go:182-190, 262-270. [None] is nil;
      a nil pointer panics. *)
  Definition at_index {A} (l : list A) (i : Z) : res (option A) :=
    if (i <? Z.of_nat (length l))%Z then (if (i <? 0)%Z then Panic else Ok (l !! Z.to_nat i)) else Ok None.
  Definition ptr_at_index {A} (p : option (list A)) (i : Z) : res (option A) :=
    match p with Some l => at_index l i | None => Panic end.
End Sets.

(** * A set's productions in memory *)
(** A []int: an array and a length, from the front of the array. *)
Notation islice := (nat * nat)%type.
(** The arrays, what each *Production points to, and what each *Productions points to. *)
Record pmem := PMem { pm_set : set; pm_arrs : list (list nat); pm_prods : list islice; pm_lists : list (list islice) }.
Definition pmem_empty : pmem := PMem set_new [] [] [].
Definition arr (m : pmem) (a : nat) : list nat := default [] (pm_arrs m !! a).
Definition slice_of (m : pmem) (x : islice) : list nat := take (snd x) (arr m (fst x)).

Section Memory.
  (** [grow cap]: the spare room append leaves when it needs a new array for one more element
      than [cap]. *)
  Variable grow : nat -> nat.

  (** append(x, v) *)
  Definition append_one (arrs : list (list nat)) (x : islice) (v : nat) : list (list nat) * islice :=
    let a := default [] (arrs !! fst x) in
    if snd x <? length a then (<[fst x := <[snd x := v]> a]> arrs, (fst x, S (snd x)))
    else (arrs ++ [take (snd x) a ++ [v] ++ replicate (grow (length a)) 0], (length arrs, S (snd x))).

  (** set.go:138-142 [AddSymbols] *)
  Fixpoint append_syms (s : set) (arrs : list (list nat)) (x : islice) (ys : list psym) : set * list (list nat) * islice :=
    match ys with
    | [] => (s, arrs, x)
    | y :: r =>
        let '(v, s1) := set_symbol s y in
        let '(arrs1, x1) := append_one arrs x v in
        append_syms s1 arrs1 x1 r
    end.

  (** What a client of one set does. Productions and their lists are numbered in the order in
      which they are made. *)
  Inductive pcall :=
  | CNew (xs : list psym)               (* set.go:119-128 Production; CastProduction of another kind *)
  | CAddSymbols (p : nat) (xs : list psym)
  | CProds (ps : list nat)              (* set.go:223-232 Productions *)
  | CAddProds (l : nat) (ps : list nat) (* set.go:273-277 AddProductions *)
  | CGet (l i : nat).                   (* set.go:262-270 Production, i in range *)

  Definition pcall_step (m : pmem) (c : pcall) : res pmem :=
    match c with
    | CNew xs =>
        let '(vs, s') := set_syms (pm_set m) xs in
        Ok (PMem s' (pm_arrs m ++ [vs]) (pm_prods m ++ [(length (pm_arrs m), length vs)]) (pm_lists m))
    | CAddSymbols p xs =>
        match pm_prods m !! p with
        | None => Panic
        | Some x =>
            let '(s', arrs, x') := append_syms (pm_set m) (pm_arrs m) x xs in
            Ok (PMem s' arrs (<[p := x']> (pm_prods m)) (pm_lists m))
        end
    | CProds ps =>
        xs <-! rmap (fun p => match pm_prods m !! p with Some x => Ok x | None => Panic end) ps;
        Ok (PMem (pm_set m) (pm_arrs m) (pm_prods m) (pm_lists m ++ [xs]))
    | CAddProds l ps =>
        match pm_lists m !! l with
        | None => Panic
        | Some ys =>
            xs <-! rmap (fun p => match pm_prods m !! p with Some x => Ok x | None => Panic end) ps;
            Ok (PMem (pm_set m) (pm_arrs m) (pm_prods m) (<[l := ys ++ xs]> (pm_lists m)))
        end
    | CGet l i =>
        match pm_lists m !! l with
        | None => Panic
        | Some ys =>
            match ys !! i with
            | Some x => Ok (PMem (pm_set m) (pm_arrs m) (pm_prods m ++ [x]) (pm_lists m))
            | None => Panic
            end
        end
    end.
  Definition pcalls (cs : list pcall) (m : pmem) : res pmem := rfold pcall_step cs m.
End Memory.
