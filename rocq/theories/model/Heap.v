(** tree.PN nodes in memory: pointers, parent links and the slices C with their
    backing arrays. Slices stored in C always start at the front of their array
    (parsetree.go, node_reductions.go, reducer.go and packrat.go only store slices
    made by make, append, or [C[:i]]), so a slice is an array and a length; its
    capacity is the length of the array. A nil slice is [None]. Lexemes are values:
    the modelled code only writes to lexemes it has just made. *)
From Verif.model Require Export GoBase.
From Verif.model Require Import TreeOps Packrat.
Local Open Scope Z_scope.

(** parsetree.go:51-55 [PN] *)
Record hnode := HN { h_lex : lexeme; h_par : option nat; h_ch : option (nat * nat) }.
Record heap := Heap { h_nodes : list hnode; h_arrs : list (list (option nat)) }.
Definition heap_empty : heap := Heap [] [].

(** [*p]; a nil or dangling pointer panics. *)
Definition deref (h : heap) (p : nat) : res hnode :=
  match h_nodes h !! p with Some n => Ok n | None => Panic end.
Definition deref_opt (h : heap) (p : option nat) : res hnode :=
  match p with Some p => deref h p | None => Panic end.
Definition set_node (h : heap) (p : nat) (n : hnode) : heap := Heap (<[p := n]> (h_nodes h)) (h_arrs h).
Definition alloc (h : heap) (n : hnode) : heap * nat := (Heap (h_nodes h ++ [n]) (h_arrs h), length (h_nodes h)).

(** [make([]*PN, len, cap)] *)
Definition make_slice (h : heap) (len cap : nat) : heap * option (nat * nat) :=
  (Heap (h_nodes h) (h_arrs h ++ [replicate cap None]), Some (length (h_arrs h), len)).

Definition array (h : heap) (a : nat) : list (option nat) := default [] (h_arrs h !! a).
(** The elements of a slice. *)
Definition elems (h : heap) (sl : option (nat * nat)) : list (option nat) :=
  match sl with None => [] | Some (a, l) => take l (array h a) end.
Definition slice_len (sl : option (nat * nat)) : nat := match sl with None => O | Some (_, l) => l end.
(** [sl[:i]] *)
Definition slice_to (sl : option (nat * nat)) (i : nat) : option (nat * nat) :=
  match sl with None => None | Some (a, _) => Some (a, i) end.
(** [sl[i] = x] *)
Definition slice_set (h : heap) (sl : option (nat * nat)) (i : nat) (x : option nat) : res heap :=
  match sl with
  | Some (a, l) => if (i <? l)%nat then Ok (Heap (h_nodes h) (<[a := <[i := x]> (array h a)]> (h_arrs h))) else Panic
  | None => Panic
  end.
(** [sl[i]] *)
Definition slice_get (h : heap) (sl : option (nat * nat)) (i : nat) : res (option nat) :=
  match elems h sl !! i with Some x => Ok x | None => Panic end.

(** [append(sl, xs...)]: in place when the capacity suffices, otherwise in a new array
    with [grow oldcap needed] spare slots. *)
Definition append_slice (grow : nat -> nat -> nat) (h : heap) (sl : option (nat * nat)) (xs : list (option nat))
  : heap * option (nat * nat) :=
  match xs with
  | [] => (h, sl)
  | _ =>
      let l := slice_len sl in
      let need := (l + length xs)%nat in
      let cap := match sl with None => O | Some (a, _) => length (array h a) end in
      if (need <=? cap)%nat then
        match sl with
        | Some (a, _) =>
            (Heap (h_nodes h) (<[a := take l (array h a) ++ xs ++ drop need (array h a)]> (h_arrs h)), Some (a, need))
        | None => (h, sl)
        end
      else
        (Heap (h_nodes h) (h_arrs h ++ [elems h sl ++ xs ++ replicate (grow cap need) None]),
         Some (length (h_arrs h), need))
  end.

(** * Accessors *)
Definition children_of (h : heap) (p : nat) : res (list (option nat)) :=
  n <-! deref h p; Ok (elems h (h_ch n)).

(** node_reductions.go:31-37 [GetIdx] *)
Definition h_get_idx (n : hnode) (i : Z) : Z * Z * bool :=
  let l := Z.of_nat (slice_len (h_ch n)) in
  let i := if i <? 0 then l + i else i in
  (i, l, (0 <=? i) && (i <? l)).

(** parsetree.go:71-77 [Child]; [None] is the nil interface. *)
Definition h_child (h : heap) (p : nat) (i : Z) : res (option (option nat)) :=
  n <-! deref h p;
  let '(i, _, ok) := h_get_idx n i in
  if ok then x <-! slice_get h (h_ch n) (Z.to_nat i); Ok (Some x) else Ok None.

(** parsetree.go:142-154 [ChildAt] *)
Definition h_child_at (h : heap) (p : nat) (i : Z) (symbs : list gostring) : res bool :=
  n <-! deref h p;
  let '(i, _, ok) := h_get_idx n i in
  if ok then
    c <-! slice_get h (h_ch n) (Z.to_nat i);
    cn <-! deref_opt h c;
    Ok (existsb (fun s => bool_decide (s = lx_kind (h_lex cn))) symbs)
  else Ok false.

(** node_reductions.go:104-110 [ChildIs] *)
Definition h_child_is (h : heap) (p : nat) (i : Z) (kind : gostring) : res bool :=
  n <-! deref h p;
  let '(i, _, ok) := h_get_idx n i in
  if ok then
    c <-! h_child h p i;
    cn <-! deref_opt h (match c with Some c => c | None => None end);
    Ok (bool_decide (lx_kind (h_lex cn) = kind))
  else Ok false.

(** parsetree.go:59-61 [Parent] returns an interface: [IPN] holds a *PN, nil or not. A
    ParseNode compares equal to nil only when it is [INil]. *)
Inductive iface := INil | IPN (p : option nat).
Definition h_parent (h : heap) (p : option nat) : res iface :=
  n <-! deref_opt h p; Ok (IPN (h_par n)).

(** * Reductions. [grow] is Go's slice growth policy. *)
Section Red.
  Variable grow : nat -> nat -> nat.

  Definition set_ch (h : heap) (p : nat) (n : hnode) (sl : option (nat * nat)) : heap :=
    set_node h p (HN (h_lex n) (h_par n) sl).

  (** [for _, c := range cs { c.P = p }] *)
  Definition set_parents (h : heap) (p : nat) (cs : list (option nat)) : res heap :=
    rfold (fun h c => match c with
                      | None => Panic
                      | Some c => cn <-! deref h c; Ok (set_node h c (HN (h_lex cn) (Some p) (h_ch cn)))
                      end) cs h.

  (** node_reductions.go:8-15 [ReplaceWithChild] *)
  Definition h_replace_with_child (i : Z) (p : nat) (h : heap) : res (heap * bool) :=
    n <-! deref h p;
    let '(i, _, ok) := h_get_idx n i in
    if ok then
      c <-! slice_get h (h_ch n) (Z.to_nat i);
      cn <-! deref_opt h c;
      Ok (set_node h p cn, true)
    else Ok (h, false).

  (** node_reductions.go:64-75 [RemoveChild] *)
  Definition h_remove_child (i : Z) (p : nat) (h : heap) : res (heap * bool) :=
    n <-! deref h p;
    let '(i, l, ok) := h_get_idx n i in
    if ok then
      if i =? l - 1 then Ok (set_ch h p n (slice_to (h_ch n) (Z.to_nat i)), true)
      else
        let '(h, sl) := append_slice grow h (slice_to (h_ch n) (Z.to_nat i)) (zfrom (i + 1) (elems h (h_ch n))) in
        Ok (set_ch h p n sl, true)
    else Ok (h, false).

  (** node_reductions.go:18-25 [RemoveAll] *)
  Fixpoint h_remove_all_loop (fuel : nat) (symbols : list gostring) (i : Z) (p : nat) (h : heap) : res heap :=
    match fuel with
    | O => OutOfFuel
    | S f =>
        n <-! deref h p;
        if i <? Z.of_nat (slice_len (h_ch n)) then
          b <-! h_child_at h p i symbols;
          if (b : bool) then r <-! h_remove_child i p h; h_remove_all_loop f symbols i p (fst r)
          else h_remove_all_loop f symbols (i + 1) p h
        else Ok h
    end.
  (** len(p.C) rounds and the final test suffice. *)
  Definition h_remove_all (symbols : list gostring) (p : nat) (h : heap) : res heap :=
    n <-! deref h p; h_remove_all_loop (S (slice_len (h_ch n))) symbols 0 p h.

  (** node_reductions.go:40-60 [RemoveChildren]; make panics when ln is below 0. *)
  Fixpoint h_mark_drop (n : hnode) (idxs : list Z) (drop_ : list bool) (ln : Z) : list bool * Z :=
    match idxs with
    | [] => (drop_, ln)
    | i :: r =>
        let '(i, _, ok) := h_get_idx n i in
        if ok then
          if nth (Z.to_nat i) drop_ false then h_mark_drop n r drop_ ln
          else h_mark_drop n r (<[Z.to_nat i := true]> drop_) (ln - 1)%Z
        else h_mark_drop n r drop_ ln
    end.
  Definition h_remove_children (idxs : list Z) (p : nat) (h : heap) : res heap :=
    n <-! deref h p;
    let l := slice_len (h_ch n) in
    let '(drop_, ln) := h_mark_drop n idxs (replicate l false) (Z.of_nat l) in
    ' (h, newC) <-! (if (ln <? 0)%Z then Panic else Ok (make_slice h 0 (Z.to_nat ln)));
    ' (h, newC) <-! rfold (fun hs '(idx, skip) =>
        let '(h, newC) := hs in
        if (skip : bool) then Ok (h, newC)
        else n <-! deref h p; c <-! slice_get h (h_ch n) idx; Ok (append_slice grow h newC [c]))
      (combine (seq 0 (length drop_)) drop_) (h, newC);
    n <-! deref h p;
    Ok (set_ch h p n newC).

  (** node_reductions.go:148-164 [PromoteChild] *)
  Definition h_promote_child (i : Z) (p : nat) (h : heap) : res (heap * bool) :=
    n <-! deref h p;
    let '(i, l, ok) := h_get_idx n i in
    if ok then
      c <-! slice_get h (h_ch n) (Z.to_nat i);
      cn <-! deref_opt h c;
      let h := set_node h p (HN (h_lex cn) (h_par n) (h_ch n)) in
      (* p.C[cIdx].C is read after p.Lexeme is set *)
      cn <-! deref_opt h c;
      let '(h, tail) := if i + 1 <? l then append_slice grow h (h_ch cn) (zfrom (i + 1) (elems h (h_ch n)))
                        else (h, h_ch cn) in
      let '(h, sl) := append_slice grow h (slice_to (h_ch n) (Z.to_nat i)) (elems h tail) in
      n <-! deref h p;
      let h := set_ch h p n sl in
      h <-! set_parents h p (elems h sl);
      Ok (h, true)
    else Ok (h, false).

  (** node_reductions.go:79-85 [PromoteSingleChild] *)
  Definition h_promote_single_child (p : nat) (h : heap) : res (heap * bool) :=
    n <-! deref h p;
    if (slice_len (h_ch n) =? 1)%nat then r <-! h_promote_child 0 p h; Ok (fst r, true) else Ok (h, false).

  (** node_reductions.go:91-101 [PromoteChildValue] *)
  Definition h_promote_child_value (i : Z) (p : nat) (h : heap) : res heap :=
    n <-! deref h p;
    let l := Z.of_nat (slice_len (h_ch n)) in
    let i := if i <? 0 then l + i else i in
    h <-! (if (0 <=? i) && (i <? l) then
             ch <-! slice_get h (h_ch n) (Z.to_nat i);
             chn <-! deref_opt h ch;
             Ok (set_node h p (HN (Lx (lx_kind (h_lex n)) (lx_val (h_lex chn)) (lx_line (h_lex chn)) (lx_col (h_lex chn)))
                                  (h_par n) (h_ch n)))
           else Ok h);
    r <-! h_remove_child i p h;
    Ok (fst r).

  (** node_reductions.go:115-126 [PromoteChildrenOf] *)
  Definition h_promote_children_of (i : Z) (p : nat) (h : heap) : res (heap * bool) :=
    n <-! deref h p;
    let '(i, l, ok) := h_get_idx n i in
    if ok then
      c <-! slice_get h (h_ch n) (Z.to_nat i);
      cn <-! deref_opt h c;
      if i =? l - 1 then
        let '(h, sl) := append_slice grow h (slice_to (h_ch n) (Z.to_nat i)) (elems h (h_ch cn)) in
        Ok (set_ch h p n sl, true)
      else
        let '(h, inner) := append_slice grow h (h_ch cn) (zfrom (i + 1) (elems h (h_ch n))) in
        let '(h, sl) := append_slice grow h (slice_to (h_ch n) (Z.to_nat i)) (elems h inner) in
        Ok (set_ch h p n sl, true)
    else Ok (h, false).

  (** node_reductions.go:130-143 [PromoteGrandChildren] *)
  Definition h_promote_grand_children (p : nat) (h : heap) : res heap :=
    n <-! deref h p;
    ct <-! rfold (fun ct c => cn <-! deref_opt h c; Ok (ct + slice_len (h_ch cn))%nat) (elems h (h_ch n)) O;
    let '(h, newC) := make_slice h 0 ct in
    ' (h, newC) <-! rfold (fun hs c =>
        let '(h, newC) := hs in
        cn <-! deref_opt h c;
        h <-! set_parents h p (elems h (h_ch cn));
        cn <-! deref_opt h c;
        Ok (append_slice grow h newC (elems h (h_ch cn))))
      (elems h (h_ch n)) (h, newC);
    n <-! deref h p;
    Ok (set_ch h p n newC).

  (** reducer.go:9 [Reduction] and chain_reductions.go *)
  Definition hred := nat -> heap -> res heap.
  Definition drop_bool (r : res (heap * bool)) : res heap := x <-! r; Ok (fst x).

  (** chain_reductions.go:5-16 [Chain], 23-35 [If], 43-47 [ChildIs] *)
  Definition h_run (r : option hred) : hred := fun p h => match r with Some f => f p h | None => Ok h end.
  Definition h_chain (r1 r2 : option hred) : option hred :=
    match r1, r2 with
    | None, _ => r2
    | _, None => r1
    | Some f, Some g => Some (fun p h => h <-! f p h; g p h)
    end.
  Definition h_if (cond : option (nat -> heap -> res bool)) (th el : option hred) : hred :=
    fun p h =>
      match cond with
      | Some c => b <-! c p h; if (b : bool) then h_run th p h else h_run el p h
      | None => h_run el p h
      end.

  (** reducer.go:67-84 [RawReduce] on a non-nil node. *)
  Fixpoint h_raw_reduce (fuel : nat) (r : gmap gostring (option hred)) (p : nat) (h : heap) : res (heap * nat) :=
    match fuel with
    | O => OutOfFuel
    | S f =>
        n <-! deref h p;
        let len := slice_len (h_ch n) in
        let '(h, sl) := make_slice h len len in
        let '(h, cp) := alloc h (HN (h_lex n) None sl) in
        h <-! rfold (fun h i =>
            c <-! h_child h p (Z.of_nat i);
            match c with
            | None => cpn <-! deref h cp; slice_set h (h_ch cpn) i None
            | Some None => Panic
            | Some (Some c) =>
                ' (h, q) <-! h_raw_reduce f r c h;
                cpn <-! deref h cp;
                slice_set h (h_ch cpn) i (Some q)
            end) (seq 0 len) h;
        cpn <-! deref h cp;
        h <-! h_run (match r !! lx_kind (h_lex cpn) with Some red => red | None => None end) cp h;
        Ok (h, cp)
    end.

  (** parsetree.go:157-171 [Clone] of a *PN. The loop bound node.Children() is read
      once here: cloning writes only to new nodes. *)
  Fixpoint h_clone (fuel : nat) (p : nat) (h : heap) : res (heap * nat) :=
    match fuel with
    | O => OutOfFuel
    | S f =>
        n <-! deref h p;
        let len := slice_len (h_ch n) in
        let '(h, sl) := make_slice h len len in
        let '(h, q) := alloc h (HN (Lx (lx_kind (h_lex n)) (lx_val (h_lex n)) 0 0) None sl) in
        h <-! rfold (fun h i =>
            c <-! h_child h p (Z.of_nat i);
            match c with
            | Some (Some c) =>
                ' (h, cq) <-! h_clone f c h;
                cn <-! deref h cq;
                let h := set_node h cq (HN (h_lex cn) (Some q) (h_ch cn)) in
                qn <-! deref h q;
                slice_set h (h_ch qn) i (Some cq)
            | _ => Panic
            end) (seq 0 len) h;
        Ok (h, q)
    end.
End Red.

(** * packrat.go:263-286 [toPN] and 105-115 of Parse with the tree in memory *)
Fixpoint h_to_pn (fuel : nat) (lxms : list (nat * lexeme)) (m : gmap key tdef)
    (name : nat -> gostring) (td : tdef) (h : heap) : res (heap * nat) :=
  match fuel with
  | O => OutOfFuel
  | S f =>
      let '((idx, start), _) := td_key td in
      let own := match lxms !! start with
                 | Some (k, lx) => if (k =? idx)%nat then Some lx else None
                 | None => None
                 end in
      let lx := match own with Some lx => lx | None => lexeme_new (name idx) end in
      let len := length (td_children td) in
      let '(h, sl) := make_slice h len len in
      let '(h, p) := alloc h (HN lx None sl) in
      h <-! rfold (fun h '(i, c) =>
          ' (h, cp) <-! h_to_pn f lxms m name (mget m c) h;
          cn <-! deref h cp;
          let h := set_node h cp (HN (h_lex cn) (Some p) (h_ch cn)) in
          pn <-! deref h p;
          slice_set h (h_ch pn) i (Some cp))
        (combine (seq 0 len) (td_children td)) h;
      match own with
      | Some _ => Ok (h, p)
      | None =>
          pn <-! deref h p;
          if (0 <? slice_len (h_ch pn))%nat then
            c <-! slice_get h (h_ch pn) 0;
            cn <-! deref_opt h c;
            Ok (set_node h p (HN (Lx (lx_kind (h_lex pn)) (lx_val (h_lex pn)) (lx_line (h_lex cn)) (lx_col (h_lex cn)))
                                 (h_par pn) (h_ch pn)), p)
          else Ok (h, p)
      end
  end.

(** packrat.go:76-116 [Parse] building its tree in memory. *)
Definition h_packrat_parse (fuel : nat) (g : grammar) (lexemes : list lexeme) (h : heap)
  : res (heap * option nat) :=
  match g_nts g with
  | [] => Ok (h, None)
  | nt0 :: _ =>
      set1 <-! load_grammar g set_new;
      let '(lxms, st) := load_lexemes set1 lexemes in
      let nonterms := mark_nonterms st (g_nts g) (replicate (sym_count st) false) in
      let kinds := map fst lxms in
      let start := fst (set_str st nt0) in
      s1 <-! add_prods fuel (prods_of g st) nonterms kinds fuel (start, O) pst_init;
      s2 <-! Packrat.run fuel (prods_of g st) nonterms kinds fuel s1;
      let accept := ((start, O), length lexemes) in
      let accepted := mget (memo s2) accept in
      if (td_end accepted =? length lexemes)%nat then
        ' (h, p) <-! h_to_pn fuel lxms (memo s2) (name_of st) accepted h;
        Ok (h, Some p)
      else Ok (h, None)
  end.
