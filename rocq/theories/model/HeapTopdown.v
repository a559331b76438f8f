(** parser/topdown/topdown.go with the tree in memory: the same code as model/Topdown.v,
    building *PN nodes. A memo entry holds a pointer, so a node that is accepted again at
    the same position is the same node. *)
From Verif.model Require Export Topdown Heap.

(** topdown.go:58-61 acceptResp: the pointer and the end ([None] for nil). *)
Notation haresp := (option (nat * nat)).
(** topdown.go:81-86 [tdOp], the mutable part, and the memory. *)
Record htdst := HTd { ht_memo : gmap tdkey haresp; ht_set : set; ht_heap : heap }.

Section Acc.
  Variable g : grammar.
  Variable lxs : list (nat * lexeme).
  (** op.accept with less fuel *)
  Variable accept : htdst -> tdkey -> bool -> res (haresp * htdst).

  (** topdown.go:126-133, the loop of [acceptProd] from index [i] on; the end position. *)
  Fixpoint h_accept_seq (children : option (nat * nat)) (i : nat) (p : list gostring) (pos : nat) (st : htdst)
    : res (option nat * htdst) :=
    match p with
    | [] => Ok (Some pos, st)
    | x :: r =>
        let '(v, s1) := set_symbol (ht_set st) (Foreign x) in
        ' (a, st1) <-! accept (HTd (ht_memo st) s1 (ht_heap st)) (v, pos) false;
        match a with
        | None => Ok (None, st1)
        | Some (c, e) =>
            h <-! slice_set (ht_heap st1) children i (Some c);
            h_accept_seq children (S i) r e (HTd (ht_memo st1) (ht_set st1) h)
        end
    end.
  (** topdown.go:122-137 [acceptProd] with 63-71 [resp]: P is left nil. *)
  Definition h_accept_prod (k : tdkey) (p : list gostring) (st : htdst) : res (haresp * htdst) :=
    let '(h, children) := make_slice (ht_heap st) (length p) (length p) in
    ' (b, st1) <-! h_accept_seq children 0 p (snd k) (HTd (ht_memo st) (ht_set st) h);
    match b with
    | None => Ok (None, st1)
    | Some e =>
        name <-! sym_string (ht_set st1) (Z.of_nat (fst k));
        let '(h, q) := alloc (ht_heap st1) (HN (lexeme_new name) None children) in
        Ok (Some (q, e), HTd (ht_memo st1) (ht_set st1) h)
    end.

  (** topdown.go:112-117, the loop over the productions. *)
  Fixpoint h_accept_prods (k : tdkey) (all : bool) (ps : list (list gostring)) (st : htdst)
    : res (haresp * htdst) :=
    match ps with
    | [] => Ok (None, st)
    | p :: r =>
        ' (a, st1) <-! h_accept_prod k p st;
        match a with
        | Some (t, e) => if negb all || (e =? length lxs) then Ok (a, st1) else h_accept_prods k all r st1
        | None => h_accept_prods k all r st1
        end
    end.

  (** topdown.go:101-120 [tryAccept]; a lexeme's node has nil children. *)
  Definition h_try_accept (k : tdkey) (all : bool) (st : htdst) : res (haresp * htdst) :=
    name <-! sym_string (ht_set st) (Z.of_nat (fst k));
    match g_prods g name with
    | None =>
        match lxs !! snd k with
        | Some (v, lx) =>
            if fst k =? v then
              let '(h, q) := alloc (ht_heap st) (HN lx None None) in
              Ok (Some (q, S (snd k)), HTd (ht_memo st) (ht_set st) h)
            else Ok (None, st)
        | None => Ok (None, st)
        end
    | Some ps => h_accept_prods k all ps st
    end.
End Acc.

(** topdown.go:88-95 [accept] *)
Fixpoint h_td_accept (fuel : nat) (g : grammar) (lxs : list (nat * lexeme)) (st : htdst) (k : tdkey) (all : bool)
  : res (haresp * htdst) :=
  match fuel with
  | O => OutOfFuel
  | S f =>
      match ht_memo st !! k with
      | Some a => Ok (a, st)
      | None =>
          ' (a, st1) <-! h_try_accept g lxs (h_td_accept f g lxs) k all st;
          Ok (a, HTd (<[k := a]> (ht_memo st1)) (ht_set st1) (ht_heap st1))
      end
  end.

(** topdown.go:32-51 [Parse] *)
Definition h_td_parse (fuel : nat) (g : grammar) (lexemes : list lexeme) (h : heap) : res (heap * option nat) :=
  match g_nts g with
  | [] => Ok (h, None)
  | s0 :: _ =>
      s1 <-! load_grammar g set_new;
      let '(lxs, s2) := load_lexemes s1 lexemes in
      let '(start, s3) := set_symbol s2 (Foreign s0) in
      ' (a, st) <-! h_td_accept fuel g lxs (HTd ∅ s3 h) (start, 0) true;
      Ok (ht_heap st, option_map fst a)
  end.
