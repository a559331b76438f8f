(** parser/topdown/topdown.go *)
From Verif.model Require Export SetSym LeftRec.

(** topdown.go:22-29 [New]: [false] for ErrLeftRecursion. *)
Definition td_new (fuel : nat) (g : grammar) : res bool :=
  isLR <-! is_left_recursive fuel g; Ok (negb isLR).

(** topdown.go:53-61 treeKey and acceptResp ([None] for nil). Nodes are values here:
    that memo entries share *PN nodes is modelled in model/HeapTopdown.v. *)
Notation tdkey := (nat * nat)%type.
Notation aresp := (option (pn * nat)).

(** topdown.go:81-86 [tdOp], the mutable part. *)
Record tdst := TdSt { td_memo : gmap tdkey aresp; td_set : set }.

Section Acc.
  Variable g : grammar.
  Variable lxs : list (nat * lexeme).
  (** op.accept with less fuel *)
  Variable accept : tdst -> tdkey -> bool -> res (aresp * tdst).

  (** topdown.go:123-133, the loop of [acceptProd]: the children and the end position. *)
  Fixpoint accept_seq (p : list gostring) (pos : nat) (st : tdst)
    : res (option (list pn * nat) * tdst) :=
    match p with
    | [] => Ok (Some ([], pos), st)
    | x :: r =>
        let '(v, s1) := set_symbol (td_set st) (Foreign x) in
        ' (a, st1) <-! accept (TdSt (td_memo st) s1) (v, pos) false;
        match a with
        | None => Ok (None, st1)
        | Some (c, e) =>
            ' (b, st2) <-! accept_seq r e st1;
            match b with
            | None => Ok (None, st2)
            | Some (cs, e2) => Ok (Some (c :: cs, e2), st2)
            end
        end
    end.
  (** topdown.go:122-137 [acceptProd] *)
  Definition accept_prod (k : tdkey) (p : list gostring) (st : tdst) : res (aresp * tdst) :=
    ' (b, st1) <-! accept_seq p (snd k) st;
    match b with
    | None => Ok (None, st1)
    | Some (cs, e) =>
        name <-! sym_string (td_set st1) (Z.of_nat (fst k));
        Ok (Some (PN (lexeme_new name) cs, e), st1)
    end.

  (** topdown.go:112-117, the loop over the productions. *)
  Fixpoint accept_prods (k : tdkey) (all : bool) (ps : list (list gostring)) (st : tdst)
    : res (aresp * tdst) :=
    match ps with
    | [] => Ok (None, st)
    | p :: r =>
        ' (a, st1) <-! accept_prod k p st;
        match a with
        | Some (t, e) => if negb all || (e =? length lxs) then Ok (a, st1) else accept_prods k all r st1
        | None => accept_prods k all r st1
        end
    end.

  (** topdown.go:101-120 [tryAccept]. ByIdx never returns nil on the indexes used;
      a grammar asked for a symbol reads its String. *)
  Definition try_accept (k : tdkey) (all : bool) (st : tdst) : res (aresp * tdst) :=
    name <-! sym_string (td_set st) (Z.of_nat (fst k));
    match g_prods g name with
    | None =>
        match lxs !! snd k with
        | Some (v, lx) => if fst k =? v then Ok (Some (PN lx [], S (snd k)), st) else Ok (None, st)
        | None => Ok (None, st)
        end
    | Some ps => accept_prods k all ps st
    end.
End Acc.

(** topdown.go:88-95 [accept] *)
Fixpoint td_accept (fuel : nat) (g : grammar) (lxs : list (nat * lexeme)) (st : tdst) (k : tdkey) (all : bool)
  : res (aresp * tdst) :=
  match fuel with
  | O => OutOfFuel
  | S f =>
      match td_memo st !! k with
      | Some a => Ok (a, st)
      | None =>
          ' (a, st1) <-! try_accept g lxs (td_accept f g lxs) k all st;
          Ok (a, TdSt (<[k := a]> (td_memo st1)) (td_set st1))
      end
  end.

(** topdown.go:32-51 [Parse] *)
Definition td_parse (fuel : nat) (g : grammar) (lexemes : list lexeme) : res (option pn) :=
  match g_nts g with
  | [] => Ok None
  | s0 :: _ =>
      s1 <-! load_grammar g set_new;
      let '(lxs, s2) := load_lexemes s1 lexemes in
      let '(start, s3) := set_symbol s2 (Foreign s0) in
      ' (a, _) <-! td_accept fuel g lxs (TdSt ∅ s3) (start, 0) true;
      Ok (option_map fst a)
  end.
