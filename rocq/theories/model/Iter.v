(** helpers.go:114-170, the iterators over productions. *)
From Verif.model Require Export GoBase.

Section It.
  (** Elements: symbols of a Production, or productions of a Productions. *)
  Context {A : Type}.

  (** helpers.go:115-120 [ProductionIterator], 144-149 [ProductionsIterator]: the
      embedded current element ([None] before the first Next), ln, Idx. *)
  Record iter := It { it_cur : option A; it_ln : nat; it_idx : nat }.
  Definition iter_new : iter := It None 0 0.

  (** helpers.go:124-141 [ProductionIterator.Next] on a production with elements
      [l]; [None] is a nil Production. Production.Symbol(i) (set.go:182-190) is nil
      when out of range, and then Next is false. *)
  Definition next_symbol (l : option (list A)) (it : iter) : bool * iter :=
    let step (it : iter) :=
      if it_ln it <=? it_idx it then (false, it)
      else
        let x := match l with Some l => l !! it_idx it | None => None end in
        (match x with Some _ => true | None => false end, It x (it_ln it) (it_idx it)) in
    if it_ln it =? 0 then
      match l with
      | None => (false, it)
      | Some l' =>
          if length l' =? 0 then (false, It (it_cur it) (length l') (it_idx it))
          else step (It (it_cur it) (length l') (it_idx it))
      end
    else step (It (it_cur it) (it_ln it) (S (it_idx it))).

  (** helpers.go:153-170 [ProductionsIterator.Next]: as above, but true whenever
      Idx < ln. *)
  Definition next_production (l : option (list A)) (it : iter) : bool * iter :=
    let step (it : iter) :=
      if it_ln it <=? it_idx it then (false, it)
      else
        let x := match l with Some l => l !! it_idx it | None => None end in
        (true, It x (it_ln it) (it_idx it)) in
    if it_ln it =? 0 then
      match l with
      | None => (false, it)
      | Some l' =>
          if length l' =? 0 then (false, It (it_cur it) (length l') (it_idx it))
          else step (It (it_cur it) (length l') (it_idx it))
      end
    else step (It (it_cur it) (it_ln it) (S (it_idx it))).

  (** [n] calls of Next: for each, the result, and the current element and Idx
      afterwards. *)
  Fixpoint next_calls (next : iter -> bool * iter) (n : nat) (it : iter) : list (bool * option A * nat) :=
    match n with
    | O => []
    | S n' => let '(b, it') := next it in (b, it_cur it', it_idx it') :: next_calls next n' it'
    end.
End It.
Arguments iter A : clear implicits.
