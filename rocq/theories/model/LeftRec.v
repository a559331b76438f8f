(** leftrecursion.go *)
From Verif.model Require Export GoBase.

(** leftrecursion.go:19-22 [lrOp]: checked and stack, as the sets of strings mapped
    to true. *)
Notation lrst := (gset gostring * gset gostring)%type.

Section LR.
  Variable g : grammar.
  (** op.check, with less fuel: (isLR, checkNext) and the state. *)
  Variable check : lrst -> gostring -> res (bool * bool * lrst).

  (** leftrecursion.go:47-52, the symbols of one production. *)
  Fixpoint lr_prod (p : list gostring) (st : lrst) : res (bool * lrst) :=
    match p with
    | [] => Ok (false, st)
    | x :: r =>
        ' (isLR, checkNext, st1) <-! check st x;
        if isLR : bool then Ok (true, st1)
        else if checkNext : bool then lr_prod r st1 else Ok (false, st1)
    end.

  (** leftrecursion.go:41-53, the productions; returns (isLR, retCheckNext). *)
  Fixpoint lr_prods (ps : list (list gostring)) (ret : bool) (st : lrst) : res (bool * bool * lrst) :=
    match ps with
    | [] => Ok (false, ret, st)
    | [] :: r => lr_prods r true st
    | p :: r =>
        ' (isLR, st1) <-! lr_prod p st;
        if isLR : bool then Ok (true, false, st1) else lr_prods r ret st1
    end.
End LR.

(** leftrecursion.go:24-58 [lrOp.check] *)
Fixpoint lr_check (fuel : nat) (g : grammar) (st : lrst) (s : gostring) : res (bool * bool * lrst) :=
  match fuel with
  | O => OutOfFuel
  | S f =>
      let '(checked, stack) := st in
      if decide (s ∈ checked) then Ok (false, false, st)
      else match g_prods g s with
           | None => Ok (false, false, ({[s]} ∪ checked, stack))
           | Some ps =>
               if decide (s ∈ stack) then Ok (true, false, st)
               else
                 ' (isLR, ret, st1) <-! lr_prods (lr_check f g) ps false (checked, {[s]} ∪ stack);
                 if isLR : bool then Ok (true, false, st1)
                 else Ok (false, ret, ({[s]} ∪ fst st1, snd st1 ∖ {[s]}))
           end
  end.

(** leftrecursion.go:4-17 [IsLeftRecursive] *)
Fixpoint lr_all (fuel : nat) (g : grammar) (nts : list gostring) (checked : gset gostring) : res bool :=
  match nts with
  | [] => Ok false
  | nt :: r =>
      ' (isLR, _, st) <-! lr_check fuel g (checked, ∅) nt;
      if isLR : bool then Ok true else lr_all fuel g r (fst st)
  end.
Definition is_left_recursive (fuel : nat) (g : grammar) : res bool :=
  lr_all fuel g (g_nts g) ∅.
