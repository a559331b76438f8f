(** grammar/left_recursion.go *)
From Coq Require Import String.
From Verif.model Require Export GrammarGo.
Local Open Scope nat_scope.
Local Open Scope list_scope.

(** left_recursion.go:8-15 [lrOp] without [in], which never changes and is passed
    separately. [lo_cur] is the index of cur in [lo_set]. *)
Record lrop := LrOp {
  lo_out : gr;
  lo_done : list bool;
  lo_cur : nat;
  lo_direct : bool;
  lo_set : set
}.

(** left_recursion.go:51: the test that lets a production be added as it is. The
    production is a list of indexes of op.set. *)
Definition lo_addable (op : lrop) (prod : list nat) : bool :=
  match prod with
  | [] => true
  | first :: _ =>
      if length (lo_done op) <=? first then true
      else negb (default false (lo_done op !! first))
  end.

(** left_recursion.go:52-53. op.out.Add gets symbols of op.set, so op.out's own set
    interns their names. *)
Definition lo_add (op : lrop) (prod : list nat) : lrop :=
  let direct := lo_direct op || match prod with [] => false | first :: _ => first =? lo_cur op end in
  let name := sym_name (lo_set op) in
  LrOp (gr_add (lo_out op) (Foreign (name (lo_cur op))) (Some (map (fun i => Foreign (name i)) prod)))
       (lo_done op) (lo_cur op) direct (lo_set op).

(** left_recursion.go:45-69 [safeAdd]. Its recursion is unbounded, hence the fuel.
    Line 57 asks the input grammar for the productions of [first]; calling Iter on
    a nil interface panics. getTail (71-78) of a production of op.set is its tail. *)
Fixpoint safe_add (fuel : nat) (g : grammar) (op : lrop) (prod : list nat) : res lrop :=
  match fuel with
  | O => OutOfFuel
  | S n =>
      if lo_addable op prod then Ok (lo_add op prod)
      else match prod with
           | [] => Ok op
           | first :: tail =>
               match g_prods g (sym_name (lo_set op) first) with
               | None => Panic
               | Some ps =>
                   rfold (fun o lead =>
                            let '(vs, s1) := set_syms (lo_set o) (map Foreign lead) in
                            safe_add n g (LrOp (lo_out o) (lo_done o) (lo_cur o) (lo_direct o) s1) (vs ++ tail))
                         ps op
               end
           end
  end.

(** left_recursion.go:107-121 [directAdd]: the index of [from] in op.set is used in
    op.out's table; the order is not touched. [prod] is in terms of op.out's set
    already. *)
Definition direct_add (out : gr) (f : nat) (prod : list nat) : gr :=
  let tbl :=
    if f <? length (gr_prods out) then gr_prods out
    else gr_prods out ++ replicate (1 + f - length (gr_prods out)) None in
  match default None (tbl !! f) with
  | None => Gr (gr_order out) (<[f := Some [prod]]> tbl) (gr_set out)
  | Some ps => Gr (gr_order out) (<[f := Some (ps ++ [prod])]> tbl) (gr_set out)
  end.

(** left_recursion.go:94-96: drop leading symbols with cur's index. The first
    getTail moves the production from op.out's set to op.set. *)
Fixpoint strip_cur (cur : nat) (prod : list nat) : list nat :=
  match prod with
  | [] => []
  | x :: r => if x =? cur then strip_cur cur r else prod
  end.

(** left_recursion.go:88-103, one production of the loop; [prod] is in terms of
    op.out's set. *)
Definition remove_step (newSym : nat) (op : lrop) (prod : list nat) : lrop :=
  let cur := lo_cur op in
  let outset := gr_set (lo_out op) in
  let ns := Foreign (sym_name (lo_set op) newSym) in
  let with_set o s := Gr (gr_order o) (gr_prods o) s in
  if match prod with [] => true | x :: _ => negb (x =? cur) end
  then let '(v, s1) := set_symbol outset ns in
       LrOp (direct_add (with_set (lo_out op) s1) cur (prod ++ [v]))
            (lo_done op) cur (lo_direct op) (lo_set op)
  else let '(vs, s1) := set_syms (lo_set op) (map (fun i => Foreign (sym_name outset i)) (tail prod)) in
       match strip_cur cur vs with
       | [] => LrOp (lo_out op) (lo_done op) cur (lo_direct op) s1
       | vs' => let '(ws, s2) := set_syms outset (map (fun i => Foreign (sym_name s1 i)) (vs' ++ [newSym])) in
                LrOp (direct_add (with_set (lo_out op) s2) newSym ws)
                     (lo_done op) cur (lo_direct op) s1
       end.

(** left_recursion.go:80-105 [removeDirectLeftRecursion]. Line 87 panics when cur's
    index is outside op.out's table. Ranging over a nil *Productions does nothing. *)
Definition remove_direct (op : lrop) : res lrop :=
  let cur := lo_cur op in
  let '(newSym, s1) := set_str (lo_set op) (sym_name (lo_set op) cur ++ L "'") in
  let out := lo_out op in
  let order :=
    match default None (gr_prods out !! newSym) with
    | None => gr_order out ++ [newSym]
    | Some _ => gr_order out
    end in
  match gr_prods out !! cur with
  | None => Panic
  | Some prods =>
      let out1 := Gr order (<[cur := None]> (gr_prods out)) (gr_set out) in
      let op1 := fold_left (remove_step newSym) (default [] prods)
                           (LrOp out1 (lo_done op) cur (lo_direct op) s1) in
      Ok (LrOp (direct_add (lo_out op1) newSym []) (lo_done op1) cur (lo_direct op1) (lo_set op1))
  end.

(** left_recursion.go:36-40: mark cur as done, growing the slice. *)
Definition mark_done (done : list bool) (idx : nat) : list bool :=
  <[idx := true]> (if length done <=? idx then done ++ replicate (1 + idx + length done) false else done).

(** left_recursion.go:27-41, the loop body for one non-terminal. *)
Definition lr_nt (fuel : nat) (g : grammar) (op : lrop) (nt : gostring) : res lrop :=
  let '(cur, s1) := set_str (lo_set op) nt in
  match g_prods g nt with
  | None => Panic
  | Some ps =>
      op1 <-! rfold (fun o p =>
                let '(vs, s2) := set_syms (lo_set o) (map Foreign p) in
                safe_add fuel g (LrOp (lo_out o) (lo_done o) (lo_cur o) (lo_direct o) s2) vs)
              ps (LrOp (lo_out op) (lo_done op) cur false s1);
      op2 <-! (if lo_direct op1 then remove_direct op1 else Ok op1);
      Ok (LrOp (lo_out op2) (mark_done (lo_done op2) (lo_cur op2)) (lo_cur op2) (lo_direct op2) (lo_set op2))
  end.

(** left_recursion.go:19-43 [RemoveLeftRecursion]. The input is used only through
    the Grammar interface. *)
Definition remove_left_recursion (fuel : nat) (g : grammar) : res gr :=
  op <-! rfold (lr_nt fuel g) (g_nts g)
           (LrOp gr_empty (replicate (length (g_nts g)) false) 0 false set_new);
  Ok (lo_out op).
