(** The interactive calculator: which lines it reads, and what it should answer. *)
From Coq Require Import String.
From Verif.model Require Export ScalcMain.
From Verif.spec Require Export ScalcSpec.
Local Open Scope nat_scope.
Local Open Scope list_scope.

Definition newline : N := 10%N.
(** A line read from what Reads return, and the Reads left. *)
Inductive asks : list gostring -> gostring -> list gostring -> Prop :=
| as_end : asks [] [] []
| as_line a b r : newline ∉ a -> asks ((a ++ newline :: b) :: r) (a ++ [newline]) r
| as_more c r w r' : newline ∉ c -> asks r w r' -> asks (c :: r) (c ++ w) r'.
(** Some line read is exit. *)
Definition exit_line : gostring := L "exit" ++ [newline].
Inductive exits : list gostring -> Prop :=
| ex_now inp r : asks inp exit_line r -> exits inp
| ex_later inp w r : asks inp w r -> exits r -> exits inp.

(** Numerals. *)
Definition digits (w : gostring) : Prop := w <> [] /\ forall x, x ∈ w -> (48 <= x <= 57)%N.
Definition whole_part (w : gostring) : Prop := exists sign ds, w = sign ++ ds /\ digits ds /\ (sign = [] \/ sign = L "+" \/ sign = L "-").
Section Session.
  Variable A : sarith.
  Variable show : Z -> sf A -> gostring.
  (** A number that is printed as a numeral of its precision which reads as that number. *)
  Definition reads_back (x : pfloat A) : Prop :=
    exists i d, show (pf_p x) (pf_v x) = i ++ d /\ whole_part i /\ sf_parse A (i ++ d) = pf_v x
      /\ ((d = [] /\ pf_p x = 0%Z) \/ exists ds, d = L "." ++ ds /\ digits ds /\ pf_p x = Z.of_nat (length ds)).
  (** Lines: numbers, unary and binary operators, with one stack operation at the end or one
      stack operator whose result is not used in the line. *)
  Definition plain_line (u : list lexeme) : Prop :=
    arithmetic u
    \/ (exists w x, u = w ++ [x] /\ arithmetic w /\ lx_kind x = L "smp")
    \/ (exists w x v st, u = w ++ x :: v /\ arithmetic w /\ lx_kind x = L "sop" /\ arithmetic v /\ machine A true [] v st).
  Definition line_reads (w : gostring) : Prop := forall u, sc_tokens w u -> plain_line u /\ not_dec u.
  Definition answer_reads (a : option (list (pfloat A))) : Prop := match a with Some st => Forall reads_back st | None => True end.
  (** [session st lines ans]: the machine's stack is [st], top first, [lines] are entered and
      [ans] are the stacks after them, or none if the machine has no run or the line is not
      made of tokens, in which case the stack stays. *)
  Inductive session : list (pfloat A) -> list gostring -> list (option (list (pfloat A))) -> Prop :=
  | ss_done st : session st [] []
  | ss_run st w u st' lines ans : sc_tokens w u -> machine A true st u st' ->
      session st' lines ans -> session st (w :: lines) (Some st' :: ans)
  | ss_none st w u lines ans : sc_tokens w u -> (forall st', ~ machine A true st u st') ->
      session st lines ans -> session st (w :: lines) (None :: ans)
  | ss_junk st w v lines ans : lexes_not (sc_calls []) w v -> session st lines ans -> session st (w :: lines) (None :: ans).
  (** What is printed for an answer: the stack's numbers, bottom first, separated by spaces. *)
  Inductive spaced : list gostring -> gostring -> Prop :=
  | sp_none : spaced [] []
  | sp_one w : spaced [w] w
  | sp_more w l r : spaced l r -> l <> [] -> spaced (w :: l) (w ++ L " " ++ r).
  Inductive printed : list (option (list (pfloat A))) -> gostring -> Prop :=
  | pd_end : printed [] (L "> ")
  | pd_bad ans out : printed ans out -> printed (None :: ans) (L "> Bad input" ++ [newline] ++ out)
  | pd_stack st ans w out : spaced (rev (map (fun x => show (pf_p x) (pf_v x)) st)) w -> printed ans out ->
      printed (Some st :: ans) (L "> " ++ w ++ [newline] ++ out).
End Session.
Definition is_line (w : gostring) : Prop := exists a, w = a ++ [newline] /\ newline ∉ a.
