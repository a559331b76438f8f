(** Specifications for the texts of lexemes and errors. *)
From Coq Require Import String.
From Verif.model Require Export Printing.
From Verif.spec Require Export RunSpec StackSpec.
Local Open Scope nat_scope.
Local Open Scope list_scope.

(** An integer in decimal notation. *)
Definition decimal_digits (ds : gostring) : Prop :=
  (forall c, c ∈ ds -> (48 <= c <= 57)%N) /\ (ds = L "0" \/ exists c r, ds = c :: r /\ c <> 48%N).
Definition number_of (ds : gostring) : Z := fold_left (fun n c => (n * 10 + (Z.of_N c - 48))%Z) ds 0%Z.
Definition decimal (z : Z) (w : gostring) : Prop :=
  exists ds, decimal_digits ds /\ number_of ds = Z.abs z /\ w = (if (z <? 0)%Z then L "-" ++ ds else ds).

(** The message for text [v] that begins at a line and column. *)
Definition error_message (line col : Z) (v msg : gostring) : Prop :=
  exists a b, decimal line a /\ decimal col b /\ msg = L "Lex Error " ++ a ++ L ":" ++ b ++ L ") " ++ v.
(** One message for each piece of junk, with the place where it begins. *)
Inductive messages : list spiece -> list spiece -> list gostring -> Prop :=
| ms_end before : messages before [] []
| ms_tok before d v val ps out : messages (before ++ [STok d v val]) ps out -> messages before (STok d v val :: ps) out
| ms_junk before v ps c m out : column (stext before) c -> error_message (Z.of_nat (1 + newlines (stext before))) c v m ->
    messages (before ++ [SJunk v]) ps out -> messages before (SJunk v :: ps) (m :: out).

(** Go's code points. *)
Definition code_points (v : gostring) : Prop := forall c, c ∈ v -> (c < 1114112)%N.
Definition same_token (x y : lexeme) : Prop := lx_kind x = lx_kind y /\ lx_val x = lx_val y.
Definition same_place (x y : lexeme) : Prop := lx_line x = lx_line y /\ lx_col x = lx_col y.

(** LexemeList shows the position. *)
Definition placed (x : lexeme) : Prop := (0 < lx_line x \/ 0 < lx_col x)%Z.
(** A kind without newlines and double quotes, and a value of code points. *)
Definition listable (x : lexeme) : Prop := (10%N ∉ lx_kind x) /\ (34%N ∉ lx_kind x) /\ code_points (lx_val x).
(** The kind has no double quote and no parenthesis, and a position that is not set is as New
    leaves it. *)
Definition textable (x : lexeme) : Prop :=
  (34%N ∉ lx_kind x) /\ (40%N ∉ lx_kind x) /\ code_points (lx_val x) /\ (lx_line x = (-1)%Z -> lx_col x = 0%Z).
(** The kind is not empty, has no comma and no colon and does not begin with a bracket; the
    value has no comma. *)
Definition nameable (x : lexeme) : Prop :=
  (exists c r, lx_kind x = c :: r /\ c <> 91%N) /\ (44%N ∉ lx_kind x) /\ (58%N ∉ lx_kind x) /\ (44%N ∉ lx_val x).

(** What a simple lexer returns for some text. *)
Definition lexed (xs : list lexeme) : Prop :=
  exists cs l s ys l', adds_first cs /\ regexps_in well_formed cs /\ returns (sl_calls cs slexer_empty) l
    /\ returns (slex l s) (ys, l') /\ xs = map olex_lx ys.
