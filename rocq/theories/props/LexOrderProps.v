(** C105: what the order and number of a simple lexer's rules matter for. *)
From Coq Require Import String.
From Verif.spec Require Import LexSpec LexOrderSpec.
From Verif.proofs Require LexOrder LexWit.
Local Open Scope list_scope.

Theorem c105_order cs1 cs2 l1 l2 s xs l1' : adds_first cs1 -> regexps_in no_lookbehind cs1 -> st_length (settings_of cs1) = true ->
  adds_first cs2 -> regexps_in no_lookbehind cs2 -> settings_of cs1 = settings_of cs2 ->
  returns (sl_calls cs1 slexer_empty) l1 -> returns (sl_calls cs2 slexer_empty) l2 ->
  (forall d, d ∈ rules_of cs1 <-> d ∈ rules_of cs2) -> no_ties (rules_of cs1) s ->
  returns (slex l1 s) (xs, l1') -> exists l2', returns (slex l2 s) (xs, l2').
Proof. exact (LexOrder.lex_order cs1 cs2 l1 l2 s xs l1'). Qed.
Print Assumptions c105_order.
(** if, word, num and space, forwards and backwards, on "iffy 12". *)
Example c105_order_example : adds_first LexWit.demo /\ regexps_in no_lookbehind LexWit.demo /\ st_length (settings_of LexWit.demo) = true
  /\ adds_first LexOrder.turned /\ regexps_in no_lookbehind LexOrder.turned /\ settings_of LexWit.demo = settings_of LexOrder.turned
  /\ returns (sl_calls LexWit.demo slexer_empty) LexWit.demo_lexer /\ returns (sl_calls LexOrder.turned slexer_empty) LexOrder.turned_lexer
  /\ (forall d, d ∈ rules_of LexWit.demo <-> d ∈ rules_of LexOrder.turned) /\ no_ties (rules_of LexWit.demo) LexOrder.iffy
  /\ exists l, returns (slex LexWit.demo_lexer LexOrder.iffy)
       ([LTok (Lx (L "begin") [] (-1) 0); LTok (Lx (L "word") (L "iffy") 0 1); LTok (Lx (L "num") (L "12") 0 6);
         LTok (Lx (L "end") (L "$") (-1) 0)], l).
Proof. exact LexOrder.order_example. Qed.
(** Where two rules share the longest match the order does matter: "if". *)
Theorem c105_ties_matter : exists cs1 cs2 l1 l2 s xs1 xs2 l1' l2', adds_first cs1 /\ regexps_in no_lookbehind cs1 /\ st_length (settings_of cs1) = true
  /\ adds_first cs2 /\ regexps_in no_lookbehind cs2 /\ settings_of cs1 = settings_of cs2
  /\ returns (sl_calls cs1 slexer_empty) l1 /\ returns (sl_calls cs2 slexer_empty) l2
  /\ (forall d, d ∈ rules_of cs1 <-> d ∈ rules_of cs2)
  /\ returns (slex l1 s) (xs1, l1') /\ returns (slex l2 s) (xs2, l2') /\ xs1 <> xs2.
Proof. exact LexOrder.ties_matter. Qed.
Print Assumptions c105_ties_matter.

(** A rule that is nowhere in the text the best one may be left out. *)
Theorem c105_unused cs1 cs2 l1 l2 s xs l1' a d b : adds_first cs1 -> regexps_in no_lookbehind cs1 -> st_length (settings_of cs1) = true ->
  adds_first cs2 -> regexps_in no_lookbehind cs2 -> settings_of cs1 = settings_of cs2 ->
  returns (sl_calls cs1 slexer_empty) l1 -> returns (sl_calls cs2 slexer_empty) l2 ->
  rules_of cs1 = a ++ d :: b -> rules_of cs2 = a ++ b -> (forall k n, ~ best (rules_of cs1) (drop k s) (length a) n) ->
  returns (slex l1 s) (xs, l1') -> exists l2', returns (slex l2 s) (xs, l2').
Proof. exact (LexOrder.lex_unused cs1 cs2 l1 l2 s xs l1' a d b). Qed.
Print Assumptions c105_unused.
(** The rule for if matches the beginning of "iffy" but never wins. *)
Example c105_unused_example : adds_first LexWit.demo /\ regexps_in no_lookbehind LexWit.demo /\ st_length (settings_of LexWit.demo) = true
  /\ adds_first LexOrder.less /\ regexps_in no_lookbehind LexOrder.less /\ settings_of LexWit.demo = settings_of LexOrder.less
  /\ returns (sl_calls LexWit.demo slexer_empty) LexWit.demo_lexer /\ returns (sl_calls LexOrder.less slexer_empty) LexOrder.less_lexer
  /\ rules_of LexWit.demo = [] ++ RDef (L "if") LexWit.rx_if false :: rules_of LexOrder.less /\ rules_of LexOrder.less = [] ++ rules_of LexOrder.less
  /\ (exists n, at_start LexWit.rx_if LexOrder.iffy = Some n /\ 0 < n) /\ forall k n, ~ best (rules_of LexWit.demo) (drop k LexOrder.iffy) 0 n.
Proof. exact LexOrder.unused_example. Qed.
