(** C94, C95: how much work a parse is. *)
From Coq Require Import String.
From Verif.spec Require Import Outcome TopdownSpec PackratSpec ThreadSpec CostSpec.
From Verif.proofs Require PackratRounds LookupProofs TdLookup LrLookup CostWit.

(** C94: when no production has more than [k] symbols, the main loop of the packrat parser
    is done after (symbols written in the grammar) * (lexemes + 1) ^ (k + 1) rounds. *)
Theorem c94_rounds g lexemes k :
  g_wf g -> not_mistaken g lexemes -> at_most k g ->
  exists r, returns (fun fuel => parse_within (written g * S (length lexemes) ^ S k) fuel g lexemes) r
         /\ returns (fun fuel => packrat_parse fuel g lexemes) r.
Proof. exact (PackratRounds.rounds g lexemes k). Qed.
Print Assumptions c94_rounds.

(** With as many rounds as fuel, [parse_within] is the model of Parse. *)
Theorem c94_unbounded n g lexemes : parse_within n n g lexemes = packrat_parse n g lexemes.
Proof. exact eq_refl. Qed.
Print Assumptions c94_unbounded.

(** [A -> A | A A | a | ] on [a a] is not done after 20 rounds and is done after 25; the bound is 108. *)
Example c94_example : g_wf PackratWit.cyc /\ not_mistaken PackratWit.cyc PackratWit.aa /\ at_most 2 PackratWit.cyc
  /\ written PackratWit.cyc * S (length PackratWit.aa) ^ 3 = 108
  /\ parse_within 20 60 PackratWit.cyc PackratWit.aa = OutOfFuel
  /\ exists t, parse_within 25 60 PackratWit.cyc PackratWit.aa = Ok (Some t).
Proof. exact CostWit.cyc_rounds. Qed.

(** C95: a parse calls Productions of the caller's grammar for a symbol at most once when
    the grammar is loaded and once per position, and other methods at most three times. *)
Theorem c95_packrat g fuel lexemes x : built g ->
  lookups x (asked g (packrat_p fuel lexemes)) <= length lexemes + 2
  /\ others (asked g (packrat_p fuel lexemes)) <= 3.
Proof. exact (fun Hb => LookupProofs.packrat_lookups g Hb fuel lexemes x). Qed.
Print Assumptions c95_packrat.

Theorem c95_topdown g fuel lexemes x : built g -> ~ left_recursive (gr_view g) ->
  lookups x (asked g (td_parse_p fuel lexemes)) <= length lexemes + 2
  /\ others (asked g (td_parse_p fuel lexemes)) <= 2.
Proof. exact (fun Hb => TdLookup.topdown_lookups g Hb fuel lexemes x). Qed.
Print Assumptions c95_topdown.

(** IsLeftRecursive looks a symbol up once, and once more when it finds it on its stack. *)
Theorem c95_is_left_recursive g fuel x : built g ->
  lookups x (asked g (is_left_recursive_p fuel)) <= 2 /\ others (asked g (is_left_recursive_p fuel)) = 1.
Proof. exact (fun Hb => LrLookup.left_recursive_lookups g Hb fuel x). Qed.
Print Assumptions c95_is_left_recursive.

(** The bounds are met: by [S -> a S | ] on [a a a a a], and by [S -> S a | b]. *)
Example c95_example : built CostWit.ta_g /\ ~ left_recursive (gr_view CostWit.ta_g)
  /\ lookups (L "S") (asked CostWit.ta_g (packrat_p 60 CostWit.ta_in)) = length CostWit.ta_in + 2
  /\ others (asked CostWit.ta_g (packrat_p 60 CostWit.ta_in)) = 3
  /\ lookups (L "S") (asked CostWit.ta_g (td_parse_p 60 CostWit.ta_in)) = length CostWit.ta_in + 2
  /\ others (asked CostWit.ta_g (td_parse_p 60 CostWit.ta_in)) = 2.
Proof. exact CostWit.ta_lookups. Qed.
Example c95_example_lr : built CostWit.lr_g /\ lookups (L "S") (asked CostWit.lr_g (is_left_recursive_p 60)) = 2.
Proof. exact CostWit.lr_twice. Qed.
