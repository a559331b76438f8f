(** C53-C55: analyze. [first_of g x t]: a derivation from x reaches a form that starts with t. *)
From Coq Require Import String.
From Verif.spec Require Import AnalyzeSpec.
From Verif.proofs Require AnalyzeThms AnalyzeWit.

(** Analyze returns on every grammar. *)
Theorem c53_analyze_total g : g_wf g -> exists a, returns (fun n => analyze n g) a.
Proof. exact (AnalyzeThms.analyze_total g). Qed.
Print Assumptions c53_analyze_total.

(** C53 is false: with X -> A q; A -> B z; B -> (nothing), q is reported as a first of X ... *)
Theorem c53_unsound_refuted : exists g a x t, g_wf g /\ returns (fun n => analyze n g) a /\ terminal g t
  /\ left_acyclic g /\ an_has_first a x t = Ok true /\ ~ first_of g x t.
Proof. exact AnalyzeWit.has_first_refuted. Qed.
Print Assumptions c53_unsound_refuted.
(** ... with A -> B | a; B -> A c | b, a is not reported as a first of B ... *)
Theorem c53_incomplete_refuted : exists g a x t, g_wf g /\ returns (fun n => analyze n g) a /\ terminal g t
  /\ (forall y, ~ left_empty g y) /\ first_of g x t /\ an_has_first a x t = Ok false.
Proof. exact AnalyzeWit.has_first_missing. Qed.
Print Assumptions c53_incomplete_refuted.
(** ... and a terminal that starts something is not reported as its own first. *)
Theorem c53_terminal_refuted : exists g a t, g_wf g /\ returns (fun n => analyze n g) a /\ terminal g t
  /\ left_acyclic g /\ first_of g t t /\ an_has_first a t t = Ok false.
Proof. exact AnalyzeWit.has_first_terminal. Qed.
Print Assumptions c53_terminal_refuted.
(** For non-terminals: nothing wrong is reported when skipped symbols derive nothing, nothing
    is missed without left recursion. Missing: the other grammars, and terminals as x. *)
Theorem c53_sound_partial g a x t : g_wf g -> returns (fun n => analyze n g) a ->
  skips_empty g -> is_Some (g_prods g x) -> terminal g t ->
  an_has_first a x t = Ok true -> first_of g x t.
Proof. intros H1 H2. exact (AnalyzeWit.first_sound g a H1 H2 x t). Qed.
Print Assumptions c53_sound_partial.
Theorem c53_complete_partial g a x t : g_wf g -> returns (fun n => analyze n g) a ->
  left_acyclic g -> is_Some (g_prods g x) -> terminal g t ->
  first_of g x t -> an_has_first a x t = Ok true.
Proof. intros H1 H2. exact (AnalyzeWit.first_complete g a H1 H2 x t). Qed.
Print Assumptions c53_complete_partial.
Theorem c53_exact_partial g a x t : g_wf g -> returns (fun n => analyze n g) a ->
  left_acyclic g -> skips_empty g -> is_Some (g_prods g x) -> terminal g t ->
  exists b, an_has_first a x t = Ok b /\ (b = true <-> first_of g x t).
Proof. intros H1 H2. exact (AnalyzeWit.first_exact g a H1 H2 x t). Qed.
Print Assumptions c53_exact_partial.
(** What it does report without left recursion. *)
Theorem c53_leftmost g a x t : g_wf g -> returns (fun n => analyze n g) a ->
  left_acyclic g -> is_Some (g_prods g x) -> terminal g t ->
  exists b, an_has_first a x t = Ok b /\ (b = true <-> leftmost g x t).
Proof. intros H1 H2. exact (AnalyzeWit.first_exact_left g a H1 H2 x t). Qed.
Print Assumptions c53_leftmost.

(** C54 is false: a non-terminal with only an empty production, a terminal that starts nothing. *)
Theorem c54_nonterminal_refuted : exists g a x, g_wf g /\ returns (fun n => analyze n g) a
  /\ x ∈ g_nts g /\ an_nonterminal a x = Ok false.
Proof. exact AnalyzeWit.nonterminal_refuted. Qed.
Print Assumptions c54_nonterminal_refuted.
Theorem c54_contains_refuted : exists g a x, g_wf g /\ returns (fun n => analyze n g) a
  /\ occurs g x /\ an_contains a x = Ok false.
Proof. exact AnalyzeWit.contains_refuted. Qed.
Print Assumptions c54_contains_refuted.
(** A yes is always right. *)
Theorem c54_nonterminal_yes g a x : g_wf g -> returns (fun n => analyze n g) a ->
  an_nonterminal a x = Ok true -> x ∈ g_nts g.
Proof. intros H1 H2. exact (AnalyzeWit.nonterminal_sound g a H1 H2 x). Qed.
Print Assumptions c54_nonterminal_yes.
Theorem c54_contains_yes g a x : g_wf g -> returns (fun n => analyze n g) a ->
  an_contains a x = Ok true -> occurs g x.
Proof. intros H1 H2. exact (AnalyzeWit.contains_sound g a H1 H2 x). Qed.
Print Assumptions c54_contains_yes.
(** Exact answers without left recursion and blank non-terminals. Missing: the grammars
    left out, and for Contains the terminals that start nothing. *)
Theorem c54_nonterminal_partial g a x : g_wf g -> returns (fun n => analyze n g) a ->
  left_acyclic g -> no_blank g ->
  exists b, an_nonterminal a x = Ok b /\ (b = true <-> x ∈ g_nts g).
Proof. intros H1 H2. exact (AnalyzeWit.nonterminal_exact g a H1 H2 x). Qed.
Print Assumptions c54_nonterminal_partial.
Theorem c54_contains_partial g a x : g_wf g -> returns (fun n => analyze n g) a ->
  left_acyclic g -> no_blank g ->
  exists b, an_contains a x = Ok b /\ (b = true <-> x ∈ g_nts g \/ (terminal g x /\ exists z, leftmost g z x)).
Proof. intros H1 H2. exact (AnalyzeWit.contains_exact g a H1 H2 x). Qed.
Print Assumptions c54_contains_partial.

(** C55 is false: A -> B | (nothing); B -> A. *)
Theorem c55_nil_refuted : exists g a x, g_wf g /\ returns (fun n => analyze n g) a
  /\ left_empty g x /\ an_has_nil a x = Ok false.
Proof. exact AnalyzeWit.nil_refuted. Qed.
Print Assumptions c55_nil_refuted.
(** A yes is always right, and so is a no without left recursion. Missing: left recursion. *)
Theorem c55_nil_yes g a x : g_wf g -> returns (fun n => analyze n g) a ->
  an_has_nil a x = Ok true -> left_empty g x.
Proof. intros H1 H2. exact (AnalyzeWit.nil_sound g a H1 H2 x). Qed.
Print Assumptions c55_nil_yes.
Theorem c55_nil_partial g a x : g_wf g -> returns (fun n => analyze n g) a -> left_acyclic g ->
  exists b, an_has_nil a x = Ok b /\ (b = true <-> left_empty g x).
Proof. intros H1 H2. exact (AnalyzeWit.nil_exact g a H1 H2 x). Qed.
Print Assumptions c55_nil_partial.

(** S -> N a | b; N -> c | (nothing) meets all hypotheses. *)
Example c53_example : g_wf AnalyzeWit.fine /\ left_acyclic AnalyzeWit.fine /\ skips_empty AnalyzeWit.fine /\ no_blank AnalyzeWit.fine
  /\ returns (fun n => analyze n AnalyzeWit.fine) (AnalyzeWit.made AnalyzeWit.fine)
  /\ an_has_first (AnalyzeWit.made AnalyzeWit.fine) (L "S") (L "a") = Ok true
  /\ an_has_first (AnalyzeWit.made AnalyzeWit.fine) (L "S") (L "c") = Ok true
  /\ an_has_first (AnalyzeWit.made AnalyzeWit.fine) (L "N") (L "a") = Ok false
  /\ an_has_nil (AnalyzeWit.made AnalyzeWit.fine) (L "S") = Ok true
  /\ an_nonterminal (AnalyzeWit.made AnalyzeWit.fine) (L "N") = Ok true
  /\ an_contains (AnalyzeWit.made AnalyzeWit.fine) (L "c") = Ok true
  /\ an_contains (AnalyzeWit.made AnalyzeWit.fine) (L "q") = Ok false.
Proof. exact AnalyzeWit.fine_ok. Qed.
