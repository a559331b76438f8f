(** C20: grammar/left_recursion.go. [remove_left_recursion] is RemoveLeftRecursion;
    [gr_view G] is the grammar it returns, through the Grammar interface. *)
From Coq Require Import String.
From Verif.spec Require Import Outcome LrSpec.
From Verif.model Require Import LrRemove Topdown.
From Verif.proofs Require LrThms LrUnfold LrWit.
Local Open Scope list_scope.

(** C20 is false in five ways. In each witness every condition below holds but one. *)

(** [E -> E E x | y] generates "y y x"; the result does not. *)
Theorem c20_language_refuted : exists g G w,
  lr_tame g /\ productive g /\ no_empty_productions g /\ forward_starts g /\
  returns (fun n => remove_left_recursion n g) G /\ generates g w /\ ~ generates (gr_view G) w.
Proof.
  exact (ex_intro _ LrWit.twice (ex_intro _ (LrWit.result_of LrWit.twice) (ex_intro _ LrWit.yyx
    (conj LrWit.twice_tame (conj LrWit.twice_productive (conj LrWit.twice_no_empty (conj LrWit.twice_forward
    (conj LrWit.twice_returns (conj LrWit.twice_yyx LrWit.twice_lost))))))))).
Qed.
Print Assumptions c20_language_refuted.
(** [A -> B A | a ; B -> b | ]: the result is left recursive. *)
Theorem c20_still_left_recursive_refuted : exists g G,
  lr_tame g /\ productive g /\ forward_starts g /\ (forall A ps t, g_prods g A = Some ps -> A :: A :: t ∉ ps) /\
  returns (fun n => remove_left_recursion n g) G /\ left_recursive (gr_view G).
Proof.
  exact (ex_intro _ LrWit.behind (ex_intro _ (LrWit.result_of LrWit.behind)
    (conj LrWit.behind_tame (conj LrWit.behind_productive (conj LrWit.behind_forward (conj LrWit.behind_not_twice
    (conj LrWit.behind_returns LrWit.behind_still))))))).
Qed.
Print Assumptions c20_still_left_recursive_refuted.
(** [A -> A x | y ; B -> A z]: never returns. *)
Theorem c20_terminates_refuted : exists g,
  lr_tame g /\ productive g /\ no_empty_productions g /\ no_double g /\
  diverges (fun n => remove_left_recursion n g).
Proof.
  exact (ex_intro _ LrWit.spin (conj LrWit.spin_tame (conj LrWit.spin_productive (conj LrWit.spin_no_empty
    (conj LrWit.spin_no_double (LrUnfold.rlr_diverges _ LrWit.spin_tame LrWit.spin_productive LrWit.spin_endless)))))).
Qed.
Print Assumptions c20_terminates_refuted.
(** [A -> A]: String of the result's second non-terminal panics. *)
Theorem c20_usable_refuted : exists g G i,
  lr_tame g /\ no_empty_productions g /\ forward_starts g /\ (forall A ps t, g_prods g A = Some ps -> A :: A :: t ∉ ps) /\
  returns (fun n => remove_left_recursion n g) G /\
  i ∈ gr_nonterminals G /\ by_idx (gr_set G) (Z.of_nat i) = Some (Z.of_nat i) /\ sym_string (gr_set G) (Z.of_nat i) = Panic.
Proof.
  exact (ex_intro _ LrWit.self (ex_intro _ (LrWit.result_of LrWit.self) (ex_intro _ 1
    (conj LrWit.self_tame (conj LrWit.self_no_empty (conj LrWit.self_forward (conj LrWit.self_not_twice
    (conj LrWit.self_returns (conj (elem_of_list_lookup_2 _ 1 _ (proj1 LrWit.self_unusable)) (proj2 LrWit.self_unusable)))))))))).
Qed.
Print Assumptions c20_usable_refuted.
(** [A -> A x | y ; A' -> z]: the result generates "y z", the input does not. *)
Theorem c20_fresh_names_refuted : exists g G w,
  g_wf g /\ NoDup (g_nts g) /\ productive g /\ no_empty_productions g /\ forward_starts g /\
  (forall A ps t, g_prods g A = Some ps -> A :: A :: t ∉ ps) /\
  returns (fun n => remove_left_recursion n g) G /\ generates (gr_view G) w /\ ~ generates g w.
Proof.
  exact (ex_intro _ LrWit.clash (ex_intro _ (LrWit.result_of LrWit.clash) (ex_intro _ LrWit.yz
    (conj (PackratWit.gram_of_wf _) (conj LrWit.clash_nodup (conj LrWit.clash_productive (conj LrWit.clash_no_empty
    (conj LrWit.clash_forward (conj LrWit.clash_not_twice (conj LrWit.clash_returns (conj LrWit.clash_new LrWit.clash_old))))))))))).
Qed.
Print Assumptions c20_fresh_names_refuted.

(** It holds when the grammar is tame (made-up names are unused, every listed
    non-terminal has productions), every non-terminal derives some word, no
    production is empty, unfolding ends, and nothing unfolds to [A -> A A ...]. *)
Theorem c20_remove_left_recursion_partial g :
  lr_tame g -> productive g -> no_empty_productions g -> unfolding_ends g -> no_double g ->
  exists G, returns (fun n => remove_left_recursion n g) G /\ g_wf (gr_view G) /\
    ~ left_recursive (gr_view G) /\ forall w, generates (gr_view G) w <-> generates g w.
Proof. exact (LrThms.rlr_all g). Qed.
Print Assumptions c20_remove_left_recursion_partial.

(** Which grammars it returns for at all. *)
Theorem c20_terminates_partial g : lr_tame g -> productive g ->
  (exists G, returns (fun n => remove_left_recursion n g) G) <-> unfolding_ends g.
Proof. exact (LrThms.rlr_ends_iff g). Qed.
Print Assumptions c20_terminates_partial.
Theorem c20_diverges g : lr_tame g -> productive g -> ~ unfolding_ends g ->
  diverges (fun n => remove_left_recursion n g).
Proof. exact (LrUnfold.rlr_diverges g). Qed.
Print Assumptions c20_diverges.
Theorem c20_ends_forward g : forward_starts g -> unfolding_ends g.
Proof. exact (LrThms.forward_ends g). Qed.
Print Assumptions c20_ends_forward.
Theorem c20_ends_not_left_recursive g : g_wf g -> ~ left_recursive g -> unfolding_ends g.
Proof. exact (LrThms.not_left_recursive_ends g). Qed.
Print Assumptions c20_ends_not_left_recursive.

(** What it returns, exactly. *)
Theorem c20_result_partial g M : lr_tame g -> eliminates g nil (g_nts g) M ->
  exists G, returns (fun n => remove_left_recursion n g) G /\ same_grammar (gr_view G) (gram_of M).
Proof. exact (LrThms.rlr_exact g M). Qed.
Print Assumptions c20_result_partial.
Theorem c20_result_only_partial g G : lr_tame g -> productive g -> returns (fun n => remove_left_recursion n g) G ->
  exists M, eliminates g nil (g_nts g) M /\ same_grammar (gr_view G) (gram_of M).
Proof. exact (LrThms.rlr_exact_only g G). Qed.
Print Assumptions c20_result_only_partial.

(** The language of every symbol of the input, with empty productions allowed. *)
Theorem c20_language_partial g G : lr_tame g -> productive g -> no_double g ->
  returns (fun n => remove_left_recursion n g) G ->
  forall s w, (forall A, A ∈ g_nts g -> s <> prime A) -> derives (gr_view G) s w <-> derives g s w.
Proof. exact (LrThms.rlr_derives g G). Qed.
Print Assumptions c20_language_partial.
(** Not left recursive, whatever happens to the language. *)
Theorem c20_not_left_recursive_partial g G : lr_tame g -> productive g -> no_empty_productions g ->
  returns (fun n => remove_left_recursion n g) G -> ~ left_recursive (gr_view G).
Proof. exact (LrThms.rlr_not_left_recursive g G). Qed.
Print Assumptions c20_not_left_recursive_partial.
(** So topdown.New accepts the result and its Parse terminates. *)
Theorem c20_topdown_partial g G : lr_tame g -> productive g -> no_empty_productions g ->
  returns (fun n => remove_left_recursion n g) G ->
  returns (fun n => td_new n (gr_view G)) true /\
  forall lexemes, exists r, returns (fun n => td_parse n (gr_view G) lexemes) r.
Proof. exact (LrThms.rlr_topdown g G). Qed.
Print Assumptions c20_topdown_partial.
(** Grammars whose left recursion is direct. *)
Theorem c20_direct_partial g : lr_tame g -> productive g -> no_empty_productions g -> forward_starts g ->
  (forall A ps t, g_prods g A = Some ps -> A :: A :: t ∉ ps) ->
  exists G, returns (fun n => remove_left_recursion n g) G /\
    ~ left_recursive (gr_view G) /\ forall w, generates (gr_view G) w <-> generates g w.
Proof. exact (LrThms.rlr_direct g). Qed.
Print Assumptions c20_direct_partial.

(** Met by the three-level expression grammar, which is left recursive. *)
Example c20_direct_case : lr_tame LrWit.arith /\ productive LrWit.arith /\ no_empty_productions LrWit.arith /\
  forward_starts LrWit.arith /\ (forall A ps t, g_prods LrWit.arith A = Some ps -> A :: A :: t ∉ ps) /\
  left_recursive LrWit.arith.
Proof.
  exact (conj LrWit.arith_tame (conj LrWit.arith_productive (conj LrWit.arith_no_empty (conj LrWit.arith_forward
    (conj LrWit.arith_not_twice LrWit.arith_left_recursive))))).
Qed.
Example c20_direct_result :
  match remove_left_recursion 10 LrWit.arith with Ok G => gr_string G | _ => nil end = am_text LrWit.arith_result.
Proof. exact LrWit.arith_text. Qed.
(** And, with left recursion through two non-terminals, by [A -> B b | a ; B -> A c]. *)
Example c20_indirect_case : lr_tame LrWit.indirect /\ productive LrWit.indirect /\ no_empty_productions LrWit.indirect /\
  unfolding_ends LrWit.indirect /\ no_double LrWit.indirect /\ left_recursive LrWit.indirect.
Proof.
  exact (conj LrWit.indirect_tame (conj LrWit.indirect_productive (conj LrWit.indirect_no_empty (conj LrWit.indirect_ends
    (conj LrWit.indirect_no_double LrWit.indirect_left_recursive))))).
Qed.
