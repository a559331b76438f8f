(** C09-C15: parser/topdown and leftrecursion.go. [td_new] is New ([false] for
    ErrLeftRecursion), [td_parse] is Parse. [left_recursive]: some symbol can come
    first in what it is rewritten to, behind symbols deriving the empty string. *)
From Verif.spec Require Import Outcome TopdownSpec.
From Verif.model Require Import Topdown Packrat.
From Verif.proofs Require TopdownProofs LeftRecProofs TopdownThms TopdownWit PackratWit.

(** C09 *)
Theorem c09_topdown_sound g lexemes t :
  g_wf g -> returns (fun n => td_parse n g lexemes) (Some t) ->
  exists s0 rest, g_nts g = s0 :: rest /\ is_tree g s0 t lexemes.
Proof. exact (TopdownThms.topdown_sound g lexemes t). Qed.
Print Assumptions c09_topdown_sound.

(** C10 *)
Theorem c10_topdown_ordered_choice g lexemes r :
  g_wf g -> (returns (fun n => td_parse n g lexemes) r <-> oc_parse g lexemes r).
Proof. exact (TopdownProofs.td_parse_oc g lexemes r). Qed.
Print Assumptions c10_topdown_ordered_choice.
Theorem c10_topdown_diverges g lexemes :
  g_wf g -> (diverges (fun n => td_parse n g lexemes) <-> ~ exists r, oc_parse g lexemes r).
Proof. exact (TopdownProofs.td_parse_diverges g lexemes). Qed.
Print Assumptions c10_topdown_diverges.
Theorem c10_ordered_choice_unique g lexemes r r' :
  oc_parse g lexemes r -> oc_parse g lexemes r' -> r = r'.
Proof. exact (TopdownProofs.oc_parse_det g lexemes r r'). Qed.
Print Assumptions c10_ordered_choice_unique.

(** C11 *)
Theorem c11_topdown_terminates g lexemes :
  g_wf g -> ~ left_recursive g -> exists r, returns (fun n => td_parse n g lexemes) r.
Proof. exact (TopdownThms.topdown_terminates g lexemes). Qed.
Print Assumptions c11_topdown_terminates.

(** C12 is false: New accepts [S -> N A; N -> ; A -> N A | a], which is left
    recursive, and then Parse terminates on no input at all. *)
Theorem c12_new_refuted : exists g,
  g_wf g /\ left_recursive g /\ returns (fun n => td_new n g) true
  /\ forall lexemes, diverges (fun n => td_parse n g lexemes).
Proof.
  exact (ex_intro _ TopdownWit.hidden (conj TopdownWit.hidden_wf (conj TopdownWit.hidden_lr
    (conj TopdownWit.hidden_new TopdownWit.hidden_diverges)))).
Qed.
Print Assumptions c12_new_refuted.
(** It holds when no production of two or more symbols starts with a symbol that
    derives the empty string. *)
Theorem c12_new_partial g b :
  g_wf g -> solid_starts g -> returns (fun n => td_new n g) b -> (b = true <-> ~ left_recursive g).
Proof. exact (TopdownThms.td_new_exact g b). Qed.
Print Assumptions c12_new_partial.
Theorem c12_new_parse_partial g lexemes :
  g_wf g -> solid_starts g -> returns (fun n => td_new n g) true ->
  exists r, returns (fun n => td_parse n g lexemes) r.
Proof. exact (TopdownThms.td_new_parse g lexemes). Qed.
Print Assumptions c12_new_parse_partial.

(** C13 *)
Theorem c13_is_left_recursive_total g :
  g_wf g -> exists b, returns (fun n => is_left_recursive n g) b.
Proof. exact (LeftRecProofs.is_lr_total g). Qed.
Print Assumptions c13_is_left_recursive_total.
Theorem c13_no_false_alarm g :
  g_wf g -> returns (fun n => is_left_recursive n g) true -> left_recursive g.
Proof. exact (LeftRecProofs.is_lr_sound g). Qed.
Print Assumptions c13_no_false_alarm.
Theorem c13_new_total g : g_wf g -> exists b, returns (fun n => td_new n g) b.
Proof. exact (TopdownThms.td_new_total g). Qed.
Print Assumptions c13_new_total.
Theorem c13_new_no_false_alarm g :
  g_wf g -> returns (fun n => td_new n g) false -> left_recursive g.
Proof. exact (TopdownThms.td_new_no_false_alarm g). Qed.
Print Assumptions c13_new_no_false_alarm.
Example c13_example : returns (fun n => td_new n PackratWit.expr) false.
Proof. exact TopdownWit.expr_lr. Qed.

(** C14 is false: [S -> A b; A -> a | a a] derives "a a b", Parse returns nil. *)
Theorem c14_topdown_complete_refuted : exists g lexemes,
  ~ left_recursive g /\ generates g (map lx_kind lexemes)
  /\ returns (fun n => td_parse n g lexemes) None.
Proof.
  exact (ex_intro _ TopdownWit.short (ex_intro _ TopdownWit.aab
    (conj TopdownWit.short_not_lr (conj TopdownWit.short_derives TopdownWit.short_fails)))).
Qed.
Print Assumptions c14_topdown_complete_refuted.
(** It holds when no word of a symbol used in a production is a proper prefix of
    another word of that symbol. *)
Theorem c14_topdown_complete_partial g lexemes :
  g_wf g -> ~ left_recursive g -> prefix_free g -> generates g (map lx_kind lexemes) ->
  exists t, returns (fun n => td_parse n g lexemes) (Some t).
Proof. exact (TopdownThms.topdown_complete g lexemes). Qed.
Print Assumptions c14_topdown_complete_partial.
(** [S -> ( S ) | x] on "( ( x ) )" meets every hypothesis of C09-C14. *)
Example c14_example :
  g_wf TopdownWit.paren /\ ~ left_recursive TopdownWit.paren /\ solid_starts TopdownWit.paren
  /\ prefix_free TopdownWit.paren
  /\ exists t, td_parse 20 TopdownWit.paren TopdownWit.paren_in = Ok (Some t) /\ length (pn_children t) = 3.
Proof. exact TopdownWit.paren_ok. Qed.

(** C15 *)
Theorem c15_topdown_then_packrat g lexemes t :
  g_wf g -> returns (fun n => td_parse n g lexemes) (Some t) ->
  exists t', returns (fun n => packrat_parse n g lexemes) (Some t').
Proof. exact (TopdownThms.topdown_packrat g lexemes t). Qed.
Print Assumptions c15_topdown_then_packrat.
