(** C101: topdown never takes a production that begins with an earlier one. *)
From Coq Require Import String.
From Verif.model Require Import Topdown.
From Verif.spec Require Import Outcome Shadow.
From Verif.proofs Require TdShadow.
Local Open Scope list_scope.

Theorem c101_shadowed g1 g2 lexemes r :
  g_wf g1 -> g_wf g2 -> pruned_grammar g1 g2 ->
  (returns (fun n => td_parse n g1 lexemes) r <-> returns (fun n => td_parse n g2 lexemes) r).
Proof. exact (TdShadow.td_pruned g1 g2 lexemes r). Qed.
Print Assumptions c101_shadowed.
(** [S -> E ; | E ;] with [E -> n | n + E | ( E )]: "n + n ;" is not accepted. *)
Example c101_example : g_wf TdShadow.sums /\ g_wf TdShadow.sums_less /\ pruned_grammar TdShadow.sums TdShadow.sums_less
  /\ (exists t, td_parse 20 TdShadow.sums (map TdShadow.lxk [L "("; L "n"; L ")"; L ";"]) = Ok (Some t) /\ length (pn_children t) = 2)
  /\ td_parse 20 TdShadow.sums (map TdShadow.lxk [L "n"; L "+"; L "n"; L ";"]) = Ok None.
Proof. exact TdShadow.sums_pruned. Qed.
(** The guard for the start symbol is needed: of [S -> x | x y] the second is taken. *)
Theorem c101_start_counts : exists g1 g2 lexemes t, g_wf g1 /\ g_wf g2
  /\ (forall x, match g_prods g1 x, g_prods g2 x with
                | Some ps, Some ps' => pruned False [] ps ps' | None, None => True | _, _ => False end)
  /\ returns (fun n => td_parse n g1 lexemes) (Some t) /\ returns (fun n => td_parse n g2 lexemes) None.
Proof. exact TdShadow.start_differs. Qed.
Print Assumptions c101_start_counts.
