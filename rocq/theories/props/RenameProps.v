(** C100: the names of symbols do not matter. *)
From Coq Require Import String.
From Verif.model Require Import Packrat Topdown.
From Verif.spec Require Import Outcome Rename.
From Verif.proofs Require TdRename PackratRename TopdownWit.

Theorem c100_packrat f g1 g2 lexemes r2 :
  g_wf g1 -> g_wf g2 -> one_to_one f -> renamed f g1 g2 ->
  (returns (fun n => packrat_parse n g2 (map (rn_lexeme f) lexemes)) r2
   <-> exists r1, returns (fun n => packrat_parse n g1 lexemes) r1 /\ r2 = option_map (rn_tree f) r1).
Proof. exact (PackratRename.packrat_rename f g1 g2 lexemes r2). Qed.
Print Assumptions c100_packrat.
Theorem c100_topdown f g1 g2 lexemes r2 :
  g_wf g1 -> g_wf g2 -> one_to_one f -> renamed f g1 g2 ->
  (returns (fun n => td_parse n g2 (map (rn_lexeme f) lexemes)) r2
   <-> exists r1, returns (fun n => td_parse n g1 lexemes) r1 /\ r2 = option_map (rn_tree f) r1).
Proof. exact (TdRename.td_rename f g1 g2 lexemes r2). Qed.
Print Assumptions c100_topdown.
(** [S -> ( S ) | x] with an apostrophe before every name, and one more rule. With another
    start symbol it is not the same grammar. *)
Example c100_example :
  g_wf TopdownWit.paren /\ g_wf TdRename.paren_quoted2 /\ one_to_one TdRename.quoted
  /\ renamed TdRename.quoted TopdownWit.paren TdRename.paren_quoted2
  /\ ~ renamed TdRename.quoted TopdownWit.paren TdRename.paren_quoted
  /\ exists t, td_parse 20 TopdownWit.paren TopdownWit.paren_in = Ok (Some t)
     /\ td_parse 20 TdRename.paren_quoted2 (map (rn_lexeme TdRename.quoted) TopdownWit.paren_in) = Ok (Some (rn_tree TdRename.quoted t))
     /\ t <> rn_tree TdRename.quoted t.
Proof. exact TdRename.rename_example. Qed.
