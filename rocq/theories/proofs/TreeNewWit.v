(** Concrete texts for props/TextProps.v. *)
From Coq Require Import String Lia.
From Verif.model Require Import TreeNew.
From Verif.spec Require Import TextSpec.
From Verif.proofs Require Import TreeNewProofs TreeNewProofs2.
Local Open Scope N_scope.

Definition no_print (_ : N) : bool := false.
Definition lf (k : string) (v : gostring) : pn := PN (Lx (L k) v (-1)%Z 0%Z) [].
Definition odd : gostring := L "a\" ++ [34; 10] ++ L "{}: x".
Definition odd_tree : pn := PN (Lx (L "Top") odd (-1)%Z 0%Z) [lf "a" []; PN (Lx (L "b-c") [] (-1)%Z 0%Z) [lf "NIL" (L "\\n")]].
Ltac word := split; [done|]; intros c Hc; apply (bool_decide_unpack _);
  repeat (apply elem_of_cons in Hc as [->|Hc]; [vm_compute; exact I|]); by apply elem_of_nil in Hc.
Lemma odd_ok : writable odd_tree /\ values_kept no_print odd_tree
  /\ tree_new (pn_string no_print (Some odd_tree)) = Ok (Some odd_tree).
Proof.
  split; [|split; [|vm_compute; reflexivity]].
  - unfold odd_tree, writable, lf. repeat first [apply Forall_nil_2 | apply Forall_cons_2 | apply all_nodes_intro];
      cbn [lx_kind L]; word.
  - unfold odd_tree, values_kept, lf. repeat first [apply Forall_nil_2 | apply Forall_cons_2 | apply all_nodes_intro]; cbn [lx_val];
      intros c Hc; vm_compute in Hc; repeat (apply elem_of_cons in Hc as [->|Hc]; [reflexivity|]); by apply elem_of_nil in Hc.
Qed.
Definition tab_tree : pn := lf "a" [9].
Lemma tab_refuted : exists print t t', writable t /\ tree_new (pn_string print (Some t)) = Ok (Some t')
  /\ lx_val (pn_lexeme t') <> lx_val (pn_lexeme t).
Proof.
  exists no_print, tab_tree. eexists. split; [|split; [vm_compute; reflexivity|discriminate]].
  constructor; [|constructor]. cbn [lx_kind L]. word.
Qed.
Lemma new_panics : tree_new [] = Panic /\ tree_new (L "}") = Panic /\ tree_new (L "a {") = Panic.
Proof. repeat split; vm_compute; reflexivity. Qed.
Lemma new_panic_refuted : exists str, tree_new str = Panic.
Proof. exists []. reflexivity. Qed.

(** An unclosed node: the first child of the innermost open one is returned. *)
Definition two : gostring := L "x" ++ [10] ++ L "a {" ++ [10] ++ L " b {" ++ [10] ++ L " } c".
Lemma two_marks : exists ms, text_marks two ms /\ exists pre f ts, ms = pre ++ f /\ opens pre /\ forest f (PN (Lx (L "b") [] (-1)%Z 0%Z) [] :: ts).
Proof.
  eexists. split.
  - eexists. split; [|reflexivity]. vm_compute split1.
    do 4 (eapply List.Forall2_cons; [vm_compute; reflexivity|]). apply List.Forall2_nil.
  - exists [MLeaf (Lx (L "x") [] (-1)%Z 0%Z); MOpen (Lx (L "a") [] (-1)%Z 0%Z)],
      [MOpen (Lx (L "b") [] (-1)%Z 0%Z); MClose; MLeaf (Lx (L "c") [] (-1)%Z 0%Z)], [PN (Lx (L "c") [] (-1)%Z 0%Z) []].
    split; [reflexivity|]. split.
    + apply (opens_node [] [MLeaf (Lx (L "x") [] (-1)%Z 0%Z)] [PN (Lx (L "x") [] (-1)%Z 0%Z) []]); repeat constructor.
    + apply (forest_node _ [] []); repeat constructor.
Qed.
Lemma bad_line : exists str good bad rest ls, split1 c_nl str = good ++ bad :: rest
  /\ Forall2 (fun line l => tree_line line = Ok (Some l)) good ls /\ tree_line bad = Ok None
  /\ forest (List.concat (map line_marks ls)) [PN (Lx (L "x") [] (-1)%Z 0%Z) []] /\ tree_new str = Ok None.
Proof.
  exists (L "x" ++ [10] ++ L "y z"), [L "x"], (L "y z"), [], [TLine false (Some (Lx (L "x") [] (-1)%Z 0%Z)) false].
  split; [reflexivity|]. split; [constructor; [vm_compute; reflexivity|constructor]|]. split; [vm_compute; reflexivity|].
  split; [repeat constructor|vm_compute; reflexivity].
Qed.
