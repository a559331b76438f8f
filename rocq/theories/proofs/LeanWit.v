(** A cyclic grammar, whose derivation trees need not be lean. *)
From Coq Require Import String Lia.
From Verif.model Require Import Packrat Topdown.
From Verif.spec Require Import Outcome PackratSpec TopdownSpec TreeShape.
From Verif.proofs Require Import Fuel PackratFuel PackratProofs PackratWit LeanProofs TopdownWit.
Local Open Scope nat_scope.
Local Open Scope list_scope.

(** [A -> A | A A | a | ]: Parse returns [A (A (A a) ...)] without repetition, but
    [A (A a)] is a derivation tree too. *)
Definition one : list lexeme := [tok (L "a") 1].
Definition short_tree : pn := PN (Lx (L "A") [] 0 1) [PN (tok (L "a") 1) []].
Definition long_tree : pn := PN (Lx (L "A") [] 0 1) [short_tree].
Lemma one_trees : g_wf cyc /\ not_mistaken cyc one
  /\ returns (fun n => packrat_parse n cyc one) (Some short_tree)
  /\ is_tree cyc (L "A") long_tree one /\ ~ lean cyc long_tree.
Proof.
  assert (Hw : g_wf cyc) by apply gram_of_wf.
  assert (H1 : is_tree cyc (L "A") short_tree one).
  { eapply (tree_node cyc (Lx (L "A") [] 0 1)); [reflexivity|right; right; left|].
    apply (trees_cons cyc (L "a") [] _ [] one []); [|constructor]. apply (tree_leaf cyc (tok (L "a") 1)). reflexivity. }
  assert (H2 : is_tree cyc (L "A") long_tree one).
  { eapply (tree_node cyc (Lx (L "A") [] 0 1)); [reflexivity|left|].
    apply (trees_cons cyc (L "A") [] _ [] one []); [done|constructor]. }
  split_and!; [done| | |done|].
  - apply terminal_not_mistaken. intros x Hx. apply elem_of_list_singleton in Hx as ->. reflexivity.
  - eapply (returns_at (fun n => packrat_parse n cyc one)) with (n := 60); [apply packrat_parse_mono|]. vm_compute. reflexivity.
  - intros Hl. assert (Hb : below short_tree long_tree) by (apply tc_once; left).
    pose proof (Hl long_tree short_tree (L "A") one one (or_introl eq_refl) Hb H2 H1) as H. cbn in H. lia.
Qed.
