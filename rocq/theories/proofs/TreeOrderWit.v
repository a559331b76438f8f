(** A grammar for which packrat returns a tree that another tree beats. *)
From Coq Require Import Lia String.
From Verif.spec Require Import Outcome CFG PackratSpec TreeOrder.
From Verif.model Require Import Packrat.
From Verif.proofs Require Import Fuel PackratFuel PackratThms PackratWit TreeOrderProofs.
Local Open Scope nat_scope.
Local Open Scope list_scope.

Definition twice : grammar := gram_of [(L "A", [[L "A"; L "A"]; [L "b"]; [L "b"; L "b"]])].
Definition b_b_b : list lexeme := [tok (L "b") 1; tok (L "b") 2; tok (L "b") 3].
Definition A_at c : lexeme := Lx (L "A") [] 0 c.
Definition A_b c : pn := PN (A_at c) [lf (L "b") c].
(** What Parse returns, and what it should have returned. *)
Definition right_first : pn := PN (A_at 1) [A_b 1; PN (A_at 2) [A_b 2; A_b 3]].
Definition left_first : pn := PN (A_at 1) [PN (A_at 1) [A_b 1; A_b 2]; A_b 3].

Lemma twice_prods s ps : g_prods twice s = Some ps -> s = L "A" /\ ps = [[L "A"; L "A"]; [L "b"]; [L "b"; L "b"]].
Proof. cbn. case_decide as E; [|discriminate]. intros [= <-]. by subst. Qed.
Lemma twice_epsfree s w : derives twice s w -> w <> [].
Proof.
  apply epsfree_nonnull. intros s' ps H. apply twice_prods in H as [-> ->]. intros HI.
  repeat (apply elem_of_cons in HI as [HI|HI]; [discriminate|]). inversion HI.
Qed.
Lemma twice_acyclic : acyclic_grammar twice.
Proof.
  assert (HU : forall A B, unit_step twice A B -> A = L "A" /\ B = L "b").
  { intros A B (ps & p & a & b & Hp & Hin & -> & Ha & Hb).
    apply derives_seq_nonempty in Ha as ->; [|apply twice_epsfree].
    apply derives_seq_nonempty in Hb as ->; [|apply twice_epsfree].
    apply twice_prods in Hp as [-> ->]. cbn [app] in Hin. split; [done|].
    repeat (apply elem_of_cons in Hin as [Hin|Hin]; [simplify_eq; done|]). inversion Hin. }
  intros A H. destruct (tc_first _ _ _ H) as [? H1%HU], (tc_last _ _ _ H) as [? H2%HU].
  destruct H1 as [-> _], H2 as [_ H2]. discriminate.
Qed.

Lemma A_b_tree c : is_tree twice (L "A") (A_b c) [tok (L "b") c].
Proof.
  apply (tree_node twice (A_at c) [[L "A"; L "A"]; [L "b"]; [L "b"; L "b"]] [L "b"]); [reflexivity|pick|].
  apply (trees_cons twice (L "b") [] _ [] [tok (L "b") c] []); [by apply (tree_leaf twice (tok (L "b") c))|constructor].
Qed.
Lemma A_A_tree c t t2 l l2 : is_tree twice (L "A") t l -> is_tree twice (L "A") t2 l2 ->
  is_tree twice (L "A") (PN (A_at c) [t; t2]) (l ++ l2).
Proof.
  intros H H2. apply (tree_node twice (A_at c) [[L "A"; L "A"]; [L "b"]; [L "b"; L "b"]] [L "A"; L "A"]); [reflexivity|pick|].
  apply trees_cons; [done|]. rewrite <- (app_nil_r l2). apply trees_cons; [done|constructor].
Qed.

Lemma twice_better : better twice left_first right_first.
Proof.
  assert (M0 : forall t t2, lx_kind (pn_lexeme t) = L "A" -> lx_kind (pn_lexeme t2) = L "A" ->
    made [[L "A"; L "A"]; [L "b"]; [L "b"; L "b"]] 0 [t; t2]).
  { intros t t2 E E2. split; [cbn [map]; by rewrite E, E2|]. intros k' Hk. lia. }
  assert (M1 : forall c, made [[L "A"; L "A"]; [L "b"]; [L "b"; L "b"]] 1 [lf (L "b") c]).
  { intros c. split; [done|]. intros [|k'] Hk; [discriminate|lia]. }
  apply cp_same with (ps := [[L "A"; L "A"]; [L "b"]; [L "b"; L "b"]]) (k := 0); [done|done|by apply M0|by apply M0|].
  apply cps_child; [right; by vm_compute| |done].
  apply cp_earlier with (ps := [[L "A"; L "A"]; [L "b"]; [L "b"; L "b"]]) (k := 0) (k2 := 1); [done|done|by apply M0|apply M1|lia].
Qed.

Lemma twice_beaten : exists g lexemes s0 rest t t2,
  g_wf g /\ terminal_kinds g lexemes /\ acyclic_grammar g /\ g_nts g = s0 :: rest
  /\ derives g s0 (map lx_kind lexemes) /\ returns (fun n => packrat_parse n g lexemes) (Some t)
  /\ is_tree g s0 t lexemes /\ is_tree g s0 t2 lexemes /\ better g t2 t.
Proof.
  exists twice, b_b_b, (L "A"), [], right_first, left_first.
  assert (H2 : is_tree twice (L "A") left_first b_b_b).
  { apply (A_A_tree 1 _ _ [tok (L "b") 1; tok (L "b") 2] [tok (L "b") 3]); [|apply A_b_tree].
    apply (A_A_tree 1 _ _ [tok (L "b") 1] [tok (L "b") 2]); apply A_b_tree. }
  split_and!; [apply gram_of_wf|tkinds|apply twice_acyclic|done| | | |exact H2|apply twice_better].
  - by apply TreeOrderProofs.tree_facts in H2 as [_ ?].
  - apply (returns_at _ 60); [intros ???; apply packrat_parse_mono; done|vm_compute; reflexivity].
  - apply (A_A_tree 1 _ _ [tok (L "b") 1] [tok (L "b") 2; tok (L "b") 3]); [apply A_b_tree|].
    apply (A_A_tree 2 _ _ [tok (L "b") 2] [tok (L "b") 3]); apply A_b_tree.
Qed.

(** The other tree of "n + n + n". *)
Definition right_tree : pn :=
  PN (E_at 1) [PN (E_at 1) [lf (L "n") 1]; lf (L "+") 2;
    PN (E_at 3) [PN (E_at 3) [lf (L "n") 3]; lf (L "+") 4; PN (E_at 5) [lf (L "n") 5]]].
Lemma n_tree c : is_tree expr (L "E") (PN (E_at c) [lf (L "n") c]) [tok (L "n") c].
Proof.
  eapply (tree_node expr (E_at c) _ [L "n"]); [reflexivity|pick|].
  apply (trees_cons expr (L "n") [] _ [] [tok (L "n") c] []); [by apply (tree_leaf expr (tok (L "n") c))|constructor].
Qed.
Lemma plus_tree c d t t2 l l2 : is_tree expr (L "E") t l -> is_tree expr (L "E") t2 l2 ->
  is_tree expr (L "E") (PN (E_at c) [t; lf (L "+") d; t2]) (l ++ [tok (L "+") d] ++ l2).
Proof.
  intros H H2. eapply (tree_node expr (E_at c) _ [L "E"; L "+"; L "E"]); [reflexivity|pick|].
  apply trees_cons; [done|]. apply (trees_cons expr (L "+")); [by apply (tree_leaf expr (tok (L "+") d))|].
  rewrite <- (app_nil_r l2). apply trees_cons; [done|constructor].
Qed.
Lemma times_in w : derives_seq expr [L "E"; L "*"; L "E"] w -> L "*" ∈ w.
Proof.
  intros H. inversion H as [|s r u v Hs Hr]; subst. inversion Hr as [|s2 r2 u2 v2 Hs2 Hr2]; subst.
  apply term_only in Hs2 as ->; [|done]. apply elem_of_app. right. apply elem_of_app. left. by apply elem_of_list_singleton.
Qed.
Lemma expr_unbeaten :
  g_wf expr /\ terminal_kinds expr n_plus_n_plus_n /\ acyclic_grammar expr /\ derives expr (L "E") (map lx_kind n_plus_n_plus_n)
  /\ (forall ps p, g_prods expr (L "E") = Some ps -> p ∈ ps -> derives_seq expr p (map lx_kind n_plus_n_plus_n) ->
        exists parts, best_split expr p (map lx_kind n_plus_n_plus_n) parts)
  /\ is_tree expr (L "E") right_tree n_plus_n_plus_n
  /\ packrat_parse 40 expr n_plus_n_plus_n = Ok (Some left_tree).
Proof.
  destruct left_ok as (H1 & H2 & H3 & H4 & H5 & H6). split_and!; [done|done|done|done| | |exact H6].
  - intros ps p Eps Hin Hd. apply expr_prods in Eps as [_ ->].
    apply elem_of_cons in Hin as [->|Hin]; [by eexists|]. apply elem_of_cons in Hin as [->|Hin].
    { exfalso. apply times_in in Hd. cbn in Hd. repeat (apply elem_of_cons in Hd as [Hd|Hd]; [discriminate Hd|]). inversion Hd. }
    apply elem_of_list_singleton in Hin as ->. exfalso.
    inversion Hd as [|s r u v Hs Hr Es Ew]; subst. apply term_only in Hs as ->; [|done]. inversion Hr; subst. discriminate Ew.
  - apply (plus_tree 1 2 _ _ [tok (L "n") 1] [tok (L "n") 3; tok (L "+") 4; tok (L "n") 5]); [apply n_tree|].
    apply (plus_tree 3 4 _ _ [tok (L "n") 3] [tok (L "n") 5]); apply n_tree.
Qed.
