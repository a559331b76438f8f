(** Small grammars for the bounds on the work of the parsers. *)
From Coq Require Import String Lia.
From Verif.model Require Import Threads.
From Verif.spec Require Import Outcome GrammarSpec TopdownSpec PackratSpec ThreadSpec CostSpec.
From Verif.proofs Require GramRows.
From Verif.proofs Require Import Fuel PackratProofs PackratWit ThreadWit.
Local Open Scope nat_scope.
Local Open Scope list_scope.

(** [A -> A | A A | a | ] on [a a] takes more than 20 and at most 25 rounds; the bound is 108. *)
Lemma cyc_rounds : g_wf cyc /\ not_mistaken cyc aa /\ at_most 2 cyc
  /\ written cyc * S (length aa) ^ 3 = 108
  /\ parse_within 20 60 cyc aa = OutOfFuel /\ exists t, parse_within 25 60 cyc aa = Ok (Some t).
Proof.
  destruct cyc_ok as (Hw & Ht & _). split_and!; [done|by apply terminal_not_mistaken| |vm_compute; reflexivity|vm_compute; reflexivity|eexists; vm_compute; reflexivity].
  intros nt ps p. unfold cyc, gram_of, g_prods, assoc_prods. case_decide; [|discriminate]. intros [= <-] Hp.
  repeat (apply elem_of_cons in Hp as [->|Hp]; [cbn; lia|]). inversion Hp.
Qed.

(** [S -> a S | ]. *)
Definition ta_def : gostring := L "S -> a S" ++ [c_nl] ++ L "->".
Definition ta_g : gr := default gr_empty (gr_new ta_def).
Definition ta_in : list lexeme := replicate 5 (sh_lx (L "a")).
Lemma ta_built : built ta_g.
Proof. exists ta_g, []. split; [|done]. right. exists ta_def. vm_compute. reflexivity. Qed.
Lemma ta_S : g_prods (gr_view ta_g) (L "S") = Some [[L "a"; L "S"]; []].
Proof. vm_compute. reflexivity. Qed.
Lemma ta_a : g_prods (gr_view ta_g) (L "a") = None.
Proof. vm_compute. reflexivity. Qed.
Lemma ta_other A ps : g_prods (gr_view ta_g) A = Some ps -> A = L "S".
Proof.
  intros H. assert (Hw : g_wf (gr_view ta_g)) by (apply (GramRows.new_wf ta_def); vm_compute; reflexivity).
  assert (Hi : A ∈ g_nts (gr_view ta_g)) by (apply Hw; eauto).
  replace (g_nts (gr_view ta_g)) with [L "S"] in Hi by (vm_compute; reflexivity). by apply elem_of_list_singleton in Hi.
Qed.
Lemma ta_step A B : left_step (gr_view ta_g) A B -> A = L "S" /\ B = L "a".
Proof.
  intros (ps & p & a & b & Hp & Hin & -> & Hd). pose proof (ta_other A ps Hp) as ->. split; [done|].
  rewrite ta_S in Hp. injection Hp as <-. apply elem_of_cons in Hin as [Hin|Hin].
  - destruct a as [|x a]; [by apply (f_equal head) in Hin; injection Hin|].
    assert (E : x = L "a") by (apply (f_equal head) in Hin; by injection Hin). subst x. inversion Hd as [|? ? u v Hu Hr E1 E2]; subst.
    apply app_nil in E2 as [-> ->]. inversion Hu as [|? ps q w Hps]; subst. pose proof (eq_trans (eq_sym ta_a) Hps) as E3. discriminate E3.
  - apply elem_of_list_singleton in Hin. by destruct a.
Qed.
Lemma ta_not_lr : ~ left_recursive (gr_view ta_g).
Proof.
  intros [A H]. inversion H as [? ? Hs|? Y ? Hs Ht]; subst.
  - apply ta_step in Hs as [-> E]. discriminate E.
  - apply ta_step in Hs as [-> ->]. inversion Ht as [? ? Hs|? Y ? Hs _]; subst; apply ta_step in Hs as [E _]; discriminate E.
Qed.
(** Both parsers look [S] up n + 2 times. *)
Lemma ta_lookups : built ta_g /\ ~ left_recursive (gr_view ta_g)
  /\ lookups (L "S") (asked ta_g (packrat_p 60 ta_in)) = length ta_in + 2
  /\ others (asked ta_g (packrat_p 60 ta_in)) = 3
  /\ lookups (L "S") (asked ta_g (td_parse_p 60 ta_in)) = length ta_in + 2
  /\ others (asked ta_g (td_parse_p 60 ta_in)) = 2.
Proof. split_and!; [apply ta_built|apply ta_not_lr|vm_compute; reflexivity..]. Qed.

(** [S -> S a | b]. *)
Definition lr_def : gostring := L "S -> S a" ++ [c_nl] ++ L "-> b".
Definition lr_g : gr := default gr_empty (gr_new lr_def).
Lemma lr_twice : built lr_g /\ lookups (L "S") (asked lr_g (is_left_recursive_p 60)) = 2.
Proof. split; [|vm_compute; reflexivity]. exists lr_g, []. split; [|done]. right. exists lr_def. vm_compute. reflexivity. Qed.
