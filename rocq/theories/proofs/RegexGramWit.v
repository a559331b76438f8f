(** Concrete grammars with operators. *)
From Coq Require Import String.
From Verif.spec Require Import RegexGramSpec.
From Verif.proofs Require Import Fuel RegexGramProofs RegexGramNames RegexGramThms.
Local Open Scope nat_scope.
Local Open Scope list_scope.

(** A tree for every grammar. *)
Definition node (k v : gostring) (cs : list pn) : pn := PN (Lx k v 0 0) cs.
Fixpoint tree_rx (e : rx) : pn :=
  match e with
  | XSym v => node (L "symbol") v []
  | XOpt e => node (L "OptSymbol") [] [tree_rx e]
  | XRep e => node (L "RepSymbol") [] [tree_rx e]
  | XOr l => node (L "OrSymbol") [] (map tree_rx l)
  | XGroup l => node (L "Group") [] (map tree_rx l)
  end.
Definition tree_rxs (R : rxs) : pn :=
  node (L "Grammar") [] (map (fun p => node (L "Production") (fst p) (map tree_rx (snd p))) R).
Lemma shows_list l : Forall (fun e => shows_rx (tree_rx e) e) l -> shows_rxs (map tree_rx l) l.
Proof. induction 1; cbn [map]; constructor; done. Qed.
Lemma tree_rx_shows e : shows_rx (tree_rx e) e.
Proof.
  induction e as [v|e IH|e IH|l IH|l IH] using rx_ind'; cbn [tree_rx].
  - apply (sh_sym (Lx (L "symbol") v 0 0)). done.
  - apply sh_opt; done.
  - apply sh_rep; done.
  - apply sh_or; [done|]. apply shows_list. done.
  - apply sh_group; [done|]. apply shows_list. done.
Qed.
Lemma tree_rxs_shows R : shows_grammar (tree_rxs R) R.
Proof.
  unfold shows_grammar, tree_rxs. cbn [pn_children node]. generalize (@nil N). induction R as [|[nt es] R IH]; intros cur; cbn [map fst snd].
  - constructor.
  - apply (shp_prod cur (Lx (L "Production") nt 0 0)); [done| |apply IH].
    apply shows_list. apply Forall_forall. intros e _. apply tree_rx_shows.
Qed.

(** S -> a (b|(c T))* e?
    T -> (c)* x *)
Definition sym (s : string) : rx := XSym (L s).
Definition demo : rxs :=
  [(L "S", [sym "a"; XRep (XGroup [XOr [sym "b"; XGroup [sym "c"; sym "T"]]]); XOpt (sym "e")]);
   (L "T", [XRep (XGroup [sym "c"]); sym "x"])].
Definition rep_bc := L "(b|(c_T))*".
Definition rep_c := L "(c)*".
Ltac solve_words := cbn [proper foldr sym]; repeat match goal with
  | |- _ /\ _ => split | |- is_word _ => split; [discriminate|repeat (constructor; [reflexivity|]); constructor]
  | |- True => exact I | |- atom _ => exact I | |- no_bar _ => exact I | |- 2 <= _ => cbn; lia end.
Lemma demo_proper : proper_rxs demo.
Proof.
  intros s es H. unfold demo in H. rewrite !elem_of_cons, elem_of_nil in H. destruct H as [[= -> ->]|[[= -> ->]|[]]].
  - split; [solve_words|]. intros e He. rewrite !elem_of_cons, elem_of_nil in He. destruct He as [->|[->|[->|[]]]]; solve_words.
  - split; [solve_words|]. intros e He. rewrite !elem_of_cons, elem_of_nil in He. destruct He as [->|[->|[]]]; solve_words.
Qed.
Lemma demo_plain : no_underscores demo.
Proof.
  assert (Forall (fun s : gostring => 95%N ∉ s) (all_symbols demo)) as H.
  { apply (bool_decide_unpack _). vm_compute. exact I. }
  rewrite Forall_forall in H. exact H.
Qed.
Lemma demo_distinct : distinct_names demo.
Proof. apply names_distinct; [apply demo_proper|apply demo_plain]. Qed.
Lemma demo_groups : no_empty_groups demo.
Proof.
  intros s es e H He. unfold demo in H. rewrite !elem_of_cons, elem_of_nil in H.
  destruct H as [[= -> ->]|[[= -> ->]|[]]]; rewrite !elem_of_cons, elem_of_nil in He.
  - destruct He as [->|[->|[->|[]]]]; cbn; [done|right; split_and!; done|by right].
  - destruct He as [->|[->|[]]]; cbn; [right; split_and!; done|done].
Qed.
Definition demo_result : gr * reducer := match eval_grammar (tree_rxs demo) 20 with Ok x => x | _ => (gr_empty, ∅) end.
Lemma demo_evaluates : returns (eval_grammar (tree_rxs demo)) demo_result.
Proof.
  eapply returns_at with (n := 20); [apply eval_grammar_mono|]. unfold demo_result.
  assert (match eval_grammar (tree_rxs demo) 20 with Ok _ => true | _ => false end = true) as H by (vm_compute; reflexivity).
  destruct (eval_grammar (tree_rxs demo) 20); done.
Qed.
Lemma demo_view : g_nts (gr_view (fst demo_result)) = [L "S"; L "T"; rep_bc; rep_c]
  /\ g_prods (gr_view (fst demo_result)) (L "S") = Some [[L "a"; rep_bc; L "e"]; [L "a"; rep_bc]]
  /\ g_prods (gr_view (fst demo_result)) (L "T") = Some [[rep_c; L "x"]]
  /\ g_prods (gr_view (fst demo_result)) rep_bc = Some [[L "b"; rep_bc]; [L "c"; L "T"; rep_bc]; []]
  /\ g_prods (gr_view (fst demo_result)) rep_c = Some [[L "c"; rep_c]; []].
Proof. vm_compute. split_and!; reflexivity. Qed.
Lemma demo_matches : matches demo (XSym (L "S")) [L "a"; L "b"; L "c"; L "x"; L "e"].
Proof.
  assert (forall s, bool_decide (s ∉ map fst demo) = true -> matches demo (XSym s) [s]) as Ht.
  { intros s H. apply m_term. apply bool_decide_eq_true in H. exact H. }
  assert (matches demo (XSym (L "T")) [L "x"]) as HT.
  { eapply m_nt; [right; left|]. apply (ms_cons _ _ _ [] [L "x"]); [apply m_stop|].
    apply (ms_cons _ _ _ [L "x"] []); [apply Ht; done|constructor]. }
  eapply m_nt; [left|]. apply (ms_cons _ _ _ [L "a"] [L "b"; L "c"; L "x"; L "e"]); [apply Ht; done|].
  apply (ms_cons _ _ _ [L "b"; L "c"; L "x"] [L "e"]).
  - apply (m_more _ _ [L "b"] [L "c"; L "x"]).
    + apply m_group. apply (ms_cons _ _ _ [L "b"] []); [|constructor]. eapply m_or; [left|]. apply Ht. done.
    + apply (m_more _ _ [L "c"; L "x"] []); [|apply m_stop].
      apply m_group. apply (ms_cons _ _ _ [L "c"; L "x"] []); [|constructor]. eapply m_or; [right; left|].
      apply m_group. apply (ms_cons _ _ _ [L "c"] [L "x"]); [apply Ht; done|].
      apply (ms_cons _ _ _ [L "x"] []); [done|constructor].
  - apply (ms_cons _ _ _ [L "e"] []); [|constructor]. apply m_some. apply Ht. done.
Qed.
Lemma demo_hyps : shows_grammar (tree_rxs demo) demo /\ distinct_names demo /\ no_empty_groups demo
  /\ returns (eval_grammar (tree_rxs demo)) demo_result /\ ~ generated demo (L "S")
  /\ matches demo (XSym (L "S")) [L "a"; L "b"; L "c"; L "x"; L "e"].
Proof.
  split; [apply tree_rxs_shows|]. split; [apply demo_distinct|]. split; [apply demo_groups|]. split; [apply demo_evaluates|].
  split; [|apply demo_matches]. apply demo_distinct. left.
Qed.

(** The reducer on a tree of the demo grammar. *)
Definition tk (s : string) : pn := node (L s) (L s) [].
Definition demo_tree : pn :=
  node (L "S") [] [tk "a";
    node rep_bc [] [tk "b"; node rep_bc [] [tk "c"; node (L "T") [] [node rep_c [] [tk "c"; node rep_c [] []]; tk "x"]; node rep_bc [] []]];
    tk "e"].
Definition demo_lexemes : list lexeme := map (fun s => Lx s s 0 0) [L "a"; L "b"; L "c"; L "c"; L "x"; L "e"].
Ltac leaf := apply (tree_leaf _ (Lx _ _ 0 0)); vm_compute; reflexivity.
Lemma demo_is_tree : is_tree (gr_view (fst demo_result)) (L "S") demo_tree demo_lexemes.
Proof.
  assert (forall (s k : gostring) ps p cs lxs, k = s -> g_prods (gr_view (fst demo_result)) s = Some ps -> p ∈ ps ->
    are_trees (gr_view (fst demo_result)) p cs lxs -> is_tree (gr_view (fst demo_result)) s (node k [] cs) lxs) as Hn.
  { intros s k ps p cs lxs -> H1 H2 H3. eapply (tree_node _ (Lx s [] 0 0)); eauto. }
  assert (forall s, g_prods (gr_view (fst demo_result)) s = None -> is_tree (gr_view (fst demo_result)) s (node s s []) [Lx s s 0 0]) as Hl.
  { intros s H. exact (tree_leaf _ (Lx s s 0 0) H). }
  destruct demo_view as (_ & V1 & V2 & V3 & V4).
  assert (is_tree (gr_view (fst demo_result)) rep_c (node rep_c [] [tk "c"; node rep_c [] []]) [Lx (L "c") (L "c") 0 0]) as T1.
  { eapply Hn; [done|exact V4|left|].
    apply (trees_cons _ _ _ _ _ [Lx (L "c") (L "c") 0 0] []); [apply Hl; vm_compute; reflexivity|].
    apply (trees_cons _ _ _ _ _ [] []); [|constructor]. eapply Hn; [done|exact V4|right; left|]. constructor. }
  assert (is_tree (gr_view (fst demo_result)) (L "T") (node (L "T") [] [node rep_c [] [tk "c"; node rep_c [] []]; tk "x"])
    [Lx (L "c") (L "c") 0 0; Lx (L "x") (L "x") 0 0]) as T2.
  { eapply Hn; [done|exact V2|left|]. apply (trees_cons _ _ _ _ _ [Lx (L "c") (L "c") 0 0] [Lx (L "x") (L "x") 0 0]); [done|].
    apply (trees_cons _ _ _ _ _ [Lx (L "x") (L "x") 0 0] []); [apply Hl; vm_compute; reflexivity|constructor]. }
  assert (is_tree (gr_view (fst demo_result)) rep_bc
    (node rep_bc [] [tk "c"; node (L "T") [] [node rep_c [] [tk "c"; node rep_c [] []]; tk "x"]; node rep_bc [] []])
    [Lx (L "c") (L "c") 0 0; Lx (L "c") (L "c") 0 0; Lx (L "x") (L "x") 0 0]) as T3.
  { eapply Hn; [done|exact V3|right; left|].
    apply (trees_cons _ _ _ _ _ [Lx (L "c") (L "c") 0 0] [Lx (L "c") (L "c") 0 0; Lx (L "x") (L "x") 0 0]); [apply Hl; vm_compute; reflexivity|].
    apply (trees_cons _ _ _ _ _ [Lx (L "c") (L "c") 0 0; Lx (L "x") (L "x") 0 0] []); [done|].
    apply (trees_cons _ _ _ _ _ [] []); [|constructor]. eapply Hn; [done|exact V3|right; right; left|]. constructor. }
  eapply Hn; [done|exact V1|left|].
  apply (trees_cons _ _ _ _ _ [Lx (L "a") (L "a") 0 0] (map (fun s => Lx s s 0 0) [L "b"; L "c"; L "c"; L "x"; L "e"])); [apply Hl; vm_compute; reflexivity|].
  apply (trees_cons _ _ _ _ _ (map (fun s => Lx s s 0 0) [L "b"; L "c"; L "c"; L "x"]) [Lx (L "e") (L "e") 0 0]).
  - eapply Hn; [done|exact V3|left|].
    apply (trees_cons _ _ _ _ _ [Lx (L "b") (L "b") 0 0] (map (fun s => Lx s s 0 0) [L "c"; L "c"; L "x"])); [apply Hl; vm_compute; reflexivity|].
    apply (trees_cons _ _ _ _ _ (map (fun s => Lx s s 0 0) [L "c"; L "c"; L "x"]) []); [done|constructor].
  - apply (trees_cons _ _ _ _ _ [Lx (L "e") (L "e") 0 0] []); [apply Hl; vm_compute; reflexivity|constructor].
Qed.
Lemma demo_reduced : raw_reduce (snd demo_result) demo_tree
  = node (L "S") [] [tk "a"; tk "b"; tk "c"; node (L "T") [] [tk "c"; tk "x"]; tk "e"].
Proof. vm_compute. reflexivity. Qed.

(** A -> (x y)* and B -> (x_y)* share the name (x_y)*. *)
Definition clash : rxs :=
  [(L "A", [XRep (XGroup [sym "x"; sym "y"])]); (L "B", [XRep (XGroup [sym "x_y"])])].
Definition clash_result : gr * reducer := match eval_grammar (tree_rxs clash) 20 with Ok x => x | _ => (gr_empty, ∅) end.
Lemma clash_evaluates : returns (eval_grammar (tree_rxs clash)) clash_result.
Proof.
  eapply returns_at with (n := 20); [apply eval_grammar_mono|]. unfold clash_result.
  assert (match eval_grammar (tree_rxs clash) 20 with Ok _ => true | _ => false end = true) as H by (vm_compute; reflexivity).
  destruct (eval_grammar (tree_rxs clash) 20); done.
Qed.
Lemma clash_proper : proper_rxs clash.
Proof.
  intros s es H. unfold clash in H. rewrite !elem_of_cons, elem_of_nil in H. destruct H as [[= -> ->]|[[= -> ->]|[]]].
  - split; [solve_words|]. intros e He. rewrite !elem_of_cons, elem_of_nil in He. destruct He as [->|[]]; solve_words.
  - split; [solve_words|]. intros e He. rewrite !elem_of_cons, elem_of_nil in He. destruct He as [->|[]]; solve_words.
Qed.
Lemma clash_groups : no_empty_groups clash.
Proof.
  intros s es e H He. unfold clash in H. rewrite !elem_of_cons, elem_of_nil in H.
  destruct H as [[= -> ->]|[[= -> ->]|[]]]; rewrite !elem_of_cons, elem_of_nil in He.
  - destruct He as [->|[]]; cbn; right; split_and!; done.
  - destruct He as [->|[]]; cbn; right; split_and!; done.
Qed.
Lemma clash_view : g_prods (gr_view (fst clash_result)) (L "B") = Some [[L "(x_y)*"]]
  /\ g_prods (gr_view (fst clash_result)) (L "(x_y)*") = Some [[L "x"; L "y"; L "(x_y)*"]; []]
  /\ g_prods (gr_view (fst clash_result)) (L "x") = None.
Proof. vm_compute. split_and!; reflexivity. Qed.
Lemma clash_wrong : matches clash (XSym (L "B")) [L "x_y"] /\ ~ derives (gr_view (fst clash_result)) (L "B") [L "x_y"].
Proof.
  split.
  - eapply m_nt; [right; left|]. apply (ms_cons _ _ _ [L "x_y"] []); [|constructor].
    apply (m_more _ _ [L "x_y"] []); [|apply m_stop]. apply m_group.
    apply (ms_cons _ _ _ [L "x_y"] []); [|constructor]. apply m_term. apply (bool_decide_unpack _). vm_compute. exact I.
  - destruct clash_view as (V1 & V2 & V3). revert V1 V2 V3. generalize (gr_view (fst clash_result)). intros g V1 V2 V3 H.
    inversion H as [|? ? p ? E Hp Hs]; subst. rewrite V1 in E. injection E as <-.
    apply elem_of_list_singleton in Hp as ->. inversion Hs as [|? ? u v H1 H2 Ep Ew]. subst. inversion H2; subst.
    rewrite app_nil_r in Ew. subst u. clear Hs H2.
    inversion H1 as [|? ps q ? E Hq Hs']; subst. pose proof (eq_trans (eq_sym V2) E) as E'. injection E' as <-.
    rewrite !elem_of_cons, elem_of_nil in Hq. destruct Hq as [->|[->|[]]].
    + inversion Hs' as [|? ? u v Hx Hy Ep Ew]. subst. inversion Hx as [? Ex|? ? ? ? Ex]; subst; [discriminate Ew|].
      pose proof (eq_trans (eq_sym V3) Ex) as E'. discriminate E'.
    + inversion Hs'.
Qed.
Lemma clash_refuted : exists t R g r s w, shows_grammar t R /\ proper_rxs R /\ no_empty_groups R
  /\ returns (eval_grammar t) (g, r) /\ ~ generated R s /\ matches R (XSym s) w /\ ~ derives (gr_view g) s w.
Proof.
  exists (tree_rxs clash), clash, (fst clash_result), (snd clash_result), (L "B"), [L "x_y"].
  split; [apply tree_rxs_shows|]. split; [apply clash_proper|]. split; [apply clash_groups|].
  split; [rewrite <- surjective_pairing; apply clash_evaluates|]. split; [|apply clash_wrong].
  apply words_not_generated; [apply clash_proper|]. apply (bool_decide_unpack _). vm_compute. exact I.
Qed.

(** A -> B and B -> b (): the group makes the production disappear. *)
Definition hollow : rxs := [(L "A", [sym "B"]); (L "B", [sym "b"; XGroup []])].
Definition hollow_result : gr * reducer := match eval_grammar (tree_rxs hollow) 20 with Ok x => x | _ => (gr_empty, ∅) end.
Lemma hollow_evaluates : returns (eval_grammar (tree_rxs hollow)) hollow_result.
Proof.
  eapply returns_at with (n := 20); [apply eval_grammar_mono|]. unfold hollow_result.
  assert (match eval_grammar (tree_rxs hollow) 20 with Ok _ => true | _ => false end = true) as H by (vm_compute; reflexivity).
  destruct (eval_grammar (tree_rxs hollow) 20); done.
Qed.
Lemma hollow_proper : proper_rxs hollow.
Proof.
  intros s es H. unfold hollow in H. rewrite !elem_of_cons, elem_of_nil in H. destruct H as [[= -> ->]|[[= -> ->]|[]]].
  - split; [solve_words|]. intros e He. rewrite !elem_of_cons, elem_of_nil in He. destruct He as [->|[]]; solve_words.
  - split; [solve_words|]. intros e He. rewrite !elem_of_cons, elem_of_nil in He. destruct He as [->|[->|[]]]; solve_words.
Qed.
Lemma hollow_plain : no_underscores hollow.
Proof.
  assert (Forall (fun s : gostring => 95%N ∉ s) (all_symbols hollow)) as H.
  { apply (bool_decide_unpack _). vm_compute. exact I. }
  rewrite Forall_forall in H. exact H.
Qed.
Lemma hollow_view : g_nts (gr_view (fst hollow_result)) = [L "A"]
  /\ g_prods (gr_view (fst hollow_result)) (L "B") = None.
Proof. vm_compute. split_and!; reflexivity. Qed.
Lemma hollow_wrong : matches hollow (XSym (L "B")) [L "b"] /\ ~ derives (gr_view (fst hollow_result)) (L "B") [L "b"].
Proof.
  split.
  - eapply m_nt; [right; left|]. apply (ms_cons _ _ _ [L "b"] []).
    + apply m_term. apply (bool_decide_unpack _). vm_compute. exact I.
    + apply (ms_cons _ _ _ [] []); [|constructor]. apply m_group. constructor.
  - destruct hollow_view as (_ & V). revert V. generalize (gr_view (fst hollow_result)). intros g V H.
    inversion H as [|? ? p ? E Hp Hs]; subst; congruence.
Qed.
Lemma hollow_refuted : exists t R g r s w, shows_grammar t R /\ proper_rxs R /\ distinct_names R
  /\ returns (eval_grammar t) (g, r) /\ ~ generated R s /\ matches R (XSym s) w /\ ~ derives (gr_view g) s w.
Proof.
  exists (tree_rxs hollow), hollow, (fst hollow_result), (snd hollow_result), (L "B"), [L "b"].
  split; [apply tree_rxs_shows|]. split; [apply hollow_proper|]. split; [apply names_distinct; [apply hollow_proper|apply hollow_plain]|].
  split; [rewrite <- surjective_pairing; apply hollow_evaluates|]. split; [|apply hollow_wrong].
  apply words_not_generated; [apply hollow_proper|]. apply (bool_decide_unpack _). vm_compute. exact I.
Qed.
