(** The reducer regexgram returns. *)
From Coq Require Import String Lia.
From Verif.spec Require Import RegexGramSpec GrammarSpec.
From Verif.proofs Require Import Fuel RegexGramProofs RegexGramLang.
From Verif.proofs Require GrammarProofs.
Local Open Scope nat_scope.
Local Open Scope list_scope.

(** *** bludgeon splices *)
Definition nodes (cs : list pn) : nat := fold_right (fun c n => pn_nodes c + n) 0 cs.
Lemma nodes_app a b : nodes (a ++ b) = nodes a + nodes b.
Proof. unfold nodes. induction a as [|c a IH]; cbn [app fold_right]; lia. Qed.
Lemma get_idx_mid lx pre c cs : get_idx (PN lx (pre ++ c :: cs)) (zlen pre) = (zlen pre, zlen (pre ++ c :: cs), true).
Proof.
  unfold get_idx, zlen. cbn [pn_children]. rewrite app_length. cbn [length].
  destruct (Z.ltb_spec (Z.of_nat (length pre)) 0); [lia|].
  destruct (Z.leb_spec 0 (Z.of_nat (length pre))); [|lia].
  destruct (Z.ltb_spec (Z.of_nat (length pre)) (Z.of_nat (length pre + S (length cs)))); [done|lia].
Qed.
Lemma zget_mid {A} (pre : list A) c cs : zget (pre ++ c :: cs) (zlen pre) = Some c.
Proof.
  unfold zget, zlen. destruct (Z.ltb_spec (Z.of_nat (length pre)) 0); [lia|]. rewrite Nat2Z.id.
  rewrite lookup_app_r by lia. rewrite Nat.sub_diag. done.
Qed.
Lemma child_at_mid lx pre c cs ks : child_at (PN lx (pre ++ c :: cs)) (zlen pre) ks = bool_decide (lx_kind (pn_lexeme c) ∈ ks).
Proof.
  unfold child_at. rewrite get_idx_mid. cbn [pn_children]. rewrite zget_mid.
  induction ks as [|k ks IH]; cbn [existsb].
  - symmetry. apply bool_decide_eq_false. apply not_elem_of_nil.
  - rewrite IH. destruct (decide (k = lx_kind (pn_lexeme c))) as [->|Hne].
    + rewrite bool_decide_true by done. symmetry. apply bool_decide_eq_true. left.
    + rewrite bool_decide_false by done. cbn. apply bool_decide_ext. rewrite elem_of_cons. split; [by right|].
      intros [E|H]; [by destruct Hne|done].
Qed.
Lemma promote_mid lx pre c cs : fst (promote_children_of (zlen pre) (PN lx (pre ++ c :: cs))) = PN lx (pre ++ pn_children c ++ cs).
Proof.
  unfold promote_children_of. rewrite get_idx_mid. cbn [pn_children]. rewrite zget_mid. cbn [pn_lexeme].
  assert (zto (zlen pre) (pre ++ c :: cs) = pre) as Et.
  { unfold zto, zlen. rewrite Nat2Z.id. apply take_app. }
  assert (zfrom (zlen pre + 1) (pre ++ c :: cs) = cs) as Ef.
  { unfold zfrom, zlen. replace (Z.to_nat (Z.of_nat (length pre) + 1)) with (S (length pre)) by lia.
    change (c :: cs) with ([c] ++ cs). rewrite app_assoc. replace (S (length pre)) with (length (pre ++ [c])) by (rewrite app_length; cbn; lia).
    apply drop_app. }
  rewrite Et, Ef. destruct (Z.eqb_spec (zlen pre) (zlen (pre ++ c :: cs) - 1)) as [E|]; [|done].
  unfold zlen in E. rewrite app_length in E. cbn [length] in E. destruct cs; [|cbn [length] in E; lia].
  cbn. rewrite app_nil_r. done.
Qed.
Lemma bludgeon_loop_spec ks f : forall lx pre cs, nodes cs <= f ->
  bludgeon_loop f ks (zlen pre) (PN lx (pre ++ cs)) = PN lx (pre ++ flat_map (splice ks) cs).
Proof.
  induction f as [|f IH]; intros lx pre cs Hle.
  - destruct cs as [|[l c] cs]; [done|]. cbn in Hle. lia.
  - cbn [bludgeon_loop pn_children]. destruct cs as [|c cs].
    + rewrite app_nil_r. destruct (Z.ltb_spec (zlen pre) (zlen pre)); [lia|]. cbn. rewrite app_nil_r. done.
    + destruct (Z.ltb_spec (zlen pre) (zlen (pre ++ c :: cs))) as [_|Hge].
      2: { unfold zlen in Hge. rewrite app_length in Hge. cbn [length] in Hge. lia. }
      rewrite child_at_mid. destruct c as [l ch]. cbn [pn_lexeme flat_map splice].
      unfold nodes in Hle. cbn [fold_right pn_nodes] in Hle. fold (nodes cs) (nodes ch) in Hle.
      destruct (bool_decide (lx_kind l ∈ ks)).
      * rewrite promote_mid. cbn [pn_children]. rewrite IH; [|rewrite nodes_app; lia].
        rewrite flat_map_app. done.
      * replace (zlen pre + 1)%Z with (zlen (pre ++ [PN l ch])) by (unfold zlen; rewrite app_length; cbn; lia).
        rewrite (app_assoc pre [_] cs : pre ++ PN l ch :: cs = _). rewrite IH by lia.
        rewrite <- app_assoc. done.
Qed.
Lemma bludgeon_spec ks t : bludgeon ks t = PN (pn_lexeme t) (flat_map (splice ks) (pn_children t)).
Proof.
  destruct t as [lx cs]. unfold bludgeon. apply (bludgeon_loop_spec ks _ lx [] cs). cbn [pn_nodes]. unfold nodes. lia.
Qed.
Lemma splice_nil t : splice [] t = [t].
Proof. destruct t as [lx cs]. cbn. done. Qed.
Lemma reduce_spec (B : gmap gostring (list gostring)) lx cs :
  let r : reducer := (fun symbols => Some (bludgeon symbols)) <$> B in
  raw_reduce r (PN lx cs) = PN lx (flat_map (splice (default [] (B !! lx_kind lx))) (map (raw_reduce r) cs)).
Proof.
  intros r. cbn [raw_reduce]. unfold r at 1. rewrite lookup_fmap. destruct (B !! lx_kind lx) as [ks|]; cbn [fmap option_fmap option_map default from_option id].
  - rewrite bludgeon_spec. done.
  - f_equal. induction (map (raw_reduce r) cs) as [|c l IH]; [done|]. cbn [flat_map]. rewrite splice_nil, <- IH. done.
Qed.

(** *** What is noted for each non-terminal *)
Lemma notes_fold nt es : forall (B : gmap gostring (list gostring)) s x,
  x ∈ default [] (fold_left (fun B e => <[nt := default [] (B !! nt) ++ [rep_name e]]> B) es B !! s)
  <-> x ∈ default [] (B !! s) \/ (nt = s /\ x ∈ map rep_name es).
Proof.
  induction es as [|e es IH]; intros B s x; cbn [fold_left map].
  - split; [by left|intros [H|[_ H]]; [done|inversion H]].
  - rewrite IH. destruct (decide (nt = s)) as [->|Hne].
    + rewrite lookup_insert. cbn [default from_option id]. rewrite elem_of_app, elem_of_cons, elem_of_nil, elem_of_cons. tauto.
    + rewrite lookup_insert_ne by done. tauto.
Qed.
Lemma notes_get P : forall B s x, x ∈ default [] (fold_left notes P B !! s)
  <-> x ∈ default [] (B !! s) \/ exists it e, it ∈ P /\ fst it = s /\ e ∈ flat_map outer (snd it) /\ x = rep_name e.
Proof.
  induction P as [|it P IH]; intros B s x; cbn [fold_left].
  - split; [by left|]. intros [H|(it & e & H & _)]; [done|inversion H].
  - rewrite IH. unfold notes. rewrite notes_fold. rewrite elem_of_list_fmap. split.
    + intros [[H|[E (e & -> & He)]]|(it' & e & H1 & H2 & H3 & H4)]; [by left| |].
      * right. exists it, e. split_and!; [left|done..].
      * right. exists it', e. split_and!; [by right|done..].
    + intros [H|(it' & e & H1 & H2 & H3 & H4)]; [by left; left|].
      apply elem_of_cons in H1 as [->|H1]; [left; right; eauto|right; eauto 10].
Qed.

Section Flat.
  Variable R : rxs.
  Variable g : grammar.
  Variable B : gmap gostring (list gostring).
  Hypothesis Hdist : distinct_names R.
  Hypothesis G1 : forall s, ~ generated R s -> g_prods g s = some_prods (prods_of R s).
  Hypothesis G2 : forall e, e ∈ all_repeats R -> g_prods g (rep_name e) = Some (gen_prods e).
  Hypothesis B0 : forall s x, x ∈ default [] (B !! s) -> generated R x.
  Hypothesis B1 : forall s es e, (s, es) ∈ R -> e ∈ flat_map outer es -> rep_name e ∈ default [] (B !! s).
  Hypothesis B2 : forall y e, y ∈ all_repeats R -> e ∈ outer y -> rep_name e ∈ default [] (B !! rep_name y).

  Definition r : reducer := (fun symbols => Some (bludgeon symbols)) <$> B.
  Definition gen := is_generated R.
  Lemma gen_true s : generated R s -> gen s = true.
  Proof. intros (e & He & ->). apply bool_decide_eq_true. apply elem_of_list_fmap_1. done. Qed.
  Lemma gen_false s : ~ generated R s -> gen s = false.
  Proof. intros H. apply bool_decide_eq_false. intros (e & -> & He)%elem_of_list_fmap. apply H. exists e. done. Qed.
  Lemma gen_iff s : gen s = true -> generated R s.
  Proof. intros H. apply bool_decide_eq_true in H. apply elem_of_list_fmap in H as (e & -> & He). exists e. done. Qed.

  Lemma items_kinds t : Forall (fun x => ~ generated R (lx_kind (pn_lexeme x))) (items_of gen t).
  Proof.
    revert t. fix IH 1. intros [lx cs]. cbn [items_of]. destruct (gen (lx_kind lx)) eqn:E.
    - induction cs as [|c cs IHc]; cbn [flat_map]; [constructor|]. apply Forall_app. split; [apply IH|apply IHc].
    - constructor; [|constructor]. cbn. intros H. apply gen_true in H. congruence.
  Qed.
  Lemma splice_stable S l : (forall x, x ∈ S -> generated R x) -> Forall (fun x => ~ generated R (lx_kind (pn_lexeme x))) l ->
    flat_map (splice S) l = l.
  Proof.
    intros HS. induction 1 as [|[lx cs] l Hx _ IH]; cbn [flat_map splice]; [done|].
    rewrite bool_decide_false; [rewrite IH; done|]. intros H. apply Hx. apply HS. done.
  Qed.
  Lemma items_list_kinds cs : Forall (fun x => ~ generated R (lx_kind (pn_lexeme x))) (flat_map (items_of gen) cs).
  Proof. induction cs; cbn [flat_map]; [constructor|]. apply Forall_app. split; [apply items_kinds|done]. Qed.

  (** Symbols of an expansion. *)
  Lemma exp_symbols e : (forall x, x ∈ symbols e -> ~ generated R x) ->
    forall p x, p ∈ expansions e -> x ∈ p -> generated R x -> exists y, y ∈ outer e /\ x = rep_name y.
  Proof.
    induction e as [v|e IH|e IH|l IH|l IH] using rx_ind'; intros Hs p x Hp Hx Hg; cbn [expansions outer] in *.
    - apply elem_of_list_singleton in Hp as ->. apply elem_of_list_singleton in Hx as ->. exfalso.
      eapply Hs; [|exact Hg]. cbn. left.
    - apply elem_of_app in Hp as [Hp|Hp]; [eauto|]. apply elem_of_list_singleton in Hp as ->. inversion Hx.
    - apply elem_of_list_singleton in Hp as ->. apply elem_of_list_singleton in Hx as ->. exists e. split; [left|done].
    - apply in_fm in Hp as (e & He & Hp). rewrite Forall_forall in IH.
      destruct (IH e He) with (p := p) (x := x) as (y & Hy & Ey); [|done..|].
      + intros z Hz. apply Hs. cbn. apply in_fm. eauto.
      + exists y. split; [|done]. apply in_fm. eauto.
    - destruct l as [|e0 l0]; [inversion Hp|]. rewrite (expansions_group_cons e0 l0 : expansions (XGroup (e0 :: l0)) = _) in Hp || change (p ∈ expansions_seq (e0 :: l0)) in Hp.
      cbn [symbols] in Hs. revert IH Hs p Hp Hx. generalize (e0 :: l0). clear e0 l0. intros l IH Hs.
      unfold expansions_seq. induction IH as [|e l He _ IHl]; intros p Hp Hx; cbn [foldr flat_map] in *.
      + apply elem_of_list_singleton in Hp as ->. inversion Hx.
      + apply in_pairs in Hp as (a & b & Ha & Hb & ->). apply elem_of_app in Hx as [Hx|Hx].
        * destruct (He ltac:(intros z Hz; apply Hs; apply elem_of_app; by left) a x Ha Hx Hg) as (y & Hy & ->).
          exists y. split; [|done]. apply elem_of_app. by left.
        * destruct (IHl ltac:(intros z Hz; apply Hs; apply elem_of_app; by right) b Hb Hx) as (y & Hy & ->).
          exists y. split; [|done]. apply elem_of_app. by right.
  Qed.
  Lemma exp_seq_symbols es : (forall x, x ∈ flat_map symbols es -> ~ generated R x) ->
    forall p x, p ∈ expansions_seq es -> x ∈ p -> generated R x -> exists y, y ∈ flat_map outer es /\ x = rep_name y.
  Proof.
    intros Hs. unfold expansions_seq. induction es as [|e l IHl]; intros p x Hp Hx Hg; cbn [foldr flat_map] in *.
    - apply elem_of_list_singleton in Hp as ->. inversion Hx.
    - apply in_pairs in Hp as (a & b & Ha & Hb & ->). apply elem_of_app in Hx as [Hx|Hx].
      + destruct (exp_symbols e ltac:(intros z Hz; apply Hs; apply elem_of_app; by left) a x Ha Hx Hg) as (y & Hy & ->).
        exists y. split; [|done]. apply elem_of_app. by left.
      + destruct (IHl ltac:(intros z Hz; apply Hs; apply elem_of_app; by right) b x Hb Hx Hg) as (y & Hy & ->).
        exists y. split; [|done]. apply elem_of_app. by right.
  Qed.
  Lemma rxs_symbols nt es x : (nt, es) ∈ R -> x ∈ flat_map symbols es -> ~ generated R x.
  Proof.
    intros Hin Hx. apply (proj2 Hdist). unfold all_symbols. apply in_fm. exists (nt, es). split; [done|]. right. done.
  Qed.
  Lemma repeat_symbols e x : e ∈ all_repeats R -> x ∈ symbols e -> ~ generated R x.
  Proof.
    intros He Hx. apply in_all_repeats in He as (nt & es & y & Hin & Hy & He).
    apply (rxs_symbols nt es x Hin). apply in_fm. exists y. split; [done|]. clear Hin Hy. revert e x He Hx.
    induction y as [v|y IH|y IH|l IH|l IH] using rx_ind'; cbn [repeats symbols]; intros e x He Hx; [inversion He|eauto| | |].
    - apply elem_of_cons in He as [->|He]; eauto.
    - apply in_fm in He as (z & Hz & He). rewrite Forall_forall in IH. apply in_fm. eauto.
    - apply in_fm in He as (z & Hz & He). rewrite Forall_forall in IH. apply in_fm. eauto.
  Qed.

  Definition okay (s : gostring) (t : pn) : Prop :=
    forall S, (forall x, x ∈ S -> generated R x) -> (generated R s -> s ∈ S) ->
      flat_map (splice S) [raw_reduce r t] = items_of gen t.
  Lemma okay_list p cs S : Forall2 okay p cs -> (forall x, x ∈ S -> generated R x) ->
    (forall x, x ∈ p -> generated R x -> x ∈ S) ->
    flat_map (splice S) (map (raw_reduce r) cs) = flat_map (items_of gen) cs.
  Proof.
    induction 1 as [|s t p cs Ht _ IH]; intros HS Hp; [done|]. cbn [map flat_map].
    specialize (Ht S HS). cbn [flat_map] in Ht. rewrite app_nil_r in Ht. rewrite Ht; [|apply Hp; left].
    rewrite IH; [done|done|]. intros x Hx. apply Hp. right. done.
  Qed.
  Lemma r_kind t : lx_kind (pn_lexeme (raw_reduce r t)) = lx_kind (pn_lexeme t).
  Proof. destruct t as [lx cs]. unfold r. rewrite reduce_spec. done. Qed.
  Lemma is_tree_kind s t lxs : is_tree g s t lxs -> lx_kind (pn_lexeme t) = s.
  Proof. intros H. inversion H; done. Qed.
  Lemma splice_reduced S lx cs : flat_map (splice S) [raw_reduce r (PN lx cs)] =
    (let X := flat_map (splice (default [] (B !! lx_kind lx))) (map (raw_reduce r) cs) in
     if bool_decide (lx_kind lx ∈ S) then flat_map (splice S) X else [PN lx X]).
  Proof.
    pose proof (reduce_spec B lx cs : raw_reduce r (PN lx cs) = PN lx (flat_map (splice (default [] (B !! lx_kind lx))) (map (raw_reduce r) cs))) as H.
    rewrite H. cbn [flat_map splice]. rewrite app_nil_r. done.
  Qed.

  Lemma tree_okay s t lxs : is_tree g s t lxs -> okay s t.
  Proof.
    revert s t lxs. apply (is_tree_mut g (fun s t _ _ => okay s t)
      (fun p cs _ _ => Forall2 (fun s t => lx_kind (pn_lexeme t) = s /\ okay s t) p cs)).
    - intros lx E S HS Hs. assert (~ generated R (lx_kind lx)) as Hn.
      { intros (e & He & Ee). rewrite Ee, G2 in E; done. }
      rewrite splice_reduced. cbn [items_of]. rewrite gen_false by done.
      rewrite bool_decide_false; [done|]. intros H. apply HS in H. done.
    - intros lx ps p cs lxs E Hp _ HF S HS Hs. rewrite splice_reduced. cbn [items_of].
      destruct (gen (lx_kind lx)) eqn:Eg.
      + apply gen_iff in Eg. rewrite bool_decide_true by auto. cbv zeta.
        pose proof Eg as Hgen. destruct Eg as (e & He & Ee). rewrite Ee in *. rewrite G2 in E by done. injection E as <-.
        unfold gen_prods in Hp. apply elem_of_app in Hp as [Hp|Hp].
        * apply elem_of_list_fmap in Hp as (q & -> & Hq). apply Forall2_app_inv_l in HF as (cq & ct & HF1 & HF2 & ->).
          inversion HF2 as [|? t' ? ? [Hk Ht'] Hnil]; subst. inversion Hnil; subst. clear HF2 Hnil.
          rewrite map_app, !flat_map_app. f_equal.
          -- rewrite (okay_list q cq).
             ++ apply splice_stable; [done|]. apply items_list_kinds.
             ++ eapply Forall2_impl; [exact HF1|]. intros ? ? [_ H]. exact H.
             ++ apply B0.
             ++ intros x Hx Hgx. destruct (exp_symbols e) with (p := q) (x := x) as (y & Hy & ->); [|done..|].
                ** intros z Hz. eapply repeat_symbols; eauto.
                ** apply B2; done.
          -- cbn [map]. cbn [flat_map]. rewrite app_nil_r. rewrite app_nil_r.
             destruct (decide (rep_name e ∈ default [] (B !! rep_name e))) as [Hi|Hi].
             ++ assert (flat_map (splice (default [] (B !! rep_name e))) [raw_reduce r t'] = items_of gen t') as H.
                { apply Ht'; [apply B0|done]. }
                cbn [flat_map] in H. rewrite app_nil_r in H. rewrite H.
                apply splice_stable; [done|]. apply items_kinds.
             ++ destruct (raw_reduce r t') as [l' c'] eqn:Er. pose proof (r_kind t') as Hk'. rewrite Er, Hk in Hk'. cbn in Hk'.
                cbn [splice]. rewrite Hk', (bool_decide_false _ Hi). rewrite <- Er. apply Ht'; done.
        * apply elem_of_list_singleton in Hp as ->. inversion HF. done.
      + assert (~ generated R (lx_kind lx)) as Hn by (intros H; apply gen_true in H; congruence).
        rewrite bool_decide_false by auto. cbv zeta. f_equal. f_equal.
        rewrite G1 in E by done. destruct (prods_of R (lx_kind lx)) as [|x0 xs0] eqn:Ex; [done|]. injection E as <-.
        rewrite <- Ex in Hp. apply in_prods_of in Hp as (es & Hin & Hp).
        apply (okay_list p cs).
        * eapply Forall2_impl; [exact HF|]. intros ? ? [_ H]. exact H.
        * apply B0.
        * intros x Hx Hgx. destruct (exp_seq_symbols es) with (p := p) (x := x) as (y & Hy & ->); [|done..|].
          -- intros z Hz. eapply rxs_symbols; eauto.
          -- eapply B1; eauto.
    - constructor.
    - intros s p c cs u v Ht IH _ IHs. constructor; [|done]. split; [eapply is_tree_kind; eauto|done].
  Qed.

  Lemma reduce_dissolves s t lxs : is_tree g s t lxs -> ~ generated R s -> raw_reduce r t = dissolved R t.
  Proof.
    intros Ht Hn. pose proof (tree_okay s t lxs Ht [] ltac:(intros x Hx; inversion Hx) ltac:(done)) as H.
    cbn [flat_map] in H. rewrite splice_nil in H. cbn [app] in H. pose proof (is_tree_kind _ _ _ Ht) as Ek.
    destruct t as [lx cs]. cbn [items_of] in H. cbn [pn_lexeme] in Ek. rewrite Ek, gen_false in H by done.
    unfold dissolved. cbn [pn_lexeme pn_children]. revert H. generalize (raw_reduce r (PN lx cs)). intros y H. injection H as ->. done.
  Qed.

  (** *** The dissolved tree is one of the grammar as written *)
  Hypothesis Hne : no_empty_groups R.
  Definition fits (s : gostring) (ks : list gostring) : Prop :=
    (~ generated R s -> ks = [s]) /\ forall e, e ∈ all_repeats R -> s = rep_name e -> matches [] (XRep e) ks.
  Inductive fits_seq : list gostring -> list gostring -> Prop :=
  | fits_nil : fits_seq [] []
  | fits_cons s p u v : fits s u -> fits_seq p v -> fits_seq (s :: p) (u ++ v).
  Lemma fits_app p q w : fits_seq (p ++ q) w -> exists u v, w = u ++ v /\ fits_seq p u /\ fits_seq q v.
  Proof.
    revert w. induction p as [|s p IH]; intros w H; cbn in H.
    - exists [], w. split_and!; [done|constructor|done].
    - inversion H as [|? ? u v Hs Hr]; subst. apply IH in Hr as (u' & v' & -> & H1 & H2).
      exists (u ++ u'), v'. split_and!; [rewrite app_assoc; done|constructor; done|done].
  Qed.
  Lemma fits_one s w : fits_seq [s] w -> fits s w.
  Proof. intros H. inversion H as [|? ? u v' Hs Hr]; subst. inversion Hr; subst. rewrite app_nil_r. done. Qed.
  Lemma seq_fits es : (forall e, e ∈ es -> forall p w, p ∈ expansions e -> fits_seq p w -> matches [] e w) ->
    forall p w, p ∈ expansions_seq es -> fits_seq p w -> matches_seq [] es w.
  Proof.
    induction es as [|e es IH]; intros He p w Hp Hw; unfold expansions_seq in *; cbn [foldr] in *.
    - apply elem_of_list_singleton in Hp as ->. inversion Hw. constructor.
    - apply in_pairs in Hp as (x & y & Hx & Hy & ->). apply fits_app in Hw as (u & v & -> & Hu & Hv).
      constructor; [eapply He; eauto; left|]. eapply IH; eauto. intros e' He'. apply He. right. done.
  Qed.
  Lemma exp_fits e : (forall x, x ∈ symbols e -> ~ generated R x) -> (forall x, x ∈ repeats e -> x ∈ all_repeats R) ->
    forall p w, p ∈ expansions e -> fits_seq p w -> matches [] e w.
  Proof.
    induction e as [v|e IH|e IH|l IH|l IH] using rx_ind'; intros Hs Hr p w Hp Hw.
    - cbn in Hp. apply elem_of_list_singleton in Hp as ->. apply fits_one in Hw.
      rewrite (proj1 Hw); [|apply Hs; cbn; left]. constructor. apply not_elem_of_nil.
    - cbn [expansions] in Hp. apply elem_of_app in Hp as [Hp|Hp].
      + apply m_some. eapply IH; eauto.
      + apply elem_of_list_singleton in Hp as ->. inversion Hw. constructor.
    - cbn in Hp. apply elem_of_list_singleton in Hp as ->. apply fits_one in Hw.
      apply Hw; [|done]. apply Hr. cbn. left.
    - cbn [expansions] in Hp. apply in_fm in Hp as (e & He & Hp). rewrite Forall_forall in IH.
      eapply m_or; [done|]. eapply IH; eauto.
      + intros x Hx. apply Hs. cbn. apply in_fm. eauto.
      + intros x Hx. apply Hr. cbn. apply in_fm. eauto.
    - destruct l as [|e l]; [inversion Hp|]. rewrite expansions_group_cons in Hp. apply m_group.
      rewrite Forall_forall in IH. eapply seq_fits; [|done|done].
      intros x Hx p' w' Hp' Hw'. eapply IH; eauto.
      + intros z Hz. apply Hs. cbn [symbols]. apply in_fm. eauto.
      + intros z Hz. apply Hr. cbn [repeats]. apply in_fm. eauto.
  Qed.
  Lemma rx_trees_app a cs u b ds v : rx_trees R a cs u -> rx_trees R b ds v -> rx_trees R (a ++ b) (cs ++ ds) (u ++ v).
  Proof. induction 1; cbn; [done|]. intros. rewrite <- app_assoc. constructor; auto. Qed.
  Lemma all_repeats_repeats y x : y ∈ all_repeats R -> x ∈ repeats y -> x ∈ all_repeats R.
  Proof.
    intros Hy. apply in_all_repeats in Hy as (nt & es & e & Hin & He & Hy). intros Hx. apply in_all_repeats.
    exists nt, es, e. split_and!; [done..|]. clear Hin He. revert y x Hy Hx.
    induction e as [v|e IH|e IH|l IH|l IH] using rx_ind'; cbn [repeats]; intros y x Hy Hx; [inversion Hy|eauto| | |].
    - right. apply elem_of_cons in Hy as [->|Hy]; eauto.
    - apply in_fm in Hy as (z & Hz & Hy). rewrite Forall_forall in IH. apply in_fm. eauto.
    - apply in_fm in Hy as (z & Hz & Hy). rewrite Forall_forall in IH. apply in_fm. eauto.
  Qed.
  Lemma tree_written s t lxs : is_tree g s t lxs -> exists ks, fits s ks /\ rx_trees R ks (items_of gen t) lxs.
  Proof.
    revert s t lxs. apply (is_tree_mut g (fun s t lxs _ => exists ks, fits s ks /\ rx_trees R ks (items_of gen t) lxs)
      (fun p cs lxs _ => exists ks, fits_seq p ks /\ rx_trees R ks (flat_map (items_of gen) cs) lxs)).
    - intros lx E. assert (~ generated R (lx_kind lx)) as Hn.
      { intros (e & He & Ee). rewrite Ee, G2 in E; done. }
      exists [lx_kind lx]. split.
      + split; [done|]. intros e He Ee. destruct Hn. exists e. done.
      + cbn [items_of flat_map]. rewrite gen_false by done. change [lx] with ([lx] ++ []). constructor; [|constructor].
        constructor. rewrite G1 in E by done. intros Hin. pose proof (prods_of_some R Hne _ Hin).
        destruct (prods_of R (lx_kind lx)); done.
    - intros lx ps p cs lxs E Hp _ (ks & Hf & Ht). cbn [items_of]. destruct (gen (lx_kind lx)) eqn:Eg.
      + apply gen_iff in Eg. exists ks. split; [|done]. split; [done|]. intros e He Ee. rewrite Ee, G2 in E by done.
        injection E as <-. unfold gen_prods in Hp. apply elem_of_app in Hp as [Hp|Hp].
        * apply elem_of_list_fmap in Hp as (q & -> & Hq). apply fits_app in Hf as (u & v & -> & Hu & Hv).
          apply fits_one in Hv. apply m_more; [|apply Hv; done].
          eapply exp_fits; [| |exact Hq|done].
          -- intros x Hx. eapply repeat_symbols; eauto.
          -- intros x Hx. eapply all_repeats_repeats; eauto.
        * apply elem_of_list_singleton in Hp as ->. inversion Hf. constructor.
      + assert (~ generated R (lx_kind lx)) as Hn by (intros H; apply gen_true in H; congruence).
        exists [lx_kind lx]. split.
        * split; [done|]. intros e He Ee. destruct Hn. exists e. done.
        * rewrite <- (app_nil_r lxs). constructor; [|constructor].
          rewrite G1 in E by done. destruct (prods_of R (lx_kind lx)) as [|x0 xs0] eqn:Ex; [done|]. injection E as <-.
          rewrite <- Ex in Hp. apply in_prods_of in Hp as (es & Hin & Hp).
          eapply rt_node; [exact Hin| |exact Ht]. eapply seq_fits; eauto.
          intros e He p' w' Hp' Hw'. eapply exp_fits; eauto.
          -- intros x Hx. eapply rxs_symbols; eauto. apply in_fm. eauto.
          -- intros x Hx. apply in_all_repeats. eauto 10.
    - exists []. split; constructor.
    - intros s p c cs u v _ (k1 & F1 & T1) _ (k2 & F2 & T2). exists (k1 ++ k2). split; [constructor; done|].
      cbn [flat_map]. apply rx_trees_app; done.
  Qed.
  Lemma written_tree s t lxs : is_tree g s t lxs -> ~ generated R s -> rx_tree R s (dissolved R t) lxs.
  Proof.
    intros Ht Hn. destruct (tree_written s t lxs Ht) as (ks & [Hf _] & Hts). rewrite (Hf Hn) in Hts.
    pose proof (is_tree_kind _ _ _ Ht) as Ek. destruct t as [lx cs]. cbn in Ek. cbn [items_of] in Hts.
    rewrite Ek, gen_false in Hts by done. inversion Hts as [|? ? ? ? u v H1 H2]; subst. inversion H2; subst.
    rewrite app_nil_r. done.
  Qed.
End Flat.

Lemma view_notes t R g0 r0 : shows_grammar t R -> distinct_names R -> returns (eval_grammar t) (g0, r0) ->
  exists B, r0 = r B /\ (forall s x, x ∈ default [] (B !! s) -> generated R x)
    /\ (forall s es e, (s, es) ∈ R -> e ∈ flat_map outer es -> rep_name e ∈ default [] (B !! s))
    /\ (forall y e, y ∈ all_repeats R -> e ∈ outer y -> rep_name e ∈ default [] (B !! rep_name y)).
Proof.
  intros Ht Hd Hr. destruct (eval_grammar_result t R Ht) as (g' & A & B & P & new & Hr' & HR & Hs & EP).
  pose proof (returns_fun _ _ _ Hr Hr') as E. injection E as _ ->. exists B. split; [done|].
  pose proof (se_blud _ _ _ _ Hs) as EB. cbn in EB.
  assert (Hiff : forall s x, x ∈ default [] (B !! s) <-> exists it e, it ∈ P /\ fst it = s /\ e ∈ flat_map outer (snd it) /\ x = rep_name e).
  { intros s x. rewrite EB, notes_get. split; [|by right]. intros [H|H]; [inversion H|done]. }
  split_and!.
  - intros s x Hx. apply Hiff in Hx as (it & e & Hit & _ & He & ->). exists e. split; [|done].
    eapply item_outer; [apply (se_new _ _ _ _ Hs)| |exact He]. rewrite <- EP. done.
  - intros s es e Hin He. apply Hiff. exists (s, es), e. split_and!; [|done..]. rewrite EP. apply elem_of_app. by left.
  - intros y e Hy He. apply Hiff. exists (rep_name y, [y; XSym (rep_name y)]), e. split_and!; [|done| |done].
    + rewrite EP. apply elem_of_app. right. apply in_fm. exists y. split; [|left]. eapply seen_repeats; eauto.
    + cbn. rewrite app_nil_r. done.
Qed.
