(** The stack calculator on numbers and operators is a stack machine. *)
From Coq Require Import String.
From Verif.spec Require Import ScalcSpec PackratSpec TreeSpec.
From Verif.proofs Require Import GramRows TreeProofs Fuel LexTableProofs ScalcGram ScalcTotal.
Local Open Scope nat_scope.
Local Open Scope list_scope.

(** * Trees of operators without conditionals *)
Lemma trees_nil_inv u : forall cs, are_trees sc_g [] cs u -> cs = [] /\ u = [].
Proof. intros cs H. by inversion H. Qed.
Lemma trees_cons_inv s p cs u : are_trees sc_g (s :: p) cs u ->
  exists c cs' u1 u2, cs = c :: cs' /\ u = u1 ++ u2 /\ is_tree sc_g s c u1 /\ are_trees sc_g p cs' u2.
Proof. intros H. inversion H; subst. eauto 10. Qed.
Ltac untree H := repeat match type of H with
  | are_trees _ (_ :: _) _ _ => let c := fresh "c" in let cs := fresh "cs" in let u := fresh "u" in let v := fresh "v" in let T := fresh "T" in let H2 := fresh "H2" in
      apply trees_cons_inv in H as (c & cs & u & v & -> & -> & T & H2); rename H2 into H
  | are_trees _ [] _ _ => apply trees_nil_inv in H as [-> ->] end.
Definition kinds (u : list lexeme) : list gostring := map lx_kind u.
Lemma term_leaf s t u : s ∈ sc_terms -> is_tree sc_g s t u -> exists x, u = [x] /\ lx_kind x = s /\ red t = PN x [].
Proof.
  intros Hs H. apply leaf_inv in H as (x & -> & -> & Hx); [|by apply term_none]. exists x. split; [done|]. split; [done|]. apply red_leaf. by rewrite Hx.
Qed.
Lemma op_leaf i j K k ps t u : sc_rows !! i = Some (K, ps) -> sc_rdcr_rows !! j = Some (K, Some sc_promote_last) -> k ∈ sc_terms ->
  (ps = [[k]; [K; K; kE; kq]] \/ ps = [[K; K; kE; kq]; [k]]) ->
  kq ∉ kinds u -> is_tree sc_g K t u -> exists x, u = [x] /\ lx_kind x = k /\ red t = PN x [].
Proof.
  intros Hi Hj Hk Hps Hq H. destruct (node_inv i K ps t u Hi H) as (lx & p & cs & -> & Hlx & Hp & Ha).
  assert (p = [k] \/ p = [K; K; kE; kq]) as [->| ->].
  { destruct Hps as [->| ->]; rewrite !elem_of_cons, elem_of_nil in Hp; destruct Hp as [Hp|[Hp|[]]]; auto. }
  - untree Ha. apply term_leaf in T as (x & -> & Hx & Hr); [|done]. exists x. split; [done|]. split; [done|].
    rewrite (red_node j K _ _ _ Hj Hlx). cbn [map]. rewrite Hr. unfold sc_promote_last.
    change [PN x []] with ([] ++ [PN x []]). by rewrite promote_last.
  - exfalso. untree Ha. apply term_leaf in T2 as (x & -> & Hx & _); [|inl]. apply Hq. unfold kinds. rewrite !map_app, !elem_of_app. cbn [map].
    right. right. right. left. rewrite Hx. left.
Qed.
Lemma uop_leaf t u : kq ∉ kinds u -> is_tree sc_g kUop t u -> exists x, u = [x] /\ lx_kind x = ku /\ red t = PN x [].
Proof. apply (op_leaf 5 4 kUop ku uop_prods); [done|done|inl|by left]. Qed.
Lemma bop_leaf t u : kq ∉ kinds u -> is_tree sc_g kBop t u -> exists x, u = [x] /\ lx_kind x = kb /\ red t = PN x [].
Proof. apply (op_leaf 4 3 kBop kb bop_prods); [done|done|inl|by left]. Qed.
Lemma sop_leaf t u : kq ∉ kinds u -> is_tree sc_g kSop t u -> exists x, u = [x] /\ lx_kind x = ks /\ red t = PN x [].
Proof. apply (op_leaf 6 5 kSop ks sop_prods); [done|done|inl|by left]. Qed.
Lemma smp_leaf t u : kq ∉ kinds u -> is_tree sc_g kSmp t u -> exists x, u = [x] /\ lx_kind x = km /\ red t = PN x [].
Proof. apply (op_leaf 7 6 kSmp km smp_prods); [done|done|inl|by right]. Qed.

Lemma arith_app u v : operators (u ++ v) <-> operators u /\ operators v.
Proof. apply Forall_app. Qed.
Lemma arith_not k u : k ∉ [ki; kd; ku; kb; ks] -> operators u -> k ∉ kinds u.
Proof.
  intros Hk Hu Hin. apply elem_of_list_fmap in Hin as (x & -> & Hx). unfold operators in Hu. rewrite Forall_forall in Hu.
  apply Hk. rewrite !elem_of_cons, elem_of_nil. specialize (Hu x Hx). unfold ki, kd, ku, kb, ks. tauto.
Qed.
Lemma notin_app k (u v : list lexeme) : k ∉ kinds (u ++ v) <-> k ∉ kinds u /\ k ∉ kinds v.
Proof. unfold kinds. rewrite map_app, elem_of_app. tauto. Qed.
Ltac noin := apply (bool_decide_unpack _); vm_compute; exact I.

(** What the lexer guarantees for operators. *)
Definition ops_known (u : list lexeme) : Prop := forall x, x ∈ u ->
  (lx_kind x = ku -> lx_val x ∈ map L ["--"; "abs"]%string) /\ (lx_kind x = kb -> lx_val x ∈ bop_texts)
  /\ (lx_kind x = km -> lx_val x ∈ map L ["swap"; "drop"; "clear"]%string) /\ (lx_kind x = ks -> lx_val x ∈ sop_texts).
Lemma known_app u v : ops_known (u ++ v) -> ops_known u /\ ops_known v.
Proof. intros H. split; intros x Hx; apply H; rewrite elem_of_app; auto. Qed.

Section Values.
  Variable A : sarith.
  Notation pf := (pfloat A).
  Lemma uop_known v a : v ∈ map L ["--"; "abs"]%string -> uop_value A v a (sc_uop A v a).
  Proof.
    cbn [map]. rewrite !elem_of_cons, elem_of_nil. intros [->|[->|[]]]; unfold sc_uop.
    - rewrite decide_True by done. constructor.
    - rewrite decide_False by discriminate. rewrite decide_True by done. destruct (sf_lt A (pf_v a) (sf_zero A)) eqn:E; by constructor.
  Qed.
  Lemma bop_known v x y : v ∈ bop_texts -> bop_value A x y v (sc_bop_value A v x y).
  Proof.
    unfold bop_texts. cbn [map]. rewrite !elem_of_cons, elem_of_nil. unfold sc_bop_value.
    intros H. repeat destruct H as [->|H]; try done; rewrite ?decide_False by discriminate; rewrite ?decide_True by done; try (by constructor).
    destruct (sf_lt A y x) eqn:E; [by constructor|]. destruct (sf_lt A x y) eqn:E2; by constructor.
  Qed.
  Lemma max_two (a b : pf) : max_precision A [a; b] = Z.max 0 (Z.max (pf_p a) (pf_p b)).
  Proof. unfold max_precision. cbn [fold_left].
    destruct (Z.ltb_spec 0 (pf_p a)); [destruct (Z.ltb_spec (pf_p a) (pf_p b))|destruct (Z.ltb_spec 0 (pf_p b))]; lia. Qed.

  Lemma widest_max st : max_precision A st = widest A st.
  Proof.
    unfold max_precision, widest. assert (H : forall st z, fold_left (fun m (p : pf) => if (m <? pf_p p)%Z then pf_p p else m) st z = Z.max z (fold_right (fun (p : pf) z => Z.max (pf_p p) z) z st)).
    { clear st. induction st as [|p st IH]; intros z; cbn [fold_left fold_right]; [lia|]. rewrite IH.
      assert (E : forall a b : Z, Z.max (Z.max a b) (fold_right (fun (p : pf) z => Z.max (pf_p p) z) (Z.max a b) st) = Z.max (Z.max a b) (fold_right (fun (p : pf) z => Z.max (pf_p p) z) a st)).
      { intros a b. clear IH. induction st as [|q st IH]; cbn [fold_right]; lia. }
      specialize (E z (pf_p p)). destruct (Z.ltb_spec z (pf_p p)).
      - replace (Z.max z (pf_p p)) with (pf_p p) in E by lia. lia.
      - replace (Z.max z (pf_p p)) with z in E by lia. lia. }
    rewrite H. assert (0 <= fold_right (fun (p : pf) z => Z.max (pf_p p) z) 0 st)%Z; [|lia]. induction st as [|q st IH]; cbn [fold_right]; lia.
  Qed.
  Lemma wins_fold (beats : sf A -> sf A -> bool) (st : list pf) x l : wins A beats l x ->
    wins A beats (l ++ st) (fold_left (fun v p => if beats (pf_v p) (pf_v v) then p else v) st x).
  Proof.
    revert l x. induction st as [|y st IH]; intros l x H; cbn [fold_left]; [by rewrite app_nil_r|].
    replace (l ++ y :: st) with ((l ++ [y]) ++ st) by (by rewrite <- app_assoc). apply IH.
    destruct (beats (pf_v y) (pf_v x)) eqn:E; [by eapply w_next|by apply w_stays].
  Qed.
  Lemma sop_known v st : v ∈ sop_texts -> sop_value A v st (sc_sop A v st).
  Proof.
    unfold sop_texts. cbn [map]. rewrite !elem_of_cons, elem_of_nil. unfold sc_sop. rewrite widest_max.
    intros H. destruct H as [->|[->|[->|[->|[->|[->|[->|[]]]]]]]].
    - rewrite decide_False by (intros [E|E]; discriminate E). rewrite decide_True by done. constructor.
    - rewrite decide_True by (by left). rewrite decide_False by (intros [E _]; discriminate E). constructor.
    - rewrite decide_True by (by right). destruct st as [|x st].
      + rewrite decide_False by (cbn; intros [_ E]; lia). apply so_avg_nil.
      + rewrite decide_True by (split; [done|cbn; lia]). by apply so_avg.
    - rewrite !decide_False by (try (intros [E|E]; discriminate E); discriminate). rewrite decide_True by done. destruct st as [|x st]; [constructor|].
      apply so_min. apply (wins_fold (fun y x => sf_lt A y x) st x [x]). constructor.
    - rewrite !decide_False by (try (intros [E|E]; discriminate E); discriminate). rewrite decide_True by done. destruct st as [|x st]; [constructor|].
      apply so_max. apply (wins_fold (fun y x => sf_lt A x y) st x [x]). constructor.
    - rewrite !decide_False by (try (intros [E|E]; discriminate E); discriminate). rewrite decide_True by done.
      destruct st as [|x st _] using rev_ind; [constructor|]. rewrite last_snoc. constructor.
    - rewrite !decide_False by (try (intros [E|E]; discriminate E); discriminate). rewrite decide_True by done. destruct st as [|x st]; constructor.
  Qed.

  Definition val (t : pn) (v : pf) : Prop := lx_kind (pn_lexeme t) ∈ [kNum; ku; kb; ks] /\ exists F, forall n, F <= n -> sc_e A n t = Ok v.
  Definition starts (u : list lexeme) : Prop := exists x r, u = x :: r /\ lx_kind x <> kd.
  Definition pushes (u : list lexeme) (vs : list pf) : Prop :=
    forall st r out, ScalcSpec.not_dec r -> machine A false (vs ++ st) r out -> machine A false st (u ++ r) out.
  Lemma not_dec_starts u r : starts u -> ScalcSpec.not_dec (u ++ r).
  Proof. intros (x & r' & -> & Hx) y r2 E. injection E as <- _. exact Hx. Qed.
  Lemma not_dec_cons x r : lx_kind x <> kd -> ScalcSpec.not_dec (x :: r).
  Proof. intros Hx y r2 E. by injection E as <- _. Qed.
  Lemma not_dec_nil : ScalcSpec.not_dec [].
  Proof. intros y r2 E. discriminate E. Qed.

  (** A stack of values, reduced. *)
  Definition packed (lx : lexeme) (cs : list pn) : pn := match cs with [c] => c | _ => PN lx cs end.
  Lemma val_kind t v k : val t v -> k ∉ [kNum; ku; kb; ks] -> lx_kind (pn_lexeme t) <> k.
  Proof. intros [H _] Hk E. rewrite E in H. done. Qed.
  Lemma val_last lx cs vs symbs : Forall2 val cs vs -> (forall k, k ∈ symbs -> k ∉ [kNum; ku; kb; ks]) -> child_at (PN lx cs) (-1) symbs = false.
  Proof.
    intros H Hs. destruct (child_at (PN lx cs) (-1) symbs) eqn:E; [|done]. exfalso. destruct cs as [|c cs _] using rev_ind.
    - rewrite child_at_out in E; [done|]. intros HR. unfold in_range in HR. cbn in HR. lia.
    - apply child_at_last in E. apply Forall2_app_inv_l in H as (v1 & v2 & _ & H & _). apply Forall2_cons_inv_l in H as (v & _ & [Hv _] & _).
      by apply (Hs _ E).
  Qed.
  Lemma stack_of_values lx cs vs : Forall2 val cs vs -> lx_kind lx = kSt ->
    (if child_at (PN lx cs) (-1) [L "smp"; L "?"] then fst (promote_child (-1) (PN lx cs)) else fst (promote_single_child (PN lx cs))) = packed lx cs.
  Proof.
    intros H Hk. rewrite (val_last lx cs vs) by (try exact H; apply Forall_forall; noin).
    destruct cs as [|c [|d cs]].
    - rewrite promote_single_child_other by done. done.
    - by rewrite promote_single_child_one.
    - rewrite promote_single_child_other by done. done.
  Qed.
  Lemma reduce_e_st lx c lx' cs v vs : lx_kind lx = kSt -> lx_kind lx' = kSt -> val c v -> Forall2 val cs vs ->
    exists l2, lx_kind l2 = kSt /\ sc_reduce_stack (PN lx [c; packed lx' cs]) = packed l2 (c :: cs).
  Proof.
    intros Hk Hk' Hc Hcs. exists lx. split; [done|]. unfold sc_reduce_stack.
    assert (E1 : (if child_at (PN lx [c; packed lx' cs]) (-1) [L "Stack"] then fst (promote_children_of (-1) (PN lx [c; packed lx' cs])) else PN lx [c; packed lx' cs])
      = PN lx (c :: cs)).
    { change [c; packed lx' cs] with ([c] ++ [packed lx' cs]). destruct (child_at (PN lx ([c] ++ [packed lx' cs])) (-1) [L "Stack"]) eqn:E.
      - rewrite splice_last. apply child_at_last, elem_of_list_singleton in E. destruct cs as [|d [|e cs]]; cbn [packed] in *; [done| |done].
        exfalso. apply Forall2_cons_inv_l in Hcs as (w & _ & Hd & _). exact (val_kind d w (L "Stack") Hd ltac:(noin) E).
      - destruct cs as [|d [|e cs]]; cbn [packed] in *; [| done |].
        + exfalso. assert (H : child_at (PN lx ([c] ++ [PN lx' []])) (-1) [L "Stack"] = true); [|congruence].
          apply child_at_last. cbn [pn_lexeme]. rewrite Hk'. left.
        + exfalso. assert (H : child_at (PN lx ([c] ++ [PN lx' (d :: e :: cs)])) (-1) [L "Stack"] = true); [|congruence].
          apply child_at_last. cbn [pn_lexeme]. rewrite Hk'. left. }
    rewrite E1. clear E1.
    assert (E2 : child_at (PN lx (c :: cs)) 0 [L "Stack"] = false).
    { destruct (child_at (PN lx (c :: cs)) 0 [L "Stack"]) eqn:E; [|done]. exfalso. apply child_at_first, elem_of_list_singleton in E. exact (val_kind c v (L "Stack") Hc ltac:(noin) E). }
    rewrite E2. apply (stack_of_values lx (c :: cs) (v :: vs)); [by constructor|done].
  Qed.
  Lemma starts_app u v : starts u -> starts (u ++ v).
  Proof. intros (x & r & -> & H). by exists x, (r ++ v). Qed.
  Lemma pushes_app u v a b : pushes u a -> pushes v b -> (v = [] \/ starts v) -> pushes (u ++ v) (b ++ a).
  Proof.
    intros Ha Hb Hs st r out Hr Hm. rewrite <- app_assoc in *. apply Ha.
    - destruct Hs as [->|Hs]; [done|]. by apply not_dec_starts.
    - apply Hb; done.
  Qed.
  (** Evaluating what was reduced. *)
  Lemma vals_eval cs vs : Forall2 val cs vs -> exists F, forall n, F <= n -> rmap (sc_e A n) cs = Ok vs.
  Proof.
    induction 1 as [|c v cs vs [_ [F HF]] _ [G HG]].
    - exists 0. intros n _. reflexivity.
    - exists (F + G). intros n Hn. cbn [rmap]. rewrite HF by lia. cbn [rbind]. rewrite HG by lia. reflexivity.
  Qed.
  Lemma packed_eval lx cs vs : lx_kind lx = kSt -> Forall2 val cs vs -> exists F, forall n, F <= n -> sc_stack A n (packed lx cs) = Ok vs.
  Proof.
    intros Hk H. destruct (vals_eval cs vs H) as [F HF].
    assert (Hst : packed lx cs = PN lx cs -> exists F, forall n, F <= n -> sc_stack A n (packed lx cs) = Ok vs).
    { intros ->. exists (S F). intros n Hn. destruct n as [|n]; [lia|]. cbn [sc_stack]. fold (sc_e A). cbn [pn_lexeme pn_children]. rewrite Hk.
      rewrite !decide_False by discriminate. rewrite decide_True by done. apply HF. lia. }
    destruct cs as [|c [|d cs]]; [by apply Hst| |by apply Hst]. clear Hst HF.
    apply Forall2_cons_inv_l in H as (v & vs' & Hv & H & ->). apply Forall2_nil_inv_l in H as ->. cbn [packed].
    pose proof (val_kind c v kq Hv ltac:(noin)) as N1. pose proof (val_kind c v km Hv ltac:(noin)) as N2. pose proof (val_kind c v kSt Hv ltac:(noin)) as N3.
    destruct Hv as [_ [G HG]]. exists (S G). intros n Hn. destruct n as [|n]; [lia|]. cbn [sc_stack]. fold (sc_e A).
    rewrite (decide_False _ _ N1), (decide_False _ _ N2), (decide_False _ _ N3). rewrite HG by lia. reflexivity.
  Qed.
  Definition st_good (t : pn) (u : list lexeme) : Prop :=
    exists lx cs vs, red t = packed lx cs /\ lx_kind lx = kSt /\ Forall2 val cs vs /\ (u = [] \/ starts u) /\ pushes u (rev vs).
  Definition e_sound_at n := forall t u, size t < n -> is_tree sc_g kE t u -> operators u -> ops_known u ->
    exists v, val (red t) v /\ starts u /\ pushes u [v].
  Definition st_sound_at n := forall t u, size t < n -> is_tree sc_g kSt t u -> operators u -> ops_known u -> st_good t u.
  Lemma e_step n : e_sound_at n -> st_sound_at n -> e_sound_at (S n).
  Proof.
    intros IH IHs t u Hn Ht Hu Hk.
    destruct (node_inv 1 kE e_prods t u eq_refl Ht) as (lx & p & cs & -> & Hlx & Hp & Ha).
    rewrite (red_node 1 kE _ _ _ eq_refl Hlx). unfold sc_promote_last.
    unfold e_prods in Hp. rewrite !elem_of_cons, elem_of_nil in Hp. repeat destruct Hp as [->|Hp]; [..|done]; untree Ha; rewrite ?app_nil_r in *; cbn [map].
    - apply arith_app in Hu as [Hu1 Hu2]. apply known_app in Hk as [Hk1 Hk2].
      apply sop_leaf in T0 as (x & -> & Hx & Hr); [|apply arith_not; [noin|done]]. rewrite Hr.
      change [red c; PN x []] with ([red c] ++ [PN x []]). rewrite promote_last. cbn [pn_lexeme pn_children app].
      destruct (IHs c u0) as (l2 & cs & vs & Hc & Hl2 & Hcs & Hs & Hpu); [pose proof (size_in c lx [c; c0] ltac:(left)); lia|done|done|done|].
      destruct (packed_eval l2 cs vs Hl2 Hcs) as [F HF]. rewrite Hc.
      exists (sc_sop A (lx_val x) vs). split; [|split].
      + split; [cbn [pn_lexeme]; rewrite Hx; inl|]. exists (S F). intros m Hm. destruct m as [|m]; [lia|]. cbn [sc_e]. fold (sc_stack A). cbn [pn_lexeme pn_children].
        rewrite Hx. rewrite !decide_False by discriminate. rewrite decide_True by done. rewrite HF by lia. reflexivity.
      + destruct Hs as [->|(y & r & -> & Hy)]; [exists x, []; split; [done|rewrite Hx; discriminate]|]. exists y, (r ++ [x]). done.
      + intros st r out Hr' Hm. rewrite <- app_assoc. apply Hpu; [apply not_dec_cons; rewrite Hx; discriminate|]. cbn [app].
        eapply m_sop; [exact Hx|discriminate| |exact Hm]. rewrite rev_involutive. apply sop_known. apply (Hk2 x); [left|done].
    - exfalso. apply term_leaf in T2 as (x & -> & Hx & _); [|inl]. rewrite !arith_app in Hu. destruct Hu as (_ & _ & _ & Hu).
      apply (arith_not kq [x]); [noin|done|]. cbn. rewrite Hx. left.
    - apply arith_app in Hu as [Hu1 Hu2]. apply known_app in Hk as [Hk1 Hk2].
      apply uop_leaf in T0 as (x & -> & Hx & Hr); [|apply arith_not; [noin|done]]. rewrite Hr.
      change [red c; PN x []] with ([red c] ++ [PN x []]). rewrite promote_last. cbn [pn_lexeme pn_children app].
      destruct (IH c u0) as (v & [_ [F HF]] & Hs & Hpu); [pose proof (size_in c lx [c; c0] ltac:(left)); lia|done|done|done|].
      exists (sc_uop A (lx_val x) v). split; [|split].
      + split; [cbn [pn_lexeme]; rewrite Hx; inl|]. exists (S F). intros m Hm. destruct m as [|m]; [lia|]. cbn [sc_e pn_lexeme pn_children].
        rewrite Hx. rewrite decide_False by discriminate. rewrite decide_True by done. rewrite HF by lia. reflexivity.
      + destruct Hs as (y & r & -> & Hy). exists y, (r ++ [x]). done.
      + intros st r out Hr' Hm. rewrite <- app_assoc. apply Hpu; [apply not_dec_cons; rewrite Hx; discriminate|]. cbn [app].
        eapply m_uop; [exact Hx| |exact Hm]. apply uop_known. apply (Hk2 x); [left|done].
    - rewrite !arith_app in Hu. destruct Hu as (Hu1 & Hu2 & Hu3). apply known_app in Hk as [Hk1 [Hk2 Hk3]%known_app].
      apply bop_leaf in T1 as (x & -> & Hx & Hr); [|apply arith_not; [noin|done]]. rewrite Hr.
      change [red c; red c0; PN x []] with ([red c; red c0] ++ [PN x []]). rewrite promote_last. cbn [pn_lexeme pn_children app].
      destruct (IH c u0) as (v & [_ [F HF]] & Hs & Hpu); [pose proof (size_in c lx [c; c0; c1] ltac:(left)); lia|done|done|done|].
      destruct (IH c0 u) as (w & [_ [G HG]] & Hs2 & Hpu2); [pose proof (size_in c0 lx [c; c0; c1] ltac:(right; left)); lia|done|done|done|].
      exists (sc_bop A (lx_val x) v w). split; [|split].
      + split; [cbn [pn_lexeme]; rewrite Hx; inl|]. exists (S (F + G)). intros m Hm. destruct m as [|m]; [lia|]. cbn [sc_e pn_lexeme pn_children].
        rewrite Hx. rewrite !decide_False by discriminate. rewrite decide_True by done. rewrite HF, HG by lia. reflexivity.
      + destruct Hs as (y & r & -> & Hy). exists y, (r ++ u ++ [x]). done.
      + intros st r out Hr' Hm. rewrite <- !app_assoc. apply Hpu; [by apply not_dec_starts|]. cbn [app].
        apply Hpu2; [apply not_dec_cons; rewrite Hx; discriminate|]. cbn [app].
        eapply m_bop; [exact Hx| |]. { apply bop_known. apply (Hk3 x); [left|done]. }
        rewrite <- max_two. exact Hm.
    - change [red c] with ([] ++ [red c]). rewrite promote_last. cbn [app].
      destruct (node_inv 2 kNum num_prods c u0 eq_refl T) as (ln & p & cs & -> & Hln & Hp & Ha).
      rewrite red_same by (rewrite Hln; left). cbn [pn_lexeme pn_children].
      unfold num_prods in Hp. rewrite !elem_of_cons, elem_of_nil in Hp. destruct Hp as [->|[->|[]]]; untree Ha; rewrite ?app_nil_r in *.
      + apply term_leaf in T0 as (x & -> & Hx & Hr); [|inl]. cbn [map]. rewrite Hr. eexists. split; [|split].
        * split; [cbn [pn_lexeme]; rewrite Hln; inl|]. exists 1. intros m Hm. destruct m as [|m]; [lia|]. cbn [sc_e pn_lexeme pn_children].
          rewrite decide_True by done. reflexivity.
        * exists x, []. split; [done|]. rewrite Hx. discriminate.
        * intros st r out Hr' Hm. cbn [app]. by apply m_int.
      + apply term_leaf in T0 as (x & -> & Hx & Hr); [|inl]. apply term_leaf in T1 as (y & -> & Hy & Hr2); [|inl].
        cbn [map]. rewrite Hr, Hr2. eexists. split; [|split].
        * split; [cbn [pn_lexeme]; rewrite Hln; inl|]. exists 1. intros m Hm. destruct m as [|m]; [lia|]. cbn [sc_e pn_lexeme pn_children].
          rewrite decide_True by done. reflexivity.
        * exists x, [y]. split; [done|]. rewrite Hx. discriminate.
        * intros st r out Hr' Hm. cbn [app]. by apply m_dec.
  Qed.

  Lemma st_step n : e_sound_at n -> st_sound_at n -> st_sound_at (S n).
  Proof.
    intros IHe IH t u Hn Ht Hu Hk.
    destruct (node_inv 0 kSt st_prods t u eq_refl Ht) as (lx & p & cs & -> & Hlx & Hp & Ha).
    unfold st_good. rewrite (red_node 0 kSt _ _ _ eq_refl Hlx).
    unfold st_prods in Hp. rewrite !elem_of_cons, elem_of_nil in Hp. repeat destruct Hp as [->|Hp]; [..|done]; untree Ha; rewrite ?app_nil_r in *; cbn [map].
    - exfalso. apply arith_app in Hu as [_ Hu]. apply smp_leaf in T0 as (x & -> & Hx & _); [|apply arith_not; [noin|done]].
      apply (arith_not km [x]); [noin|done|]. cbn. rewrite Hx. left.
    - apply arith_app in Hu as [Hu1 Hu2]. apply known_app in Hk as [Hk1 Hk2].
      destruct (IHe c u0) as (v & Hv & Hs & Hpu); [pose proof (size_in c lx [c; c0] ltac:(left)); lia|done|done|done|].
      destruct (IH c0 u) as (lx' & cs & vs & Hr & Hk' & Hcs & Hs2 & Hpu2); [pose proof (size_in c0 lx [c; c0] ltac:(right; left)); lia|done|done|done|].
      rewrite Hr. destruct (reduce_e_st lx (red c) lx' cs v vs Hlx Hk' Hv Hcs) as (l2 & Hl2 & ->).
      exists l2, (red c :: cs), (v :: vs). split; [done|]. split; [done|]. split; [by constructor|]. split; [right; by apply starts_app|].
      cbn [rev]. by apply pushes_app.
    - exfalso. destruct (node_inv 3 kP p_prods c0 u eq_refl T0) as (lp & p & cs & -> & Hlp & Hp & Ha).
      unfold p_prods in Hp. apply elem_of_list_singleton in Hp as ->. untree Ha. apply term_leaf in T2 as (x & -> & Hx & _); [|inl].
      rewrite !arith_app in Hu. destruct Hu as (_ & (Hu & _) & _). apply (arith_not ko [x]); [noin|done|]. cbn. rewrite Hx. left.
    - exists lx, [], []. split; [reflexivity|]. split; [done|]. split; [constructor|]. split; [by left|].
      intros st r out _ H. exact H.
  Qed.
  Lemma both_sound n : e_sound_at n /\ st_sound_at n.
  Proof. induction n as [|n [IH1 IH2]]; [split; intros t u Hn; lia|]. split; [by apply e_step|by apply st_step]. Qed.
  Lemma e_sound n : e_sound_at n. Proof. apply both_sound. Qed.
  Lemma st_sound n : st_sound_at n. Proof. apply both_sound. Qed.
End Values.
