(** The stack calculator returns for every text, nil exactly for texts that are no program. *)
From Coq Require Import String.
From Verif.spec Require Import ScalcSpec PackratSpec TreeSpec.
From Verif.proofs Require Import GramRows TreeProofs Fuel ScalcGram PackratThms.
From Verif.proofs Require TopdownThms.
Local Open Scope nat_scope.
Local Open Scope list_scope.

(** * The shapes of reduced trees *)
Definition arity (k : gostring) (n : nat) : Prop :=
  (k = ku /\ 1 <= n) \/ (k = kb /\ 2 <= n) \/ (k = ks /\ 1 <= n) \/ k = km.
Lemma arity_more k n m : arity k n -> n <= m -> arity k m.
Proof. unfold arity. intros H L. destruct H as [[? ?]|[[? ?]|[[? ?]|?]]]; [left|right; left|right; right; left|right; right; right]; auto with lia. Qed.
Inductive ok : pn -> Prop :=
| ok_number lx cs : lx_kind lx = kNum -> ok (PN lx cs)
| ok_stack lx cs : lx_kind lx = kSt -> oks cs -> ok (PN lx cs)
| ok_op lx cs : arity (lx_kind lx) (length cs) -> oks cs -> ok (PN lx cs)
| ok_if lx es a b c : lx_kind lx = kq -> oks es -> ok a -> ok b -> ok c -> ok (PN lx (es ++ [a; b; c]))
| ok_ifop lx es k a b c : lx_kind lx = kq -> oks es -> arity k (length es) -> isop k a -> isop k b -> ok c -> ok (PN lx (es ++ [a; b; c]))
with oks : list pn -> Prop :=
| oks_nil : oks []
| oks_cons c cs : ok c -> oks cs -> oks (c :: cs)
with isop : gostring -> pn -> Prop :=
| isop_leaf lx : op_kind (lx_kind lx) -> isop (lx_kind lx) (PN lx [])
| isop_if k lx a b c : lx_kind lx = kq -> isop k a -> isop k b -> ok c -> isop k (PN lx [a; b; c]).
Lemma oks_forall cs : oks cs <-> Forall ok cs.
Proof. split; [induction 1 as [|c cs Hc _ IH]; by constructor|induction 1 as [|c cs Hc _ IH]; by constructor]. Qed.
Lemma oks_app a b : oks a -> oks b -> oks (a ++ b).
Proof. rewrite !oks_forall. apply Forall_app_2. Qed.
Lemma arity_kinds k n : arity k n -> k <> kNum /\ k <> kSt /\ k <> kq.
Proof. intros [[-> _]|[[-> _]|[[-> _]| ->]]]; repeat split; discriminate. Qed.
(** Operands in front. *)
Lemma ok_front lx es cs : oks es -> ok (PN lx cs) -> ok (PN lx (es ++ cs)).
Proof.
  intros He H. inversion H; subst.
  - by apply ok_number.
  - apply ok_stack; [done|]. by apply oks_app.
  - apply ok_op; [|by apply oks_app]. eapply arity_more; [eassumption|]. rewrite app_length. lia.
  - rewrite app_assoc. apply ok_if; try done. by apply oks_app.
  - rewrite app_assoc. eapply ok_ifop; try done; [by apply oks_app|]. eapply arity_more; [eassumption|]. rewrite app_length. lia.
Qed.
Lemma ok_operator k o es : isop k o -> oks es -> arity k (length es) -> ok (PN (pn_lexeme o) (es ++ pn_children o)).
Proof.
  intros Ho He Ha. destruct Ho as [lx Hk|k lx a b c Hk H1 H2 H3]; cbn [pn_lexeme pn_children].
  - rewrite app_nil_r. by apply ok_op.
  - by eapply ok_ifop.
Qed.
Lemma isop_smp o : isop km o -> ok o.
Proof.
  intros H. destruct o as [lx cs]. apply (ok_operator km _ [] H oks_nil). by right; right; right.
Qed.
Lemma ok_stack_children c : ok c -> lx_kind (pn_lexeme c) = kSt -> oks (pn_children c).
Proof.
  intros H Hk. destruct H as [? ? E| |? ? E|? ? ? ? ? E|? ? ? ? ? ? E]; cbn [pn_lexeme pn_children] in *; try done; try (rewrite E in Hk; discriminate Hk).
Qed.

(** * Evaluating them *)
Fixpoint size (t : pn) : nat := match t with PN _ cs => S (list_sum (map size cs)) end.
Lemma size_in c lx cs : c ∈ cs -> size c < size (PN lx cs).
Proof.
  intros H. cbn [size]. apply elem_of_list_In in H. induction cs as [|d cs IH]; [done|]. cbn [map list_sum foldr].
  change (foldr plus 0 (map size cs)) with (list_sum (map size cs)).
  destruct H as [->|H]; [lia|]. specialize (IH H). lia.
Qed.
Lemma size_front lx lx' (a b : list pn) : size (PN lx (a ++ b)) = size (PN lx' a) + list_sum (map size b).
Proof. cbn [size]. rewrite map_app, list_sum_app. lia. Qed.
Lemma size_lx c : size c = S (list_sum (map size (pn_children c))).
Proof. by destruct c. Qed.
Lemma rmap_ok {X Y} (f : X -> res Y) l : (forall x, x ∈ l -> exists y, f x = Ok y) -> exists ys, rmap f l = Ok ys.
Proof.
  induction l as [|x l IH]; intros H; [by exists []|]. cbn [rmap]. destruct (H x) as [y ->]; [left|].
  destruct IH as [ys ->]; [intros z Hz; apply H; by right|]. by exists (y :: ys).
Qed.
Lemma smp_children op : forall x, x ∈ pn_children (sc_smp op) -> x ∈ pn_children op.
Proof.
  intros x. unfold sc_smp. destruct op as [lx C]. cbn [pn_lexeme pn_children].
  repeat case_decide.
  - destruct (C !! (length C - 1)) as [a|] eqn:E1; [|done]. destruct (C !! (length C - 2)) as [b|] eqn:E2; [|done].
    destruct (1 <? length C); [|done]. cbn [pn_children]. intros Hx. apply elem_of_list_lookup in Hx as [i Hi].
    apply list_lookup_insert_Some in Hi as [(_ & -> & _)|(_ & Hi)]; [by eapply elem_of_list_lookup_2|].
    apply list_lookup_insert_Some in Hi as [(_ & -> & _)|(_ & Hi)]; by eapply elem_of_list_lookup_2.
  - destruct (0 <? length C); [|done]. cbn [pn_children]. intros Hx. by apply elem_of_take in Hx as (i & Hi & _); eapply elem_of_list_lookup_2.
  - intros Hx. by apply elem_of_nil in Hx.
  - done.
Qed.
Lemma eval_ok A n : forall t, ok t -> (2 * size t <= n -> exists v, sc_e A n t = Ok v) /\ (2 * size t + 1 <= n -> exists vs, sc_stack A n t = Ok vs).
Proof.
  induction n as [|n IH]; intros t Ht.
  { split; intros H; exfalso; destruct t as [lx cs]; cbn [size] in H; lia. }
  assert (IHs : forall lx cs c, oks cs -> c ∈ cs -> 2 * size (PN lx cs) <= S n ->
    (exists v, sc_e A n c = Ok v) /\ (exists vs, sc_stack A n c = Ok vs)).
  { intros lx cs c Hcs Hc Hn. pose proof (size_in c lx cs Hc) as Hs. rewrite oks_forall, Forall_forall in Hcs.
    destruct (IH c (Hcs c Hc)) as [H1 H2]. split; [apply H1; lia|apply H2; lia]. }
  assert (IHe : 2 * size t + 1 <= S n -> exists v, sc_e A n t = Ok v).
  { intros Hn. apply (IH t Ht). lia. }
  split.
  - intros Hn. cbn [sc_e]. fold (sc_stack A). destruct Ht as [lx cs Hk|lx cs Hk Hcs|lx cs Hk Hcs|lx es a b c Hk _ _ _ _|lx es k a b c Hk _ _ _ _]; cbn [pn_lexeme pn_children].
    + rewrite Hk. rewrite decide_True by done. eauto.
    + rewrite Hk. rewrite !decide_False by discriminate. eauto.
    + destruct Hk as [[Hk Hl]|[[Hk Hl]|[[Hk Hl]|Hk]]]; rewrite Hk.
      * rewrite decide_False by discriminate. rewrite decide_True by done. destruct cs as [|a cs]; [cbn [length] in Hl; lia|].
        destruct (IHs lx (a :: cs) a Hcs) as [[v ->] _]; [left|done|]. eauto.
      * rewrite !decide_False by discriminate. rewrite decide_True by done. destruct cs as [|a [|b cs]]; cbn [length] in Hl; [lia|lia|].
        destruct (IHs lx (a :: b :: cs) a Hcs) as [[v ->] _]; [left|done|].
        destruct (IHs lx (a :: b :: cs) b Hcs) as [[w ->] _]; [right; left|done|]. eauto.
      * rewrite !decide_False by discriminate. rewrite decide_True by done. destruct cs as [|a cs]; [cbn [length] in Hl; lia|].
        destruct (IHs lx (a :: cs) a Hcs) as [_ [v ->]]; [left|done|]. eauto.
      * rewrite !decide_False by discriminate. eauto.
    + rewrite Hk. rewrite !decide_False by discriminate. eauto.
    + rewrite Hk. rewrite !decide_False by discriminate. eauto.
  - intros Hn. cbn [sc_stack]. fold (sc_e A).
    assert (Hif : forall lx es a b c, t = PN lx (es ++ [a; b; c]) -> lx_kind lx = kq -> ok c ->
      (forall x, x = a \/ x = b -> ok (PN (pn_lexeme x) (es ++ pn_children x))) ->
      exists vs, match child t (-1) with
        | Some c => v <-! sc_e A n c;
            sc_stack A n (if sf_lt A (sf_zero A) (pf_v v)
              then fst (promote_child (-1) (fst (remove_child (-2) (fst (remove_child (-1) t)))))
              else fst (promote_child (-1) (fst (remove_child (-1) (fst (remove_child (-1) t))))))
        | None => Panic end = Ok vs).
    { intros lx es a b c -> Hk Hc Hx. replace (es ++ [a; b; c]) with ((es ++ [a; b]) ++ [c]) by (by rewrite <- app_assoc).
      rewrite child_last, remove_last, remove_before_last.
      assert (E : fst (remove_child (-1) (PN lx (es ++ [a; b]))) = PN lx (es ++ [a])).
      { rewrite <- (remove_last lx (es ++ [a]) b), <- app_assoc. done. }
      rewrite E, !promote_last. clear E.
      rewrite (size_front lx lx) in Hn. cbn [map list_sum foldr] in Hn.
      destruct (proj1 (IH c Hc)) as [v ->]; [lia|]. cbn [rbind].
      assert (H : forall x, x = a \/ x = b -> exists vs, sc_stack A n (PN (pn_lexeme x) (es ++ pn_children x)) = Ok vs).
      { intros x Hxx. apply (IH _ (Hx x Hxx)). rewrite (size_front _ lx).
        assert (E : S (list_sum (map size (pn_children x))) = size x) by (symmetry; apply size_lx).
        destruct Hxx; subst x; lia. }
      destruct (sf_lt A (sf_zero A) (pf_v v)); apply H; auto. }
    destruct Ht as [lx cs Hk|lx cs Hk Hcs|lx cs Hk Hcs|lx es a b c Hk He Ha Hb Hc|lx es k a b c Hk He Hk2 Ha Hb Hc]; cbn [pn_lexeme pn_children] in *.
    + rewrite Hk. rewrite !decide_False by discriminate. destruct (IHe Hn) as [v ->]. cbn [rbind]. eauto.
    + rewrite Hk. rewrite !decide_False by discriminate. rewrite decide_True by done. apply rmap_ok. intros x Hx. apply (IHs lx cs x Hcs); [done|lia].
    + destruct (decide (lx_kind lx = km)) as [E|E].
      * rewrite decide_False by (rewrite E; discriminate). rewrite decide_True by exact E.
        apply rmap_ok. intros x Hx%smp_children. apply (IHs lx cs x Hcs); [done|lia].
      * apply arity_kinds in Hk as (E1 & E2 & E3). rewrite !decide_False by done.
        destruct (IHe Hn) as [v ->]. cbn [rbind]. eauto.
    + rewrite decide_True by exact Hk. eapply (Hif lx es a b c); [done|exact Hk|exact Hc|].
      intros x Hx. apply ok_front; [exact He|]. destruct x as [lx' cs']. destruct Hx; subst; done.
    + rewrite decide_True by exact Hk. eapply (Hif lx es a b c); [done|exact Hk|exact Hc|].
      intros x Hx. apply (ok_operator k); [|exact He|exact Hk2]. destruct Hx; subst; done.
Qed.

Lemma sc_mono A : forall n m t, n <= m -> rle (sc_e A n t) (sc_e A m t) /\ rle (sc_stack A n t) (sc_stack A m t).
Proof.
  induction n as [|n IH]; intros m t Hm; [split; apply rle_oof|]. destruct m as [|m]; [lia|].
  assert (IH1 : forall t, rle (sc_e A n t) (sc_e A m t)) by (intros; apply IH; lia).
  assert (IH2 : forall t, rle (sc_stack A n t) (sc_stack A m t)) by (intros; apply IH; lia). clear IH.
  split.
  - cbn [sc_e]. fold (sc_stack A). case_decide; [apply rle_refl|]. case_decide; [|case_decide; [|case_decide; [|apply rle_refl]]].
    + destruct (pn_children t) as [|a ?]; [apply rle_refl|]. apply rle_bind; [apply IH1|]. intros; apply rle_refl.
    + destruct (pn_children t) as [|a [|b ?]]; [apply rle_refl|apply rle_refl|]. apply rle_bind; [apply IH1|]. intros.
      apply rle_bind; [apply IH1|]. intros; apply rle_refl.
    + destruct (pn_children t) as [|a ?]; [apply rle_refl|]. apply rle_bind; [apply IH2|]. intros; apply rle_refl.
  - cbn [sc_stack]. fold (sc_e A). case_decide; [|case_decide; [|case_decide]].
    + destruct (child t (-1)) as [c|]; [|apply rle_refl]. apply rle_bind; [apply IH1|]. intros; apply IH2.
    + apply rle_rmap, IH1.
    + apply rle_rmap, IH1.
    + apply rle_bind; [apply IH1|]. intros; apply rle_refl.
Qed.

(** * The reducer gives such shapes *)
Lemma reduce_stack_ok lx cs : lx_kind lx = kSt -> oks cs -> ok (sc_reduce_stack (PN lx cs)).
Proof.
  intros Hk Hcs. unfold sc_reduce_stack.
  assert (H1 : exists cs', (if child_at (PN lx cs) (-1) [L "Stack"] then fst (promote_children_of (-1) (PN lx cs)) else PN lx cs) = PN lx cs' /\ oks cs').
  { destruct (child_at (PN lx cs) (-1) [L "Stack"]) eqn:E; [|eauto]. destruct cs as [|c cs _] using rev_ind.
    - rewrite child_at_out in E; [done|]. intros H. unfold in_range in H. cbn in H. lia.
    - apply child_at_last, elem_of_list_singleton in E. rewrite splice_last. eexists. split; [done|].
      rewrite oks_forall, Forall_app in Hcs. destruct Hcs as [H1 H2]. inversion H2 as [|? ? Hc _]; subst.
      apply oks_app; [by apply oks_forall|]. by apply ok_stack_children. }
  destruct H1 as (cs1 & -> & Hcs1). clear cs Hcs.
  assert (H1 : exists cs', (if child_at (PN lx cs1) 0 [L "Stack"] then fst (promote_children_of 0 (PN lx cs1)) else PN lx cs1) = PN lx cs' /\ oks cs').
  { destruct (child_at (PN lx cs1) 0 [L "Stack"]) eqn:E; [|eauto]. destruct cs1 as [|c cs].
    - rewrite child_at_out in E; [done|]. intros H. unfold in_range in H. cbn in H. lia.
    - apply child_at_first, elem_of_list_singleton in E. rewrite splice_first. eexists. split; [done|].
      inversion Hcs1; subst. apply oks_app; [|done]. by apply ok_stack_children. }
  destruct H1 as (cs & -> & Hcs). clear cs1 Hcs1.
  destruct (child_at (PN lx cs) (-1) [L "smp"; L "?"]) eqn:E.
  - destruct cs as [|c cs _] using rev_ind.
    + rewrite child_at_out in E; [done|]. intros H. unfold in_range in H. cbn in H. lia.
    + rewrite promote_last. rewrite oks_forall, Forall_app in Hcs. destruct Hcs as [H1 H2]. inversion H2 as [|? ? Hc _]; subst.
      apply ok_front; [by apply oks_forall|]. by destruct c.
  - destruct cs as [|c [|d cs]].
    + rewrite promote_single_child_other by done. by apply ok_stack.
    + rewrite promote_single_child_one. cbn [fst]. by inversion Hcs.
    + rewrite promote_single_child_other by done. by apply ok_stack.
Qed.

Definition op_nts : list (gostring * gostring) := [(kUop, ku); (kBop, kb); (kSop, ks); (kSmp, km)].
Definition shaped (s : gostring) (t : pn) : Prop :=
  (s ∈ [kSt; kE; kNum; kP] -> ok (red t)) /\ (forall k, (s, k) ∈ op_nts -> isop k (red t))
  /\ (g_prods sc_g s = None -> exists x, t = PN x [] /\ lx_kind x = s).
Ltac inl := apply (bool_decide_unpack _); vm_compute; exact I.
Lemma shaped_leaf s t : s ∈ sc_terms -> shaped s t -> exists x, red t = PN x [] /\ lx_kind x = s.
Proof.
  intros Hs (_ & _ & H). destruct (H (term_none s Hs)) as (x & -> & E). exists x. split; [|done]. apply red_leaf. by rewrite E.
Qed.
Ltac split2 H := repeat match type of H with Forall2 _ (_ :: _) _ =>
  let c := fresh "c" in let cs := fresh "cs" in let Hc := fresh "Hc" in let H2 := fresh "H2" in
  apply Forall2_cons_inv_l in H as (c & cs & Hc & H2 & ->); rename H2 into H end; try apply Forall2_nil_inv_l in H as ->.
Lemma op_node_if k lx c1 c2 c3 c4 i K : sc_rdcr_rows !! i = Some (K, Some sc_promote_last) -> lx_kind lx = K -> (K, k) ∈ op_nts ->
  shaped K c1 -> shaped K c2 -> shaped kE c3 -> shaped kq c4 -> isop k (red (PN lx [c1; c2; c3; c4])).
Proof.
  intros Hi Hk Hin (_ & H1 & _) (_ & H2 & _) (H3 & _) H4. rewrite (red_node i K _ _ _ Hi Hk). cbn [map].
  change [red c1; red c2; red c3; red c4] with ([red c1; red c2; red c3] ++ [red c4]). unfold sc_promote_last. rewrite promote_last.
  apply shaped_leaf in H4 as (x & -> & Hx); [|inl]. cbn [pn_lexeme pn_children app]. apply isop_if; [done|by apply H1|by apply H2|apply H3; inl].
Qed.
Lemma op_node_one k lx c1 i K : sc_rdcr_rows !! i = Some (K, Some sc_promote_last) -> lx_kind lx = K -> op_kind k -> k ∈ sc_terms ->
  shaped k c1 -> isop k (red (PN lx [c1])).
Proof.
  intros Hi Hk Ho Hin H. rewrite (red_node i K _ _ _ Hi Hk). cbn [map].
  change [red c1] with ([] ++ [red c1]). unfold sc_promote_last. rewrite promote_last.
  apply shaped_leaf in H as (x & -> & <-); [|done]. cbn [pn_lexeme pn_children app]. by apply isop_leaf.
Qed.
Lemma not_op s k : s ∈ [kSt; kE; kNum; kP] -> (s, k) ∉ op_nts.
Proof.
  intros Hs Hin. apply (elem_of_list_fmap_1 fst) in Hin. cbn [fst] in Hin. revert Hin.
  assert (H : Forall (fun s => s ∉ map fst op_nts) [kSt; kE; kNum; kP]) by (apply (bool_decide_unpack _); vm_compute; exact I).
  rewrite Forall_forall in H. exact (H s Hs).
Qed.
Lemma not_val s : s ∈ [kUop; kBop; kSop; kSmp] -> s ∉ [kSt; kE; kNum; kP].
Proof. revert s. apply Forall_forall. apply (bool_decide_unpack _). vm_compute. exact I. Qed.
Lemma op_only s k k' : (s, k') ∈ op_nts -> (s, k) ∈ op_nts -> k = k'.
Proof.
  intros H1 H2. assert (H : Forall (fun a => Forall (fun b => a.1 = b.1 -> a.2 = b.2) op_nts) op_nts).
  { apply (bool_decide_unpack _). vm_compute. exact I. }
  rewrite Forall_forall in H. specialize (H _ H2). rewrite Forall_forall in H. exact (H _ H1 eq_refl).
Qed.
Lemma node_shaped lx p cs ps : (lx_kind lx, ps) ∈ sc_rows -> p ∈ ps -> Forall2 shaped p cs -> shaped (lx_kind lx) (PN lx cs).
Proof.
  intros Hr Hp Hs.
  assert (Hno : g_prods sc_g (lx_kind lx) <> None).
  { apply elem_of_list_lookup in Hr as [i Hi]. apply row in Hi. congruence. }
  unfold sc_rows in Hr. rewrite !elem_of_cons, elem_of_nil in Hr.
  destruct Hr as [E|[E|[E|[E|[E|[E|[E|[E|[]]]]]]]]]; injection E as Hk ->.
  - split; [intros _|split; [intros k Hin; exfalso; rewrite Hk in Hin; revert Hin; apply not_op; inl|intros Hn; destruct (Hno Hn)]].
    rewrite (red_node 0 kSt sc_reduce_stack _ _ eq_refl Hk). apply reduce_stack_ok; [done|].
    unfold st_prods in Hp. rewrite !elem_of_cons, elem_of_nil in Hp. repeat destruct Hp as [->|Hp]; [..|done]; split2 Hs; cbn [map].
    + constructor; [apply Hc; inl|]. constructor; [|constructor]. apply isop_smp. apply Hc0. inl.
    + constructor; [apply Hc; inl|]. constructor; [apply Hc0; inl|constructor].
    + constructor; [apply Hc; inl|]. constructor; [apply Hc0; inl|]. constructor; [apply Hc1; inl|constructor].
    + constructor.
  - split; [intros _|split; [intros k Hin; exfalso; rewrite Hk in Hin; revert Hin; apply not_op; inl|intros Hn; destruct (Hno Hn)]].
    rewrite (red_node 1 kE sc_promote_last _ _ eq_refl Hk). unfold sc_promote_last.
    unfold e_prods in Hp. rewrite !elem_of_cons, elem_of_nil in Hp. repeat destruct Hp as [->|Hp]; [..|done]; split2 Hs; cbn [map].
    + change [red c; red c0] with ([red c] ++ [red c0]). rewrite promote_last. apply (ok_operator ks).
      * apply Hc0. inl.
      * constructor; [apply Hc; inl|constructor].
      * right; right; left. cbn [length]. split; [done|lia].
    + change [red c; red c0; red c1; red c2] with ([red c; red c0; red c1] ++ [red c2]). rewrite promote_last.
      apply shaped_leaf in Hc2 as (x & -> & Hx); [|inl]. cbn [pn_lexeme pn_children]. rewrite app_nil_r.
      apply (ok_if x [] (red c) (red c0) (red c1)); [done|constructor|apply Hc; inl|apply Hc0; inl|apply Hc1; inl].
    + change [red c; red c0] with ([red c] ++ [red c0]). rewrite promote_last. apply (ok_operator ku).
      * apply Hc0. inl.
      * constructor; [apply Hc; inl|constructor].
      * left. cbn [length]. split; [done|lia].
    + change [red c; red c0; red c1] with ([red c; red c0] ++ [red c1]). rewrite promote_last. apply (ok_operator kb).
      * apply Hc1. inl.
      * constructor; [apply Hc; inl|]. constructor; [apply Hc0; inl|constructor].
      * right; left. cbn [length]. split; [done|lia].
    + change [red c] with ([] ++ [red c]). rewrite promote_last. apply ok_front; [constructor|]. destruct Hc as [Hc _]. destruct (red c). apply Hc. inl.
  - split; [intros _|split; [intros k Hin; exfalso; rewrite Hk in Hin; revert Hin; apply not_op; inl|intros Hn; destruct (Hno Hn)]].
    rewrite red_same by (rewrite Hk; left). by apply ok_number.
  - split; [intros _|split; [intros k Hin; exfalso; rewrite Hk in Hin; revert Hin; apply not_op; inl|intros Hn; destruct (Hno Hn)]].
    rewrite (red_node 2 kP _ _ _ eq_refl Hk). unfold p_prods in Hp. apply elem_of_list_singleton in Hp as ->. split2 Hs. cbn [map].
    rewrite (replace_with_child_in 1 lx [red c; red c0; red c1] [red c] (red c0) [red c1]) by (split; [done|by left]). cbn [fst]. apply Hc0. inl.
  - split; [intros Hin; exfalso; rewrite Hk in Hin; revert Hin; apply not_val; inl|].
    split; [|intros Hn; destruct (Hno Hn)]. intros k Hin. assert (k = kb) as -> by (rewrite Hk in Hin; revert Hin; apply op_only; inl).
    unfold bop_prods in Hp. rewrite !elem_of_cons, elem_of_nil in Hp. destruct Hp as [->|[->|[]]]; split2 Hs.
    + apply (op_node_one kb lx c 3 kBop); [done|done|unfold op_kind; auto|inl|done].
    + apply (op_node_if kb lx c c0 c1 c2 3 kBop); [done|done|inl|done|done|done|done].
  - split; [intros Hin; exfalso; rewrite Hk in Hin; revert Hin; apply not_val; inl|].
    split; [|intros Hn; destruct (Hno Hn)]. intros k Hin. assert (k = ku) as -> by (rewrite Hk in Hin; revert Hin; apply op_only; inl).
    unfold uop_prods in Hp. rewrite !elem_of_cons, elem_of_nil in Hp. destruct Hp as [->|[->|[]]]; split2 Hs.
    + apply (op_node_one ku lx c 4 kUop); [done|done|unfold op_kind; auto|inl|done].
    + apply (op_node_if ku lx c c0 c1 c2 4 kUop); [done|done|inl|done|done|done|done].
  - split; [intros Hin; exfalso; rewrite Hk in Hin; revert Hin; apply not_val; inl|].
    split; [|intros Hn; destruct (Hno Hn)]. intros k Hin. assert (k = ks) as -> by (rewrite Hk in Hin; revert Hin; apply op_only; inl).
    unfold sop_prods in Hp. rewrite !elem_of_cons, elem_of_nil in Hp. destruct Hp as [->|[->|[]]]; split2 Hs.
    + apply (op_node_one ks lx c 5 kSop); [done|done|unfold op_kind; auto|inl|done].
    + apply (op_node_if ks lx c c0 c1 c2 5 kSop); [done|done|inl|done|done|done|done].
  - split; [intros Hin; exfalso; rewrite Hk in Hin; revert Hin; apply not_val; inl|].
    split; [|intros Hn; destruct (Hno Hn)]. intros k Hin. assert (k = km) as -> by (rewrite Hk in Hin; revert Hin; apply op_only; inl).
    unfold smp_prods in Hp. rewrite !elem_of_cons, elem_of_nil in Hp. destruct Hp as [->|[->|[]]]; split2 Hs.
    + apply (op_node_if km lx c c0 c1 c2 6 kSmp); [done|done|inl|done|done|done|done].
    + apply (op_node_one km lx c 6 kSmp); [done|done|unfold op_kind; auto|inl|done].
Qed.
Lemma tree_shaped : forall s t u, is_tree sc_g s t u -> shaped s t.
Proof.
  apply (is_tree_mut sc_g (fun s t _ _ => shaped s t) (fun p cs _ _ => Forall2 shaped p cs)).
  - intros lx Hn. split; [|split; [|eauto]].
    + intros Hin. exfalso. revert Hn.
      assert (H : Forall (fun s => g_prods sc_g s <> None) [kSt; kE; kNum; kP]) by (apply (bool_decide_unpack _); vm_compute; exact I).
      rewrite Forall_forall in H. exact (H _ Hin).
    + intros k Hin. exfalso. unfold op_nts in Hin. rewrite !elem_of_cons, elem_of_nil in Hin.
      destruct Hin as [E|[E|[E|[E|[]]]]]; injection E as E _; rewrite E in Hn; vm_compute in Hn; discriminate Hn.
  - intros lx ps p cs lxs Hs Hp _ IH. eapply node_shaped; [by apply sc_some|exact Hp|exact IH].
  - constructor.
  - intros s r c cs u v _ IH1 _ IH2. by constructor.
Qed.

(** * The programs are what the grammar derives *)
Scheme program_mut := Induction for program Sort Prop
  with expression_mut := Induction for expression Sort Prop
  with operator_mut := Induction for operator Sort Prop.
Lemma der_prod i s ps p w : sc_rows !! i = Some (s, ps) -> p ∈ ps -> derives_seq sc_g p w -> derives sc_g s w.
Proof. intros H%row Hp Hd. by eapply der_nt. Qed.
Lemma seq_end s u : derives sc_g s u -> derives_seq sc_g [s] u.
Proof. intros H. rewrite <- (app_nil_r u). constructor; [done|constructor]. Qed.
Lemma seq_more s u p v : derives sc_g s u -> derives_seq sc_g p v -> derives_seq sc_g (s :: p) (u ++ v).
Proof. by constructor. Qed.
Lemma seq_tok s p v : s ∈ sc_terms -> derives_seq sc_g p v -> derives_seq sc_g (s :: p) ([s] ++ v).
Proof. intros H%term_none. constructor; [by constructor|done]. Qed.
Lemma seq_last s : s ∈ sc_terms -> derives_seq sc_g [s] [s].
Proof. intros H%term_none. apply seq_end. by constructor. Qed.
Lemma program_derives : (forall u, program u -> derives sc_g kSt u)
  /\ (forall u, expression u -> derives sc_g kE u) /\ (forall k u, operator k u -> forall K, (K, k) ∈ op_nts -> derives sc_g K u).
Proof.
  assert (Hop : forall k, op_kind k -> forall K, (K, k) ∈ op_nts -> derives sc_g K [k]).
  { intros k _ K Hin. unfold op_nts in Hin. rewrite !elem_of_cons, elem_of_nil in Hin.
    destruct Hin as [E|[E|[E|[E|[]]]]]; injection E as -> ->; (eapply der_prod; [|eapply elem_of_list_lookup_2|apply seq_last; inl]).
    - exact (eq_refl : sc_rows !! 5 = _). - exact (eq_refl : uop_prods !! 0 = _).
    - exact (eq_refl : sc_rows !! 4 = _). - exact (eq_refl : bop_prods !! 0 = _).
    - exact (eq_refl : sc_rows !! 6 = _). - exact (eq_refl : sop_prods !! 0 = _).
    - exact (eq_refl : sc_rows !! 7 = _). - exact (eq_refl : smp_prods !! 1 = _). }
  assert (Hif : forall k a b c, (forall K, (K, k) ∈ op_nts -> derives sc_g K a) -> (forall K, (K, k) ∈ op_nts -> derives sc_g K b) ->
    derives sc_g kE c -> forall K, (K, k) ∈ op_nts -> derives sc_g K (a ++ b ++ c ++ [kq])).
  { intros k a b c Ha Hb Hc K Hin. specialize (Ha K Hin). specialize (Hb K Hin).
    assert (Hd : derives_seq sc_g [K; K; kE; kq] (a ++ b ++ c ++ [kq])).
    { apply seq_more; [done|]. apply seq_more; [done|]. apply seq_more; [done|]. apply seq_last. inl. }
    unfold op_nts in Hin. rewrite !elem_of_cons, elem_of_nil in Hin.
    destruct Hin as [E|[E|[E|[E|[]]]]]; injection E as -> ->; (eapply der_prod; [|eapply elem_of_list_lookup_2|exact Hd]).
    - exact (eq_refl : sc_rows !! 5 = _). - exact (eq_refl : uop_prods !! 1 = _).
    - exact (eq_refl : sc_rows !! 4 = _). - exact (eq_refl : bop_prods !! 1 = _).
    - exact (eq_refl : sc_rows !! 6 = _). - exact (eq_refl : sop_prods !! 1 = _).
    - exact (eq_refl : sc_rows !! 7 = _). - exact (eq_refl : smp_prods !! 0 = _). }
  assert (St : forall i p w, st_prods !! i = Some p -> derives_seq sc_g p w -> derives sc_g kSt w).
  { intros i p w Hi Hd. eapply (der_prod 0 kSt st_prods p); [done|by eapply elem_of_list_lookup_2|done]. }
  assert (Ex : forall i p w, e_prods !! i = Some p -> derives_seq sc_g p w -> derives sc_g kE w).
  { intros i p w Hi Hd. eapply (der_prod 1 kE e_prods p); [done|by eapply elem_of_list_lookup_2|done]. }
  assert (Nu : forall i p w, num_prods !! i = Some p -> derives_seq sc_g p w -> derives sc_g kE w).
  { intros i p w Hi Hd. eapply (Ex 4); [done|]. apply seq_end. eapply (der_prod 2 kNum num_prods p); [done|by eapply elem_of_list_lookup_2|done]. }
  assert (C1 : derives sc_g kSt []). { eapply (St 3); [done|constructor]. }
  assert (C2 : forall u o, derives sc_g kSt u -> (forall K, (K, km) ∈ op_nts -> derives sc_g K o) -> derives sc_g kSt (u ++ o)).
  { intros u o Hu Ho. eapply (St 0); [done|]. apply seq_more; [done|]. apply seq_end. apply Ho. inl. }
  assert (C3 : forall e u, derives sc_g kE e -> derives sc_g kSt u -> derives sc_g kSt (e ++ u)).
  { intros e u He Hu. eapply (St 1); [done|]. apply seq_more; [done|]. by apply seq_end. }
  assert (C4 : forall u v w, derives sc_g kSt u -> derives sc_g kSt v -> derives sc_g kSt w -> derives sc_g kSt (u ++ [ko] ++ v ++ [kc] ++ w)).
  { intros u v w Hu Hv Hw. eapply (St 2); [done|]. apply seq_more; [done|].
    replace ([ko] ++ v ++ [kc] ++ w) with (([ko] ++ v ++ [kc]) ++ w) by (by rewrite <- !app_assoc).
    apply seq_more; [|by apply seq_end]. eapply (der_prod 3 kP p_prods); [done|by eapply (elem_of_list_lookup_2 _ 0)|].
    apply seq_tok; [inl|]. apply seq_more; [done|]. apply seq_last. inl. }
  assert (C5 : derives sc_g kE [ki]). { eapply (Nu 0); [done|]. apply seq_last. inl. }
  assert (C6 : derives sc_g kE [ki; kd]). { eapply (Nu 1); [done|]. apply (seq_tok ki [kd] [kd]); [inl|]. apply seq_last. inl. }
  assert (C7 : forall a o, derives sc_g kE a -> (forall K, (K, ku) ∈ op_nts -> derives sc_g K o) -> derives sc_g kE (a ++ o)).
  { intros a o Ha Ho. eapply (Ex 2); [done|]. apply seq_more; [done|]. apply seq_end. apply Ho. inl. }
  assert (C8 : forall a b o, derives sc_g kE a -> derives sc_g kE b -> (forall K, (K, kb) ∈ op_nts -> derives sc_g K o) -> derives sc_g kE (a ++ b ++ o)).
  { intros a b o Ha Hb Ho. eapply (Ex 3); [done|]. apply seq_more; [done|]. apply seq_more; [done|]. apply seq_end. apply Ho. inl. }
  assert (C9 : forall u o, derives sc_g kSt u -> (forall K, (K, ks) ∈ op_nts -> derives sc_g K o) -> derives sc_g kE (u ++ o)).
  { intros a o Ha Ho. eapply (Ex 0); [done|]. apply seq_more; [done|]. apply seq_end. apply Ho. inl. }
  assert (C10 : forall a b c, derives sc_g kE a -> derives sc_g kE b -> derives sc_g kE c -> derives sc_g kE (a ++ b ++ c ++ [kq])).
  { intros a b c Ha Hb Hc. eapply (Ex 1); [done|]. apply seq_more; [done|]. apply seq_more; [done|]. apply seq_more; [done|]. apply seq_last. inl. }
  split; [|split].
  - intros u H. eapply (program_mut (fun u _ => derives sc_g kSt u) (fun u _ => derives sc_g kE u)
      (fun k u _ => forall K, (K, k) ∈ op_nts -> derives sc_g K u)); [..|exact H]; eauto.
  - intros u H. eapply (expression_mut (fun u _ => derives sc_g kSt u) (fun u _ => derives sc_g kE u)
      (fun k u _ => forall K, (K, k) ∈ op_nts -> derives sc_g K u)); [..|exact H]; eauto.
  - intros k u H. eapply (operator_mut (fun u _ => derives sc_g kSt u) (fun u _ => derives sc_g kE u)
      (fun k u _ => forall K, (K, k) ∈ op_nts -> derives sc_g K u)); [..|exact H]; eauto.
Qed.
Definition means (s : gostring) (w : list gostring) : Prop :=
  (s = kSt -> program w) /\ (s = kE -> expression w) /\ (s = kNum -> expression w)
  /\ (s = kP -> exists v, w = [ko] ++ v ++ [kc] /\ program v)
  /\ (forall k, (s, k) ∈ op_nts -> operator k w) /\ (g_prods sc_g s = None -> w = [s]).
Fixpoint mean_seq (p : list gostring) (w : list gostring) : Prop :=
  match p with [] => w = [] | s :: r => exists u v, w = u ++ v /\ means s u /\ mean_seq r v end.
Lemma means_tok s w : s ∈ sc_terms -> means s w -> w = [s].
Proof. intros H%term_none (_ & _ & _ & _ & _ & Hw). exact (Hw H). Qed.
Lemma means_st w : means kSt w -> program w. Proof. intros (H & _). exact (H eq_refl). Qed.
Lemma means_e w : means kE w -> expression w. Proof. intros (_ & H & _). exact (H eq_refl). Qed.
Lemma means_num w : means kNum w -> expression w. Proof. intros (_ & _ & H & _). exact (H eq_refl). Qed.
Lemma means_o K k w : means K w -> (K, k) ∈ op_nts -> operator k w. Proof. intros (_ & _ & _ & _ & H & _). exact (H k). Qed.
Lemma means_op K k ps w p : (K, k) ∈ op_nts -> (ps = [[k]; [K; K; kE; kq]] \/ ps = [[K; K; kE; kq]; [k]]) -> k ∈ sc_terms -> op_kind k ->
  p ∈ ps -> mean_seq p w -> operator k w.
Proof.
  intros Hin Hps Ht Hk Hp Hm.
  assert (p = [k] \/ p = [K; K; kE; kq]) as [->| ->].
  { destruct Hps as [->| ->]; rewrite !elem_of_cons, elem_of_nil in Hp; destruct Hp as [Hp|[Hp|[]]]; auto. }
  - destruct Hm as (u & v & -> & Hu & ->). apply means_tok in Hu as ->; [|done]. by apply op_one.
  - destruct Hm as (a & v & -> & Ha & b & v2 & -> & Hb & c & v3 & -> & Hc & q & v4 & -> & Hq & ->).
    apply means_tok in Hq as ->; [|inl]. rewrite app_nil_r. apply op_if; [by eapply means_o|by eapply means_o|by apply means_e].
Qed.
Lemma means_node s ps p w : (s, ps) ∈ sc_rows -> p ∈ ps -> mean_seq p w -> means s w.
Proof.
  intros Hr Hp Hm.
  assert (Hno : g_prods sc_g s <> None).
  { apply elem_of_list_lookup in Hr as [i Hi]. apply row in Hi. congruence. }
  assert (Hop : forall k, (s, k) ∈ op_nts -> (ps = [[k]; [s; s; kE; kq]] \/ ps = [[s; s; kE; kq]; [k]]) -> k ∈ sc_terms -> op_kind k -> means s w).
  { intros k Hin Hps Ht Hk. assert (Hs : s ∉ [kSt; kE; kNum; kP]).
    { intros Hs. exact (not_op s k Hs Hin). }
    rewrite !elem_of_cons, elem_of_nil in Hs.
    split; [intros E; tauto|]. split; [intros E; tauto|]. split; [intros E; tauto|]. split; [intros E; tauto|].
    split; [|intros E; destruct (Hno E)]. intros k' Hin'. rewrite (op_only s k' k Hin Hin'). by eapply means_op. }
  unfold sc_rows in Hr. rewrite !elem_of_cons, elem_of_nil in Hr.
  destruct Hr as [E|[E|[E|[E|[E|[E|[E|[E|[]]]]]]]]]; injection E as -> ->.
  - split; [intros _|split; [discriminate|split; [discriminate|split; [discriminate|]]]].
    + unfold st_prods in Hp. rewrite !elem_of_cons, elem_of_nil in Hp. repeat destruct Hp as [->|Hp]; [..|done]; cbn [mean_seq] in Hm.
      * destruct Hm as (u & v & -> & Hu & o & v2 & -> & Ho & ->). rewrite app_nil_r. apply pr_smp; [by apply means_st|]. eapply means_o; [exact Ho|inl].
      * destruct Hm as (u & v & -> & Hu & o & v2 & -> & Ho & ->). rewrite app_nil_r. apply pr_expr; [by apply means_e|by apply means_st].
      * destruct Hm as (u & v & -> & Hu & o & v2 & -> & Ho & w3 & v3 & -> & Hw & ->). rewrite app_nil_r.
        destruct Ho as (_ & _ & _ & Ho & _). destruct (Ho eq_refl) as (v' & -> & Hv). rewrite <- !app_assoc. apply pr_parens; [by apply means_st|done|by apply means_st].
      * subst w. apply pr_nil.
    + split; [|intros E; destruct (Hno E)]. intros k Hin. exfalso. revert Hin. apply not_op. inl.
  - split; [discriminate|split; [intros _|split; [discriminate|split; [discriminate|]]]].
    + unfold e_prods in Hp. rewrite !elem_of_cons, elem_of_nil in Hp. repeat destruct Hp as [->|Hp]; [..|done]; cbn [mean_seq] in Hm.
      * destruct Hm as (u & v & -> & Hu & o & v2 & -> & Ho & ->). rewrite app_nil_r. apply ex_sop; [by apply means_st|]. eapply means_o; [exact Ho|inl].
      * destruct Hm as (a & v & -> & Ha & b & v2 & -> & Hb & c & v3 & -> & Hc & q & v4 & -> & Hq & ->).
        apply means_tok in Hq as ->; [|inl]. rewrite app_nil_r. apply ex_if; [by apply means_e|by apply means_e|by apply means_e].
      * destruct Hm as (u & v & -> & Hu & o & v2 & -> & Ho & ->). rewrite app_nil_r. apply ex_uop; [by apply means_e|]. eapply means_o; [exact Ho|inl].
      * destruct Hm as (a & v & -> & Ha & b & v2 & -> & Hb & o & v3 & -> & Ho & ->). rewrite app_nil_r. apply ex_bop; [by apply means_e|by apply means_e|]. eapply means_o; [exact Ho|inl].
      * destruct Hm as (u & v & -> & Hu & ->). rewrite app_nil_r. by apply means_num.
    + split; [|intros E; destruct (Hno E)]. intros k Hin. exfalso. revert Hin. apply not_op. inl.
  - split; [discriminate|split; [discriminate|split; [intros _|split; [discriminate|]]]].
    + unfold num_prods in Hp. rewrite !elem_of_cons, elem_of_nil in Hp. repeat destruct Hp as [->|Hp]; [..|done]; cbn [mean_seq] in Hm.
      * destruct Hm as (u & v & -> & Hu & ->). apply means_tok in Hu as ->; [|inl]. apply ex_int.
      * destruct Hm as (u & v & -> & Hu & o & v2 & -> & Ho & ->). apply means_tok in Hu as ->; [|inl]. apply means_tok in Ho as ->; [|inl]. apply ex_dec.
    + split; [|intros E; destruct (Hno E)]. intros k Hin. exfalso. revert Hin. apply not_op. inl.
  - split; [discriminate|split; [discriminate|split; [discriminate|split; [intros _|]]]].
    + unfold p_prods in Hp. apply elem_of_list_singleton in Hp as ->. cbn [mean_seq] in Hm.
      destruct Hm as (u & v & -> & Hu & o & v2 & -> & Ho & w3 & v3 & -> & Hw & ->).
      apply means_tok in Hu as ->; [|inl]. apply means_tok in Hw as ->; [|inl]. exists o. rewrite app_nil_r. split; [done|by apply means_st].
    + split; [|intros E; destruct (Hno E)]. intros k Hin. exfalso. revert Hin. apply not_op. inl.
  - apply (Hop kb); [inl|by left|inl|unfold op_kind; auto].
  - apply (Hop ku); [inl|by left|inl|unfold op_kind; auto].
  - apply (Hop ks); [inl|by left|inl|unfold op_kind; auto].
  - apply (Hop km); [inl|by right|inl|unfold op_kind; auto].
Qed.
Lemma derives_means : forall s w, derives sc_g s w -> means s w.
Proof.
  apply (derives_mut sc_g (fun s w _ => means s w) (fun p w _ => mean_seq p w)).
  - intros s Hn.
    assert (Hs : s ∉ map fst sc_rows).
    { intros Hin. apply elem_of_list_fmap in Hin as ([s' ps] & -> & Hin). apply elem_of_list_lookup in Hin as [i Hi]. apply row in Hi. cbn [fst] in Hn. congruence. }
    unfold sc_rows in Hs. cbn [map fst] in Hs. rewrite !elem_of_cons, elem_of_nil in Hs.
    split; [intros E; tauto|]. split; [intros E; tauto|]. split; [intros E; tauto|]. split; [intros E; tauto|].
    split; [|done]. intros k Hin. exfalso. unfold op_nts in Hin. rewrite !elem_of_cons, elem_of_nil in Hin.
    destruct Hin as [E|[E|[E|[E|[]]]]]; injection E as E _; tauto.
  - intros s ps p w Hs Hp _ IH. eapply means_node; [by apply sc_some|exact Hp|exact IH].
  - reflexivity.
  - intros s r u v _ IH1 _ IH2. cbn [mean_seq]. exists u, v. auto.
Qed.
Lemma program_iff w : program w <-> generates sc_g w.
Proof.
  split.
  - intros H. exists kSt, (map fst (tl sc_rows)). split; [exact sc_nts|]. by apply program_derives.
  - intros (s0 & rest & Hn & Hd). rewrite sc_nts in Hn. injection Hn as <- _. by apply means_st, derives_means.
Qed.
Lemma no_errors w : program w -> L "Error" ∉ w.
Proof.
  intros H. apply program_derives in H.
  assert (HG : forall s w, derives sc_g s w -> s <> L "Error" -> L "Error" ∉ w).
  { apply (derives_mut sc_g (fun s w _ => s <> L "Error" -> L "Error" ∉ w) (fun p w _ => L "Error" ∉ p -> L "Error" ∉ w)).
    - intros s _ Hs Hin. apply elem_of_list_singleton in Hin. congruence.
    - intros s ps p w' Hs Hp _ IH _. apply IH. apply sc_some in Hs.
      assert (HF : Forall (fun r => Forall (fun p => L "Error" ∉ p) r.2) sc_rows) by (apply (bool_decide_unpack _); vm_compute; exact I).
      rewrite Forall_forall in HF. specialize (HF _ Hs). rewrite Forall_forall in HF. by apply HF.
    - done.
    - intros s r u v _ IH1 _ IH2 Hn Hin. rewrite elem_of_cons in Hn. apply elem_of_app in Hin as [Hin|Hin]; [apply IH1|apply IH2]; auto. }
  apply (HG _ _ H). discriminate.
Qed.

(** * No symbol derives itself *)
Lemma sc_not_nil : forall s w, derives sc_g s w -> s <> kSt -> w <> [].
Proof.
  apply (derives_mut sc_g (fun s w _ => s <> kSt -> w <> []) (fun p w _ => (exists y, y ∈ p /\ y <> kSt) -> w <> [])).
  - discriminate.
  - intros s ps p w Hs Hp _ IH Hst. apply IH. apply sc_some in Hs.
    assert (HF : Forall (fun r => r.1 = kSt \/ Forall (fun p => Exists (fun y => y <> kSt) p) r.2) sc_rows) by (apply (bool_decide_unpack _); vm_compute; exact I).
    rewrite Forall_forall in HF. destruct (HF _ Hs) as [E|H]; [destruct (Hst E)|]. rewrite Forall_forall in H. specialize (H p Hp).
    apply Exists_exists in H. exact H.
  - intros (y & Hy & _). by apply elem_of_nil in Hy.
  - intros s r u v _ IH1 _ IH2 (y & Hy & Hn). apply elem_of_cons in Hy as [->|Hy]; intros E; apply app_eq_nil in E as [-> ->].
    + by apply IH1.
    + apply IH2; [by exists y|done].
Qed.
Definition depth (s : gostring) : nat := if decide (s = kSt) then 3 else if decide (s = kE) then 2 else if decide (s ∈ map fst sc_rows) then 1 else 0.
Lemma sc_unit a b : unit_step sc_g a b -> depth b < depth a.
Proof.
  assert (Hnil : forall p, derives_seq sc_g p [] -> Forall (fun y => y = kSt) p).
  { intros p H. remember [] as w eqn:E. revert E. induction H as [|s r u v Hd _ IH]; intros E; [constructor|].
    apply app_eq_nil in E as [-> ->]. constructor; [|by apply IH]. destruct (decide (s = kSt)); [done|]. exfalso. by apply (sc_not_nil s [] Hd). }
  intros (ps & p & x & y & Hs & Hp & -> & Hx%Hnil & Hy%Hnil). apply sc_some in Hs.
  assert (HF : Forall (fun r => Forall (fun p => Forall (fun i => Forall (fun y => y = kSt) (take i p) -> Forall (fun y => y = kSt) (drop (S i) p) ->
    Forall (fun b => depth b < depth r.1) (take 1 (drop i p))) (seq 0 (length p))) r.2) sc_rows) by (apply (bool_decide_unpack _); vm_compute; exact I).
  rewrite Forall_forall in HF. specialize (HF _ Hs). rewrite Forall_forall in HF. specialize (HF _ Hp). rewrite Forall_forall in HF.
  specialize (HF (length x)). cbn [fst] in HF.
  assert (E1 : take (length x) (x ++ b :: y) = x) by apply take_app. assert (E2 : drop (length x) (x ++ b :: y) = b :: y) by apply drop_app.
  assert (E3 : drop (S (length x)) (x ++ b :: y) = y). { change (b :: y) with ([b] ++ y). rewrite app_assoc. replace (S (length x)) with (length (x ++ [b])) by (rewrite app_length; cbn; lia). apply drop_app. }
  rewrite E1, E2, E3 in HF. specialize (HF ltac:(apply elem_of_seq; rewrite app_length; cbn [length]; lia) Hx Hy).
  by apply Forall_cons in HF as [HF _].
Qed.
Lemma sc_acyclic : acyclic_grammar sc_g.
Proof.
  assert (H : forall a b, tc (unit_step sc_g) a b -> depth b < depth a).
  { induction 1 as [a b H|a b c H _ IH]; apply sc_unit in H; lia. }
  intros a Ha. apply H in Ha. lia.
Qed.
(** * Eval *)
Section Run.
  Variable A : sarith.
  Variable compile : compiler.
  Variable l0 l : slexer.
  Variable gg : gr.
  Variable texts : list gostring.
  Hypothesis HC : compiles compile sc_table.
  Hypothesis Hl0 : sc_lexer compile = Some l0.
  Hypothesis Hl : returns (sl_calls (map CLex texts) l0) l.
  Hypothesis Hgg : sc_grammar = Some gg.
  Lemma sgg_is : gg = sc_gr.
  Proof using Hgg. pose proof sc_grammar_some. congruence. Qed.
  (** The tree, its lexemes and its value. *)
  Lemma eval_cases s : exists lxs l',
    (sc_tokens s lxs \/ exists v, lexes_not (sc_calls []) s v /\ exists x, x ∈ lxs /\ lx_kind x = L "Error")
    /\ ((program (map lx_kind lxs) /\ exists t vs F, ranked_tree sc_g kSt t lxs /\ is_tree sc_g kSt t lxs /\ (forall n, F <= n -> sc_stack A n (red t) = Ok vs)
          /\ returns (sc_eval A l gg s) (Some vs, l'))
        \/ (~ program (map lx_kind lxs) /\ returns (sc_eval A l gg s) (None, l'))).
  Proof using All.
    rewrite sgg_is. destruct (lexed compile l0 l texts HC Hl0 Hl s) as (xs & l' & Hs & Hk & Hx).
    exists (map olex_lx xs), l'. split; [exact Hx|]. clear Hx.
    assert (Htk : terminal_kinds sc_g (map olex_lx xs)).
    { intros x Hx. apply term_none. by apply Hk. }
    assert (Htree : forall t, returns (fun n => packrat_parse n sc_g (map olex_lx xs)) (Some t) -> is_tree sc_g kSt t (map olex_lx xs)).
    { intros t Ht. destruct (map olex_lx xs) as [|x r] eqn:E.
      - destruct (packrat_empty sc_g kSt (map fst (tl sc_rows)) sc_wf sc_nts) as (t' & Ht' & [[_ H]|[H _]]).
        + pose proof (returns_fun _ _ _ Ht Ht') as [= ->]. exact H.
        + exfalso. apply H. apply program_derives. apply pr_nil.
      - destruct (packrat_sound sc_g (x :: r) sc_wf Htk t ltac:(discriminate) Ht) as (s0 & rest & Hn & H).
        rewrite sc_nts in Hn. injection Hn as <- _. exact H. }
    destruct (packrat_total sc_g (map olex_lx xs) sc_wf Htk) as [r Hr].
    destruct r as [t|].
    - left. specialize (Htree t Hr). assert (Hd : derives sc_g kSt (map lx_kind (map olex_lx xs))) by (by apply (proj1 (TopdownThms.is_tree_derives sc_g)) in Htree).
      pose proof (packrat_ranked sc_g (map olex_lx xs) sc_wf Htk kSt _ t sc_acyclic sc_nts Hd Hr) as Hrk. split.
      { apply program_iff. exists kSt, (map fst (tl sc_rows)). split; [exact sc_nts|exact Hd]. }
      destruct (tree_shaped _ _ _ Htree) as (Hok & _). specialize (Hok ltac:(inl)).
      set (F := 2 * size (red t) + 1). destruct (proj2 (eval_ok A F (red t) Hok)) as [vs Hvs]; [unfold F; lia|].
      assert (HF : forall n, F <= n -> sc_stack A n (red t) = Ok vs).
      { intros n Hn. eapply rle_Ok; [|exact Hvs]. by apply sc_mono. }
      exists t, vs, F. split; [exact Hrk|]. split; [exact Htree|]. split; [exact HF|].
      destruct Hs as [G HG], Hr as [H HH]. exists (F + G + H). intros n Hn. unfold sc_eval, sc_parse.
      rewrite HG by lia. cbn [rbind]. fold sc_g. rewrite HH by lia. cbn [rbind]. rewrite HF by lia. reflexivity.
    - right. split.
      + intros Hp%program_iff. destruct (packrat_complete sc_g (map olex_lx xs) sc_wf Htk Hp) as [t Ht].
        pose proof (returns_fun _ _ _ Ht Hr) as E. discriminate E.
      + destruct Hs as [G HG], Hr as [H HH]. exists (G + H). intros n Hn. unfold sc_eval, sc_parse.
        rewrite HG by lia. cbn [rbind]. fold sc_g. rewrite HH by lia. reflexivity.
  Qed.
End Run.
