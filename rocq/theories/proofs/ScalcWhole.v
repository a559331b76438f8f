(** A stack operator takes the whole stack when nothing after it needs its result. *)
From Coq Require Import String.
From Verif.spec Require Import ScalcSpec PackratSpec TreeSpec.
From Verif.proofs Require Import GramRows TreeProofs Fuel LexTableProofs ScalcGram ScalcTotal ScalcMachine ScalcRpn.
Local Open Scope nat_scope.
Local Open Scope list_scope.

Lemma ranked_is_tree g : forall s t l, ranked_tree g s t l -> is_tree g s t l.
Proof.
  fix IH 4. intros s t l H. destruct H as [lx Hp|lx ps k p cs lxss Hp Hk Hcs He _]; [by constructor|].
  econstructor; [exact Hp|by eapply elem_of_list_lookup_2|]. clear Hk Hp He.
  induction Hcs as [|s r c cs u v Hc Hcs IHc]; [constructor|]. cbn [concat]. constructor; [by apply IH|exact IHc].
Qed.
Lemma seq_means p w : derives_seq sc_g p w -> mean_seq p w.
Proof. induction 1 as [|s r u v Hd _ IH]; [reflexivity|]. exists u, v. split; [done|]. split; [by apply derives_means|done]. Qed.
Lemma num_kinds w : derives sc_g kNum w -> w = [ki] \/ w = [ki; kd].
Proof.
  intros H. inversion H as [s Hn|s ps p w' Hs Hp Hd]; subst; [rewrite (row 2 kNum num_prods eq_refl) in Hn; discriminate Hn|].
  rewrite (row 2 kNum num_prods eq_refl) in Hs. injection Hs as <-. apply seq_means in Hd. unfold num_prods in Hp. rewrite !elem_of_cons, elem_of_nil in Hp.
  destruct Hp as [->|[->|[]]]; cbn [mean_seq] in Hd.
  - destruct Hd as (u & v & -> & Hu & ->). apply means_tok in Hu as ->; [|inl]. by left.
  - destruct Hd as (u & v & -> & Hu & o & v2 & -> & Ho & ->). apply means_tok in Hu as ->; [|inl]. apply means_tok in Ho as ->; [|inl]. by right.
Qed.
(** The last kind tells the production of an expression. *)
Lemma e_last q p u : e_prods !! q = Some p -> derives_seq sc_g p u ->
  exists u' k, u = u' ++ [k] /\ (k = ks -> q = 0) /\ (k ∈ [ki; kd; ku; kb] -> 2 <= q).
Proof.
  intros Hq Hd. pose proof Hd as Hd0. apply seq_means in Hd. unfold e_prods in Hq. destruct q as [|[|[|[|[|q]]]]]; cbn in Hq; [..|discriminate Hq]; injection Hq as <-; cbn [mean_seq] in Hd.
  - destruct Hd as (a & v & -> & _ & o & v2 & -> & Ho & ->). rewrite app_nil_r. apply (means_o _ ks) in Ho; [|inl].
    apply operator_last in Ho as (o' & k & E & Hk). exists (a ++ o'), k. split; [by apply last_more|]. split; [done|].
    intros Hin. exfalso. destruct Hk as [->| ->]; revert Hin; noin.
  - destruct Hd as (a & v & -> & Ha & b & v2 & -> & Hb & c & v3 & -> & Hc & q & v4 & -> & Hq & ->).
    apply means_tok in Hq as ->; [|inl]. exists (a ++ b ++ c), kq. split; [by rewrite <- !app_assoc|]. split; [discriminate|]. intros Hin. exfalso. revert Hin. noin.
  - destruct Hd as (a & v & -> & _ & o & v2 & -> & Ho & ->). rewrite app_nil_r. apply (means_o _ ku) in Ho; [|inl].
    apply operator_last in Ho as (o' & k & E & Hk). exists (a ++ o'), k. split; [by apply last_more|]. split; [|lia]. intros ->. destruct Hk as [Hk|Hk]; discriminate Hk.
  - destruct Hd as (a & v & -> & Ha & b & v2 & -> & Hb & o & v3 & -> & Ho & ->). rewrite app_nil_r. apply (means_o _ kb) in Ho; [|inl].
    apply operator_last in Ho as (o' & k & E & Hk). exists (a ++ b ++ o'), k. split; [rewrite E; by rewrite <- !app_assoc|]. split; [|lia]. intros ->. destruct Hk as [Hk|Hk]; discriminate Hk.
  - inversion Hd0 as [|s r a b Ha Hb]; subst. inversion Hb; subst. rewrite app_nil_r. apply num_kinds in Ha as [->| ->].
    + exists [], ki. split; [done|]. split; [discriminate|lia].
    + exists [ki], kd. split; [done|]. split; [discriminate|lia].
Qed.
Lemma once {X} (k : X) (a b c d : list X) : k ∉ c -> k ∉ d -> a ++ k :: b = c ++ k :: d -> a = c /\ b = d.
Proof.
  intros Hc Hd. revert c Hc. induction a as [|x a IH]; intros [|y c] Hc E; cbn in E.
  - injection E as E. done.
  - injection E as E _. subst y. exfalso. apply Hc. left.
  - injection E as E1 E2. subst. exfalso. apply Hd. rewrite elem_of_app. right. left.
  - injection E as -> E. destruct (IH c) as [-> ->]; [|done|done]. intros H. apply Hc. by right.
Qed.
Definition plain (w : list gostring) : Prop := Forall (fun k => k ∈ [ki; kd; ku; kb]) w.
Lemma arith_plain u : arithmetic u -> plain (kinds u).
Proof.
  unfold arithmetic, plain, kinds. intros H. induction H as [|x u Hx _ IH]; [constructor|]. constructor; [|exact IH].
  rewrite !elem_of_cons. unfold ki, kd, ku, kb. tauto.
Qed.
Lemma plain_not w : plain w -> ks ∉ w.
Proof. unfold plain. rewrite Forall_forall. intros H Hin. specialize (H _ Hin). revert H. noin. Qed.
Lemma e_before w w' v u b : plain w -> plain v -> u ++ b = w ++ ks :: v -> derives sc_g kE u -> u <> w ++ [ks] -> before sc_g kE (w' ++ [ks]) u.
Proof.
  intros Hw Hv E Hd Hne. exists e_prods. split; [exact (row 1 kE e_prods eq_refl)|]. intros q q2 p p2 Hq Hq2 Hd1 Hd2.
  destruct (e_last q p _ Hq Hd1) as (w2 & k & Ek & H1 & _). apply app_inj_tail in Ek as [_ Ek]. rewrite (H1 (eq_sym Ek)).
  destruct (e_last q2 p2 _ Hq2 Hd2) as (u' & k2 & -> & _ & H2). rewrite <- app_assoc in E. cbn [app] in E.
  assert (Hk : k2 ∈ w ++ ks :: v) by (rewrite <- E, elem_of_app; right; left).
  unfold plain in *. rewrite Forall_forall in Hw, Hv. rewrite elem_of_app, elem_of_cons in Hk.
  destruct Hk as [Hk|[->|Hk]]; [specialize (H2 (Hw _ Hk)); lia| |specialize (H2 (Hv _ Hk)); lia].
  exfalso. apply once in E as [-> _]; [by apply Hne|..]; apply plain_not, Forall_forall; assumption.
Qed.
Lemma root_split w v : plain w -> plain v -> program w -> program v -> best_split sc_g [kE; kSt] (w ++ ks :: v) [w ++ [ks]; v].
Proof.
  intros Hw Hv Pw Pv. split.
  - split; [cbn [concat]; by rewrite app_nil_r, <- app_assoc|]. constructor; [|constructor; [by apply program_derives|constructor]].
    apply program_derives. apply ex_sop; [done|]. apply op_one. right. right. by left.
  - intros parts [HC HF]. apply Forall2_cons_inv_l in HF as (u & r & Hu & HF & ->). apply Forall2_cons_inv_l in HF as (b & r2 & Hb & HF & ->).
    apply Forall2_nil_inv_l in HF as ->. cbn [concat] in HC. rewrite app_nil_r in HC.
    destruct (decide (u = w ++ [ks])) as [->|Hne].
    + left. rewrite <- app_assoc in HC. apply app_inv_head in HC. cbn [app] in HC. injection HC as ->. reflexivity.
    + right. exists [], kE, [kSt], [], (w ++ [ks]), u, [v], [b]. split; [done|]. split; [done|]. split; [done|]. split; [done|].
      split; [congruence|]. by apply (e_before w w v u b).
Qed.

Lemma ranked_two g a b cs lxss : ranked_trees g [a; b] cs lxss ->
  exists c d u1 u2, cs = [c; d] /\ lxss = [u1; u2] /\ ranked_tree g a c u1 /\ ranked_tree g b d u2.
Proof.
  intros H. inversion H as [|s r c cs1 u1 v1 Hc H1]; subst. inversion H1 as [|s2 r2 d cs2 u2 v2 Hd H2]; subst. inversion H2; subst.
  exists c, d, u1, u2. auto.
Qed.

Section Machine.
  Variable A : sarith.
  Lemma machine_app wh st u st1 r st2 : machine A wh st u st1 -> ScalcSpec.not_dec r -> machine A wh st1 r st2 -> machine A wh st (u ++ r) st2.
  Proof.
    intros H Hr H2.
    induction H as [st|x u st st' Hk Hn _ IH|x y u st st' Hk Hy _ IH|o a z u st st' Ho Hv _ IH|o a b z u st st' Ho Hv _ IH|o vs z u st st' Ho Hw Hv _ IH
      |o u st st1 st' Ho Hv _ IH|o a b c u st st' Ho Hc _ IH|o a b c u st st' Ho Hc _ IH|o u st st' Ho _ IH]; cbn [app]; [done|..]; specialize (IH H2).
    - apply m_int; [done| |done]. destruct u as [|y u]; [done|]. intros z r' E. injection E as <- _. by apply (Hn y u).
    - by apply m_dec.
    - by eapply m_uop.
    - by eapply m_bop.
    - by eapply m_sop.
    - by eapply m_smp.
    - by apply m_if_pos.
    - by apply m_if_not.
    - by apply m_paren.
  Qed.
  Lemma whole_sound t w x v : ranked_tree sc_g kSt t (w ++ x :: v) -> arithmetic w -> lx_kind x = ks -> arithmetic v -> ops_known (w ++ x :: v) ->
    program (kinds v) -> exists lx cs vs, red t = packed lx cs /\ lx_kind lx = kSt /\ Forall2 (val A) cs vs /\ machine A true [] (w ++ x :: v) (rev vs).
  Proof.
    intros Hr Ha Hx Hav Hk Hv. pose proof (ranked_is_tree _ _ _ _ Hr) as Ht.
    assert (Hops : operators (w ++ x :: v)).
    { apply arith_app. split; [by apply arith_operators|]. apply Forall_cons. split; [|by apply arith_operators]. right. right. right. by right. }
    assert (Hw : program (kinds w)).
    { destruct (st_sound A (S (size t)) t _ ltac:(lia) Ht Hops Hk) as (lx & cs & vs & _ & _ & _ & _ & Hpu).
      specialize (Hpu [] [] (rev vs) not_dec_nil). rewrite !app_nil_r in Hpu. specialize (Hpu (m_done A false (rev vs))).
      destruct (machine_before A false _ _ _ Hpu w x v eq_refl (arith_operators _ Ha) ltac:(rewrite Hx; discriminate)) as [st1 H1].
      exact (machine_program A false [] w st1 H1 (arith_operators _ Ha) [] eq_refl (List.Forall_nil _)). }
    assert (Hbest : best_split sc_g [kE; kSt] (kinds (w ++ x :: v)) [kinds w ++ [ks]; kinds v]).
    { unfold kinds. rewrite map_app. cbn [map]. rewrite Hx. apply root_split; [by apply arith_plain|by apply arith_plain|done|done]. }
    remember (w ++ x :: v) as u eqn:Eu. remember kSt as s eqn:Es. destruct Hr as [lx Hn|lx ps k p cs lxss Hps Hp Hcs He Hsp].
    { exfalso. rewrite Es, (row 0 kSt st_prods eq_refl) in Hn. discriminate Hn. }
    rewrite Es, (row 0 kSt st_prods eq_refl) in Hps. injection Hps as <-. rewrite Es in Ht, Hbest.
    assert (k = 1) as ->.
    { destruct k as [|[|k]]; [|done|].
      - exfalso. cbn in Hp. injection Hp as <-.
        apply ranked_two in Hcs as (c & d & u1 & u2 & -> & -> & Hc & Hd). apply ranked_is_tree in Hd. cbn [concat] in Hops. rewrite app_nil_r in Hops.
        apply arith_app in Hops as [_ Hops]. apply smp_leaf in Hd as (y & -> & Hy & _); [|apply arith_not; [noin|done]].
        apply (arith_not km [y]); [noin|done|]. cbn. rewrite Hy. left.
      - exfalso. apply (He 1 [kE; kSt]); [lia|done|]. destruct Hbest as [[HC HF] _]. unfold kinds in HC. rewrite <- HC.
        apply Forall2_cons_inv_l in HF as (a & r & Hd1 & HF & E). injection E as <- <-. apply Forall2_cons_inv_l in HF as (a & r & Hd2 & HF & E). injection E as <- <-.
        cbn [concat]. rewrite app_nil_r. apply seq_more; [exact Hd1|]. apply seq_end; exact Hd2. }
    cbn in Hp. injection Hp as <-. specialize (Hsp _ Hbest). clear Hbest He Hops Ht.
    apply ranked_two in Hcs as (c & d & u1 & u2 & -> & -> & Hc & Hd). cbn [concat] in Eu, Hk. rewrite app_nil_r in Eu, Hk.
    cbn [map] in Hsp. injection Hsp as E1 E2.
    assert (u1 = w ++ [x] /\ u2 = v) as [-> ->].
    { apply (f_equal length) in E1. unfold kinds in E1. rewrite app_length, !map_length in E1. cbn [length] in E1.
      change (x :: v) with ([x] ++ v) in Eu. rewrite app_assoc in Eu. apply app_inj_1 in Eu; [done|]. rewrite app_length. cbn [length]. lia. }
    clear E1 E2 Eu. apply ranked_is_tree in Hc, Hd. apply known_app in Hk as [Hk1 Hk2]. pose proof Hk1 as Hk3. apply known_app in Hk3 as [Hk3 Hk4].
    destruct (st_sound A (S (size d)) d v ltac:(lia) Hd (arith_operators _ Hav) Hk2) as (l2 & ds & vs2 & Hrd & Hl2 & Hds & Hs2 & Hpu2).
    destruct (node_inv 1 kE e_prods c _ eq_refl Hc) as (le & p & es & -> & Hle & Hp & Hes).
    assert (p = [kSt; kSop]) as ->.
    { apply elem_of_list_lookup in Hp as [q Hq]. pose proof (proj2 (TopdownThms.is_tree_derives sc_g) _ _ _ Hes) as Hds'.
      destruct (e_last q p _ Hq Hds') as (u' & k & E & H1 & _). rewrite map_app in E. apply app_inj_tail in E as [_ E]. rewrite Hx in E.
      rewrite (H1 (eq_sym E)) in Hq. cbn in Hq. by injection Hq as <-. }
    apply trees_cons_inv in Hes as (f & es' & w1 & w2 & -> & E & Hf & Hes). apply trees_cons_inv in Hes as (o & es2 & w3 & w4 & -> & -> & Ho & Hes).
    apply trees_nil_inv in Hes as [-> ->]. rewrite app_nil_r in E.
    apply sop_leaf in Ho as (y & -> & Hy & Hro).
    2:{ apply (notin_app kq w1 w3). rewrite <- E. apply arith_not; [noin|]. apply arith_app. split; [by apply arith_operators|]. constructor; [|constructor]. right. right. right. by right. }
    apply app_inj_tail in E as [<- <-].
    destruct (st_sound A (S (size f)) f w ltac:(lia) Hf (arith_operators _ Ha) Hk3) as (l3 & fs & vs & Hrf & Hl3 & Hfs & Hs3 & Hpu3).
    set (z := sc_sop A (lx_val x) vs).
    assert (Hz : val A (red (PN le [f; o])) z).
    { rewrite (red_node 1 kE _ _ _ eq_refl Hle). unfold sc_promote_last. cbn [map]. rewrite Hro.
      change [red f; PN x []] with ([red f] ++ [PN x []]). rewrite promote_last. cbn [pn_lexeme pn_children app]. rewrite Hrf.
      destruct (packed_eval A l3 fs vs Hl3 Hfs) as [F HF]. split; [cbn [pn_lexeme]; rewrite Hx; inl|]. exists (S F). intros m Hm. destruct m as [|m]; [lia|].
      cbn [sc_e]. fold (sc_stack A). cbn [pn_lexeme pn_children]. rewrite Hx. rewrite !decide_False by discriminate. rewrite decide_True by done. rewrite HF by lia. reflexivity. }
    rewrite (red_node 0 kSt _ _ _ eq_refl Es). cbn [map]. rewrite Hrd.
    destruct (reduce_e_st A lx _ l2 ds z vs2 Es Hl2 Hz Hds) as (l4 & Hl4 & E4). exists l4, (red (PN le [f; o]) :: ds), (z :: vs2).
    split; [exact E4|]. split; [rewrite Es; exact Hl4|]. split; [constructor; [exact Hz|exact Hds]|].
    replace (concat [w ++ [x]; v]) with (w ++ x :: v) by (cbn [concat]; by rewrite app_nil_r, <- app_assoc). apply (machine_app true [] w (rev vs)).
    - apply (machine_any A false); [|by apply arith_no_sop]. specialize (Hpu3 [] [] (rev vs) not_dec_nil). rewrite !app_nil_r in Hpu3. apply Hpu3, m_done.
    - apply not_dec_cons. rewrite Hx. discriminate.
    - rewrite <- (app_nil_r (rev vs)). apply (m_sop A true x (rev vs) z v []); [exact Hx|done| |].
      + rewrite rev_involutive. apply sop_known. apply (Hk4 x); [left|done].
      + apply (machine_any A false); [|by apply arith_no_sop]. specialize (Hpu2 [z] [] (rev vs2 ++ [z]) not_dec_nil). rewrite app_nil_r in Hpu2. cbn [rev]. apply Hpu2, m_done.
  Qed.
End Machine.

Section Run.
  Variable A : sarith.
  Variable compile : compiler.
  Variable l0 l : slexer.
  Variable gg : gr.
  Variable texts : list gostring.
  Hypothesis HC : compiles compile sc_table.
  Hypothesis Hl0 : sc_lexer compile = Some l0.
  Hypothesis Hl : returns (sl_calls (map CLex texts) l0) l.
  Hypothesis Hgg : sc_grammar = Some gg.
  Lemma eval_whole s w x v st0 : sc_tokens s (w ++ x :: v) -> arithmetic w -> lx_kind x = ks -> arithmetic v -> machine A true [] v st0 ->
    (exists st l', machine A true [] (w ++ x :: v) st /\ returns (sc_eval A l gg s) (Some (rev st), l'))
    \/ ((forall st, ~ machine A true [] (w ++ x :: v) st) /\ exists l', returns (sc_eval A l gg s) (None, l')).
  Proof using All.
    intros Hs Ha Hx Hav Hm. pose proof (machine_program A true [] v st0 Hm (arith_operators _ Hav) [] eq_refl (List.Forall_nil _)) as Hp. cbn [rev concat app] in Hp.
    destruct (eval_tokens A compile l0 l gg texts HC Hl0 Hl Hgg s _ Hs) as (l' & [(_ & t & vs & F & Hr & _ & HF & H)|(Hn & H)]).
    - left. destruct (whole_sound A t w x v Hr Ha Hx Hav (tokens_known s _ Hs) Hp) as (lx & cs & ws & Hrt & Hk & Hcs & Hw).
      destruct (packed_eval A lx cs ws Hk Hcs) as [G HG]. rewrite Hrt in HF.
      assert (vs = ws) as ->. { specialize (HF (F + G) ltac:(lia)). specialize (HG (F + G) ltac:(lia)). congruence. }
      exists (rev ws), l'. rewrite rev_involutive. split; [exact Hw|exact H].
    - right. split; [|exists l'; exact H]. intros st Hst. apply Hn.
      assert (Hops : operators (w ++ x :: v)).
      { apply arith_app. split; [by apply arith_operators|]. apply Forall_cons. split; [|by apply arith_operators]. right. right. right. by right. }
      exact (machine_program A true [] _ st Hst Hops [] eq_refl (List.Forall_nil _)).
  Qed.
End Run.
