(** What Eval returns: for every text, and by the stack machine for numbers, operators and a
    last stack operation. *)
From Coq Require Import String.
From Verif.spec Require Import ScalcSpec PackratSpec TreeSpec.
From Verif.proofs Require Import GramRows TreeProofs Fuel LexTableProofs ScalcGram ScalcTotal ScalcMachine.
Local Open Scope nat_scope.
Local Open Scope list_scope.

Lemma operator_last k o : operator k o -> exists o' k', o = o' ++ [k'] /\ (k' = k \/ k' = kq).
Proof.
  intros H. inversion H; subst.
  - exists [], k. split; [done|by left].
  - exists (a ++ b ++ c), kq. split; [by rewrite <- !app_assoc|by right].
Qed.
Lemma last_more {X} (a o o' : list X) k : o = o' ++ [k] -> a ++ o = (a ++ o') ++ [k].
Proof. intros ->. by rewrite app_assoc. Qed.
Lemma expression_last e : expression e -> exists e' k, e = e' ++ [k] /\ k <> km.
Proof.
  intros H. inversion H; subst.
  - exists [], ki. split; [done|discriminate].
  - exists [ki], kd. split; [done|discriminate].
  - apply operator_last in H1 as (o' & k & Ho & [->| ->]); (eexists _, _; split; [apply (last_more a o o' _ Ho)|discriminate]).
  - apply operator_last in H2 as (o' & k & Ho & [->| ->]); rewrite app_assoc; (eexists _, _; split; [apply (last_more (a ++ b) o o' _ Ho)|discriminate]).
  - apply operator_last in H1 as (o' & k & Ho & [->| ->]); (eexists _, _; split; [apply (last_more u o o' _ Ho)|discriminate]).
  - exists (a ++ b ++ c), kq. split; [by rewrite <- !app_assoc|discriminate].
Qed.
Lemma e_not_smp t w x : is_tree sc_g kE t (w ++ [x]) -> lx_kind x = km -> False.
Proof.
  intros H Hx. apply (proj1 (TopdownThms.is_tree_derives sc_g)) in H. apply derives_means, means_e, expression_last in H as (e' & k & E & Hk).
  rewrite map_app in E. cbn [map] in E. apply app_inj_tail in E as [_ E]. congruence.
Qed.

Section Machine.
  Variable A : sarith.
  Notation pf := (pfloat A).
  Notation val := (val A).
  Notation pushes := (pushes A).
  Definition smp_good (t : pn) (w : list lexeme) (x : lexeme) : Prop :=
    exists cs vs, red t = PN x cs /\ Forall2 val cs vs /\ (w = [] \/ starts w) /\ pushes w (rev vs).
  Lemma smp_sound n : forall t w x, size t < n -> is_tree sc_g kSt t (w ++ [x]) -> operators w -> lx_kind x = km -> ops_known w -> smp_good t w x.
  Proof.
    induction n as [|n IH]; intros t w x Hn Ht Hw Hx Hk; [lia|].
    assert (Hno : forall k, k ∉ [ki; kd; ku; kb; ks; km] -> k ∉ kinds (w ++ [x])).
    { intros k Hin. apply notin_app. split.
      - apply arith_not; [|done]. intros Hi. apply Hin. rewrite !elem_of_cons, elem_of_nil in *. tauto.
      - cbn. rewrite Hx. intros Hi%elem_of_list_singleton. subst k. apply Hin. inl. }
    destruct (node_inv 0 kSt st_prods t _ eq_refl Ht) as (lx & p & cs & -> & Hlx & Hp & Ha).
    unfold smp_good. rewrite (red_node 0 kSt _ _ _ eq_refl Hlx). remember (w ++ [x]) as u eqn:Eu.
    unfold st_prods in Hp. rewrite !elem_of_cons, elem_of_nil in Hp. repeat destruct Hp as [->|Hp]; [..|done].
    - apply trees_cons_inv in Ha as (c & cs' & u1 & u2 & -> & -> & T & Ha). apply trees_cons_inv in Ha as (c0 & cs2 & u3 & u4 & -> & -> & T0 & Ha).
      apply trees_nil_inv in Ha as [-> ->]. rewrite app_nil_r in *. cbn [map].
      apply smp_leaf in T0 as (y & -> & Hy & Hr). 2:{ apply (notin_app kq u1 u3). apply Hno. noin. }
      apply app_inj_tail in Eu as [-> ->]. rewrite Hr.
      destruct (st_sound A (S (size c)) c w) as (l2 & cs & vs & Hc & Hl2 & Hcs & Hst & Hpu); [lia|done|done|done|].
      exists cs, vs. split; [|split; [done|split; [done|done]]]. rewrite Hc. unfold sc_reduce_stack.
      change [packed l2 cs; PN x []] with ([packed l2 cs] ++ [PN x []]).
      destruct (child_at (PN lx ([packed l2 cs] ++ [PN x []])) (-1) [L "Stack"]) eqn:E.
      { exfalso. apply child_at_last, elem_of_list_singleton in E. cbn [pn_lexeme] in E. rewrite Hx in E. discriminate E. }
      assert (E2 : (if child_at (PN lx ([packed l2 cs] ++ [PN x []])) 0 [L "Stack"] then fst (promote_children_of 0 (PN lx ([packed l2 cs] ++ [PN x []]))) else PN lx ([packed l2 cs] ++ [PN x []]))
        = PN lx (cs ++ [PN x []])).
      { cbn [app]. destruct (child_at (PN lx [packed l2 cs; PN x []]) 0 [L "Stack"]) eqn:E1.
        - rewrite splice_first. apply child_at_first, elem_of_list_singleton in E1. destruct cs as [|d [|e cs]]; cbn [packed] in *; [done| |done].
          exfalso. apply Forall2_cons_inv_l in Hcs as (v & _ & Hd & _). exact (val_kind A d v (L "Stack") Hd ltac:(noin) E1).
        - destruct cs as [|d [|e cs]]; cbn [packed] in *; [|done|]; exfalso;
            (match type of E1 with ?b = false => assert (H : b = true); [|congruence] end; apply child_at_first; cbn [pn_lexeme]; rewrite Hl2; left). }
      rewrite E2. replace (child_at (PN lx (cs ++ [PN x []])) (-1) [L "smp"; L "?"]) with true.
      + rewrite promote_last. cbn [pn_lexeme pn_children]. by rewrite app_nil_r.
      + symmetry. apply child_at_last. cbn [pn_lexeme]. rewrite Hx. left.
    - apply trees_cons_inv in Ha as (c & cs' & u1 & u2 & -> & -> & T & Ha). apply trees_cons_inv in Ha as (c0 & cs2 & u3 & u4 & -> & -> & T0 & Ha).
      apply trees_nil_inv in Ha as [-> ->]. rewrite app_nil_r in *. cbn [map].
      destruct u3 as [|y w2 _] using rev_ind.
      { exfalso. rewrite app_nil_r in Eu. subst u1. by apply (e_not_smp c w x). }
      rewrite app_assoc in Eu. apply app_inj_tail in Eu as [<- ->]. apply arith_app in Hw as [Hw1 Hw2]. apply known_app in Hk as [Hk1 Hk2].
      destruct (e_sound A (S (size c)) c u1) as (v & Hv & Hs & Hpu); [lia|done|done|done|].
      destruct (IH c0 w2 x) as (cs & vs & Hr & Hcs & Hst & Hpu2); [pose proof (size_in c0 lx [c; c0] ltac:(right; left)); lia|done|done|done|done|].
      exists (red c :: cs), (v :: vs). split; [|split; [by constructor|split; [right; by apply starts_app|]]].
      + rewrite Hr. unfold sc_reduce_stack. change [red c; PN x cs] with ([red c] ++ [PN x cs]).
        destruct (child_at (PN lx ([red c] ++ [PN x cs])) (-1) [L "Stack"]) eqn:E.
        { exfalso. apply child_at_last, elem_of_list_singleton in E. cbn [pn_lexeme] in E. rewrite Hx in E. discriminate E. }
        destruct (child_at (PN lx ([red c] ++ [PN x cs])) 0 [L "Stack"]) eqn:E0.
        { exfalso. cbn [app] in E0. apply child_at_first, elem_of_list_singleton in E0. exact (val_kind A _ v (L "Stack") Hv ltac:(noin) E0). }
        replace (child_at (PN lx ([red c] ++ [PN x cs])) (-1) [L "smp"; L "?"]) with true; [by rewrite promote_last|].
        symmetry. apply child_at_last. cbn [pn_lexeme]. rewrite Hx. left.
      + cbn [rev]. by apply pushes_app.
    - exfalso. apply trees_cons_inv in Ha as (c & cs' & u1 & u2 & -> & -> & T & Ha). apply trees_cons_inv in Ha as (c0 & cs2 & u3 & u4 & -> & -> & T0 & Ha).
      destruct (node_inv 3 kP p_prods c0 u3 eq_refl T0) as (lp & p & cs & -> & Hlp & Hp & Hb).
      unfold p_prods in Hp. apply elem_of_list_singleton in Hp as ->. apply trees_cons_inv in Hb as (d & ds & v1 & v2 & -> & -> & Td & Hb).
      apply term_leaf in Td as (z & -> & Hz & _); [|inl]. apply (Hno ko); [noin|]. unfold kinds. rewrite !map_app, !elem_of_app. cbn [map].
      right. left. left. rewrite Hz. left.
    - exfalso. apply trees_nil_inv in Ha as [-> ->]. by destruct w.
  Qed.

  (** Evaluating what was reduced. *)
  Lemma smp_eval x cs vs : lx_kind x = km -> Forall2 val (pn_children (sc_smp (PN x cs))) vs ->
    exists F, forall n, F <= n -> sc_stack A n (PN x cs) = Ok vs.
  Proof.
    intros Hk H. destruct (vals_eval A _ vs H) as [F HF]. exists (S F). intros n Hn. destruct n as [|n]; [lia|]. cbn [sc_stack]. fold (sc_e A). cbn [pn_lexeme]. rewrite Hk.
    rewrite decide_False by discriminate. rewrite decide_True by done. apply HF. lia.
  Qed.
  Lemma smp_known x cs vs : Forall2 val cs vs -> lx_val x ∈ map L ["swap"; "drop"; "clear"]%string ->
    exists vs', Forall2 val (pn_children (sc_smp (PN x cs))) vs' /\ smp_value A (lx_val x) (rev vs) (rev vs').
  Proof.
    intros H Hx. unfold sc_smp. cbn [pn_lexeme pn_children]. cbn [map] in Hx. rewrite !elem_of_cons, elem_of_nil in Hx.
    destruct Hx as [->|[->|[->|[]]]]; rewrite ?decide_False by discriminate; rewrite ?decide_True by done.
    - destruct cs as [|a cs _] using rev_ind.
      { apply Forall2_nil_inv_l in H as ->. exists []. split; [constructor|]. apply sv_swap_less. cbn. lia. }
      apply Forall2_app_inv_l in H as (vs1 & vs2 & H1 & H2 & ->). apply Forall2_cons_inv_l in H2 as (va & r & Ha & Hr & ->). apply Forall2_nil_inv_l in Hr as ->.
      destruct cs as [|b cs _] using rev_ind.
      { apply Forall2_nil_inv_l in H1 as ->. exists [va]. split; [by constructor|]. apply sv_swap_less. cbn. lia. }
      apply Forall2_app_inv_l in H1 as (vs3 & vs4 & H1 & H2 & ->). apply Forall2_cons_inv_l in H2 as (vb & r & Hb & Hr & ->). apply Forall2_nil_inv_l in Hr as ->.
      rewrite <- !app_assoc. cbn [app]. rewrite app_length. cbn [length].
      replace (length cs + 2 - 1) with (length cs + 1) by lia. replace (length cs + 2 - 2) with (length cs + 0) by lia.
      rewrite !lookup_app_r by lia. replace (length cs + 1 - length cs) with 1 by lia. replace (length cs + 0 - length cs) with 0 by lia. cbn [lookup list_lookup].
      assert (E : (1 <? length cs + 2) = true) by (apply Nat.ltb_lt; lia). rewrite E.
      cbn [pn_children]. rewrite insert_app_r. cbn. rewrite insert_app_r. cbn.
      exists (vs3 ++ [va; vb]). split.
      + apply Forall2_app; [done|]. constructor; [exact Ha|constructor; [exact Hb|constructor]].
      + rewrite !rev_app_distr. cbn [rev app]. apply sv_swap.
    - destruct cs as [|a cs _] using rev_ind.
      { apply Forall2_nil_inv_l in H as ->. exists []. split; [constructor|]. apply sv_drop_nil. }
      apply Forall2_app_inv_l in H as (vs1 & vs2 & H1 & H2 & ->). apply Forall2_cons_inv_l in H2 as (va & r & Ha & Hr & ->). apply Forall2_nil_inv_l in Hr as ->.
      rewrite app_length. cbn [length]. assert (E : (0 <? length cs + 1) = true) by (apply Nat.ltb_lt; lia). rewrite E. cbn [pn_children].
      replace (length cs + 1 - 1) with (length cs) by lia. rewrite take_app. exists vs1. split; [done|]. rewrite rev_app_distr. apply sv_drop.
    - exists []. split; [constructor|]. apply sv_clear.
  Qed.

  (** * A text the machine runs on is a program *)
  Lemma programs (ws : list (list gostring)) u : Forall expression ws -> program u -> program (concat (rev ws) ++ u).
  Proof.
    intros H. revert u. induction H as [|w ws Hw _ IH]; intros u Hu; [done|].
    cbn [rev]. rewrite concat_app. cbn [concat]. rewrite app_nil_r, <- app_assoc. apply IH. by apply pr_expr.
  Qed.
  Lemma rev_step (w : list gostring) ws u : concat (rev (w :: ws)) ++ u = concat (rev ws) ++ w ++ u.
  Proof. cbn [rev]. rewrite concat_app. cbn [concat]. by rewrite app_nil_r, <- app_assoc. Qed.
  Lemma machine_program wh st u st' : machine A wh st u st' -> operators u -> forall ws, length ws = length st -> Forall expression ws ->
    program (concat (rev ws) ++ kinds u).
  Proof.
    assert (Hu : op_kind ku) by (by left). assert (Hb : op_kind kb) by (right; by left).
    assert (Hbad : forall (x : lexeme) (u : list lexeme) (k : gostring), operators (x :: u) -> lx_kind x = k -> k ∉ [ki; kd; ku; kb; ks] -> False).
    { intros x r k Ha E Hk. apply (arith_not k (x :: r) Hk Ha). rewrite <- E. left. }
    induction 1 as [st|x r st st' Hx Hn _ IH|x y r st st' Hx Hy _ IH|o a z r st st' Ho Hv _ IH|o a b z r st st' Ho Hv _ IH|o vs z r st st' Ho Hw Hv _ IH
      |o r st st1 st' Ho Hv _ IH|o a b c r st st' Ho Hc _ IH|o a b c r st st' Ho Hc _ IH|o r st st' Ho _ IH]; intros Ha ws Hl Hws.
    - apply programs; [done|apply pr_nil].
    - apply Forall_cons in Ha as [_ Ha]. specialize (IH Ha ([ki] :: ws)). rewrite rev_step in IH. cbn [kinds map]. rewrite Hx. apply IH; [cbn; lia|].
      constructor; [apply ex_int|done].
    - apply Forall_cons in Ha as [_ Ha]. apply Forall_cons in Ha as [_ Ha]. specialize (IH Ha ([ki; kd] :: ws)). rewrite rev_step in IH. cbn [kinds map]. rewrite Hx, Hy.
      apply IH; [cbn; lia|]. constructor; [apply ex_dec|done].
    - apply Forall_cons in Ha as [_ Ha]. destruct ws as [|w ws]; [discriminate Hl|]. apply Forall_cons in Hws as [Hw Hws].
      specialize (IH Ha ((w ++ [ku]) :: ws)). rewrite rev_step, <- app_assoc in IH. rewrite rev_step. cbn [kinds map]. rewrite Ho. apply IH; [exact Hl|].
      constructor; [|done]. apply ex_uop; [done|by apply op_one].
    - apply Forall_cons in Ha as [_ Ha]. destruct ws as [|w [|w2 ws]]; [discriminate Hl|discriminate Hl|]. apply Forall_cons in Hws as [Hw Hws]. apply Forall_cons in Hws as [Hw2 Hws].
      specialize (IH Ha ((w2 ++ w ++ [kb]) :: ws)). rewrite rev_step, <- !app_assoc in IH. rewrite !rev_step. cbn [kinds map]. rewrite Ho. apply IH; [cbn in *; lia|].
      constructor; [|done]. apply ex_bop; [done|done|by apply op_one].
    - apply Forall_cons in Ha as [_ Ha]. rewrite app_length in Hl.
      assert (E : ws = take (length vs) ws ++ drop (length vs) ws) by (by rewrite take_drop).
      set (w1 := take (length vs) ws) in *. set (w2 := drop (length vs) ws) in *. assert (Hl2 : length w2 = length st) by (unfold w2; rewrite drop_length; lia).
      clearbody w1 w2. subst ws. apply Forall_app in Hws as [Hw1 Hw2].
      specialize (IH Ha ((concat (rev w1) ++ [ks]) :: w2)). rewrite rev_step, <- !app_assoc in IH. rewrite rev_app_distr, concat_app, <- app_assoc. cbn [kinds map]. rewrite Ho.
      apply IH; [cbn; lia|]. constructor; [|done]. apply ex_sop; [|apply op_one; right; right; by left].
      rewrite <- (app_nil_r (concat (rev w1))). apply programs; [done|apply pr_nil].
    - exfalso. by apply (Hbad o r km Ha Ho); noin.
    - exfalso. by apply (Hbad o r kq Ha Ho); noin.
    - exfalso. by apply (Hbad o r kq Ha Ho); noin.
    - exfalso. destruct Ho as [Ho|Ho]; [apply (Hbad o r ko Ha Ho); noin|apply (Hbad o r kc Ha Ho); noin].
  Qed.
  Lemma machine_before wh st u st' : machine A wh st u st' -> forall w x r2, u = w ++ x :: r2 -> operators w -> lx_kind x <> kd -> exists st1, machine A wh st w st1.
  Proof.
    assert (Hbad : forall (x : lexeme) (u : list lexeme) (k : gostring), operators (x :: u) -> lx_kind x = k -> k ∉ [ki; kd; ku; kb; ks] -> False).
    { intros x r k Ha E Hk. apply (arith_not k (x :: r) Hk Ha). rewrite <- E. left. }
    induction 1 as [st|x r st st' Hx Hn _ IH|x y r st st' Hx Hy _ IH|o a z r st st' Ho Hv _ IH|o a b z r st st' Ho Hv _ IH|o vs z r st st' Ho Hw Hv _ IH
      |o r st st1 st' Ho Hv _ IH|o a b c r st st' Ho Hc _ IH|o a b c r st st' Ho Hc _ IH|o r st st' Ho _ IH]; intros w q r2 E Ha Hq;
      (destruct w as [|p w]; [by eexists; apply m_done|]); [discriminate E|..]; injection E as <- E; pose proof Ha as Ha'; apply Forall_cons in Ha' as [_ Ha'].
    - destruct (IH w q r2 E Ha' Hq) as [s1 H1]. exists s1. apply m_int; [done| |done]. subst r. intros z r3 Ez. apply (Hn z (r3 ++ q :: r2)). by rewrite Ez.
    - destruct w as [|p w]; [injection E as <- _; destruct (Hq Hy)|]. injection E as <- E. apply Forall_cons in Ha' as [_ Ha'].
      destruct (IH w q r2 E Ha' Hq) as [s1 H1]. exists s1. by apply m_dec.
    - destruct (IH w q r2 E Ha' Hq) as [s1 H1]. exists s1. by eapply m_uop.
    - destruct (IH w q r2 E Ha' Hq) as [s1 H1]. exists s1. by eapply m_bop.
    - destruct (IH w q r2 E Ha' Hq) as [s1 H1]. exists s1. by eapply m_sop.
    - exfalso. by apply (Hbad o w km Ha Ho); noin.
    - exfalso. by apply (Hbad o w kq Ha Ho); noin.
    - exfalso. by apply (Hbad o w kq Ha Ho); noin.
    - exfalso. destruct Ho as [Ho|Ho]; [apply (Hbad o w ko Ha Ho); noin|apply (Hbad o w kc Ha Ho); noin].
  Qed.
  (** Without stack operators it does not matter how much they take. *)
  Lemma machine_any wh wh' st u st' : machine A wh st u st' -> ks ∉ kinds u -> machine A wh' st u st'.
  Proof.
    assert (Hx : forall x u, ks ∉ kinds (x :: u) -> lx_kind x <> ks /\ ks ∉ kinds u).
    { intros x r H. split; [intros E; apply H; cbn; rewrite E; left|intros E; apply H; by right]. }
    induction 1 as [st|x r st st' Hk Hn _ IH|x y r st st' Hk Hy _ IH|o a z r st st' Ho Hv _ IH|o a b z r st st' Ho Hv _ IH|o vs z r st st' Ho Hw Hv _ IH
      |o r st st1 st' Ho Hv _ IH|o a b c r st st' Ho Hc _ IH|o a b c r st st' Ho Hc _ IH|o r st st' Ho _ IH]; intros Hu; [by apply m_done|..]; apply Hx in Hu as [Hs Hu].
    - apply m_int; [done|done|by apply IH].
    - apply Hx in Hu as [_ Hu]. apply m_dec; [done|done|by apply IH].
    - eapply m_uop; [done|done|by apply IH].
    - eapply m_bop; [done|done|by apply IH].
    - done.
    - eapply m_smp; [done|done|by apply IH].
    - apply m_if_pos; [done|done|by apply IH].
    - apply m_if_not; [done|done|by apply IH].
    - apply m_paren; [done|by apply IH].
  Qed.
End Machine.
Lemma arith_operators u : arithmetic u -> operators u.
Proof. intros H. unfold operators. eapply List.Forall_impl; [|exact H]. intros x. cbn beta. tauto. Qed.
Lemma arith_no_sop u : arithmetic u -> ks ∉ kinds u.
Proof.
  intros Hu Hin. apply elem_of_list_fmap in Hin as (x & Hk & Hx). unfold arithmetic in Hu. rewrite Forall_forall in Hu.
  specialize (Hu x Hx). rewrite <- Hk in Hu. destruct Hu as [E|[E|[E|E]]]; discriminate E.
Qed.

(** * Texts *)
Lemma tokens_known s lxs : sc_tokens s lxs -> ops_known lxs.
Proof.
  intros H x Hx. destruct (table_lexemes sc_table [] [] sc_more sc_nodup s lxs x H Hx) as [Hr|[[Hi _]|[Hi _]]]; [|done|done].
  destruct Hr as (r & s' & n & Hr & Hd & Hk & Hm & Hn & ->).
  rewrite Hk. exact (row_text (lw_kind r) r s' n Hr eq_refl Hm).
Qed.
Section Run.
  Variable A : sarith.
  Variable compile : compiler.
  Variable l0 l : slexer.
  Variable gg : gr.
  Variable texts : list gostring.
  Hypothesis HC : compiles compile sc_table.
  Hypothesis Hl0 : sc_lexer compile = Some l0.
  Hypothesis Hl : returns (sl_calls (map CLex texts) l0) l.
  Hypothesis Hgg : sc_grammar = Some gg.
  Lemma eval_lexer s x l' : returns (sc_eval A l gg s) (x, l') -> returns (sl_calls (map CLex (texts ++ [s])) l0) l'.
  Proof using Hl.
    clear HC Hl0 Hgg. intros [F HF]. destruct Hl as [G HG]. exists (F + G). intros n Hn.
    unfold sl_calls in *. rewrite map_app, StackProofs.rfold_app, HG by lia. cbn [rbind map rfold sl_step].
    specialize (HF n ltac:(lia)). unfold sc_eval, sc_parse in HF.
    destruct (slex l s n) as [[xs l1]| |]; cbn [rbind] in *; [|discriminate HF|discriminate HF].
    destruct (packrat_parse n (gr_view gg) (map olex_lx xs)) as [t| |]; cbn [rbind] in HF; [|discriminate HF|discriminate HF].
    destruct t as [t|]; cbn [rbind] in HF; [|congruence].
    destruct (sc_stack A n (raw_reduce sc_rdcr t)) as [v| |]; cbn [rbind] in HF; [congruence|discriminate HF|discriminate HF].
  Qed.
  Lemma eval_tokens s lxs : sc_tokens s lxs -> exists l',
    (program (map lx_kind lxs) /\ exists t vs F, ranked_tree sc_g kSt t lxs /\ is_tree sc_g kSt t lxs /\ (forall n, F <= n -> sc_stack A n (red t) = Ok vs)
          /\ returns (sc_eval A l gg s) (Some vs, l'))
    \/ (~ program (map lx_kind lxs) /\ returns (sc_eval A l gg s) (None, l')).
  Proof using All.
    intros Hs. destruct (eval_cases A compile l0 l gg texts HC Hl0 Hl Hgg s) as (lxs' & l' & [Hs'|(v & Hv & _)] & H).
    - rewrite <- (table_unique sc_table [] [] sc_more s _ _ Hs Hs') in H. exists l'. exact H.
    - destruct (table_not_both sc_table [] [] sc_more s _ _ Hs Hv).
  Qed.
  Lemma eval_program s lxs : sc_tokens s lxs -> program (map lx_kind lxs) -> exists vs l', returns (sc_eval A l gg s) (Some vs, l').
  Proof using All.
    intros Hs Hp. destruct (eval_tokens s lxs Hs) as (l' & [(_ & t & vs & F & _ & _ & _ & H)|(Hn & _)]); [exists vs, l'; exact H|destruct (Hn Hp)].
  Qed.
  Lemma eval_no_program s lxs : sc_tokens s lxs -> ~ program (map lx_kind lxs) -> exists l', returns (sc_eval A l gg s) (None, l').
  Proof using All. intros Hs Hp. destruct (eval_tokens s lxs Hs) as (l' & [(Hn & _)|(_ & H)]); [destruct (Hp Hn)|exists l'; exact H]. Qed.
  Lemma eval_junk s v : lexes_not (sc_calls []) s v -> exists l', returns (sc_eval A l gg s) (None, l').
  Proof using All.
    intros Hv. destruct (eval_cases A compile l0 l gg texts HC Hl0 Hl Hgg s) as (lxs & l' & [Hs|(v' & _ & x & Hx & Hk)] & H).
    - destruct (table_not_both sc_table [] [] sc_more s _ _ Hs Hv).
    - exists l'. destruct H as [(Hp & _)|(_ & H)]; [|exact H]. exfalso. apply (no_errors _ Hp). rewrite <- Hk. by apply elem_of_list_fmap_1.
  Qed.
  (** The machine. *)
  Lemma eval_ops s lxs : sc_tokens s lxs -> operators lxs ->
    (exists st l', machine A false [] lxs st /\ returns (sc_eval A l gg s) (Some (rev st), l'))
    \/ ((forall st, ~ machine A false [] lxs st) /\ exists l', returns (sc_eval A l gg s) (None, l')).
  Proof using All.
    intros Hs Ha. destruct (eval_tokens s lxs Hs) as (l' & [(_ & t & vs & F & _ & Ht & HF & H)|(Hn & H)]).
    - left. destruct (st_sound A (S (size t)) t lxs ltac:(lia) Ht Ha (tokens_known s lxs Hs)) as (lx & cs & ws & Hr & Hk & Hcs & _ & Hpu).
      destruct (packed_eval A lx cs ws Hk Hcs) as [G HG]. rewrite Hr in HF.
      assert (vs = ws) as ->. { specialize (HF (F + G) ltac:(lia)). specialize (HG (F + G) ltac:(lia)). congruence. }
      exists (rev ws), l'. rewrite rev_involutive. split; [|exact H]. specialize (Hpu [] [] (rev ws) (not_dec_nil)). rewrite !app_nil_r in Hpu. apply Hpu. apply m_done.
    - right. split; [|exists l'; exact H]. intros st Hm. apply Hn. exact (machine_program A false [] lxs st Hm Ha [] eq_refl (List.Forall_nil _)).
  Qed.
  Lemma eval_ops_smp s w x : sc_tokens s (w ++ [x]) -> operators w -> lx_kind x = km ->
    (exists st l', machine A false [] (w ++ [x]) st /\ returns (sc_eval A l gg s) (Some (rev st), l'))
    \/ ((forall st, ~ machine A false [] (w ++ [x]) st) /\ exists l', returns (sc_eval A l gg s) (None, l')).
  Proof using All.
    intros Hs Ha Hx. destruct (known_app _ _ (tokens_known s _ Hs)) as [Hk1 Hk2].
    destruct (eval_tokens s _ Hs) as (l' & [(_ & t & vs & F & _ & Ht & HF & H)|(Hn & H)]).
    - left. destruct (smp_sound A (S (size t)) t w x ltac:(lia) Ht Ha Hx Hk1) as (cs & ws & Hr & Hcs & _ & Hpu).
      destruct (smp_known A x cs ws Hcs) as (ws' & Hcs' & Hv). { exact (proj1 (proj2 (proj2 (Hk2 x ltac:(left)))) Hx). }
      destruct (smp_eval A x cs ws' Hx Hcs') as [G HG]. rewrite Hr in HF.
      assert (vs = ws') as ->. { specialize (HF (F + G) ltac:(lia)). specialize (HG (F + G) ltac:(lia)). congruence. }
      exists (rev ws'), l'. rewrite rev_involutive. split; [|exact H]. apply Hpu.
      + apply not_dec_cons. rewrite Hx. discriminate.
      + rewrite app_nil_r. eapply m_smp; [exact Hx|exact Hv|apply m_done].
    - right. split; [|exists l'; exact H]. intros st Hm. apply Hn. destruct (machine_before A false _ _ _ Hm w x [] eq_refl Ha ltac:(rewrite Hx; discriminate)) as [st1 H1].
      rewrite map_app. apply pr_smp; [exact (machine_program A false [] w st1 H1 Ha [] eq_refl (List.Forall_nil _))|].
      cbn [map]. rewrite Hx. apply op_one. right. right. by right.
  Qed.
  Lemma eval_arith s lxs : sc_tokens s lxs -> arithmetic lxs ->
    (exists st l', machine A true [] lxs st /\ returns (sc_eval A l gg s) (Some (rev st), l'))
    \/ ((forall st, ~ machine A true [] lxs st) /\ exists l', returns (sc_eval A l gg s) (None, l')).
  Proof using All.
    intros Hs Ha. pose proof (arith_no_sop lxs Ha) as Hn. destruct (eval_ops s lxs Hs (arith_operators lxs Ha)) as [(st & l' & Hm & H)|(Hm & H)].
    - left. exists st, l'. split; [exact (machine_any A false true _ _ _ Hm Hn)|exact H].
    - right. split; [|exact H]. intros st Hm'. apply (Hm st). exact (machine_any A true false _ _ _ Hm' Hn).
  Qed.
  Lemma eval_last_smp s w x : sc_tokens s (w ++ [x]) -> arithmetic w -> lx_kind x = km ->
    (exists st l', machine A true [] (w ++ [x]) st /\ returns (sc_eval A l gg s) (Some (rev st), l'))
    \/ ((forall st, ~ machine A true [] (w ++ [x]) st) /\ exists l', returns (sc_eval A l gg s) (None, l')).
  Proof using All.
    intros Hs Ha Hx. assert (Hn : ks ∉ kinds (w ++ [x])).
    { apply notin_app. split; [by apply arith_no_sop|]. cbn. rewrite Hx. intros E%elem_of_list_singleton. discriminate E. }
    destruct (eval_ops_smp s w x Hs (arith_operators w Ha) Hx) as [(st & l' & Hm & H)|(Hm & H)].
    - left. exists st, l'. split; [exact (machine_any A false true _ _ _ Hm Hn)|exact H].
    - right. split; [|exact H]. intros st Hm'. apply (Hm st). exact (machine_any A true false _ _ _ Hm' Hn).
  Qed.
End Run.
Lemma eval_text s : (exists v, lexes_not (sc_calls []) s v) \/ exists lxs, sc_tokens s lxs.
Proof. destruct (table_lexes sc_table [] [] sc_more sc_nodup sc_length s) as [H|H]; [by right|by left]. Qed.
Lemma eval_ready compile : compiles compile sc_table -> exists l0 gg, sc_lexer compile = Some l0 /\ sc_grammar = Some gg.
Proof. intros HC. destruct (sc_lexer_some compile HC) as (l & Hl & _). exists l, sc_gr. split; [exact Hl|exact sc_grammar_some]. Qed.
(** The machine has at most one result. *)
Lemma wins_nil A beats z : wins A beats [] z -> False.
Proof. intros H. inversion H as [|st x y _ _ E|st x y _ _ E]; by destruct st. Qed.
Lemma wins_fun A beats st a : wins A beats st a -> forall b, wins A beats st b -> a = b.
Proof.
  induction 1 as [x|st x y Hw IH Hy|st x y Hw IH Hy]; intros b H.
  - inversion H as [|st z y Hz _ E|st z y Hz _ E]; [done|..]; destruct st as [|? [|]]; try discriminate E; by apply wins_nil in Hz.
  - inversion H as [z E|st' z y' Hz Hb E|st' z y' Hz Hb E].
    + destruct st as [|? [|]]; try discriminate E. by apply wins_nil in Hw.
    + apply app_inj_tail in E as [-> ->]. by apply IH.
    + apply app_inj_tail in E as [-> E]. subst y'. rewrite (IH _ Hz) in Hy. congruence.
  - inversion H as [z E|st' z y' Hz Hb E|st' z y' Hz Hb E].
    + destruct st as [|? [|]]; try discriminate E. by apply wins_nil in Hw.
    + apply app_inj_tail in E as [-> E]. subst y'. rewrite (IH _ Hz) in Hy. congruence.
    + by apply app_inj_tail in E as [_ ->].
Qed.
Lemma sop_fun A v st a b : sop_value A v st a -> sop_value A v st b -> a = b.
Proof.
  intros H1 H2. destruct H1; inversion H2; subst; try done; try (by eapply wins_fun); try (exfalso; by eapply wins_nil); try (exfalso; by destruct st).
  match goal with E : _ ++ [_] = _ ++ [_] |- _ => by apply app_inj_tail in E as [_ ->] end.
Qed.
Lemma machine_fun A st u a : machine A true st u a -> forall b, machine A true st u b -> a = b.
Proof.
  assert (Hu : forall v x y z, uop_value A v x y -> uop_value A v x z -> y = z).
  { intros v x y z H1 H2. destruct H1; inversion H2; subst; try done; congruence. }
  assert (Hb : forall v x y p q, bop_value A x y v p -> bop_value A x y v q -> p = q).
  { intros v x y p q H1 H2. destruct H1; inversion H2; subst; try done; congruence. }
  assert (Hs : forall v x y z, smp_value A v x y -> smp_value A v x z -> y = z).
  { intros v x y z H1 H2. destruct H1; inversion H2; subst; try done; cbn [length] in *; lia. }
  induction 1 as [st|x r st st' Hx Hn _ IH|x y r st st' Hx Hy _ IH|o x z r st st' Ho Hv _ IH|o x y z r st st' Ho Hv _ IH|o vs z r st st' Ho Hw Hv _ IH
      |o r st st1 st' Ho Hv _ IH|o x y c r st st' Ho Hc _ IH|o x y c r st st' Ho Hc _ IH|o r st st' Ho _ IH]; intros b H; inversion H; subst;
    repeat match goal with H2 : lx_kind ?x = _ \/ lx_kind ?x = _ |- _ => destruct H2 as [H2|H2] end;
    try (exfalso; match goal with H1 : lx_kind ?x = _, H2 : lx_kind ?x = _ |- _ => rewrite H1 in H2; discriminate H2 end);
    try reflexivity; try (exfalso; congruence); try (by apply IH).
  - exfalso. by eapply Hn.
  - exfalso. match goal with H1 : ScalcSpec.not_dec (y :: r) |- _ => by apply (H1 y r) end.
  - match goal with H1 : uop_value A _ _ ?q, H2 : machine A true (?q :: _) _ _ |- _ => rewrite <- (Hu _ _ _ _ Hv H1) in H2; by apply IH end.
  - match goal with H1 : bop_value A _ _ _ ?q, H2 : machine A true (PF ?q _ :: _) _ _ |- _ => rewrite <- (Hb _ _ _ _ _ Hv H1) in H2; by apply IH end.
  - match goal with E : _ ++ _ = _ ++ _, H0 : true = true -> ?s = [], H1 : sop_value A _ _ ?q, H2 : machine A true (?q :: ?s) _ _ |- _ =>
      rewrite (Hw eq_refl), (H0 eq_refl), !app_nil_r in *; subst; rewrite <- (sop_fun _ _ _ _ _ Hv H1) in H2; by apply IH end.
  - match goal with H1 : smp_value A _ _ ?q, H2 : machine A true ?q _ _ |- _ => rewrite <- (Hs _ _ _ _ Hv H1) in H2; by apply IH end.
Qed.
