(** The math example: trees of its grammar and their values. *)
From Coq Require Import String.
From Verif.spec Require Import MathSpec PackratSpec.
From Verif.proofs Require StackProofs.
From Verif.proofs Require Import GramRows TreeProofs Fuel LexText LexTableProofs ReProofs RunProofs.
Local Open Scope nat_scope.
Local Open Scope list_scope.

Definition mx_gr : gr := match mx_grammar with Some g => g | None => gr_empty end.
Lemma mx_grammar_some : mx_grammar = Some mx_gr.
Proof. vm_compute. reflexivity. Qed.
Definition mx_g : grammar := gr_view mx_gr.
Definition kE := L "E". Definition kP := L "P". Definition kn := L "number".
Definition k1 := L "op1". Definition k2 := L "op2". Definition ko := L "(". Definition kc := L ")".
Definition e_prods : list (list gostring) := [[kE; k2; kE]; [kE; k1; kE]; [kn]; [k2; kn]; [kP]].
Definition p_prods : list (list gostring) := [[ko; kE; kc]].
Definition mx_rows : list (gostring * list (list gostring)) := [(kE, e_prods); (kP, p_prods)].
Lemma mx_wf : g_wf mx_g.
Proof. apply (new_wf mx_grammar_text). exact mx_grammar_some. Qed.
Lemma mx_nts : g_nts mx_g = map fst mx_rows.
Proof. vm_compute. reflexivity. Qed.
Lemma mx_prods : Forall (fun r => g_prods mx_g (fst r) = Some (snd r)) mx_rows.
Proof. apply (bool_decide_unpack _). vm_compute. exact I. Qed.
Lemma mx_e : g_prods mx_g kE = Some e_prods. Proof. vm_compute. reflexivity. Qed.
Lemma mx_p : g_prods mx_g kP = Some p_prods. Proof. vm_compute. reflexivity. Qed.
Lemma mx_none s : s <> kE -> s <> kP -> g_prods mx_g s = None.
Proof. intros H1 H2. apply (rows_none mx_g mx_rows mx_wf mx_nts). cbn [map fst mx_rows]. rewrite !elem_of_cons, elem_of_nil. tauto. Qed.
Lemma mx_some s ps : g_prods mx_g s = Some ps -> (s = kE /\ ps = e_prods) \/ (s = kP /\ ps = p_prods).
Proof.
  intros H. apply (rows_prods mx_g mx_rows mx_wf mx_nts mx_prods) in H. unfold mx_rows in H.
  rewrite !elem_of_cons, elem_of_nil in H. destruct H as [[= -> ->]|[[= -> ->]|[]]]; auto.
Qed.
Lemma n_none : g_prods mx_g kn = None. Proof. vm_compute. reflexivity. Qed.
Lemma k1_none : g_prods mx_g k1 = None. Proof. vm_compute. reflexivity. Qed.
Lemma k2_none : g_prods mx_g k2 = None. Proof. vm_compute. reflexivity. Qed.
Lemma ko_none : g_prods mx_g ko = None. Proof. vm_compute. reflexivity. Qed.
Lemma kc_none : g_prods mx_g kc = None. Proof. vm_compute. reflexivity. Qed.

(** * No symbol derives nothing, or itself *)
Lemma mx_not_nil : (forall s w, derives mx_g s w -> w <> []) /\ (forall p w, derives_seq mx_g p w -> p <> [] -> w <> []).
Proof.
  assert (H : forall s w, derives mx_g s w -> w <> []).
  { apply (derives_mut mx_g (fun s w _ => w <> []) (fun p w _ => p <> [] -> w <> [])).
    - done.
    - intros s ps p w Hs Hp _ IH. apply IH. apply mx_some in Hs as [[_ ->]|[_ ->]]; unfold e_prods, p_prods in Hp;
        rewrite !elem_of_cons, elem_of_nil in Hp; intros ->; repeat destruct Hp as [Hp|Hp]; done.
    - done.
    - intros s r u v _ IH _ _ _ E. apply app_eq_nil in E as [-> _]. done. }
  split; [exact H|]. intros p w Hd Hp. destruct Hd as [|s r u v Hs _]; [done|]. apply H in Hs. intros E. apply app_eq_nil in E as [-> _]. done.
Qed.
Lemma nil_seq a : derives_seq mx_g a [] -> a = [].
Proof. intros H. destruct a; [done|]. exfalso. by apply (proj2 mx_not_nil _ _ H). Qed.
Lemma mx_unit A B : unit_step mx_g A B -> A = kE /\ (B = kn \/ B = kP).
Proof.
  intros (ps & p & a & b & Hs & Hp & -> & ->%nil_seq & ->%nil_seq). cbn [app] in Hp.
  apply mx_some in Hs as [[-> ->]|[-> ->]]; unfold e_prods, p_prods in Hp; rewrite !elem_of_cons, elem_of_nil in Hp;
    repeat destruct Hp as [Hp|Hp]; try done; injection Hp as ->; auto.
Qed.
Lemma mx_acyclic : acyclic_grammar mx_g.
Proof.
  assert (H : forall A B, tc (unit_step mx_g) A B -> A = kE /\ (B = kn \/ B = kP)).
  { induction 1 as [A B H|A B C H _ [IH1 IH2]]; [by apply mx_unit|]. apply mx_unit in H as [-> H]. split; [done|]. exact IH2. }
  intros A HA. apply H in HA as [-> [E|E]]; discriminate E.
Qed.

(** * The reducer *)
Definition mx_rdcr_rows : list (gostring * option reduction) :=
  ltac:(let t := eval unfold mx_rdcr in mx_rdcr in match t with list_to_map ?T => exact T end).
Lemma mx_for i k f : mx_rdcr_rows !! i = Some (k, Some f) -> reduction_for mx_rdcr k = Some f.
Proof.
  intros H. unfold reduction_for. change mx_rdcr with (list_to_map mx_rdcr_rows : reducer).
  rewrite (elem_of_list_to_map_1 mx_rdcr_rows k (Some f)); [done| |].
  - change (NoDup (map fst mx_rdcr_rows)). apply (bool_decide_unpack _). vm_compute. exact I.
  - by eapply elem_of_list_lookup_2.
Qed.
Lemma mx_for_none k : k <> kE -> k <> kP -> reduction_for mx_rdcr k = None.
Proof.
  intros H1 H2. unfold reduction_for. change mx_rdcr with (list_to_map mx_rdcr_rows : reducer).
  rewrite (not_elem_of_list_to_map_1 mx_rdcr_rows k); [done|]. change (k ∉ [kE; kP]). rewrite !elem_of_cons, elem_of_nil. tauto.
Qed.
Notation red := (raw_reduce mx_rdcr).
Lemma red_leaf lx : lx_kind lx <> kE -> lx_kind lx <> kP -> red (PN lx []) = PN lx [].
Proof.
  intros H1 H2. pose proof (mx_for_none _ H1 H2) as H. cbn [raw_reduce map]. unfold reduction_for in H. by destruct (mx_rdcr !! lx_kind lx) as [[f|]|].
Qed.
Lemma red_node k f lx cs : reduction_for mx_rdcr k = Some f -> lx_kind lx = k -> red (PN lx cs) = f (PN lx (map red cs)).
Proof. intros H <-. cbn [raw_reduce]. unfold reduction_for in H. destruct (mx_rdcr !! lx_kind lx) as [f'|]; [|done]. by subst f'. Qed.
Lemma red_e1 lx a : lx_kind lx = kE -> red (PN lx [a]) = red a.
Proof. intros H. rewrite (red_node kE _ _ _ (mx_for 0 kE _ eq_refl) H). cbn [map]. generalize (red a). by intros []. Qed.
Lemma red_e2 lx a b : lx_kind lx = kE -> pn_children (red a) = [] -> red (PN lx [a; b]) = PN (pn_lexeme (red a)) [red b].
Proof.
  intros H. rewrite (red_node kE _ _ _ (mx_for 0 kE _ eq_refl) H). cbn [map]. generalize (red a) (red b). clear. intros [x xs] b E.
  cbn [pn_children] in E. subst xs. reflexivity.
Qed.
Lemma red_e3 lx a b c : lx_kind lx = kE -> pn_children (red b) = [] -> red (PN lx [a; b; c]) = PN (pn_lexeme (red b)) [red a; red c].
Proof.
  intros H. rewrite (red_node kE _ _ _ (mx_for 0 kE _ eq_refl) H). cbn [map]. generalize (red a) (red b) (red c). clear. intros a [x xs] c E.
  cbn [pn_children] in E. subst xs. reflexivity.
Qed.
Lemma red_e0 lx : lx_kind lx = kE -> red (PN lx []) = PN lx [].
Proof. intros H. rewrite (red_node kE _ _ _ (mx_for 0 kE _ eq_refl) H). reflexivity. Qed.
Lemma red_p lx a b c : lx_kind lx = kP -> red (PN lx [a; b; c]) = red b.
Proof. intros H. rewrite (red_node kP _ _ _ (mx_for 1 kP _ eq_refl) H). cbn [map]. generalize (red a) (red b) (red c). reflexivity. Qed.

(** * Values *)
Definition ops_ok (u : list lexeme) : Prop :=
  forall x, x ∈ u -> (lx_kind x = k1 -> lx_val x = L "*" \/ lx_val x = L "/") /\ (lx_kind x = k2 -> lx_val x = L "+" \/ lx_val x = L "-").
Lemma ops_app u v : ops_ok (u ++ v) -> ops_ok u /\ ops_ok v.
Proof. intros H. split; intros x Hx; apply H; rewrite elem_of_app; auto. Qed.
Definition by_sum (u : list lexeme) : Prop := derives_seq mx_g [kE; k2; kE] (map lx_kind u).
Definition by_mul (u : list lexeme) : Prop := derives_seq mx_g [kE; k1; kE] (map lx_kind u).
Lemma seq3 a o b (u v : list gostring) w : derives mx_g a u -> g_prods mx_g o = None -> derives mx_g b v -> w = u ++ o :: v -> derives_seq mx_g [a; o; b] w.
Proof.
  intros H1 H2 H3 ->. constructor; [done|]. apply derives_tok; [done|]. by apply derives_one.
Qed.
Lemma seq3_inv a o b w : g_prods mx_g o = None -> derives_seq mx_g [a; o; b] w ->
  exists u v, w = u ++ o :: v /\ derives mx_g a u /\ derives mx_g b v.
Proof.
  intros Ho H. inversion H as [|? ? u ? H1 H2]; subst. inversion H2 as [|? ? u2 ? H3 H4]; subst. inversion H4 as [|? ? u3 ? H5 H6]; subst.
  inversion H6; subst. inversion H3; subst; [|congruence]. exists u, u3. rewrite app_nil_r. split; [reflexivity|]. split; [exact H1|exact H5].
Qed.
Lemma e_op o : o = k1 \/ o = k2 -> forall u v, derives mx_g kE u -> derives mx_g kE v -> derives mx_g kE (u ++ o :: v).
Proof.
  intros Ho u v Hu Hv. destruct Ho as [->| ->].
  - eapply der_nt; [exact mx_e|apply (elem_of_list_lookup_2 _ 1); reflexivity|]. exact (seq3 kE k1 kE u v _ Hu k1_none Hv eq_refl).
  - eapply der_nt; [exact mx_e|apply (elem_of_list_lookup_2 _ 0); reflexivity|]. exact (seq3 kE k2 kE u v _ Hu k2_none Hv eq_refl).
Qed.
(** A part of a product that splits at a sign splits the whole. *)
Lemma split_left u o v : o = k1 -> derives mx_g kE v -> derives_seq mx_g [kE; k2; kE] u -> derives_seq mx_g [kE; k2; kE] (u ++ o :: v).
Proof.
  intros Ho Hv H. apply seq3_inv in H as (a & b & -> & Ha & Hb); [|exact k2_none].
  eapply (seq3 kE k2 kE a (b ++ o :: v)); [done|exact k2_none| |by rewrite <- app_assoc]. apply e_op; auto.
Qed.
Lemma split_right u o v : o = k1 -> derives mx_g kE u -> derives_seq mx_g [kE; k2; kE] v -> derives_seq mx_g [kE; k2; kE] (u ++ o :: v).
Proof.
  intros Ho Hv H. apply seq3_inv in H as (a & b & -> & Ha & Hb); [|exact k2_none].
  eapply (seq3 kE k2 kE (u ++ o :: a) b); [|exact k2_none|done|by rewrite <- app_assoc]. apply e_op; auto.
Qed.

Section Values.
  Variable A : arith.
  Notation ev t x := (mx_eval A (red t) = Ok x).
  Definition e_good (t : pn) (u : list lexeme) : Prop :=
    exists x, ev t x /\ is_sum A u x /\ (~ by_sum u -> is_term A u x) /\ (~ by_sum u -> ~ by_mul u -> is_factor A u x)
      /\ (by_sum u -> exists a o b y z, u = a ++ o :: b /\ lx_kind o = k2 /\ is_sum A a y /\ is_sum A b z /\ op_value A (lx_val o) y z x).
  Definition good (s : gostring) (t : pn) (u : list lexeme) : Prop :=
    (s = kE -> e_good t u) /\ (s = kP -> exists x, ev t x /\ is_factor A u x)
    /\ (s <> kE -> s <> kP -> exists x, t = PN x [] /\ u = [x] /\ lx_kind x = s).
  Fixpoint goods (p : list gostring) (cs : list pn) (u : list lexeme) : Prop :=
    match p with
    | [] => cs = [] /\ u = []
    | s :: r => exists c cs' u1 u2, cs = c :: cs' /\ u = u1 ++ u2 /\ derives mx_g s (map lx_kind u1)
        /\ (ops_ok u1 -> good s c u1) /\ goods r cs' u2
    end.
  Lemma good_tok s t u : s <> kE -> s <> kP -> good s t u -> exists x, t = PN x [] /\ u = [x] /\ lx_kind x = s.
  Proof. intros H1 H2 (_ & _ & H). by apply H. Qed.
  Lemma op2_value v y z : v = L "+" \/ v = L "-" -> op_value A v y z (mx_apply A v y z).
  Proof. intros [->| ->]; unfold op_value, mx_apply; cbn; [left|right; left]; done. Qed.
  Lemma op1_value v y z : v = L "*" \/ v = L "/" -> op_value A v y z (mx_apply A v y z).
  Proof. intros [->| ->]; unfold op_value, mx_apply; cbn; [right; right; left|right; right; right]; done. Qed.
  Lemma eval_bin x a b y z : lx_kind x = k1 \/ lx_kind x = k2 -> mx_eval A a = Ok y -> mx_eval A b = Ok z ->
    mx_eval A (PN x [a; b]) = Ok (mx_apply A (lx_val x) y z).
  Proof.
    intros Hk Ha Hb. cbn [mx_eval]. rewrite Ha, Hb. destruct Hk as [->| ->]; reflexivity.
  Qed.
  Lemma eval_num x : lx_kind x = kn -> mx_eval A (PN x []) = Ok (f_parse A (lx_val x)).
  Proof. intros Hk. cbn [mx_eval]. rewrite Hk. reflexivity. Qed.
  Lemma eval_un x n : lx_kind x = k2 -> lx_kind n = kn ->
    mx_eval A (PN x [PN n []]) = Ok (if decide (lx_val x = L "-") then f_neg A (f_parse A (lx_val n)) else f_parse A (lx_val n)).
  Proof. intros Hk Hn. cbn [mx_eval]. rewrite Hk, Hn. reflexivity. Qed.

  Lemma red_tok x : lx_kind x <> kE -> lx_kind x <> kP -> red (PN x []) = PN x [].
  Proof. apply red_leaf. Qed.

  Lemma e_node lx cs u k p : lx_kind lx = kE -> e_prods !! k = Some p -> goods p cs u -> ops_ok u ->
    (forall k' p', k' < k -> e_prods !! k' = Some p' -> ~ derives_seq mx_g p' (map lx_kind u)) ->
    e_good (PN lx cs) u.
  Proof.
    intros Hlx Hp Hg Hok Hmin. unfold e_prods in Hp. destruct k as [|[|[|[|[|k]]]]]; [..|done]; injection Hp as <-; cbn [goods] in Hg;
    repeat match goal with
    | H : exists c cs u1 u2, _ |- _ =>
       let c := fresh "qc" in let cs := fresh "qcs" in let u1 := fresh "qu" in let u2 := fresh "qv" in
       let D := fresh "D" in let G := fresh "G" in destruct H as (c & cs & u1 & u2 & -> & -> & D & G & H)
    end; destruct Hg as [-> ->]; rewrite ?app_nil_r in *.
    - (* E op2 E *)
      apply ops_app in Hok as [Ho1 [Ho2 Ho3]%ops_app]. specialize (G Ho1). specialize (G0 Ho2). specialize (G1 Ho3).
      apply good_tok in G0 as (o & -> & -> & Hk); [|done|done]. destruct G as [(y & Ey & Sy & _) _]; [done|]. destruct G1 as [(z & Ez & Sz & _) _]; [done|].
      assert (HB : by_sum (qu ++ [o] ++ qu1)).
      { unfold by_sum. rewrite map_app. eapply (seq3 kE k2 kE); [exact D|exact k2_none|exact D1|]. cbn [app map]. by rewrite Hk. }
      assert (HV : lx_val o = L "+" \/ lx_val o = L "-") by (apply (Ho2 o); [left|exact Hk]).
      assert (Hred : red (PN o []) = PN o []) by (apply red_leaf; rewrite Hk; discriminate).
      exists (mx_apply A (lx_val o) y z). split; [|split; [|split; [|split]]].
      + rewrite red_e3 by (rewrite ?Hred; done). rewrite Hred. cbn [pn_lexeme]. apply eval_bin; [by right|done|done].
      + cbn [app]. eapply sum_op; [exact Hk|exact Sy|exact Sz|]. by apply op2_value.
      + by intros HN.
      + by intros HN.
      + intros _. exists qu, o, qu1, y, z. split; [done|]. split; [done|]. split; [done|]. split; [done|]. by apply op2_value.
    - (* E op1 E *)
      assert (HN : ~ by_sum (qu ++ qu0 ++ qu1)) by (apply (Hmin 0 [kE; k2; kE]); [lia|done]). clear Hmin.
      apply ops_app in Hok as [Ho1 [Ho2 Ho3]%ops_app]. specialize (G Ho1). specialize (G0 Ho2). specialize (G1 Ho3).
      apply good_tok in G0 as (o & -> & -> & Hk); [|done|done].
      destruct G as [(y & Ey & _ & Ty & _) _]; [done|]. destruct G1 as [(z & Ez & _ & Tz & _) _]; [done|].
      assert (HV : lx_val o = L "*" \/ lx_val o = L "/") by (apply (Ho2 o); [left|exact Hk]).
      assert (Hred : red (PN o []) = PN o []) by (apply red_leaf; rewrite Hk; discriminate).
      assert (E : map lx_kind (qu ++ [o] ++ qu1) = map lx_kind qu ++ k1 :: map lx_kind qu1) by (rewrite map_app; cbn [app map]; by rewrite Hk).
      assert (HT : is_term A (qu ++ [o] ++ qu1) (mx_apply A (lx_val o) y z)).
      { cbn [app]. eapply term_op; [exact Hk|apply Ty|apply Tz|by apply op1_value].
        - intros H. apply HN. unfold by_sum. rewrite E. by apply split_left.
        - intros H. apply HN. unfold by_sum. rewrite E. by apply split_right. }
      exists (mx_apply A (lx_val o) y z). split; [|split; [|split; [|split]]].
      + rewrite red_e3 by (rewrite ?Hred; done). rewrite Hred. cbn [pn_lexeme]. apply eval_bin; [by left|done|done].
      + by apply sum_term.
      + by intros _.
      + intros _ HM. exfalso. apply HM. unfold by_mul. rewrite E. eapply (seq3 kE k1 kE); [exact D|exact k1_none|exact D1|done].
      + done.
    - (* number *)
      assert (HN : ~ by_sum qu) by (apply (Hmin 0 [kE; k2; kE]); [lia|done]). clear Hmin.
      specialize (G Hok). apply good_tok in G as (n & -> & -> & Hk); [|done|done].
      assert (HF : is_factor A [n] (f_parse A (lx_val n))) by (by constructor).
      exists (f_parse A (lx_val n)). split; [|split; [|split; [|split]]].
      + rewrite red_e1 by done. rewrite red_leaf by (rewrite Hk; discriminate). by apply eval_num.
      + by apply sum_term, term_factor.
      + intros _. by apply term_factor.
      + by intros _ _.
      + done.
    - (* op2 number *)
      assert (HN : ~ by_sum (qu ++ qu0)) by (apply (Hmin 0 [kE; k2; kE]); [lia|done]). clear Hmin.
      apply ops_app in Hok as [Ho1 Ho2]. specialize (G Ho1). specialize (G0 Ho2).
      apply good_tok in G as (o & -> & -> & Hk); [|done|done]. apply good_tok in G0 as (n & -> & -> & Hn); [|done|done].
      assert (HV : lx_val o = L "+" \/ lx_val o = L "-") by (apply (Ho1 o); [left|exact Hk]).
      assert (Hred : red (PN o []) = PN o []) by (apply red_leaf; rewrite Hk; discriminate).
      assert (HF : is_factor A [o; n] (if decide (lx_val o = L "-") then f_neg A (f_parse A (lx_val n)) else f_parse A (lx_val n))).
      { destruct (decide (lx_val o = L "-")) as [E|E]; [by apply factor_minus|]. destruct HV as [HV|HV]; [|done]. by apply factor_plus. }
      eexists. split; [|split; [|split; [|split]]].
      + rewrite red_e2 by (rewrite ?Hred; done). rewrite Hred. rewrite (red_leaf n) by (rewrite Hn; discriminate). cbn [pn_lexeme]. by apply eval_un.
      + by apply sum_term, term_factor.
      + intros _. by apply term_factor.
      + by intros _ _.
      + done.
    - (* P *)
      assert (HN : ~ by_sum qu) by (apply (Hmin 0 [kE; k2; kE]); [lia|done]). clear Hmin.
      specialize (G Hok). destruct G as (_ & (x & Ex & HF) & _); [done|].
      exists x. split; [|split; [|split; [|split]]].
      + by rewrite red_e1.
      + by apply sum_term, term_factor.
      + intros _. by apply term_factor.
      + by intros _ _.
      + done.
  Qed.
  Lemma p_node lx cs u p : lx_kind lx = kP -> p ∈ p_prods -> goods p cs u -> ops_ok u ->
    exists x, ev (PN lx cs) x /\ is_factor A u x.
  Proof.
    intros Hlx Hp Hg Hok. apply elem_of_list_singleton in Hp as ->. cbn [goods] in Hg.
    destruct Hg as (a & cs1 & u1 & v1 & -> & -> & D1 & G1 & b & cs2 & u2 & v2 & -> & -> & D2 & G2 & c & cs3 & u3 & v3 & -> & -> & D3 & G3 & -> & ->).
    rewrite app_nil_r in *. apply ops_app in Hok as [Ho1 [Ho2 Ho3]%ops_app]. specialize (G1 Ho1). specialize (G2 Ho2). specialize (G3 Ho3).
    apply good_tok in G1 as (o & -> & -> & Hk); [|done|done]. apply good_tok in G3 as (e & -> & -> & He); [|done|done].
    destruct G2 as [(x & Ex & Sx & _) _]; [done|]. exists x. rewrite red_p by done. split; [done|]. cbn [app]. by constructor.
  Qed.
End Values.

Scheme earliest_tree_mut := Induction for earliest_tree Sort Prop
  with earliest_trees_mut := Induction for earliest_trees Sort Prop.
Lemma earliest_derives :
  (forall s t u, earliest_tree mx_g s t u -> derives mx_g s (map lx_kind u)).
Proof.
  apply (earliest_tree_mut mx_g (fun s t u _ => derives mx_g s (map lx_kind u)) (fun p cs u _ => derives_seq mx_g p (map lx_kind u))).
  - intros lx H. by constructor.
  - intros lx ps k p cs lxs Hs Hk _ IH _. eapply der_nt; [exact Hs|by eapply elem_of_list_lookup_2|done].
  - constructor.
  - intros s r c cs u v _ IH1 _ IH2. rewrite map_app. by constructor.
Qed.
Lemma tree_value A : forall s t u, earliest_tree mx_g s t u -> ops_ok u -> good A s t u.
Proof.
  apply (earliest_tree_mut mx_g (fun s t u _ => ops_ok u -> good A s t u) (fun p cs u _ => goods A p cs u)).
  - intros lx H _. assert (lx_kind lx <> kE /\ lx_kind lx <> kP) as [H1 H2].
    { split; intros E; rewrite E in H; [rewrite mx_e in H|rewrite mx_p in H]; discriminate H. }
    split; [intros E; destruct (H1 E)|]. split; [intros E; destruct (H2 E)|]. eauto.
  - intros lx ps k p cs lxs Hs Hk He IH Hmin Hok. apply mx_some in Hs as [[E ->]|[E ->]]; rewrite E.
    + split; [|split; [discriminate|done]]. intros _. by eapply e_node.
    + split; [discriminate|]. split; [|done]. intros _. eapply p_node; [exact E| |exact IH|exact Hok]. by eapply elem_of_list_lookup_2.
  - done.
  - intros s r c cs u v H IH1 _ IH2. cbn [goods]. exists c, cs, u, v. split; [done|]. split; [done|]. split; [by eapply earliest_derives|done].
Qed.

(** * Expressions are what E derives *)
Lemma expr_derives u : is_expr u -> derives mx_g kE (map lx_kind u).
Proof.
  induction 1 as [n Hn|o n Ho Hn|o u c Ho _ IH Hc|u o v Ho _ IH1 _ IH2].
  - cbn [map]. rewrite Hn. eapply der_nt; [exact mx_e|apply (elem_of_list_lookup_2 _ 2); reflexivity|].
    apply derives_one. apply der_term. exact n_none.
  - cbn [map]. rewrite Hn, Ho. eapply der_nt; [exact mx_e|apply (elem_of_list_lookup_2 _ 3); reflexivity|].
    apply derives_tok; [exact k2_none|]. apply derives_one. apply der_term. exact n_none.
  - cbn [map]. rewrite map_app. cbn [map]. rewrite Ho, Hc. eapply der_nt; [exact mx_e|apply (elem_of_list_lookup_2 _ 4); reflexivity|].
    apply derives_one. eapply der_nt; [exact mx_p|apply (elem_of_list_lookup_2 _ 0); reflexivity|].
    apply derives_tok; [exact ko_none|]. constructor; [done|]. apply derives_one. apply der_term. exact kc_none.
  - rewrite map_app. cbn [map]. apply e_op; [|done|done]. exact Ho.
Qed.
Lemma derives_expr : forall s w, derives mx_g s w -> forall u, map lx_kind u = w ->
  (s = kE \/ s = kP -> is_expr u) /\ (s <> kE -> s <> kP -> exists x, u = [x] /\ lx_kind x = s).
Proof.
  set (Q := fun s u => (s = kE \/ s = kP -> is_expr u) /\ (s <> kE -> s <> kP -> exists x, u = [x] /\ lx_kind x = s)).
  set (Qs := fix Qs (p : list gostring) (u : list lexeme) : Prop := match p with [] => u = []
     | s :: r => exists u1 u2, u = u1 ++ u2 /\ Q s u1 /\ Qs r u2 end).
  apply (derives_mut mx_g (fun s w _ => forall u, map lx_kind u = w -> Q s u) (fun p w _ => forall u, map lx_kind u = w -> Qs p u)).
  - intros s Hs u E. destruct u as [|x [|y u]]; try discriminate E. injection E as <-. split; [|eauto].
    intros [E|E]; rewrite E in Hs; [rewrite mx_e in Hs|rewrite mx_p in Hs]; discriminate Hs.
  - intros s ps p w Hs Hp _ IH u E. specialize (IH u E). clear E w.
    apply mx_some in Hs as [[-> ->]|[-> ->]]; unfold e_prods, p_prods in Hp; rewrite !elem_of_cons, elem_of_nil in Hp;
    (split; [intros _|try (by intros []); by intros _ []]);
    repeat destruct Hp as [Hp|Hp]; try done; subst p; cbn in IH.
    + destruct IH as (a & v1 & -> & [Ha _] & b & v2 & -> & [_ Hb] & c & v3 & -> & [Hc _] & ->).
      destruct Hb as (o & -> & Ho); [done|done|]. rewrite app_nil_r. cbn [app]. apply ex_op; [by right|apply Ha; by left|apply Hc; by left].
    + destruct IH as (a & v1 & -> & [Ha _] & b & v2 & -> & [_ Hb] & c & v3 & -> & [Hc _] & ->).
      destruct Hb as (o & -> & Ho); [done|done|]. rewrite app_nil_r. cbn [app]. apply ex_op; [by left|apply Ha; by left|apply Hc; by left].
    + destruct IH as (a & v1 & -> & [_ Ha] & ->). destruct Ha as (n & -> & Hn); [done|done|]. by apply ex_number.
    + destruct IH as (a & v1 & -> & [_ Ha] & b & v2 & -> & [_ Hb] & ->). destruct Ha as (o & -> & Ho); [done|done|].
      destruct Hb as (n & -> & Hn); [done|done|]. by apply ex_signed.
    + destruct IH as (a & v1 & -> & [Ha _] & ->). rewrite app_nil_r. apply Ha. by right.
    + destruct IH as (a & v1 & -> & [_ Ha] & b & v2 & -> & [Hb _] & c & v3 & -> & [_ Hc] & ->).
      destruct Ha as (o & -> & Ho); [done|done|]. destruct Hc as (d & -> & Hd); [done|done|].
      cbn [app]. apply ex_parens; [done|apply Hb; by left|done].
  - intros u E. by destruct u.
  - intros s r u1 u2 _ IH1 _ IH2 u E. apply map_eq_app in E as (v1 & v2 & -> & E1 & E2). cbn. exists v1, v2. auto.
Qed.
Lemma expr_iff u : is_expr u <-> derives mx_g kE (map lx_kind u).
Proof. split; [apply expr_derives|]. intros H. apply (derives_expr kE _ H u eq_refl). by left. Qed.

(** * From text to value *)
Lemma mx_more : no_adds []. Proof. intros k r d H. by apply elem_of_nil in H. Qed.
Lemma mx_nodup : NoDup (map lw_kind mx_table).
Proof. apply (bool_decide_unpack _). vm_compute. exact I. Qed.
Lemma mx_lines : omap line_src (split1 c_nl mx_lexer_text) = map row_src mx_table.
Proof. vm_compute. reflexivity. Qed.
Lemma mx_length : st_length (settings_of []) = true. Proof. reflexivity. Qed.
Lemma mx_lexer_some compile : compiles compile mx_table ->
  exists l, mx_lexer compile = Some l /\ returns (sl_calls (mx_calls []) slexer_empty) l.
Proof.
  intros HC. destruct (table_lexer compile mx_lexer_text mx_table HC mx_lines mx_nodup) as (l0 & Hl & Hr).
  exists l0. split; [exact Hl|]. eapply table_calls_from; [exact Hr|]. exists 0. intros n _. reflexivity.
Qed.
Lemma mx_lexer_after compile l0 l (texts : list gostring) : compiles compile mx_table -> mx_lexer compile = Some l0 ->
  returns (sl_calls (map CLex texts) l0) l -> returns (sl_calls (mx_calls texts) slexer_empty) l.
Proof.
  intros HC H0 Hl. destruct (mx_lexer_some compile HC) as (l1 & H1 & Hr). rewrite H0 in H1. injection H1 as <-.
  destruct Hr as [F HF], Hl as [G HG]. exists (F + G). intros n Hn. unfold mx_calls, table_calls in *.
  rewrite app_nil_l. unfold sl_calls in *. rewrite !app_nil_r in HF. rewrite StackProofs.rfold_app, HF by lia. apply HG. lia.
Qed.
Lemma mx_any texts s lxs : mx_tokens s lxs <-> lexes_to (mx_calls texts) s lxs.
Proof.
  unfold mx_tokens, lexes_to, all_lexemes, mx_calls. rewrite !(table_rules mx_table [] _ mx_more mx_nodup), !(table_settings mx_table []). done.
Qed.
Lemma mx_not_any texts s v : lexes_not (mx_calls []) s v <-> lexes_not (mx_calls texts) s v.
Proof. unfold lexes_not, mx_calls. rewrite !(table_rules mx_table [] _ mx_more mx_nodup). done. Qed.
Lemma mx_lexeme texts s lxs x : lexes_to (mx_calls texts) s lxs -> x ∈ lxs -> lx_kind x ∈ [kn; k1; k2; ko; kc]
  /\ (lx_kind x = k1 -> lx_val x = L "*" \/ lx_val x = L "/") /\ (lx_kind x = k2 -> lx_val x = L "+" \/ lx_val x = L "-").
Proof.
  intros H Hx. destruct (table_lexemes mx_table [] texts mx_more mx_nodup s lxs x H Hx) as [Hr|[[Hi _]|[Hi _]]]; [|done|done].
  destruct Hr as (r & s' & n & Hr & Hd & Hk & Hm & Hn & ->). rewrite Hk. clear Hk H Hx. apply hd_len_in in Hm. unfold mx_table in Hr.
  rewrite !elem_of_cons, elem_of_nil in Hr. repeat destruct Hr as [->|Hr]; try done; cbn [lw_kind lw_re] in *;
    (split; [apply (bool_decide_unpack _); vm_compute; exact I|]); (split; intros E; try discriminate E).
  - apply in_set_inv in Hm as (c & -> & Hc). rewrite orb_true_iff, !N.eqb_eq in Hc. destruct Hc as [->| ->]; [left|right]; reflexivity.
  - apply in_set_inv in Hm as (c & -> & Hc). rewrite orb_true_iff, !N.eqb_eq in Hc. destruct Hc as [->| ->]; [left|right]; reflexivity.
Qed.
Lemma mx_terminals texts s lxs : lexes_to (mx_calls texts) s lxs -> terminal_kinds mx_g lxs.
Proof.
  intros H x Hx. apply (mx_lexeme texts s lxs x H) in Hx as [Hx _]. revert Hx. generalize (lx_kind x). apply Forall_forall.
  repeat (constructor; [first [exact n_none|exact k1_none|exact k2_none|exact ko_none|exact kc_none]|]). constructor.
Qed.
Lemma mx_ops texts s lxs : lexes_to (mx_calls texts) s lxs -> ops_ok lxs.
Proof. intros H x Hx. by apply (mx_lexeme texts s lxs x H). Qed.

Lemma expr_nonempty u : is_expr u -> u <> [].
Proof. intros H. induction H; try discriminate. intros E. by apply app_eq_nil in E as [_ E]. Qed.

Section Run.
  Variable A : arith.
  Variable compile : compiler.
  Variable l0 l : slexer.
  Variable gg : gr.
  Variable texts : list gostring.
  Hypothesis HC : compiles compile mx_table.
  Hypothesis Hl0 : mx_lexer compile = Some l0.
  Hypothesis Hl : returns (sl_calls (map CLex texts) l0) l.
  Hypothesis Hgg : mx_grammar = Some gg.
  Lemma mgg_is : gg = mx_gr.
  Proof using Hgg. pose proof mx_grammar_some. congruence. Qed.
  Lemma value_ok s lxs : mx_tokens s lxs -> is_expr lxs ->
    exists x l', returns (mx_run A l gg s) ((x, None), l') /\ is_sum A lxs x
      /\ ((exists a o b, lxs = a ++ o :: b /\ lx_kind o = L "op2" /\ is_expr a /\ is_expr b) ->
          exists a o b y z, lxs = a ++ o :: b /\ lx_kind o = L "op2" /\ is_sum A a y /\ is_sum A b z /\ op_value A (lx_val o) y z x).
  Proof using All.
    intros Hlx Hx. rewrite mgg_is. rewrite (mx_any texts) in Hlx.
    destruct (tpipe_ok mx_table [] texts mx_more mx_nodup mx_length mx_g [mx_rdcr] mx_wf l
      (mx_lexer_after compile l0 l texts HC Hl0 Hl) s lxs kE [kP] Hlx (mx_terminals texts s lxs Hlx) mx_nts
      (expr_derives lxs Hx)) as (t & l' & Hp & _ & He).
    specialize (He mx_acyclic). destruct (tree_value A _ _ _ He (mx_ops texts s lxs Hlx)) as [(x & Ex & Sx & _ & _ & Bx) _]; [reflexivity|].
    exists x, l'. split; [|split; [exact Sx|]].
    - destruct Hp as [F HF]. exists F. intros n Hn. unfold mx_run. fold mx_g. rewrite HF by lia. cbn [rbind reduced fold_left].
      rewrite Ex. reflexivity.
    - intros (a & o & b & -> & Ho & Ha & Hb). apply Bx. unfold by_sum. rewrite map_app. cbn [map]. rewrite Ho.
      apply (seq3 kE k2 kE (map lx_kind a) (map lx_kind b)); [by apply expr_derives|exact k2_none|by apply expr_derives|reflexivity].
  Qed.
  Lemma value_junk s v : lexes_not (mx_calls []) s v ->
    exists l', returns (mx_run A l gg s) ((f_zero A, Some (ErrLex (Lx (L "Error") v (-1) 0))), l').
  Proof using All.
    intros H. rewrite mgg_is. rewrite (mx_not_any texts) in H.
    destruct (tpipe_error mx_table [] texts mx_more mx_nodup mx_length mx_g [mx_rdcr] l
      (mx_lexer_after compile l0 l texts HC Hl0 Hl) s v H) as (l' & [F HF]).
    exists l'. exists F. intros n Hn. unfold mx_run. fold mx_g. rewrite HF by lia. reflexivity.
  Qed.
  Lemma value_bad s lxs : mx_tokens s lxs -> lxs <> [] -> ~ is_expr lxs ->
    exists l', returns (mx_run A l gg s) ((f_zero A, Some ErrCouldNotParse), l').
  Proof using All.
    intros Hlx Hne HR. rewrite mgg_is. rewrite (mx_any texts) in Hlx.
    destruct (tpipe_bad mx_table [] texts mx_more mx_nodup mx_length mx_g [mx_rdcr] mx_wf l
      (mx_lexer_after compile l0 l texts HC Hl0 Hl) s lxs Hlx (mx_terminals texts s lxs Hlx) Hne) as (l' & [F HF]).
    { intros (s0 & rest & Hn & Hd). rewrite mx_nts in Hn. injection Hn as <- _. apply HR. by apply expr_iff. }
    exists l'. exists F. intros n Hn. unfold mx_run. fold mx_g. rewrite HF by lia. reflexivity.
  Qed.
  (** No tokens: the parser returns a bare start node, which evaluates to 0. *)
  Lemma value_blank s : mx_tokens s [] -> exists l', returns (mx_run A l gg s) ((f_zero A, None), l').
  Proof using All.
    intros Hlx. rewrite mgg_is. rewrite (mx_any texts) in Hlx. pose proof (mx_terminals texts s [] Hlx) as HT.
    destruct Hlx as (ps & Ht & HJ & Ha).
    destruct (PackratThms.packrat_empty mx_g kE [kP] mx_wf mx_nts) as (t & Hr & [[Hd _]|[_ ->]]).
    { apply (proj2 (expr_iff [])) in Hd. destruct (expr_nonempty [] Hd eq_refl). }
    assert (exists l', returns (pipeline l mx_g [mx_rdcr] s) (Some (reduced [mx_rdcr] (PN (lexeme_new kE) [])), None, l')) as [l' [F HF]].
    { apply (pipe_parse (mx_calls texts) l mx_g [mx_rdcr] s ps []) with (r := Some (PN (lexeme_new kE) [])); try assumption.
      - exact (table_first mx_table [] texts mx_more).
      - exact (table_regexps mx_table [] texts mx_more).
      - exact (cs_length mx_table [] texts mx_length).
      - exact (mx_lexer_after compile l0 l texts HC Hl0 Hl). }
    exists l', F. intros n Hn. unfold mx_run. fold mx_g. rewrite HF by lia. cbn [rbind reduced fold_left].
    rewrite (red_e0 (lexeme_new kE) eq_refl). reflexivity.
  Qed.
  Lemma value_lexer s x l' : returns (mx_run A l gg s) (x, l') -> returns (sl_calls (map CLex (texts ++ [s])) l0) l'.
  Proof using Hl.
    clear HC Hl0 Hgg. intros [F HF]. destruct Hl as [G HG]. exists (F + G). intros n Hn.
    unfold sl_calls in *. rewrite map_app, StackProofs.rfold_app, HG by lia. cbn [rbind map rfold sl_step].
    specialize (HF n ltac:(lia)). unfold mx_run, pipeline, run, simple_lexer in HF.
    destruct (slex l s n) as [[xs l1]| |]; cbn [rbind] in *; [|discriminate HF|discriminate HF].
    destruct (lex_errors xs) as [|e es]; cbn [rbind] in HF; [|congruence].
    unfold packrat_parser in HF. destruct (packrat_parse n (gr_view gg) (map olex_lx xs)) as [t| |]; cbn [rbind] in HF; [|discriminate HF|discriminate HF].
    destruct t as [t|]; cbn [rbind] in HF; [|congruence]. cbn [map run_reducers tree_reducer rbind] in HF.
    destruct (mx_eval A (raw_reduce mx_rdcr t)) as [x0| |]; cbn [rbind] in HF; congruence.
  Qed.
  Lemma value_cases s : (exists v, lexes_not (mx_calls []) s v) \/ exists lxs, mx_tokens s lxs.
  Proof using.
    destruct (table_lexes mx_table [] [] mx_more mx_nodup mx_length s) as [H|H]; [by right|by left].
  Qed.
End Run.
Lemma mx_ready compile : compiles compile mx_table -> exists l0 gg, mx_lexer compile = Some l0 /\ mx_grammar = Some gg.
Proof. intros HC. destruct (mx_lexer_some compile HC) as (l & Hl & _). exists l, mx_gr. split; [exact Hl|exact mx_grammar_some]. Qed.
