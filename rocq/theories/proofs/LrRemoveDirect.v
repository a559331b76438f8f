(** removeDirectLeftRecursion on aligned symbol sets. *)
From Coq Require Import String Lia.
From Verif.model Require Import LrRemove.
From Verif.spec Require Import LrSpec Outcome.
From Verif.proofs Require Import Fuel GrammarProofs LrRemoveProofs SetProofs.
Local Open Scope nat_scope.
Local Open Scope list_scope.

Lemma set_str_new s x : set_wf s -> ~ known s x ->
  set_str s x = (sym_count s, MkSet (<[x := sym_count s]> (str2sym s)) (symb2str s ++ [x])).
Proof.
  intros Hw Hk. unfold set_str. destruct (str2sym s !! x) as [v|] eqn:E; [|reflexivity].
  destruct Hk. eexists; exact E.
Qed.
Lemma set_syms_known s vs p : set_wf s -> named s vs p -> set_syms s (map Foreign p) = (vs, s).
Proof.
  intros Hw. induction 1 as [|v x vs p Hv Hp IH]; [reflexivity|]. cbn [map set_syms set_symbol].
  apply Hw in Hv. rewrite (set_str_known _ _ _ Hv), IH. reflexivity.
Qed.
Lemma set_syms_app s xs ys : set_syms s (xs ++ ys) =
  let '(vs, s1) := set_syms s xs in let '(ws, s2) := set_syms s1 ys in (vs ++ ws, s2).
Proof.
  revert s. induction xs as [|x xs IH]; intros s; cbn [app set_syms].
  - destruct (set_syms s ys); reflexivity.
  - destruct (set_symbol s x) as [v s1]. rewrite IH. destruct (set_syms s1 xs) as [vs s2].
    destruct (set_syms s2 ys); reflexivity.
Qed.

Lemma direct_add_tbl out f p : forall i, tbl (direct_add out f p) i =
  if decide (i = f) then Some (default [] (tbl out f) ++ [p]) else tbl out i.
Proof.
  intros i. unfold direct_add.
  set (t := if f <? length (gr_prods out) then gr_prods out else gr_prods out ++ replicate (1 + f - length (gr_prods out)) None).
  assert (Ht : forall j, default None (t !! j) = tbl out j).
  { intros j. subst t. destruct (f <? length (gr_prods out)); [reflexivity|].
    apply (tbl_grow out _ [] set_new j). }
  assert (Hf : f < length t).
  { subst t. destruct (Nat.ltb_spec f (length (gr_prods out))) as [H|H]; [exact H|].
    rewrite app_length, replicate_length. lia. }
  rewrite (Ht f).
  assert (E : forall o s, tbl (Gr o (<[f:=Some (default [] (tbl out f) ++ [p])]> t) s) i =
    if decide (i = f) then Some (default [] (tbl out f) ++ [p]) else tbl out i).
  { intros o s. unfold tbl at 1. cbn [gr_prods]. destruct (decide (i = f)) as [->|Hn].
    - rewrite list_lookup_insert by exact Hf. reflexivity.
    - rewrite list_lookup_insert_ne by congruence. apply Ht. }
  destruct (tbl out f); apply E.
Qed.
Lemma direct_add_len out f p : length (gr_prods (direct_add out f p)) = Nat.max (length (gr_prods out)) (S f).
Proof.
  unfold direct_add.
  set (t := if f <? length (gr_prods out) then gr_prods out else gr_prods out ++ replicate (1 + f - length (gr_prods out)) None).
  assert (H : length t = Nat.max (length (gr_prods out)) (S f)).
  { subst t. destruct (Nat.ltb_spec f (length (gr_prods out))); [lia|]. rewrite app_length, replicate_length. lia. }
  destruct (default None (t !! f)); cbn [gr_prods]; rewrite insert_length; exact H.
Qed.
Lemma direct_add_rest out f p : gr_order (direct_add out f p) = gr_order out /\ gr_set (direct_add out f p) = gr_set out.
Proof. unfold direct_add. destruct (default None _); split; reflexivity. Qed.

(** The same division of the productions, on indexes. *)
Definition self_idx (cur : nat) (p : list nat) : bool := match p with [] => false | x :: _ => x =? cur end.
Definition bases_idx (cur : nat) (qs : list (list nat)) := List.filter (fun q => negb (self_idx cur q)) qs.
Definition rests_idx (cur : nat) (qs : list (list nat)) :=
  List.filter (fun q => match q with [] => false | _ => true end) (map (strip_cur cur) (List.filter (self_idx cur) qs)).
Definition opt_list {B} (l : list B) : option (list B) := match l with [] => None | _ => Some l end.
Lemma opt_list_snoc {B} (l : list B) x : Some (default [] (opt_list l) ++ [x]) = opt_list (l ++ [x]).
Proof. destruct l; reflexivity. Qed.

Section Direct.
  Variable A : gostring.
  Variable s : set.
  Variable cur : nat.
  Hypothesis Hw : set_wf s.
  Hypothesis Hcur : symb2str s !! cur = Some A.
  Hypothesis Hfresh : ~ known s (prime A).
  Let ns := sym_count s.
  Let s1 := snd (set_str s (prime A)).

  Lemma s1_eq : set_str s (prime A) = (ns, s1).
  Proof. unfold s1. rewrite (set_str_new _ _ Hw Hfresh). reflexivity. Qed.
  Lemma s1_wf : set_wf s1 /\ set_le s s1 /\ symb2str s1 !! ns = Some (prime A).
  Proof. destruct (set_str_spec _ _ _ _ Hw s1_eq) as (H1 & H2 & H3 & _). auto. Qed.
  Lemma s1_count : sym_count s1 = S ns.
  Proof. unfold s1. rewrite (set_str_new _ _ Hw Hfresh). cbn [snd]. unfold sym_count. cbn [symb2str]. rewrite app_length. cbn. unfold ns, sym_count. lia. Qed.

  Definition in_s (p : list nat) : Prop := Forall (fun v => v < sym_count s) p.
  Lemma in_s_named p : in_s p -> named s p (prod_names s p).
  Proof.
    induction 1 as [|v p Hv Hp IH]; [constructor|]. constructor; [|exact IH].
    destruct (lookup_lt_is_Some_2 (symb2str s) v Hv) as [nm Hn]. rewrite (sym_name_at _ _ _ Hn). exact Hn.
  Qed.
  Lemma names_s1 p : in_s p -> map (sym_name s1) p = prod_names s p.
  Proof. intros H. apply (prod_names_le s s1 p); [apply s1_wf|exact H]. Qed.

  Lemma intern_new o : o = s \/ o = s1 -> set_str o (prime A) = (ns, s1).
  Proof.
    intros [->| ->]; [exact s1_eq|]. destruct s1_wf as (H1 & _ & H3). apply H1 in H3. apply (set_str_known _ _ _ H3).
  Qed.
  Lemma intern_both o p : o = s \/ o = s1 -> in_s p -> set_syms o (map Foreign (prod_names s p ++ [prime A])) = (p ++ [ns], s1).
  Proof.
    intros Ho Hp. rewrite map_app, set_syms_app.
    assert (E : set_syms o (map Foreign (prod_names s p)) = (p, o)).
    { apply set_syms_known; [destruct Ho as [->| ->]; [exact Hw|apply s1_wf]|].
      pose proof (in_s_named _ Hp) as Hn. destruct Ho as [->| ->]; [exact Hn|].
      eapply named_le; [apply s1_wf|exact Hn]. }
    rewrite E. cbn [map set_syms set_symbol]. rewrite (intern_new o Ho). reflexivity.
  Qed.

  Variable out0 : gr.
  Definition mid (pre : list (list nat)) (op : lrop) : Prop :=
    lo_cur op = cur /\ lo_set op = s1 /\
    gr_order (lo_out op) = gr_order out0 ++ [ns] /\
    length (gr_prods (lo_out op)) <= S ns /\
    (gr_set (lo_out op) = s1 \/ bases_idx cur pre = [] /\ gr_set (lo_out op) = s) /\
    (forall i, tbl (lo_out op) i =
       if decide (i = cur) then opt_list (map (fun q => q ++ [ns]) (bases_idx cur pre))
       else if decide (i = ns) then opt_list (map (fun q => q ++ [ns]) (rests_idx cur pre))
       else tbl out0 i).

  Lemma strip_in_s p : in_s p -> in_s (strip_cur cur p).
  Proof. induction 1 as [|v p Hv Hp IH]; [constructor|]. cbn [strip_cur]. destruct (v =? cur); [exact IH|]. constructor; assumption. Qed.

  Lemma cur_ns : cur <> ns.
  Proof. apply lookup_lt_Some in Hcur. unfold ns, sym_count. lia. Qed.

  Lemma mid_step pre op q : in_s q -> mid pre op -> mid (pre ++ [q]) (remove_step ns op q)
    /\ lo_done (remove_step ns op q) = lo_done op /\ lo_direct (remove_step ns op q) = lo_direct op.
  Proof.
    intros Hq (Ec & Es & Eo & El & Eset & Et).
    assert (Ho : gr_set (lo_out op) = s \/ gr_set (lo_out op) = s1) by tauto.
    unfold remove_step. rewrite Ec, Es.
    assert (Hns : sym_name s1 ns = prime A) by (apply sym_name_at, s1_wf). rewrite Hns.
    assert (Hb : (match q with [] => true | x :: _ => negb (x =? cur) end) = negb (self_idx cur q)) by (destruct q; reflexivity).
    rewrite Hb. destruct (self_idx cur q) eqn:Eq; cbn [negb].
    - destruct q as [|x q]; [discriminate Eq|]. cbn [self_idx] in Eq. apply Nat.eqb_eq in Eq. subst x.
      cbn [tail]. inversion Hq as [|? ? _ Hq']; subst.
      assert (En : map (fun i => Foreign (sym_name (gr_set (lo_out op)) i)) q = map Foreign (prod_names s q)).
      { unfold prod_names. rewrite <- (map_map (sym_name (gr_set (lo_out op))) Foreign). f_equal.
        destruct Ho as [->| ->]; [reflexivity|]. apply names_s1; exact Hq'. }
      rewrite En.
      rewrite (set_syms_known s1 q (prod_names s q)); [|apply s1_wf|eapply named_le; [apply s1_wf|apply in_s_named; exact Hq']].
      assert (Hb' : bases_idx cur (pre ++ [cur :: q]) = bases_idx cur pre).
      { unfold bases_idx. rewrite List.filter_app. cbn [List.filter self_idx]. rewrite Nat.eqb_refl. cbn [negb]. apply app_nil_r. }
      assert (Hr' : rests_idx cur (pre ++ [cur :: q]) =
                    rests_idx cur pre ++ match strip_cur cur q with [] => [] | r => [r] end).
      { unfold rests_idx. rewrite List.filter_app, map_app, List.filter_app. f_equal. cbn [List.filter self_idx]. rewrite Nat.eqb_refl.
        cbn [map List.filter strip_cur]. rewrite Nat.eqb_refl. destruct (strip_cur cur q); reflexivity. }
      pose proof (strip_in_s _ Hq') as Hst.
      destruct (strip_cur cur q) as [|y r] eqn:Es'.
      + split; [|split; reflexivity]. unfold mid. cbn [lo_cur lo_set lo_out]. rewrite Hb', Hr', app_nil_r.
        split_and!; try assumption; reflexivity.
      + rewrite <- (map_map (sym_name s1) Foreign), (map_app (sym_name s1)). cbn [map].
        change (sym_name s1 y :: map (sym_name s1) r) with (map (sym_name s1) (y :: r)).
        rewrite (names_s1 _ Hst), Hns, (intern_both _ _ Ho Hst).
        split; [|split; reflexivity]. unfold mid. cbn [lo_cur lo_set lo_out].
        destruct (direct_add_rest {| gr_order := gr_order (lo_out op); gr_prods := gr_prods (lo_out op); gr_set := s1 |} ns ((y :: r) ++ [ns])) as [D1 D2].
        rewrite D1, D2, direct_add_len, Hb', Hr'. cbn [gr_order gr_prods gr_set].
        split_and!; [reflexivity|reflexivity|exact Eo|lia|left; reflexivity|].
        intros i. rewrite direct_add_tbl.
        change (tbl {| gr_order := gr_order (lo_out op); gr_prods := gr_prods (lo_out op); gr_set := s1 |}) with (tbl (lo_out op)).
        rewrite !Et. destruct (decide (i = ns)) as [->|Hi].
        * rewrite !(decide_False (P := ns = cur)) by (intros E; apply cur_ns; congruence).
          rewrite !(decide_True (P := ns = ns)) by reflexivity.
          rewrite opt_list_snoc, map_app. reflexivity.
        * reflexivity.
    - cbn [set_symbol]. rewrite (intern_new _ Ho).
      assert (Eb : bases_idx cur (pre ++ [q]) = bases_idx cur pre ++ [q]).
      { unfold bases_idx. rewrite List.filter_app. cbn [List.filter]. rewrite Eq. reflexivity. }
      assert (Er : rests_idx cur (pre ++ [q]) = rests_idx cur pre).
      { unfold rests_idx. rewrite List.filter_app, map_app, List.filter_app. cbn [List.filter]. rewrite Eq. cbn [map List.filter]. apply app_nil_r. }
      split; [|split; reflexivity]. unfold mid. cbn [lo_cur lo_set lo_out].
      destruct (direct_add_rest {| gr_order := gr_order (lo_out op); gr_prods := gr_prods (lo_out op); gr_set := s1 |} cur (q ++ [ns])) as [D1 D2].
      rewrite D1, D2, direct_add_len, Eb, Er. cbn [gr_order gr_prods gr_set].
      split_and!; [reflexivity|reflexivity|exact Eo| |left; reflexivity|].
      + apply lookup_lt_Some in Hcur. unfold ns, sym_count in *. lia.
      + intros i. rewrite direct_add_tbl.
        change (tbl {| gr_order := gr_order (lo_out op); gr_prods := gr_prods (lo_out op); gr_set := s1 |}) with (tbl (lo_out op)).
        rewrite !Et. destruct (decide (i = cur)) as [->|Hi]; [|reflexivity].
        rewrite (decide_True (P := cur = cur)) by reflexivity.
        rewrite opt_list_snoc, map_app. reflexivity.
  Qed.

  Lemma mid_loop qs : forall pre op, Forall in_s qs -> mid pre op -> mid (pre ++ qs) (fold_left (remove_step ns) qs op)
    /\ lo_done (fold_left (remove_step ns) qs op) = lo_done op /\ lo_direct (fold_left (remove_step ns) qs op) = lo_direct op.
  Proof.
    induction qs as [|q qs IH]; intros pre op Hq Hm.
    - rewrite app_nil_r. cbn [fold_left]. auto.
    - inversion Hq as [|? ? H1 H2]; subst. cbn [fold_left].
      destruct (mid_step pre op q H1 Hm) as (Hm1 & E1 & E2).
      destruct (IH (pre ++ [q]) _ H2 Hm1) as (Hm2 & E3 & E4). rewrite <- app_assoc in Hm2. cbn [app] in Hm2.
      split; [exact Hm2|]. split; congruence.
  Qed.
End Direct.

Lemma prime_ne A : prime A <> A.
Proof. unfold prime. intros E. apply (f_equal length) in E. rewrite app_length in E. cbn in E. lia. Qed.
Lemma prime_inj A B : prime A = prime B -> A = B.
Proof. unfold prime. apply (inj (fun x => x ++ L "'")). Qed.

Lemma assoc_app M K x : assoc_prods (M ++ K) x = match assoc_prods M x with Some ps => Some ps | None => assoc_prods K x end.
Proof. induction M as [|[k ps] M IH]; [reflexivity|]. cbn [app assoc_prods]. destruct (decide (k = x)); [reflexivity|exact IH]. Qed.

Section Split.
  Variable A : gostring.
  Variable s : set.
  Variable cur : nat.
  Hypothesis Hw : set_wf s.
  Hypothesis Hcur : symb2str s !! cur = Some A.

  Lemma eq_cur v : v < sym_count s -> (v =? cur) = bool_decide (sym_name s v = A).
  Proof.
    intros Hv. destruct (lookup_lt_is_Some_2 (symb2str s) v Hv) as [nm Hn]. rewrite (sym_name_at _ _ _ Hn).
    destruct (Nat.eqb_spec v cur) as [->|Hne].
    - rewrite bool_decide_true; [reflexivity|]. congruence.
    - rewrite bool_decide_false; [reflexivity|]. intros ->. apply Hne. apply (names_inj _ _ _ _ Hw Hn Hcur).
  Qed.
  Lemma self_names p : in_s s p -> self_idx cur p = starts A (prod_names s p).
  Proof. intros H. destruct H as [|v p Hv Hp]; [reflexivity|]. cbn [self_idx prod_names map starts]. apply eq_cur; exact Hv. Qed.
  Lemma strip_names p : in_s s p -> prod_names s (strip_cur cur p) = drop_self A (prod_names s p).
  Proof.
    induction 1 as [|v p Hv Hp IH]; [reflexivity|]. cbn [strip_cur prod_names map drop_self]. rewrite (eq_cur v Hv).
    destruct (bool_decide (sym_name s v = A)); [exact IH|reflexivity].
  Qed.
  Lemma bases_names ps : Forall (in_s s) ps -> map (prod_names s) (bases_idx cur ps) = bases A (map (prod_names s) ps).
  Proof.
    induction 1 as [|p ps Hp Hps IH]; [reflexivity|]. unfold bases_idx, bases in *. cbn [List.filter map].
    rewrite <- (self_names p Hp). destruct (self_idx cur p); cbn [negb]; [exact IH|]. cbn [map]. rewrite IH. reflexivity.
  Qed.
  Lemma rests_names ps : Forall (in_s s) ps -> map (prod_names s) (rests_idx cur ps) = rests A (map (prod_names s) ps).
  Proof.
    induction 1 as [|p ps Hp Hps IH]; [reflexivity|]. unfold rests_idx, rests in *. cbn [List.filter map].
    rewrite <- (self_names p Hp). destruct (self_idx cur p); [|exact IH]. cbn [map List.filter].
    rewrite <- (strip_names p Hp). destruct (strip_cur cur p) as [|y r]; [exact IH|].
    change (prod_names s (y :: r)) with (sym_name s y :: prod_names s r). cbn [map]. rewrite IH. reflexivity.
  Qed.
  Lemma bases_in ps : Forall (in_s s) ps -> Forall (in_s s) (bases_idx cur ps).
  Proof. intros H. unfold bases_idx. induction H as [|p ps Hp Hps IH]; cbn [List.filter]; [constructor|]. destruct (negb _); [constructor; assumption|exact IH]. Qed.
  Lemma rests_in ps : Forall (in_s s) ps -> Forall (in_s s) (rests_idx cur ps).
  Proof.
    intros H. unfold rests_idx. induction H as [|p ps Hp Hps IH]; cbn [List.filter]; [constructor|].
    destruct (self_idx cur p); [|exact IH]. cbn [map List.filter].
    pose proof (strip_in_s s cur _ Hp) as Hs. destruct (strip_cur cur p); [exact IH|]. constructor; assumption.
  Qed.
End Split.

Lemma remove_direct_ok op M A qs :
  R (lo_out op) (M ++ [(A, qs)]) -> lo_set op = gr_set (lo_out op) -> symb2str (lo_set op) !! lo_cur op = Some A ->
  A ∉ map fst M -> ~ known (lo_set op) (prime A) -> bases A qs <> [] ->
  exists op', remove_direct op = Ok op' /\
    R (lo_out op') (M ++ [(A, map (fun q => q ++ [prime A]) (bases A qs));
                          (prime A, map (fun q => q ++ [prime A]) (rests A qs) ++ [[]])]) /\
    lo_set op' = gr_set (lo_out op') /\ lo_set op' = snd (set_str (lo_set op) (prime A)) /\
    lo_done op' = lo_done op /\ lo_cur op' = lo_cur op.
Proof.
  intros HR Es Hcur HA Hfresh Hb.
  set (s := lo_set op) in *. set (cur := lo_cur op) in *. set (out := lo_out op) in *.
  assert (Hw : set_wf s) by (rewrite Es; apply (R_set _ _ HR)).
  pose proof (s1_eq A s Hw Hfresh) as E1. pose proof (s1_wf A s Hw Hfresh) as (W1 & L1 & N1).
  pose proof (s1_count A s Hw Hfresh) as C1.
  pose proof (R_get _ _ HR cur A) as Hg. rewrite <- Es in Hg. specialize (Hg Hcur).
  rewrite assoc_app, (proj2 (assoc_None M A) HA) in Hg. cbn [assoc_prods] in Hg. rewrite decide_True in Hg by reflexivity.
  destruct (tbl out cur) as [ips|] eqn:Et; [|discriminate Hg]. cbn [option_map] in Hg. injection Hg as Hg.
  pose proof (R_rng _ _ HR cur ips Et) as Hrng. rewrite <- Es in Hrng.
  assert (Hlk : gr_prods out !! cur = Some (Some ips)).
  { unfold tbl in Et. destruct (gr_prods out !! cur) as [o|]; [|discriminate Et]. cbn in Et. subst o. reflexivity. }
  pose proof (R_len _ _ HR) as Hlen. rewrite <- Es in Hlen.
  assert (Hnone : tbl out (sym_count s) = None).
  { unfold tbl. rewrite lookup_ge_None_2 by exact Hlen. reflexivity. }
  unfold remove_direct. fold s cur out.
  rewrite (sym_name_at _ _ _ Hcur). change (A ++ L "'") with (prime A). rewrite E1.
  change (default None (gr_prods out !! sym_count s)) with (tbl out (sym_count s)). rewrite Hnone, Hlk.
  change (default [] (Some ips)) with ips.
  set (s1 := snd (set_str s (prime A))) in *. set (ns := sym_count s) in *.
  set (op0 := LrOp (Gr (gr_order out ++ [ns]) (<[cur := None]> (gr_prods out)) (gr_set out)) (lo_done op) cur (lo_direct op) s1).
  assert (Hm0 : mid A s cur out [] op0).
  { unfold mid, op0. cbn [lo_cur lo_set lo_out gr_order gr_prods gr_set].
    split_and!; try reflexivity.
    - rewrite insert_length. fold ns. lia.
    - right. split; [reflexivity|]. symmetry; exact Es.
    - intros i. unfold tbl at 1. cbn [gr_prods]. destruct (decide (i = cur)) as [->|Hi].
      + rewrite list_lookup_insert by (apply lookup_lt_Some in Hlk; exact Hlk). reflexivity.
      + rewrite list_lookup_insert_ne by congruence. destruct (decide (i = sym_count s)) as [->|Hi'].
        * exact Hnone.
        * reflexivity. }
  destruct (mid_loop A s cur Hw Hcur Hfresh out ips [] op0 Hrng Hm0) as (Hm & Hd & Hdir).
  cbn [app] in Hm. fold ns in Hm, Hd, Hdir.
  set (op1 := fold_left (remove_step ns) ips op0) in *.
  destruct Hm as (Mc & Ms & Mo & Ml & Mset & Mt). fold ns s1 in Ms, Mo, Ml, Mset, Mt.
  pose proof (bases_names A s cur Hw Hcur ips Hrng) as Hbn. rewrite Hg in Hbn.
  pose proof (rests_names A s cur Hw Hcur ips Hrng) as Hrn. rewrite Hg in Hrn.
  pose proof (bases_in s cur ips Hrng) as Hbi. pose proof (rests_in s cur ips Hrng) as Hri.
  assert (Hset : gr_set (lo_out op1) = s1).
  { destruct Mset as [H|[H _]]; [exact H|]. destruct Hb. rewrite <- Hbn, H. reflexivity. }
  eexists. split; [reflexivity|]. cbn [lo_out lo_set lo_done lo_cur].
  destruct (direct_add_rest (lo_out op1) ns []) as [D1 D2].
  split; [|split; [rewrite D2, Hset; exact Ms|split; [exact Ms|split; [exact Hd|reflexivity]]]].
  assert (Hcn : cur <> ns) by (apply (cur_ns A s cur Hcur)).
  assert (Hnames : forall p, in_s s p -> prod_names s1 (p ++ [ns]) = prod_names s p ++ [prime A]).
  { intros p Hp. unfold prod_names. rewrite map_app. cbn [map]. rewrite (sym_name_at _ _ _ N1). f_equal.
    apply (names_s1 A s Hw Hfresh p Hp). }
  assert (Hmaps : forall ps, Forall (in_s s) ps ->
    map (prod_names s1) (map (fun q => q ++ [ns]) ps) = map (fun q => q ++ [prime A]) (map (prod_names s) ps)).
  { intros ps Hps. rewrite !map_map. induction Hps as [|p ps Hp Hps IH]; [reflexivity|]. cbn [map]. rewrite IH, (Hnames p Hp). reflexivity. }
  assert (Hins : forall ps, Forall (in_s s) ps -> in_range s1 (map (fun q => q ++ [ns]) ps)).
  { intros ps Hps. induction Hps as [|p ps Hp Hps IH]; [constructor|]. cbn [map]. constructor; [|exact IH].
    apply Forall_app. split; [|constructor; [rewrite C1; unfold ns; lia|constructor]].
    eapply Forall_impl; [exact Hp|]. cbn beta. intros v Hv. rewrite C1. lia. }
  assert (Hbne : bases_idx cur ips <> []) by (intros E; apply Hb; rewrite <- Hbn, E; reflexivity).
  assert (Ht : forall i, tbl (direct_add (lo_out op1) ns []) i =
     if decide (i = cur) then Some (map (fun q => q ++ [ns]) (bases_idx cur ips))
     else if decide (i = ns) then Some (map (fun q => q ++ [ns]) (rests_idx cur ips) ++ [[]])
     else tbl out i).
  { intros i. rewrite direct_add_tbl, !Mt. destruct (decide (i = ns)) as [->|Hi].
    - rewrite !(decide_False (P := ns = cur)) by congruence. rewrite ?(decide_True (P := ns = ns)) by reflexivity.
      destruct (map _ (rests_idx cur ips)); reflexivity.
    - destruct (decide (i = cur)); [|reflexivity]. destruct (bases_idx cur ips); [contradiction|reflexivity]. }
  constructor; rewrite ?D2, ?Hset.
  - exact W1.
  - rewrite direct_add_len, C1. fold ns. lia.
  - rewrite D1, Mo. pose proof (R_ord _ _ HR) as Ho. rewrite !map_app in Ho. cbn [map fst] in Ho.
    rewrite !map_app. cbn [map fst]. rewrite N1.
    change [Some A; Some (prime A)] with ([Some A] ++ [Some (prime A)]). rewrite app_assoc. f_equal.
    rewrite <- Ho. apply map_ext_in. intros i Hi. apply elem_of_list_In in Hi.
    assert (Hin : exists nm, symb2str s !! i = Some nm).
    { assert (Hx : symb2str (gr_set out) !! i ∈ map (fun i => symb2str (gr_set out) !! i) (gr_order out)).
      { apply elem_of_list_fmap. exists i. split; [reflexivity|exact Hi]. }
      rewrite Ho in Hx. apply elem_of_app in Hx as [Hx|Hx].
      - apply elem_of_list_fmap in Hx as (kp & Hx & _). rewrite <- Es in Hx. eexists; exact Hx.
      - apply elem_of_list_singleton in Hx. rewrite <- Es in Hx. eexists; exact Hx. }
    destruct Hin as [nm Hnm]. rewrite <- Es. rewrite Hnm. apply (set_le_lookup s s1 _ _ L1 Hnm).
  - intros i ps. rewrite Ht. destruct (decide (i = cur)).
    + intros [= <-]. apply Hins; exact Hbi.
    + destruct (decide (i = ns)).
      * intros [= <-]. apply Forall_app. split; [apply Hins; exact Hri|]. constructor; constructor.
      * intros H. pose proof (R_rng _ _ HR i ps H) as H'. rewrite <- Es in H'. apply (in_range_le s s1 ps L1 H').
  - intros i nm Hi. rewrite Ht, assoc_app. cbn [assoc_prods].
    destruct (decide (i = cur)) as [->|Hic].
    + assert (nm = A) as -> by (pose proof (set_le_lookup s s1 _ _ L1 Hcur); congruence).
      rewrite (proj2 (assoc_None M A) HA), (decide_True (P := A = A)) by reflexivity.
      cbn [option_map]. f_equal. rewrite (Hmaps _ Hbi), Hbn. reflexivity.
    + destruct (decide (i = ns)) as [->|Hin].
      * assert (nm = prime A) as -> by congruence.
        assert (HM : assoc_prods M (prime A) = None).
        { apply assoc_None. intros Hin. apply Hfresh.
          destruct (R_known _ _ (prime A) HR) as (j & Hj & _).
          - rewrite map_app. apply elem_of_app. left; exact Hin.
          - rewrite <- Es in Hj. apply Hw in Hj. eexists; exact Hj. }
        rewrite HM, (decide_False (P := A = prime A)) by (intros E; apply (prime_ne A); congruence).
        rewrite (decide_True (P := prime A = prime A)) by reflexivity.
        cbn [option_map]. f_equal. rewrite map_app, (Hmaps _ Hri), Hrn. reflexivity.
      * assert (His : symb2str s !! i = Some nm).
        { destruct (lookup_lt_is_Some_2 (symb2str s) i) as [nm' Hnm'].
          - apply lookup_lt_Some in Hi. unfold sym_count in *. lia.
          - pose proof (set_le_lookup s s1 _ _ L1 Hnm'). congruence. }
        assert (HnA : A <> nm) by (intros <-; apply Hic; apply (names_inj _ _ _ _ Hw His Hcur)).
        assert (HnP : prime A <> nm) by (intros <-; apply Hin; apply (names_inj _ _ _ _ W1 Hi N1)).
        rewrite (decide_False (P := A = nm)), (decide_False (P := prime A = nm)) by assumption.
        pose proof (R_get _ _ HR i nm) as G. rewrite <- Es in G. specialize (G His).
        rewrite assoc_app in G. cbn [assoc_prods] in G. rewrite (decide_False (P := A = nm)) in G by exact HnA.
        rewrite <- G. destruct (tbl out i) as [ps|] eqn:Eti; [|reflexivity]. cbn [option_map]. f_equal.
        apply prods_names_le; [exact L1|]. pose proof (R_rng _ _ HR i ps Eti) as H'. rewrite <- Es in H'. exact H'.
Qed.
