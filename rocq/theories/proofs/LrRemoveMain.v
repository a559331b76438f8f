(** RemoveLeftRecursion as a whole. *)
From Coq Require Import String Lia.
From Verif.model Require Import LrRemove.
From Verif.spec Require Import LrSpec Outcome.
From Verif.proofs Require Import Fuel GrammarProofs LrRemoveProofs LrRemoveDirect SetProofs.
Local Open Scope nat_scope.
Local Open Scope list_scope.

Lemma une_inv g dn p ps qs : unfolds_each g dn [] (p :: ps) qs ->
  exists q1 q2, qs = q1 ++ q2 /\ unfolds g dn p q1 /\ unfolds_each g dn [] ps q2.
Proof.
  intros H. inversion H as [|t p' ps' q1 q2 H1 H2]; subst. rewrite app_nil_r in H1. exists q1, q2. auto.
Qed.
Lemma une_nil_inv g dn qs : unfolds_each g dn [] [] qs -> qs = [].
Proof. intros H. inversion H; reflexivity. Qed.

Definition top_step (n : nat) (g : grammar) (o : lrop) (p : list gostring) : res lrop :=
  let '(vs, s2) := set_syms (lo_set o) (map Foreign p) in
  safe_add n g (LrOp (lo_out o) (lo_done o) (lo_cur o) (lo_direct o) s2) vs.
Lemma top_step_mono g n m o p : n <= m -> rle (top_step n g o p) (top_step m g o p).
Proof. intros H. unfold top_step. destruct (set_syms _ _). apply safe_add_mono; exact H. Qed.

Section Loop.
  Variable g : grammar.
  Hypothesis Hne : forall B ps, g_prods g B = Some ps -> ps <> [].

  Lemma inv_grow A dn op M p : inv g A dn op M ->
    inv g A dn (LrOp (lo_out op) (lo_done op) (lo_cur op) (lo_direct op) (intern (lo_set op) p)) M.
  Proof.
    intros I. destruct (intern_wf (lo_set op) p (i_wf _ _ _ _ _ I)) as [W L].
    constructor; cbn [lo_set lo_out lo_done lo_cur].
    - exact W.
    - apply (i_R _ _ _ _ _ I).
    - apply (set_le_lookup _ _ _ _ L (i_cur _ _ _ _ _ I)).
    - apply (done_grow dn _ (lo_set op)); [apply (i_wf _ _ _ _ _ I)|exact W|exact L| |apply (i_done _ _ _ _ _ I)].
      intros B HB. eapply known_le; [apply (R_set _ _ (i_R _ _ _ _ _ I))|apply (i_wf _ _ _ _ _ I)|apply (i_le _ _ _ _ _ I)|].
      apply (i_dn _ _ _ _ _ I); exact HB.
    - eapply set_le_trans; [apply (i_le _ _ _ _ _ I)|exact L].
    - apply (i_dn _ _ _ _ _ I).
    - apply (i_leads _ _ _ _ _ I).
  Qed.

  Lemma prods_loop A dn ps : forall qs op M, unfolds_each g dn [] ps qs -> inv g A dn op M ->
    intern (gr_set (lo_out op)) [A] = lo_set op ->
    exists n op', rfold (top_step n g) ps op = Ok op' /\ inv g A dn op' (adds A M qs) /\
      intern (gr_set (lo_out op')) [A] = lo_set op' /\ (ps <> [] -> gr_set (lo_out op') = lo_set op') /\
      lo_set op' = intern (lo_set op) (List.concat ps) /\
      lo_done op' = lo_done op /\ lo_cur op' = lo_cur op /\
      lo_direct op' = lo_direct op || existsb (starts A) qs.
  Proof.
    induction ps as [|p ps IH]; intros qs op M HU I Hsync.
    - apply une_nil_inv in HU. subst qs. exists 0, op. split; [reflexivity|]. split; [exact I|]. split; [exact Hsync|].
      split; [intros H; destruct (H eq_refl)|]. split; [reflexivity|]. split; [reflexivity|]. split; [reflexivity|].
      cbn [existsb]. rewrite orb_false_r. reflexivity.
    - apply une_inv in HU as (q1 & q2 & -> & U1 & U2).
      destruct (set_syms (lo_set op) (map Foreign p)) as [vs s2] eqn:E.
      destruct (set_syms_named _ _ _ _ (i_wf _ _ _ _ _ I) E) as [Hn Hs2]. subst s2.
      pose proof (inv_grow A dn op M p I) as I'.
      set (op0 := LrOp (lo_out op) (lo_done op) (lo_cur op) (lo_direct op) (intern (lo_set op) p)) in *.
      destruct (proj1 (safe_add_unfolds g A dn Hne) p q1 U1 op0 M vs I') as (n1 & op1 & R1 & H1).
      { exact Hn. }
      { unfold op0. cbn [lo_out lo_set]. change (A :: p) with ([A] ++ p). rewrite intern_app, Hsync. reflexivity. }
      destruct H1 as [I1 S1 O1 D1 C1 B1]. unfold op0 in S1, O1, D1, C1, B1. cbn [lo_set lo_done lo_cur lo_direct] in S1, O1, D1, C1, B1.
      destruct (IH q2 op1 (adds A M q1) U2 I1) as (n2 & op2 & R2 & I2 & Y2 & O2 & S2 & D2 & C2 & B2).
      { rewrite O1, S1. apply intern_known. intros x Hx. apply elem_of_list_singleton in Hx. subst x.
        pose proof (i_cur _ _ _ _ _ I') as Hc. apply (i_wf _ _ _ _ _ I') in Hc. eexists; exact Hc. }
      exists (Nat.max n1 n2), op2. split_and!.
      + cbn [rfold]. assert (F : top_step (Nat.max n1 n2) g op p = Ok op1).
        { unfold top_step. rewrite E. fold op0. eapply rle_Ok; [apply (safe_add_mono g n1); lia|exact R1]. }
        rewrite F. cbn [rbind]. eapply rle_Ok; [|exact R2]. apply rle_rfold. intros. apply top_step_mono. lia.
      + rewrite adds_app. exact I2.
      + exact Y2.
      + intros _. destruct ps as [|p' ps].
        * cbn [rfold] in R2. injection R2 as ->. rewrite O1, S1. reflexivity.
        * apply O2. discriminate.
      + rewrite S2, S1. cbn [List.concat]. rewrite intern_app. reflexivity.
      + congruence.
      + congruence.
      + rewrite B2, B1, existsb_app, orb_assoc. reflexivity.
  Qed.

  Hypothesis Hwf : g_wf g.
  Hypothesis Hfresh : forall A, A ∈ g_nts g -> ~ mentions g (prime A).

  Record between (dn : list gostring) (op : lrop) (M : amap) : Prop := {
    b_R : R (lo_out op) M;
    b_set : lo_set op = gr_set (lo_out op);
    b_done : done_ok dn (lo_done op) (lo_set op);
    b_names : forall x, known (lo_set op) x -> mentions g x \/ exists B, B ∈ dn /\ x = prime B;
    b_dn : forall B, B ∈ dn -> known (lo_set op) B /\ B ∈ g_nts g;
    b_leads : forall B ps lead x, B ∈ dn -> g_prods g B = Some ps -> lead ∈ ps -> x ∈ lead -> known (lo_set op) x;
    b_keys : forall x, x ∈ map fst M -> x ∈ dn \/ exists B, B ∈ dn /\ x = prime B;
  }.

  Lemma adds_new A M qs : A ∉ map fst M -> qs <> [] -> adds A M qs = M ++ [(A, qs)].
  Proof.
    intros HA. destruct qs as [|q qs]; [intros H; destruct (H eq_refl)|]. intros _.
    assert (E : am_add M A q = M ++ [(A, [q])]).
    { induction M as [|[k ps] M IH]; [reflexivity|]. cbn [map fst] in HA. apply not_elem_of_cons in HA as [H1 H2].
      cbn [am_add]. rewrite decide_False by congruence. rewrite IH by exact H2. reflexivity. }
    change (adds A M (q :: qs)) with (adds A (am_add M A q) qs). rewrite E. change (q :: qs) with ([q] ++ qs). generalize [q].
    induction qs as [|r qs IH]; intros l; [rewrite app_nil_r; reflexivity|].
    change (adds A (M ++ [(A, l)]) (r :: qs)) with (adds A (am_add (M ++ [(A, l)]) A r) qs).
    assert (E2 : am_add (M ++ [(A, l)]) A r = M ++ [(A, l ++ [r])]).
    { clear E IH. induction M as [|[k ps] M IH].
      - cbn [app am_add]. rewrite decide_True by reflexivity. reflexivity.
      - cbn [map fst] in HA. apply not_elem_of_cons in HA as [H1 H2]. cbn [app am_add]. rewrite decide_False by congruence.
        rewrite IH by exact H2. reflexivity. }
    rewrite E2, IH, <- app_assoc. reflexivity.
  Qed.

  Lemma unfolds_nonempty dn :
    (forall p qs, unfolds g dn p qs -> qs <> []) /\
    (forall t ps qs, unfolds_each g dn t ps qs -> ps <> [] -> qs <> []).
  Proof.
    apply (unfolds_ind2 g dn (fun p qs => qs <> []) (fun t ps qs => ps <> [] -> qs <> [])).
    - discriminate.
    - intros B t ps qs _ Hps _ IH. apply IH. apply (Hne _ _ Hps).
    - intros t H. destruct (H eq_refl).
    - intros t p ps qs rs _ IH _ _ _ E. apply app_eq_nil in E as [E _]. exact (IH E).
  Qed.

  Lemma mark_done_ok dn done s i A : done_ok dn done s -> set_wf s -> symb2str s !! i = Some A ->
    done_ok (dn ++ [A]) (mark_done done i) s.
  Proof.
    intros H Hw Hi j. unfold mark_done.
    set (d := if length done <=? i then done ++ replicate (1 + i + length done) false else done).
    assert (Hd : forall k, default false (d !! k) = default false (done !! k)).
    { intros k. subst d. destruct (length done <=? i); [|reflexivity].
      destruct (decide (k < length done)) as [Hk|Hk].
      - rewrite lookup_app_l by exact Hk. reflexivity.
      - rewrite lookup_app_r by lia. rewrite (lookup_ge_None_2 done) by lia. cbn [default].
        destruct (replicate _ false !! (k - length done)) eqn:E; [|reflexivity].
        apply lookup_replicate in E as [-> _]. reflexivity. }
    assert (Hl : i < length d).
    { subst d. destruct (Nat.leb_spec (length done) i); [|lia]. rewrite app_length, replicate_length. lia. }
    destruct (decide (j = i)) as [->|Hj].
    - rewrite list_lookup_insert by exact Hl. split; [|reflexivity].
      intros _. exists A. split; [exact Hi|]. apply elem_of_app. right. left.
    - rewrite list_lookup_insert_ne by congruence. rewrite Hd, (H j). split.
      + intros (nm & Hn & Hin). exists nm. split; [exact Hn|]. apply elem_of_app. left; exact Hin.
      + intros (nm & Hn & Hin). exists nm. split; [exact Hn|]. apply elem_of_app in Hin as [Hin|Hin]; [exact Hin|].
        apply elem_of_list_singleton in Hin. subst nm. destruct (Hj (names_inj _ _ _ _ Hw Hn Hi)).
  Qed.

  (** What the treatment of one non-terminal adds to the map. *)
  Definition entry (A : gostring) (qs : list (list gostring)) : amap :=
    if existsb (starts A) qs
    then [(A, map (fun q => q ++ [prime A]) (bases A qs)); (prime A, map (fun q => q ++ [prime A]) (rests A qs) ++ [[]])]
    else [(A, qs)].

  Lemma intern_names s p x : set_wf s -> known (intern s p) x -> known s x \/ x ∈ p.
  Proof.
    revert s. induction p as [|y p IH]; intros s Hw H; [left; exact H|]. rewrite intern_cons in H.
    destruct (set_str s y) as [v s'] eqn:E. cbn [snd] in H.
    destruct (set_str_spec _ _ _ _ Hw E) as (W & _).
    destruct (IH s' W H) as [Hk|Hk]; [|right; right; exact Hk].
    unfold set_str in E. destruct (str2sym s !! y) as [i|] eqn:Ey.
    - injection E as _ <-. left; exact Hk.
    - injection E as _ <-. destruct Hk as [k Hk]. cbn [str2sym] in Hk. destruct (decide (y = x)) as [->|Hyx]; [right; left|].
      rewrite lookup_insert_ne in Hk by exact Hyx. left. eexists; exact Hk.
  Qed.

  Lemma nt_step A dn ps qs op M : between dn op M -> A ∈ g_nts g -> A ∉ dn ->
    g_prods g A = Some ps -> unfolds_each g dn [] ps qs -> (existsb (starts A) qs = true -> bases A qs <> []) ->
    exists n op', lr_nt n g op A = Ok op' /\ between (dn ++ [A]) op' (M ++ entry A qs).
  Proof.
    intros HB HA Hdn Hps HU Hbase.
    pose proof (R_set _ _ (b_R _ _ _ HB)) as Hw0. rewrite <- (b_set _ _ _ HB) in Hw0.
    destruct (set_str (lo_set op) A) as [cur s1] eqn:E1.
    destruct (set_str_spec _ _ _ _ Hw0 E1) as (W1 & L1 & N1 & _).
    assert (Hs1 : s1 = intern (lo_set op) [A]) by (rewrite intern_cons, E1; reflexivity).
    set (op0 := LrOp (lo_out op) (lo_done op) cur false s1).
    assert (I0 : inv g A dn op0 M).
    { constructor; unfold op0; cbn [lo_set lo_out lo_done lo_cur].
      - exact W1.
      - apply (b_R _ _ _ HB).
      - exact N1.
      - apply (done_grow dn _ (lo_set op)); [exact Hw0|exact W1|exact L1| |apply (b_done _ _ _ HB)].
        intros B H. apply (b_dn _ _ _ HB B H).
      - rewrite <- (b_set _ _ _ HB). exact L1.
      - intros B H. rewrite <- (b_set _ _ _ HB). apply (b_dn _ _ _ HB B H).
      - intros B ps' lead x H1 H2 H3 H4. rewrite <- (b_set _ _ _ HB). apply (b_leads _ _ _ HB B ps' lead x H1 H2 H3 H4). }
    destruct (prods_loop A dn ps qs op0 M HU I0) as (n & op1 & R1 & I1 & Y1 & O1 & S1 & D1 & C1 & B1).
    { unfold op0. cbn [lo_out lo_set]. rewrite <- (b_set _ _ _ HB). symmetry; exact Hs1. }
    specialize (O1 (Hne _ _ Hps)). unfold op0 in S1, D1, C1, B1. cbn [lo_set lo_done lo_cur lo_direct orb] in S1, D1, C1, B1.
    rewrite Hs1, <- intern_app in S1. cbn [app] in S1.
    assert (HM : A ∉ map fst M).
    { intros H. destruct (b_keys _ _ _ HB A H) as [H'|(B & HBd & ->)]; [contradiction|].
      apply (Hfresh B); [apply (b_dn _ _ _ HB B HBd)|]. left. exact HA. }
    assert (Hq : qs <> []) by (apply (proj2 (unfolds_nonempty dn) [] ps qs HU (Hne _ _ Hps))).
    pose proof (i_R _ _ _ _ _ I1) as HR1. rewrite (adds_new A M qs HM Hq) in HR1.
    pose proof (i_wf _ _ _ _ _ I1) as Hw1.
    assert (Hnames : forall x, known (lo_set op1) x -> mentions g x \/ exists B, B ∈ dn /\ x = prime B).
    { intros x Hx. rewrite S1 in Hx. apply intern_names in Hx as [Hx|Hx]; [apply (b_names _ _ _ HB x Hx)| |exact Hw0].
      left. apply elem_of_cons in Hx as [->|Hx]; [left; exact HA|]. right.
      apply elem_of_list_In, in_concat in Hx as (p & Hp & Hx). exists A, ps, p.
      split; [exact Hps|]. split; apply elem_of_list_In; assumption. }
    assert (Hnf : ~ known (lo_set op1) (prime A)).
    { intros H. destruct (Hnames _ H) as [H'|(B & H1 & H2)]; [apply (Hfresh A HA H')|].
      apply prime_inj in H2. subst B. contradiction. }
    (* after the optional removal *)
    assert (Hrem : exists op2, (if lo_direct op1 then remove_direct op1 else Ok op1) = Ok op2 /\
      R (lo_out op2) (M ++ entry A qs) /\ lo_set op2 = gr_set (lo_out op2) /\ lo_done op2 = lo_done op1 /\
      lo_cur op2 = lo_cur op1 /\ set_wf (lo_set op2) /\ set_le (lo_set op1) (lo_set op2) /\
      (forall x, known (lo_set op2) x -> known (lo_set op1) x \/ x = prime A)).
    { rewrite B1. unfold entry. destruct (existsb (starts A) qs).
      - destruct (remove_direct_ok op1 M A qs HR1 (eq_sym O1) (i_cur _ _ _ _ _ I1) HM Hnf (Hbase eq_refl))
          as (op2 & E2 & HR2 & Hs2 & Hs2' & Hd2 & Hc2).
        exists op2. split; [exact E2|]. split; [exact HR2|]. split; [exact Hs2|]. split; [exact Hd2|]. split; [exact Hc2|].
        pose proof (intern_wf (lo_set op1) [prime A] Hw1) as [W L].
        assert (Ei : lo_set op2 = intern (lo_set op1) [prime A]).
        { rewrite intern_cons. exact Hs2'. }
        rewrite Ei. split; [exact W|]. split; [exact L|]. intros x Hx.
        apply intern_names in Hx as [Hx|Hx]; [left; exact Hx| |exact Hw1].
        right. apply elem_of_list_singleton in Hx. exact Hx.
      - exists op1. split; [reflexivity|]. split; [exact HR1|]. split; [symmetry; exact O1|]. split; [reflexivity|].
        split; [reflexivity|]. split; [exact Hw1|]. split; [apply set_le_refl|]. auto. }
    destruct Hrem as (op2 & E2 & HR2 & Hs2 & Hd2 & Hc2 & Hw2 & Hl2 & Hn2).
    exists n. eexists. split.
    { unfold lr_nt. rewrite E1, Hps. fold op0. change (rfold _ ps op0) with (rfold (top_step n g) ps op0).
      rewrite R1. cbn [rbind]. rewrite E2. cbn [rbind]. reflexivity. }
    assert (Hle02 : set_le (lo_set op) (lo_set op2)).
    { eapply set_le_trans; [exact L1|]. rewrite Hs1. eapply set_le_trans; [|exact Hl2]. rewrite S1.
      change (A :: List.concat ps) with ([A] ++ List.concat ps). rewrite intern_app. apply intern_wf.
      rewrite <- Hs1. exact W1. }
    assert (Hcur2 : symb2str (lo_set op2) !! lo_cur op2 = Some A).
    { rewrite Hc2. apply (set_le_lookup _ _ _ _ Hl2). apply (i_cur _ _ _ _ _ I1). }
    constructor; cbn [lo_out lo_set lo_done].
    - exact HR2.
    - exact Hs2.
    - apply mark_done_ok; [|exact Hw2|exact Hcur2]. rewrite Hd2.
      apply (done_grow dn _ (lo_set op1)); [exact Hw1|exact Hw2|exact Hl2| |apply (i_done _ _ _ _ _ I1)].
      intros B H. rewrite <- O1. apply (i_dn _ _ _ _ _ I1 B H).
    - intros x Hx. destruct (Hn2 x Hx) as [Hx'| ->].
      + destruct (Hnames x Hx') as [H|(B & H1 & H2)]; [left; exact H|].
        right. exists B. split; [apply elem_of_app; left; exact H1|exact H2].
      + right. exists A. split; [apply elem_of_app; right; left|reflexivity].
    - intros B H. apply elem_of_app in H as [H|H].
      + destruct (b_dn _ _ _ HB B H) as [H1 H2]. split; [|exact H2]. apply (known_le _ _ _ Hw0 Hw2 Hle02 H1).
      + apply elem_of_list_singleton in H. subst B. split; [|exact HA]. apply Hw2 in Hcur2. eexists; exact Hcur2.
    - intros B ps' lead x H Hps' Hl Hx. apply elem_of_app in H as [H|H].
      + apply (known_le _ _ _ Hw0 Hw2 Hle02). apply (b_leads _ _ _ HB B ps' lead x H Hps' Hl Hx).
      + apply elem_of_list_singleton in H. subst B. assert (ps' = ps) as -> by congruence.
        apply (known_le _ _ _ Hw1 Hw2 Hl2). rewrite S1. apply intern_in; [exact Hw0|]. right.
        apply elem_of_list_In, in_concat. exists lead. split; apply elem_of_list_In; assumption.
    - intros x Hx. rewrite map_app in Hx. apply elem_of_app in Hx as [Hx|Hx].
      + destruct (b_keys _ _ _ HB x Hx) as [H|(B & H1 & H2)]; [left; apply elem_of_app; left; exact H|].
        right. exists B. split; [apply elem_of_app; left; exact H1|exact H2].
      + unfold entry in Hx. destruct (existsb (starts A) qs); cbn [map fst] in Hx.
        * apply elem_of_cons in Hx as [->|Hx]; [left; apply elem_of_app; right; left|].
          apply elem_of_list_singleton in Hx. subst x. right. exists A. split; [apply elem_of_app; right; left|reflexivity].
        * apply elem_of_list_singleton in Hx. subst x. left; apply elem_of_app; right; left.
  Qed.

  Lemma existsb_starts A qs : existsb (starts A) qs = true <-> exists t, A :: t ∈ qs.
  Proof.
    rewrite existsb_exists. split.
    - intros (q & Hq & Hs). destruct q as [|x t]; [discriminate Hs|]. cbn [starts] in Hs. apply bool_decide_eq_true in Hs. subst x.
      exists t. apply elem_of_list_In. exact Hq.
    - intros [t Ht]. exists (A :: t). split; [apply elem_of_list_In; exact Ht|]. cbn [starts]. apply bool_decide_eq_true. reflexivity.
  Qed.

  Lemma all_nts dn nts M : eliminates g dn nts M -> forall op M0, between dn op M0 -> NoDup nts ->
    (forall A, A ∈ nts -> A ∈ g_nts g /\ A ∉ dn) ->
    exists n op', rfold (lr_nt n g) nts op = Ok op' /\ R (lo_out op') (M0 ++ M).
  Proof.
    induction 1 as [dn|dn A nts ps qs M Hps HU Hno HE IH|dn A nts ps qs t M Hps HU Ht Hb HE IH]; intros op M0 HB ND Hin.
    - exists 0, op. split; [reflexivity|]. rewrite app_nil_r. apply (b_R _ _ _ HB).
    - apply NoDup_cons in ND as [N1 N2]. destruct (Hin A) as [HA HAd]; [left|].
      assert (Ef : existsb (starts A) qs = false).
      { destruct (existsb (starts A) qs) eqn:E; [|reflexivity]. apply existsb_starts in E as [t Ht]. destruct (Hno t Ht). }
      destruct (nt_step A dn ps qs op M0 HB HA HAd Hps HU) as (n1 & op1 & R1 & HB1).
      { rewrite Ef. discriminate. }
      destruct (IH op1 _ HB1 N2) as (n2 & op2 & R2 & HR).
      { intros B HBn. destruct (Hin B) as [H1 H2]; [right; exact HBn|]. split; [exact H1|].
        intros H. apply elem_of_app in H as [H|H]; [contradiction|]. apply elem_of_list_singleton in H. subst B. contradiction. }
      exists (Nat.max n1 n2), op2. split.
      + cbn [rfold]. rewrite (rle_Ok _ _ _ (lr_nt_mono g n1 (Nat.max n1 n2) op A ltac:(lia)) R1). cbn [rbind].
        eapply rle_Ok; [|exact R2]. apply rle_rfold. intros. apply lr_nt_mono. lia.
      + unfold entry in HR. rewrite Ef in HR. rewrite <- app_assoc in HR. exact HR.
    - apply NoDup_cons in ND as [N1 N2]. destruct (Hin A) as [HA HAd]; [left|].
      assert (Ef : existsb (starts A) qs = true) by (apply existsb_starts; eexists; exact Ht).
      destruct (nt_step A dn ps qs op M0 HB HA HAd Hps HU) as (n1 & op1 & R1 & HB1).
      { intros _. exact Hb. }
      destruct (IH op1 _ HB1 N2) as (n2 & op2 & R2 & HR).
      { intros B HBn. destruct (Hin B) as [H1 H2]; [right; exact HBn|]. split; [exact H1|].
        intros H. apply elem_of_app in H as [H|H]; [contradiction|]. apply elem_of_list_singleton in H. subst B. contradiction. }
      exists (Nat.max n1 n2), op2. split.
      + cbn [rfold]. rewrite (rle_Ok _ _ _ (lr_nt_mono g n1 (Nat.max n1 n2) op A ltac:(lia)) R1). cbn [rbind].
        eapply rle_Ok; [|exact R2]. apply rle_rfold. intros. apply lr_nt_mono. lia.
      + unfold entry in HR. rewrite Ef in HR. rewrite <- app_assoc in HR. exact HR.
  Qed.
End Loop.

Lemma rlr_eliminates g M : lr_tame g -> eliminates g [] (g_nts g) M ->
  exists G, returns (fun n => remove_left_recursion n g) G /\ R G M.
Proof.
  intros (Hwf & ND & Hne & Hfresh) HE.
  destruct (all_nts g Hne Hfresh [] (g_nts g) M HE
    (LrOp gr_empty (replicate (length (g_nts g)) false) 0 false set_new) []) as (n & op & E & HR).
  - constructor; cbn [lo_out lo_set lo_done].
    + apply gr_empty_R.
    + reflexivity.
    + intros i. split.
      * intros H. exfalso. destruct (replicate (length (g_nts g)) false !! i) eqn:Ei; [|discriminate H].
        apply lookup_replicate in Ei as [-> _]. discriminate H.
      * intros (nm & _ & H). inversion H.
    + intros x [i Hi]. cbn in Hi. rewrite lookup_empty in Hi. discriminate Hi.
    + intros B H. inversion H.
    + intros B ps lead x H. inversion H.
    + intros x H. inversion H.
  - exact ND.
  - intros A HA. split; [exact HA|]. intros H; inversion H.
  - exists (lo_out op). split.
    + apply (returns_at _ n _ (rlr_mono g)). unfold remove_left_recursion. rewrite E. reflexivity.
    + exact HR.
Qed.
