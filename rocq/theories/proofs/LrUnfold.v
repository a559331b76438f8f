(** When RemoveLeftRecursion ends. *)
From Coq Require Import String Lia.
From Verif.model Require Import LrRemove.
From Verif.spec Require Import LrSpec Outcome.
From Verif.proofs Require Import Fuel GrammarProofs LrRemoveProofs LrRemoveDirect LrRemoveMain LeftRecProofs SetProofs.
Local Open Scope nat_scope.
Local Open Scope list_scope.

(** Unfolding and the one-step relation. *)
Section U.
  Variable g : grammar.
  Variable dn : list gostring.
  Notation ustep := (unfold_step g dn).

  Lemma unfolds_members :
    (forall p qs, unfolds g dn p qs -> forall q, q ∈ qs <-> rtc ustep p q /\ unfolded dn q) /\
    (forall t ps qs, unfolds_each g dn t ps qs ->
       forall q, q ∈ qs <-> (exists p, p ∈ ps /\ rtc ustep (p ++ t) q) /\ unfolded dn q).
  Proof.
    apply (unfolds_ind2 g dn
      (fun p qs => forall q, q ∈ qs <-> rtc ustep p q /\ unfolded dn q)
      (fun t ps qs => forall q, q ∈ qs <-> (exists p, p ∈ ps /\ rtc ustep (p ++ t) q) /\ unfolded dn q)).
    - intros p Hp q. rewrite elem_of_list_singleton. split; [intros ->; split; [apply rtc_refl|exact Hp]|].
      intros [H _]. apply rtc_inv in H as [->|(y & (B & t & ps & lead & E & HB & _) & _)]; [reflexivity|]. destruct (Hp B t E HB).
    - intros B t ps qs HB Hps _ IH q. rewrite IH. split.
      + intros [(p & Hp & Hr) Hu]. split; [|exact Hu]. eapply rtc_l; [|exact Hr].
        exists B, t, ps, p. auto.
      + intros [Hr Hu]. split; [|exact Hu]. apply rtc_inv in Hr as [<-|(y & (B' & t' & ps' & lead & E & HB' & Hps' & Hl & ->) & Hr')].
        * destruct (Hu B t eq_refl HB).
        * injection E as <- <-. assert (ps' = ps) as -> by congruence. exists lead. auto.
    - intros t q. split; [intros H; inversion H|]. intros [(p & Hp & _) _]. inversion Hp.
    - intros t p ps qs rs _ IH1 _ IH2 q. rewrite elem_of_app, IH1, IH2. split.
      + intros [[H1 H2]|[(p' & H1 & H2) H3]].
        * split; [|exact H2]. exists p. split; [left|exact H1].
        * split; [|exact H3]. exists p'. split; [right; exact H1|exact H2].
      + intros [(p' & Hp & Hr) Hu]. apply elem_of_cons in Hp as [->|Hp]; [left; auto|]. right. split; [|exact Hu]. exists p'. auto.
  Qed.

  Notation uacc := (Acc (fun q p => ustep p q)).
  Lemma unfolds_acc :
    (forall p qs, unfolds g dn p qs -> uacc p) /\
    (forall t ps qs, unfolds_each g dn t ps qs -> forall p, p ∈ ps -> uacc (p ++ t)).
  Proof.
    apply (unfolds_ind2 g dn (fun p qs => uacc p) (fun t ps qs => forall p, p ∈ ps -> uacc (p ++ t))).
    - intros p Hp. constructor. intros q (B & t & ps & lead & E & HB & _). destruct (Hp B t E HB).
    - intros B t ps qs HB Hps _ IH. constructor. intros q (B' & t' & ps' & lead & E & _ & Hps' & Hl & ->).
      injection E as <- <-. apply IH. congruence.
    - intros t p H. inversion H.
    - intros t p ps qs rs _ IH1 _ IH2 p' Hp. apply elem_of_cons in Hp as [->|Hp]; [exact IH1|apply IH2; exact Hp].
  Qed.

  Hypothesis Hdn : forall B, B ∈ dn -> is_Some (g_prods g B).
  Lemma acc_unfolds p : uacc p -> exists qs, unfolds g dn p qs.
  Proof.
    intros H. induction H as [p _ IH].
    assert (Hs : forall B t, p = B :: t -> B ∈ dn -> exists qs, unfolds g dn p qs).
    { intros B t -> HB. destruct (Hdn B HB) as [ps Hps].
      assert (He : forall ps', (forall x, x ∈ ps' -> x ∈ ps) -> exists qs, unfolds_each g dn t ps' qs).
      { induction ps' as [|l ps' IHp]; intros Hin; [exists []; constructor|].
        destruct (IH (l ++ t)) as [q1 H1].
        - exists B, t, ps, l. split; [reflexivity|]. split; [exact HB|]. split; [exact Hps|]. split; [apply Hin; left|reflexivity].
        - destruct IHp as [q2 H2]; [intros x Hx; apply Hin; right; exact Hx|]. exists (q1 ++ q2). constructor; assumption. }
      destruct (He ps) as [qs Hqs]; [auto|]. exists qs. eapply unf_go; [exact HB|exact Hps|exact Hqs]. }
    destruct p as [|B t]; [exists [[]]; constructor; intros B t E; discriminate E|].
    destruct (decide (B ∈ dn)) as [HB|HB]; [apply (Hs B t eq_refl HB)|].
    exists [B :: t]. constructor. intros B' t' [= <- <-]. exact HB.
  Qed.
  Lemma acc_unfolds_each ps : (forall p, p ∈ ps -> uacc p) -> exists qs, unfolds_each g dn [] ps qs.
  Proof.
    induction ps as [|p ps IH]; intros H; [exists []; constructor|].
    destruct (acc_unfolds p) as [q1 H1]; [apply H; left|].
    destruct IH as [q2 H2]; [intros x Hx; apply H; right; exact Hx|].
    exists (q1 ++ q2). constructor; [rewrite app_nil_r; exact H1|exact H2].
  Qed.
End U.

Lemma unfolds_fun g dn :
  (forall p qs, unfolds g dn p qs -> forall qs', unfolds g dn p qs' -> qs' = qs) /\
  (forall t ps qs, unfolds_each g dn t ps qs -> forall qs', unfolds_each g dn t ps qs' -> qs' = qs).
Proof.
  apply (unfolds_ind2 g dn
    (fun p qs => forall qs', unfolds g dn p qs' -> qs' = qs)
    (fun t ps qs => forall qs', unfolds_each g dn t ps qs' -> qs' = qs)).
  - intros p Hp qs' H. inversion H as [|B t ps qs HB]; subst; [reflexivity|]. destruct (Hp B t eq_refl HB).
  - intros B t ps qs HB Hps _ IH qs' H. inversion H as [p Hp|B' t' ps' q' _ Hps' Hu]; subst.
    + destruct (Hp B t eq_refl HB).
    + apply IH. assert (ps' = ps) as -> by congruence. exact Hu.
  - intros t qs' H. inversion H; reflexivity.
  - intros t p ps qs rs _ IH1 _ IH2 qs' H. inversion H as [|t' p' ps' q1 q2 H1 H2]; subst.
    rewrite (IH1 _ H1), (IH2 _ H2). reflexivity.
Qed.

(** Derivations with their number of non-terminal nodes. *)
Section Sized.
  Variable g : grammar.
  Inductive dern : gostring -> list gostring -> nat -> Prop :=
  | dern_term s : g_prods g s = None -> dern s [s] 0
  | dern_nt s ps p w n : g_prods g s = Some ps -> p ∈ ps -> dern_seq p w n -> dern s w (S n)
  with dern_seq : list gostring -> list gostring -> nat -> Prop :=
  | dern_nil : dern_seq [] [] 0
  | dern_cons s r u v n m : dern s u n -> dern_seq r v m -> dern_seq (s :: r) (u ++ v) (n + m).

  Lemma derives_dern : (forall s w, derives g s w -> exists n, dern s w n).
  Proof.
    apply (derives_mut g (fun s w _ => exists n, dern s w n) (fun p w _ => exists n, dern_seq p w n)).
    - intros s H. exists 0. constructor; exact H.
    - intros s ps p w H1 H2 _ [n Hn]. exists (S n). econstructor; eassumption.
    - exists 0. constructor.
    - intros s r u v _ [n Hn] _ [m Hm]. exists (n + m). constructor; assumption.
  Qed.
  Lemma dern_seq_app p q w n : dern_seq (p ++ q) w n -> exists u v a b, w = u ++ v /\ n = a + b /\ dern_seq p u a /\ dern_seq q v b.
  Proof.
    revert w n. induction p as [|x p IH]; intros w n H.
    - exists [], w, 0, n. split_and!; try reflexivity; [constructor|exact H].
    - cbn [app] in H. inversion H as [|s r u v a b H1 H2]; subst.
      destruct (IH _ _ H2) as (u' & v' & a' & b' & -> & -> & H3 & H4).
      exists (u ++ u'), v', (a + a'), b'. split_and!; [rewrite app_assoc; reflexivity|lia|constructor; assumption|exact H4].
  Qed.
  Lemma dern_app p q u v a b : dern_seq p u a -> dern_seq q v b -> dern_seq (p ++ q) (u ++ v) (a + b).
  Proof.
    intros H. revert v b. induction H as [|s r u w n m H1 H2 IH]; intros v b Hq; [exact Hq|].
    cbn [app]. rewrite <- app_assoc. replace (n + m + b) with (n + (m + b)) by lia. constructor; [exact H1|apply IH; exact Hq].
  Qed.

  Lemma unfolds_dern dn :
    (forall p qs, unfolds g dn p qs -> forall w n, dern_seq p w n -> exists q m, q ∈ qs /\ m <= n /\ dern_seq q w m) /\
    (forall t ps qs, unfolds_each g dn t ps qs -> forall p w n, p ∈ ps -> dern_seq (p ++ t) w n ->
       exists q m, q ∈ qs /\ m <= n /\ dern_seq q w m).
  Proof.
    apply (unfolds_ind2 g dn
      (fun p qs => forall w n, dern_seq p w n -> exists q m, q ∈ qs /\ m <= n /\ dern_seq q w m)
      (fun t ps qs => forall p w n, p ∈ ps -> dern_seq (p ++ t) w n -> exists q m, q ∈ qs /\ m <= n /\ dern_seq q w m)).
    - intros p _ w n H. exists p, n. split; [left|]. split; [lia|exact H].
    - intros B t ps qs HB Hps _ IH w n H. inversion H as [|s r u v a b H1 H2]; subst.
      inversion H1 as [s Hn|s ps' p w' k Hps' Hp H3]; subst; [congruence|].
      assert (ps' = ps) as -> by congruence.
      destruct (IH p (u ++ v) (k + b) Hp) as (q & m & Hq & Hm & Hd); [apply dern_app; assumption|].
      exists q, m. split; [exact Hq|]. split; [lia|exact Hd].
    - intros t p w n H. inversion H.
    - intros t p ps qs rs _ IH1 _ IH2 p' w n Hp H. apply elem_of_cons in Hp as [->|Hp].
      + destruct (IH1 w n H) as (q & m & Hq & Hm). exists q, m. split; [apply elem_of_app; left; exact Hq|exact Hm].
      + destruct (IH2 p' w n Hp H) as (q & m & Hq & Hm). exists q, m. split; [apply elem_of_app; right; exact Hq|exact Hm].
  Qed.

  (** A derivation starts with an unfolded production. *)
  Lemma nt_dern dn A ps qs w n : g_prods g A = Some ps -> unfolds_each g dn [] ps qs -> dern A w n ->
    exists q m, q ∈ qs /\ m < n /\ dern_seq q w m.
  Proof.
    intros Hps HU H. inversion H as [s Hn|s ps' p w' k Hps' Hp H3]; subst; [congruence|].
    assert (ps' = ps) as -> by congruence.
    destruct (proj2 (unfolds_dern dn) [] ps qs HU p w k Hp) as (q & m & Hq & Hm & Hd); [rewrite app_nil_r; exact H3|].
    exists q, m. split; [exact Hq|]. split; [lia|exact Hd].
  Qed.

  Lemma productive_base dn A ps qs w : g_prods g A = Some ps -> unfolds_each g dn [] ps qs -> derives g A w -> bases A qs <> [].
  Proof.
    intros Hps HU Hd. apply derives_dern in Hd as [n Hn]. revert w Hn.
    induction (lt_wf n) as [n _ IH]. intros w Hn.
    destruct (nt_dern dn A ps qs w n Hps HU Hn) as (q & m & Hq & Hm & Hs).
    destruct (starts A q) eqn:E.
    - destruct q as [|x t]; [discriminate E|]. cbn [starts] in E. apply bool_decide_eq_true in E. subst x.
      inversion Hs as [|s r u v a b H1 H2]; subst. apply (IH a ltac:(lia) u H1).
    - intros Hb. assert (Hin : In q (bases A qs)); [|rewrite Hb in Hin; destruct Hin].
      unfold bases. apply filter_In. split; [apply elem_of_list_In; exact Hq|]. rewrite E. reflexivity.
  Qed.
End Sized.

Section Ends.
  Variable g : grammar.
  Hypothesis Hne : forall B ps, g_prods g B = Some ps -> ps <> [].

  Section One.
    Variable A : gostring.
    Variable dn : list gostring.
    Hypothesis Hdn : forall B, B ∈ dn -> is_Some (g_prods g B).

    Lemma safe_add_or n : forall op M vs p, inv g A dn op M -> named (lo_set op) vs p ->
      intern (gr_set (lo_out op)) (A :: p) = lo_set op ->
      safe_add n g op vs = OutOfFuel \/ exists qs, unfolds g dn p qs.
    Proof.
      induction n as [|n IH]; intros op M vs p I Hn Hi; [left; reflexivity|].
      destruct (lo_addable op vs) eqn:Ea.
      { right. exists [p]. constructor. apply (proj1 (addable_spec g A dn op M vs p I Hn)); exact Ea. }
      assert (Hnu : ~ unfolded dn p).
      { intros H. apply (addable_spec g A dn op M vs p I Hn) in H. congruence. }
      destruct Hn as [|v B vs t Hv Hn]; [discriminate Ea|].
      assert (HB : B ∈ dn).
      { destruct (decide (B ∈ dn)) as [H|H]; [exact H|]. destruct Hnu. intros B' t' [= <- <-]. exact H. }
      destruct (Hdn B HB) as [ps Hps]. cbn [safe_add]. rewrite Ea, (sym_name_at _ _ _ Hv), Hps.
      change (rfold _ ps op) with (rfold (each_step g n vs) ps op).
      assert (Hsync : intern (gr_set (lo_out op)) (A :: t) = lo_set op).
      { rewrite <- Hi. change (A :: t) with ([A] ++ t). change (A :: B :: t) with ([A] ++ [B] ++ t).
        rewrite !intern_app. f_equal. symmetry. apply intern_known. intros y Hy.
        apply elem_of_list_singleton in Hy. subst y.
        pose proof (R_set _ _ (i_R _ _ _ _ _ I)) as Hws. destruct (intern_wf (gr_set (lo_out op)) [A] Hws) as [Hw1 Hl1].
        eapply known_le; [exact Hws|exact Hw1|exact Hl1|]. apply (i_dn _ _ _ _ _ I); exact HB. }
      assert (Hk : forall lead x, lead ∈ ps -> x ∈ lead -> known (gr_set (lo_out op)) x).
      { intros lead x Hl Hx. apply (i_leads _ _ _ _ _ I B ps lead x HB Hps Hl Hx). }
      assert (Hloop : forall ps op M, inv g A dn op M -> named (lo_set op) vs t ->
        (forall lead x, lead ∈ ps -> x ∈ lead -> known (gr_set (lo_out op)) x) ->
        intern (gr_set (lo_out op)) (A :: t) = lo_set op ->
        rfold (each_step g n vs) ps op = OutOfFuel \/ exists qs, unfolds_each g dn t ps qs).
      { clear ps op M I Hv Hn Hps Hi Hsync Hk Ea. induction ps as [|p ps IHp]; intros op M I Hn Hk Hsync; [right; exists []; constructor|].
        cbn [rfold].
        destruct (set_syms (lo_set op) (map Foreign p)) as [ws s1] eqn:E1.
        destruct (set_syms_named _ _ _ _ (i_wf _ _ _ _ _ I) E1) as [Hws Hs1].
        pose proof (R_set _ _ (i_R _ _ _ _ _ I)) as Hwo.
        assert (s1 = lo_set op) as ->.
        { rewrite Hs1. apply intern_known. intros x Hx. eapply known_le; [exact Hwo|apply (i_wf _ _ _ _ _ I)|apply (i_le _ _ _ _ _ I)|].
          apply (Hk p x); [left|exact Hx]. }
        assert (HE : LrOp (lo_out op) (lo_done op) (lo_cur op) (lo_direct op) (lo_set op) = op) by (destruct op; reflexivity).
        assert (Hnm : named (lo_set op) (ws ++ vs) (p ++ t)) by (apply Forall2_app; [exact Hws|exact Hn]).
        assert (Hpend : intern (gr_set (lo_out op)) (A :: p ++ t) = lo_set op).
        { rewrite <- Hsync. change (A :: p ++ t) with ([A] ++ p ++ t). change (A :: t) with ([A] ++ t).
          rewrite !intern_app. f_equal. apply intern_known. intros x Hx.
          destruct (intern_wf (gr_set (lo_out op)) [A] Hwo) as [Hw1 Hl1].
          eapply known_le; [exact Hwo|exact Hw1|exact Hl1|]. apply (Hk p x); [left|exact Hx]. }
        assert (Eb : each_step g n vs op p = safe_add n g op (ws ++ vs)) by (unfold each_step; rewrite E1, HE; reflexivity).
        rewrite Eb. destruct (IH op M (ws ++ vs) (p ++ t) I Hnm Hpend) as [E|[q1 U1]]; [left; rewrite E; reflexivity|].
        destruct (proj1 (safe_add_unfolds g A dn Hne) (p ++ t) q1 U1 op M (ws ++ vs) I Hnm Hpend) as (n1 & op1 & R1 & H1).
        destruct H1 as [I1 S1 O1 D1 C1 B1].
        assert (Hcase : safe_add n g op (ws ++ vs) = OutOfFuel \/ safe_add n g op (ws ++ vs) = Ok op1).
        { destruct (safe_add_mono g n (Nat.max n n1) op (ws ++ vs) ltac:(lia)) as [E|E]; [left; exact E|].
          right. rewrite E. eapply rle_Ok; [apply (safe_add_mono g n1); lia|exact R1]. }
        destruct Hcase as [E|E]; rewrite E; [left; reflexivity|]. cbn [rbind].
        destruct (IHp op1 _ I1) as [E2|[q2 U2]].
        - rewrite S1. exact Hn.
        - intros lead x Hl Hx. rewrite O1. eapply known_le; [exact Hwo|apply (i_wf _ _ _ _ _ I)|apply (i_le _ _ _ _ _ I)|].
          apply (Hk lead x); [right; exact Hl|exact Hx].
        - rewrite O1, S1. apply intern_known. intros x Hx. apply elem_of_cons in Hx as [->|Hx].
          + pose proof (i_cur _ _ _ _ _ I) as Hc. apply (i_wf _ _ _ _ _ I) in Hc. eexists; exact Hc.
          + destruct (proj1 (elem_of_list_lookup _ _) Hx) as [k Hkx].
            destruct (Forall2_lookup_r _ _ _ _ _ Hn Hkx) as (v' & _ & Hv').
            apply (i_wf _ _ _ _ _ I) in Hv'. eexists; exact Hv'.
        - left. exact E2.
        - right. exists (q1 ++ q2). constructor; assumption. }
      destruct (Hloop ps op M I Hn Hk Hsync) as [E|[qs U]]; [left; exact E|].
      right. exists qs. eapply unf_go; [exact HB|exact Hps|exact U].
    Qed.

    Lemma prods_loop_or n ps : forall op M, inv g A dn op M -> intern (gr_set (lo_out op)) [A] = lo_set op ->
      rfold (top_step n g) ps op = OutOfFuel \/ exists qs, unfolds_each g dn [] ps qs.
    Proof.
      induction ps as [|p ps IH]; intros op M I Hsync; [right; exists []; constructor|].
      cbn [rfold].
      destruct (set_syms (lo_set op) (map Foreign p)) as [vs s2] eqn:E.
      destruct (set_syms_named _ _ _ _ (i_wf _ _ _ _ _ I) E) as [Hn Hs2]. subst s2.
      pose proof (inv_grow g A dn op M p I) as I'.
      set (op0 := LrOp (lo_out op) (lo_done op) (lo_cur op) (lo_direct op) (intern (lo_set op) p)) in *.
      assert (Hpend : intern (gr_set (lo_out op0)) (A :: p) = lo_set op0).
      { unfold op0. cbn [lo_out lo_set]. change (A :: p) with ([A] ++ p). rewrite intern_app, Hsync. reflexivity. }
      assert (Et : top_step n g op p = safe_add n g op0 vs) by (unfold top_step; rewrite E; reflexivity).
      rewrite Et. destruct (safe_add_or n op0 M vs p I' Hn Hpend) as [E1|[q1 U1]]; [left; rewrite E1; reflexivity|].
      destruct (proj1 (safe_add_unfolds g A dn Hne) p q1 U1 op0 M vs I' Hn Hpend) as (n1 & op1 & R1 & H1).
      destruct H1 as [I1 S1 O1 D1 C1 B1].
      assert (Hcase : safe_add n g op0 vs = OutOfFuel \/ safe_add n g op0 vs = Ok op1).
      { destruct (safe_add_mono g n (Nat.max n n1) op0 vs ltac:(lia)) as [E2|E2]; [left; exact E2|].
        right. rewrite E2. eapply rle_Ok; [apply (safe_add_mono g n1); lia|exact R1]. }
      destruct Hcase as [E2|E2]; rewrite E2; [left; reflexivity|]. cbn [rbind].
      destruct (IH op1 _ I1) as [E3|[q2 U2]].
      - rewrite O1, S1. apply intern_known. intros x Hx. apply elem_of_list_singleton in Hx. subst x.
        pose proof (i_cur _ _ _ _ _ I') as Hc. apply (i_wf _ _ _ _ _ I') in Hc. eexists; exact Hc.
      - left. exact E3.
      - right. exists (q1 ++ q2). constructor; [rewrite app_nil_r; exact U1|exact U2].
    Qed.
  End One.

  Hypothesis Hwf : g_wf g.
  Hypothesis Hfresh : forall A, A ∈ g_nts g -> ~ mentions g (prime A).
  Hypothesis Hprod : productive g.

  Lemma base_if A dn ps qs : A ∈ g_nts g -> g_prods g A = Some ps -> unfolds_each g dn [] ps qs -> bases A qs <> [].
  Proof. intros HA Hps HU. destruct (Hprod A HA) as [w Hw]. apply (productive_base g dn A ps qs w Hps HU Hw). Qed.

  Lemma lr_nt_or n A dn op M : between g dn op M -> A ∈ g_nts g -> A ∉ dn ->
    lr_nt n g op A = OutOfFuel \/
    exists ps qs op', g_prods g A = Some ps /\ unfolds_each g dn [] ps qs /\ lr_nt n g op A = Ok op' /\
      between g (dn ++ [A]) op' (M ++ entry A qs).
  Proof.
    intros HB HA Hdn. destruct (proj1 (Hwf A) HA) as [ps Hps].
    assert (Hd : forall B, B ∈ dn -> is_Some (g_prods g B)).
    { intros B H. apply Hwf. apply (b_dn _ _ _ _ HB B H). }
    destruct (lr_nt n g op A) as [op1| |] eqn:E; [| |left; reflexivity].
    - assert (HU : exists qs, unfolds_each g dn [] ps qs).
      { unfold lr_nt in E. pose proof (R_set _ _ (b_R _ _ _ _ HB)) as Hw0. rewrite <- (b_set _ _ _ _ HB) in Hw0.
        destruct (set_str (lo_set op) A) as [cur s1] eqn:E1. destruct (set_str_spec _ _ _ _ Hw0 E1) as (W1 & L1 & N1 & _).
        rewrite Hps in E.
        set (op0 := LrOp (lo_out op) (lo_done op) cur false s1) in *.
        assert (I0 : inv g A dn op0 M).
        { constructor; unfold op0; cbn [lo_set lo_out lo_done lo_cur].
          - exact W1.
          - apply (b_R _ _ _ _ HB).
          - exact N1.
          - apply (done_grow dn _ (lo_set op)); [exact Hw0|exact W1|exact L1| |apply (b_done _ _ _ _ HB)].
            intros B H. apply (b_dn _ _ _ _ HB B H).
          - rewrite <- (b_set _ _ _ _ HB). exact L1.
          - intros B H. rewrite <- (b_set _ _ _ _ HB). apply (b_dn _ _ _ _ HB B H).
          - intros B ps' lead x H1 H2 H3 H4. rewrite <- (b_set _ _ _ _ HB). apply (b_leads _ _ _ _ HB B ps' lead x H1 H2 H3 H4). }
        change (rfold _ ps op0) with (rfold (top_step n g) ps op0) in E.
        destruct (prods_loop_or A dn Hd n ps op0 M I0) as [E2|H]; [|rewrite E2 in E; discriminate E|exact H].
        unfold op0. cbn [lo_out lo_set]. rewrite <- (b_set _ _ _ _ HB), intern_cons, E1. reflexivity. }
      destruct HU as [qs HU]. right. exists ps, qs, op1.
      destruct (nt_step g Hne Hfresh A dn ps qs op M HB HA Hdn Hps HU) as (n1 & op2 & R2 & HB2).
      { intros _. apply (base_if A dn ps qs HA Hps HU). }
      assert (op1 = op2) as ->.
      { pose proof (rle_Ok _ _ _ (lr_nt_mono g n (Nat.max n n1) op A ltac:(lia)) E) as F1.
        pose proof (rle_Ok _ _ _ (lr_nt_mono g n1 (Nat.max n n1) op A ltac:(lia)) R2) as F2. congruence. }
      auto.
    - exfalso.
      assert (HU : exists qs, unfolds_each g dn [] ps qs).
      { unfold lr_nt in E. pose proof (R_set _ _ (b_R _ _ _ _ HB)) as Hw0. rewrite <- (b_set _ _ _ _ HB) in Hw0.
        destruct (set_str (lo_set op) A) as [cur s1] eqn:E1. destruct (set_str_spec _ _ _ _ Hw0 E1) as (W1 & L1 & N1 & _).
        rewrite Hps in E.
        set (op0 := LrOp (lo_out op) (lo_done op) cur false s1) in *.
        assert (I0 : inv g A dn op0 M).
        { constructor; unfold op0; cbn [lo_set lo_out lo_done lo_cur].
          - exact W1.
          - apply (b_R _ _ _ _ HB).
          - exact N1.
          - apply (done_grow dn _ (lo_set op)); [exact Hw0|exact W1|exact L1| |apply (b_done _ _ _ _ HB)].
            intros B H. apply (b_dn _ _ _ _ HB B H).
          - rewrite <- (b_set _ _ _ _ HB). exact L1.
          - intros B H. rewrite <- (b_set _ _ _ _ HB). apply (b_dn _ _ _ _ HB B H).
          - intros B ps' lead x H1 H2 H3 H4. rewrite <- (b_set _ _ _ _ HB). apply (b_leads _ _ _ _ HB B ps' lead x H1 H2 H3 H4). }
        change (rfold _ ps op0) with (rfold (top_step n g) ps op0) in E.
        destruct (prods_loop_or A dn Hd n ps op0 M I0) as [E2|H]; [|rewrite E2 in E; discriminate E|exact H].
        unfold op0. cbn [lo_out lo_set]. rewrite <- (b_set _ _ _ _ HB), intern_cons, E1. reflexivity. }
      destruct HU as [qs HU].
      destruct (nt_step g Hne Hfresh A dn ps qs op M HB HA Hdn Hps HU) as (n1 & op2 & R2 & HB2).
      { intros _. apply (base_if A dn ps qs HA Hps HU). }
      destruct (lr_nt_mono g n (Nat.max n n1) op A ltac:(lia)) as [F|F]; [congruence|].
      pose proof (rle_Ok _ _ _ (lr_nt_mono g n1 (Nat.max n n1) op A ltac:(lia)) R2) as F2. congruence.
  Qed.

  Lemma el_entry dn A nts ps qs M : g_prods g A = Some ps -> unfolds_each g dn [] ps qs -> bases A qs <> [] ->
    eliminates g (dn ++ [A]) nts M -> eliminates g dn (A :: nts) (entry A qs ++ M).
  Proof.
    intros Hps HU Hb HE. unfold entry. destruct (existsb (starts A) qs) eqn:Ex.
    - apply existsb_starts in Ex as [t Ht]. cbn [app]. eapply el_direct; eassumption.
    - cbn [app]. eapply el_plain; [exact Hps|exact HU| |exact HE]. intros t Ht.
      assert (existsb (starts A) qs = true) by (apply existsb_starts; exists t; exact Ht). congruence.
  Qed.

  Lemma all_nts_or n nts : forall dn op M0, between g dn op M0 -> NoDup nts -> (forall A, A ∈ nts -> A ∈ g_nts g /\ A ∉ dn) ->
    rfold (lr_nt n g) nts op = OutOfFuel \/
    exists M op', eliminates g dn nts M /\ rfold (lr_nt n g) nts op = Ok op' /\ R (lo_out op') (M0 ++ M).
  Proof.
    induction nts as [|A nts IH]; intros dn op M0 HB ND Hin.
    - right. exists [], op. split; [constructor|]. split; [reflexivity|]. rewrite app_nil_r. apply (b_R _ _ _ _ HB).
    - apply NoDup_cons in ND as [N1 N2]. destruct (Hin A) as [HA HAd]; [left|]. cbn [rfold].
      destruct (lr_nt_or n A dn op M0 HB HA HAd) as [E|(ps & qs & op1 & Hps & HU & E & HB1)]; rewrite E; [left; reflexivity|].
      cbn [rbind]. destruct (IH (dn ++ [A]) op1 _ HB1 N2) as [E2|(M & op2 & HE & E2 & HR)].
      { intros B HBn. destruct (Hin B) as [H1 H2]; [right; exact HBn|]. split; [exact H1|].
        intros H. apply elem_of_app in H as [H|H]; [contradiction|]. apply elem_of_list_singleton in H. subst B. contradiction. }
      + left; exact E2.
      + right. exists (entry A qs ++ M), op2. split; [|split; [exact E2|rewrite app_assoc; exact HR]].
        apply (el_entry dn A nts ps qs M Hps HU); [|exact HE]. apply (base_if A dn ps qs HA Hps HU).
  Qed.

  Lemma el_ends dn nts M : eliminates g dn nts M -> forall pre A post ps p, nts = pre ++ A :: post ->
    g_prods g A = Some ps -> p ∈ ps -> Acc (fun q p => unfold_step g (dn ++ pre) p q) p.
  Proof.
    assert (Hx : forall dn ps qs p, unfolds_each g dn [] ps qs -> p ∈ ps -> Acc (fun q p => unfold_step g dn p q) p).
    { intros d ps qs p HU Hp. rewrite <- (app_nil_r p). apply (proj2 (unfolds_acc g d) [] ps qs HU p Hp). }
    induction 1 as [dn|dn A nts ps qs M Hps HU Hno HE IH|dn A nts ps qs t M Hps HU Ht Hb HE IH]; intros pre A' post ps' p E Hps' Hp.
    - destruct pre; discriminate E.
    - destruct pre as [|B pre]; injection E as <- E.
      + rewrite app_nil_r. assert (ps' = ps) as -> by congruence. apply (Hx dn ps qs p HU Hp).
      + specialize (IH pre A' post ps' p E Hps' Hp). rewrite <- app_assoc in IH. exact IH.
    - destruct pre as [|B pre]; injection E as <- E.
      + rewrite app_nil_r. assert (ps' = ps) as -> by congruence. apply (Hx dn ps qs p HU Hp).
      + specialize (IH pre A' post ps' p E Hps' Hp). rewrite <- app_assoc in IH. exact IH.
  Qed.

  Lemma ends_el nts : forall dn, (forall B, B ∈ dn -> is_Some (g_prods g B)) -> (forall A, A ∈ nts -> A ∈ g_nts g) ->
    (forall pre A post ps p, nts = pre ++ A :: post -> g_prods g A = Some ps -> p ∈ ps ->
       Acc (fun q p => unfold_step g (dn ++ pre) p q) p) ->
    exists M, eliminates g dn nts M.
  Proof.
    induction nts as [|A nts IH]; intros dn Hdn Hin HA; [exists []; constructor|].
    destruct (proj1 (Hwf A)) as [ps Hps]; [apply Hin; left|].
    destruct (acc_unfolds_each g dn Hdn ps) as [qs HU].
    { intros p Hp. specialize (HA [] A nts ps p eq_refl Hps Hp). rewrite app_nil_r in HA. exact HA. }
    destruct (IH (dn ++ [A])) as [M HM].
    - intros B HB. apply elem_of_app in HB as [HB|HB]; [apply Hdn; exact HB|]. apply elem_of_list_singleton in HB. subst B. eexists; exact Hps.
    - intros B HB. apply Hin. right; exact HB.
    - intros pre B post ps' p E Hps' Hp. rewrite <- app_assoc. apply (HA (A :: pre) B post ps' p); [rewrite E; reflexivity|exact Hps'|exact Hp].
    - exists (entry A qs ++ M). apply (el_entry dn A nts ps qs M Hps HU); [|exact HM].
      apply (base_if A dn ps qs); [apply Hin; left|exact Hps|exact HU].
  Qed.
End Ends.

Lemma between_start g : between g [] (LrOp gr_empty (replicate (length (g_nts g)) false) 0 false set_new) [].
Proof.
  constructor; cbn [lo_out lo_set lo_done].
  + apply gr_empty_R.
  + reflexivity.
  + intros i. split.
    * intros H. exfalso. destruct (replicate (length (g_nts g)) false !! i) eqn:Ei; [|discriminate H].
      apply lookup_replicate in Ei as [-> _]. discriminate H.
    * intros (nm & _ & H). inversion H.
  + intros x [i Hi]. cbn in Hi. rewrite lookup_empty in Hi. discriminate Hi.
  + intros B H. inversion H.
  + intros B ps lead x H. inversion H.
  + intros x H. inversion H.
Qed.

Lemma rlr_or g n : lr_tame g -> productive g ->
  remove_left_recursion n g = OutOfFuel \/
  exists M G, eliminates g [] (g_nts g) M /\ remove_left_recursion n g = Ok G /\ R G M.
Proof.
  intros (Hwf & ND & Hne & Hfresh) Hp.
  destruct (all_nts_or g Hne Hwf Hfresh Hp n (g_nts g) [] _ [] (between_start g) ND) as [E|(M & op & HE & E & HR)].
  - intros A HA. split; [exact HA|]. intros H; inversion H.
  - left. unfold remove_left_recursion. rewrite E. reflexivity.
  - right. exists M, (lo_out op). split; [exact HE|]. split; [|exact HR]. unfold remove_left_recursion. rewrite E. reflexivity.
Qed.

(** It returns exactly when the unfolding ends, and runs forever otherwise. *)
Lemma rlr_returns g : lr_tame g -> productive g -> unfolding_ends g ->
  exists M G, eliminates g [] (g_nts g) M /\ returns (fun n => remove_left_recursion n g) G /\ R G M.
Proof.
  intros Ht Hp Hu. pose proof Ht as (Hwf & ND & Hne & Hfresh).
  destruct (ends_el g Hwf Hp (g_nts g) []) as [M HM].
  - intros B H. inversion H.
  - auto.
  - intros pre A post ps p E Hps Hin. apply (Hu pre A post ps p E Hps Hin).
  - destruct (rlr_eliminates g M Ht HM) as (G & HG & HR). exists M, G. auto.
Qed.
Lemma rlr_returned g G : lr_tame g -> productive g -> returns (fun n => remove_left_recursion n g) G ->
  exists M, eliminates g [] (g_nts g) M /\ R G M /\ unfolding_ends g.
Proof.
  intros Ht Hp [F HF]. specialize (HF F (le_n F)). destruct (rlr_or g F Ht Hp) as [E|(M & G' & HE & E & HR)]; [congruence|].
  exists M. split; [exact HE|]. split; [congruence|]. intros pre A post ps p Enx Hps Hin.
  apply (el_ends g [] (g_nts g) M HE pre A post ps p Enx Hps Hin).
Qed.
Lemma rlr_diverges g : lr_tame g -> productive g -> ~ unfolding_ends g -> diverges (fun n => remove_left_recursion n g).
Proof.
  intros Ht Hp Hu n. destruct (rlr_or g n Ht Hp) as [E|(M & G & HE & E & HR)]; [exact E|]. destruct Hu.
  intros pre A post ps p Enx Hps Hin. apply (el_ends g [] (g_nts g) M HE pre A post ps p Enx Hps Hin).
Qed.
