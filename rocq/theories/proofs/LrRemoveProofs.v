(** RemoveLeftRecursion computes [eliminates]. *)
From Coq Require Import String Lia.
From Verif.model Require Import LrRemove.
From Verif.spec Require Import LrSpec Outcome.
From Verif.proofs Require Import Fuel GrammarProofs SetProofs.
Local Open Scope nat_scope.
Local Open Scope list_scope.

(** Interning names. *)
Definition intern (s : set) (xs : list gostring) : set := snd (set_syms s (map Foreign xs)).

Lemma intern_nil s : intern s [] = s.
Proof. reflexivity. Qed.
Lemma intern_cons s x xs : intern s (x :: xs) = intern (snd (set_str s x)) xs.
Proof.
  unfold intern. cbn [map set_syms set_symbol]. destruct (set_str s x) as [v s1].
  cbn [snd]. destruct (set_syms s1 (map Foreign xs)). reflexivity.
Qed.
Lemma intern_app s xs ys : intern s (xs ++ ys) = intern (intern s xs) ys.
Proof.
  revert s. induction xs as [|x xs IH]; intros s; [reflexivity|].
  cbn [app]. rewrite !intern_cons. apply IH.
Qed.
Lemma intern_wf s xs : set_wf s -> set_wf (intern s xs) /\ set_le s (intern s xs).
Proof.
  intros H. apply (set_syms_le (map Foreign xs) s H).
Qed.
Lemma intern_in s xs x : set_wf s -> x ∈ xs -> known (intern s xs) x.
Proof.
  intros H Hx. unfold intern. destruct (set_syms s (map Foreign xs)) as [vs s'] eqn:E.
  destruct (set_syms_spec _ _ _ _ H E) as (_ & _ & _ & Hk). apply Hk; exact Hx.
Qed.
Lemma intern_known s xs : (forall x, x ∈ xs -> known s x) -> intern s xs = s.
Proof.
  induction xs as [|x xs IH]; intros H; [reflexivity|]. rewrite intern_cons.
  destruct (H x) as [i Hi]; [left|]. rewrite (set_str_known _ _ _ Hi). cbn [snd].
  apply IH. intros y Hy. apply H. right; exact Hy.
Qed.
Lemma intern_again s xs ys : set_wf s -> (forall y, y ∈ ys -> y ∈ xs) -> intern (intern s xs) ys = intern s xs.
Proof. intros Hw H. apply intern_known. intros y Hy. apply intern_in; auto. Qed.

Lemma known_lt s x i : set_wf s -> str2sym s !! x = Some i -> i < sym_count s.
Proof. intros Hw Hi. apply Hw in Hi. apply lookup_lt_Some in Hi. exact Hi. Qed.
Lemma sym_name_at s i nm : symb2str s !! i = Some nm -> sym_name s i = nm.
Proof. unfold sym_name. intros ->. reflexivity. Qed.
Lemma names_inj s i j nm : set_wf s -> symb2str s !! i = Some nm -> symb2str s !! j = Some nm -> i = j.
Proof. intros Hw Hi Hj. apply Hw in Hi, Hj. congruence. Qed.

Lemma known_set_le s s' x : set_wf s -> set_wf s' -> set_le s s' -> known s x -> known s' x.
Proof. apply known_le. Qed.

(** Sets with the same names are equal. *)
Lemma set_eq s s' : set_wf s -> set_wf s' -> symb2str s = symb2str s' -> s = s'.
Proof.
  intros H H' E. destruct s as [m l], s' as [m' l']. cbn [symb2str] in E. subst l'. f_equal.
  apply map_eq. intros x. apply option_eq. intros i. rewrite (H x i), (H' x i). reflexivity.
Qed.

(** safeAdd never loses a result when given more fuel. *)
Lemma safe_add_S g n : forall op p, rle (safe_add n g op p) (safe_add (S n) g op p).
Proof.
  induction n as [|n IH]; intros op p; [apply rle_oof|].
  change (safe_add (S n) g op p) with
    (if lo_addable op p then Ok (lo_add op p)
      else match p with
           | [] => Ok op
           | first :: tail =>
               match g_prods g (sym_name (lo_set op) first) with
               | None => Panic
               | Some ps =>
                   rfold (fun o lead =>
                            let '(vs, s1) := set_syms (lo_set o) (map Foreign lead) in
                            safe_add n g (LrOp (lo_out o) (lo_done o) (lo_cur o) (lo_direct o) s1) (vs ++ tail))
                         ps op
               end
           end).
  cbn [safe_add]. destruct (lo_addable op p); [apply rle_refl|]. destruct p as [|f t]; [apply rle_refl|].
  destruct (g_prods g _) as [ps|]; [|apply rle_refl].
  apply rle_rfold. intros o lead. destruct (set_syms (lo_set o) (map Foreign lead)). apply IH.
Qed.
Lemma safe_add_mono g n m op p : n <= m -> rle (safe_add n g op p) (safe_add m g op p).
Proof.
  induction 1 as [|m Hle IH]; [apply rle_refl|]. eapply rle_trans; [exact IH|apply safe_add_S].
Qed.
Lemma lr_nt_mono g n m op nt : n <= m -> rle (lr_nt n g op nt) (lr_nt m g op nt).
Proof.
  intros H. unfold lr_nt. destruct (set_str (lo_set op) nt) as [cur s1]. destruct (g_prods g nt) as [ps|]; [|apply rle_refl].
  apply rle_bind; [|intros; apply rle_refl].
  apply rle_rfold. intros o p. destruct (set_syms (lo_set o) (map Foreign p)). apply safe_add_mono; exact H.
Qed.
Lemma rlr_mono g : fuel_mono (fun n => remove_left_recursion n g).
Proof.
  intros n m H. apply rle_bind; [|intros; apply rle_refl]. apply rle_rfold. intros; apply lr_nt_mono; exact H.
Qed.

Definition adds (A : gostring) (M : amap) (qs : list (list gostring)) : amap :=
  fold_left (fun m q => am_add m A q) qs M.
Lemma adds_app A M qs rs : adds A M (qs ++ rs) = adds A (adds A M qs) rs.
Proof. apply fold_left_app. Qed.

Definition done_ok (dn : list gostring) (done : list bool) (s : set) : Prop :=
  forall i, default false (done !! i) = true <-> exists nm, symb2str s !! i = Some nm /\ nm ∈ dn.

Lemma done_grow dn done s s' : set_wf s -> set_wf s' -> set_le s s' -> (forall B, B ∈ dn -> known s B) ->
  done_ok dn done s -> done_ok dn done s'.
Proof.
  intros Hw Hw' Hle Hk H i. rewrite (H i). split.
  - intros (nm & Hi & Hin). exists nm. split; [|exact Hin]. apply (set_le_lookup s s' _ _ Hle Hi).
  - intros (nm & Hi & Hin). exists nm. split; [|exact Hin]. destruct (Hk nm Hin) as [j Hj].
    apply Hw in Hj. pose proof (set_le_lookup s s' _ _ Hle Hj) as Hj'.
    rewrite (names_inj s' i j nm Hw' Hi Hj'). exact Hj.
Qed.

Section Add.
  Variable g : grammar.
  Variable A : gostring.
  Variable dn : list gostring.
  Hypothesis Hne : forall B ps, g_prods g B = Some ps -> ps <> [].

  Record inv (op : lrop) (M : amap) : Prop := {
    i_wf : set_wf (lo_set op);
    i_R : R (lo_out op) M;
    i_cur : symb2str (lo_set op) !! lo_cur op = Some A;
    i_done : done_ok dn (lo_done op) (lo_set op);
    i_le : set_le (gr_set (lo_out op)) (lo_set op);
    i_dn : forall B, B ∈ dn -> known (gr_set (lo_out op)) B;
    i_leads : forall B ps lead x, B ∈ dn -> g_prods g B = Some ps -> lead ∈ ps -> x ∈ lead ->
      known (gr_set (lo_out op)) x;
  }.

  Record ran (op : lrop) (M : amap) (qs : list (list gostring)) (op' : lrop) : Prop := {
    r_inv : inv op' (adds A M qs);
    r_set : lo_set op' = lo_set op;
    r_out : gr_set (lo_out op') = lo_set op;
    r_done : lo_done op' = lo_done op;
    r_cur : lo_cur op' = lo_cur op;
    r_direct : lo_direct op' = lo_direct op || existsb (starts A) qs;
  }.

  Definition named (s : set) (vs : list nat) (p : list gostring) : Prop :=
    Forall2 (fun v x => symb2str s !! v = Some x) vs p.
  Lemma named_names s vs p : named s vs p -> map (sym_name s) vs = p.
  Proof. induction 1 as [|v x vs p H _ IH]; [reflexivity|]. cbn [map]. rewrite (sym_name_at _ _ _ H), IH. reflexivity. Qed.
  Lemma named_le s s' vs p : set_le s s' -> named s vs p -> named s' vs p.
  Proof. intros Hle H. eapply Forall2_impl; [exact H|]. intros v x Hv. apply (set_le_lookup s s' _ _ Hle Hv). Qed.
  Lemma set_syms_named s p vs s' : set_wf s -> set_syms s (map Foreign p) = (vs, s') -> named s' vs p /\ s' = intern s p.
  Proof.
    intros Hw E. destruct (set_syms_spec _ _ _ _ Hw E) as (_ & _ & HF & _). split.
    - apply Forall2_flip. exact HF.
    - unfold intern. rewrite E. reflexivity.
  Qed.

  Lemma addable_spec op M vs p : inv op M -> named (lo_set op) vs p -> lo_addable op vs = true <-> unfolded dn p.
  Proof.
    intros I Hp. destruct Hp as [|v x vs p Hv Hp].
    - split; [intros _ B t H; discriminate H|reflexivity].
    - cbn [lo_addable].
      assert (E : (if length (lo_done op) <=? v then true else negb (default false (lo_done op !! v)))
                  = negb (default false (lo_done op !! v))).
      { destruct (Nat.leb_spec (length (lo_done op)) v) as [H|H]; [|reflexivity].
        rewrite (lookup_ge_None_2 _ _ H). reflexivity. }
      rewrite E. pose proof (i_done _ _ I v) as D.
      destruct (default false (lo_done op !! v)); cbn [negb].
      + split; [intros H; discriminate H|]. intros H. destruct D as [D _].
        destruct (D eq_refl) as (nm & Hnm & Hin). exfalso.
        assert (nm = x) as -> by congruence. apply (H x p eq_refl Hin).
      + split; [|reflexivity]. intros _ B t [= <- <-] Hin. destruct D as [_ D].
        discriminate D. exists x. split; [exact Hv|exact Hin].
  Qed.

  Lemma adds_set op M vs p : inv op M -> named (lo_set op) vs p ->
    intern (gr_set (lo_out op)) (A :: p) = lo_set op -> ran op M [p] (lo_add op vs).
  Proof.
    intros I Hp Hpend. unfold lo_add.
    rewrite (sym_name_at _ _ _ (i_cur _ _ I)).
    rewrite <- (map_map (sym_name (lo_set op)) Foreign), (named_names _ _ _ Hp).
    set (out := lo_out op) in *.
    pose proof (R_set _ _ (i_R _ _ I)) as Hws. fold out in Hws.
    assert (HR : R (gr_add out (Foreign A) (Some (map Foreign p))) (am_add M A p)).
    { apply gr_add_R; [apply (i_R _ _ I)|reflexivity|]. cbn [default]. clear.
      induction p as [|x p IH]; constructor; [reflexivity|exact IH]. }
    assert (HS : gr_set (gr_add out (Foreign A) (Some (map Foreign p))) = lo_set op).
    { unfold gr_add. change (default [] (Some (map Foreign p))) with (map Foreign p). cbn [set_symbol]. rewrite intern_cons in Hpend.
      destruct (set_str (gr_set out) A) as [f s1]. cbn [snd] in Hpend. unfold intern in Hpend.
      destruct (set_syms s1 (map Foreign p)) as [ws s2]. cbn [snd] in Hpend. subst s2.
      unfold gr_add_idx. cbn [gr_prods gr_set gr_order]. destruct (f <? length (gr_prods out)).
      - destruct (default None (gr_prods out !! f)); reflexivity.
      - reflexivity. }
    pose proof (i_wf _ _ I) as Hw.
    constructor; cbn [lo_set lo_out lo_done lo_cur lo_direct]; try reflexivity; [|exact HS|].
    - constructor; cbn [lo_set lo_out lo_done lo_cur lo_direct].
      + exact Hw.
      + exact HR.
      + apply (i_cur _ _ I).
      + apply (i_done _ _ I).
      + rewrite HS. apply set_le_refl.
      + intros B HB. rewrite HS. eapply known_le; [exact Hws|exact Hw|apply (i_le _ _ I)|]. apply (i_dn _ _ I); exact HB.
      + intros B ps lead x HB Hps Hl Hx. rewrite HS.
        eapply known_le; [exact Hws|exact Hw|apply (i_le _ _ I)|]. apply (i_leads _ _ I B ps lead x HB Hps Hl Hx).
    - f_equal. cbn [existsb]. rewrite orb_false_r. destruct Hp as [|v x vs p Hv Hp]; [reflexivity|].
      cbn [starts]. destruct (Nat.eqb_spec v (lo_cur op)) as [->|Hn].
      + rewrite (i_cur _ _ I) in Hv. injection Hv as ->. rewrite bool_decide_true by reflexivity. reflexivity.
      + rewrite bool_decide_false; [reflexivity|]. intros ->. apply Hn.
        apply (names_inj _ _ _ _ Hw Hv (i_cur _ _ I)).
  Qed.

  Definition each_step (n : nat) (tl : list nat) (o : lrop) (lead : list gostring) : res lrop :=
    let '(vs, s1) := set_syms (lo_set o) (map Foreign lead) in
    safe_add n g (LrOp (lo_out o) (lo_done o) (lo_cur o) (lo_direct o) s1) (vs ++ tl).

  Lemma safe_add_unfolds :
    (forall p qs, unfolds g dn p qs -> forall op M vs, inv op M -> named (lo_set op) vs p ->
       intern (gr_set (lo_out op)) (A :: p) = lo_set op ->
       exists n op', safe_add n g op vs = Ok op' /\ ran op M qs op')
    /\ (forall t ps qs, unfolds_each g dn t ps qs -> forall op M vs, inv op M -> named (lo_set op) vs t ->
       (forall lead x, lead ∈ ps -> x ∈ lead -> known (gr_set (lo_out op)) x) ->
       intern (gr_set (lo_out op)) (A :: t) = lo_set op ->
       exists n op', rfold (each_step n vs) ps op = Ok op' /\
         if decide (ps = []) then qs = [] /\ op' = op else ran op M qs op').
  Proof.
    apply (unfolds_ind2 g dn
      (fun p qs => forall op M vs, inv op M -> named (lo_set op) vs p ->
         intern (gr_set (lo_out op)) (A :: p) = lo_set op ->
         exists n op', safe_add n g op vs = Ok op' /\ ran op M qs op')
      (fun t ps qs => forall op M vs, inv op M -> named (lo_set op) vs t ->
         (forall lead x, lead ∈ ps -> x ∈ lead -> known (gr_set (lo_out op)) x) ->
         intern (gr_set (lo_out op)) (A :: t) = lo_set op ->
         exists n op', rfold (each_step n vs) ps op = Ok op' /\
           if decide (ps = []) then qs = [] /\ op' = op else ran op M qs op')).
    - intros p Hp op M vs I Hn Hi. exists 1, (lo_add op vs). split.
      + cbn [safe_add]. rewrite (proj2 (addable_spec _ _ _ _ I Hn) Hp). reflexivity.
      + apply adds_set; assumption.
    - intros B t ps qs HB Hps _ IH op M vs I Hn Hi.
      assert (Hna : lo_addable op vs = false).
      { destruct (lo_addable op vs) eqn:E; [|reflexivity]. apply (addable_spec _ _ _ _ I Hn) in E.
        destruct (E B t eq_refl HB). }
      inversion Hn as [|v x vs' p' Hv Hn']; subst.
      destruct (IH op M vs' I Hn') as (n & op' & E & Hr).
      + intros lead x Hl Hx. apply (i_leads _ _ I B ps lead x HB Hps Hl Hx).
      + rewrite <- Hi. change (A :: t) with ([A] ++ t). change (A :: B :: t) with ([A] ++ [B] ++ t).
        rewrite !intern_app. f_equal. symmetry. apply intern_known. intros y Hy.
        apply elem_of_list_singleton in Hy. subst y.
        pose proof (R_set _ _ (i_R _ _ I)) as Hws. destruct (intern_wf (gr_set (lo_out op)) [A] Hws) as [Hw1 Hl1].
        eapply known_le; [exact Hws|exact Hw1|exact Hl1|]. apply (i_dn _ _ I); exact HB.
      + exists (S n), op'. split.
        * cbn [safe_add]. rewrite Hna, (sym_name_at _ _ _ Hv), Hps. exact E.
        * rewrite decide_False in Hr by (apply (Hne _ _ Hps)). exact Hr.
    - intros t op M vs I Hn _ Hi. exists 0, op. split; [reflexivity|]. rewrite decide_True by reflexivity. auto.
    - intros t p ps qs rs _ IH1 _ IH2 op M vs I Hn Hk Hi.
      destruct (set_syms (lo_set op) (map Foreign p)) as [ws s1] eqn:E1.
      destruct (set_syms_named _ _ _ _ (i_wf _ _ I) E1) as [Hws Hs1].
      pose proof (R_set _ _ (i_R _ _ I)) as Hwo.
      assert (s1 = lo_set op) as ->.
      { rewrite Hs1. apply intern_known. intros x Hx. eapply known_le; [exact Hwo|apply (i_wf _ _ I)|apply (i_le _ _ I)|].
        apply (Hk p x); [left|exact Hx]. }
      assert (HE : LrOp (lo_out op) (lo_done op) (lo_cur op) (lo_direct op) (lo_set op) = op) by (destruct op; reflexivity).
      destruct (IH1 op M (ws ++ vs) I) as (n1 & op1 & R1 & H1).
      + apply Forall2_app; [exact Hws|exact Hn].
      + rewrite <- Hi. change (A :: p ++ t) with ([A] ++ p ++ t). change (A :: t) with ([A] ++ t).
        rewrite !intern_app. f_equal. apply intern_known. intros x Hx.
        destruct (intern_wf (gr_set (lo_out op)) [A] Hwo) as [Hw1 Hl1].
        eapply known_le; [exact Hwo|exact Hw1|exact Hl1|]. apply (Hk p x); [left|exact Hx].
      + destruct H1 as [I1 S1 O1 D1 C1 B1].
        destruct (IH2 op1 (adds A M qs) vs I1) as (n2 & op2 & R2 & H2).
        * rewrite S1. exact Hn.
        * intros lead x Hl Hx. rewrite O1. eapply known_le; [exact Hwo|apply (i_wf _ _ I)|apply (i_le _ _ I)|].
          apply (Hk lead x); [right; exact Hl|exact Hx].
        * rewrite O1, S1. apply intern_known. intros x Hx. apply elem_of_cons in Hx as [->|Hx].
          -- pose proof (i_cur _ _ I) as Hc. apply (i_wf _ _ I) in Hc. eexists; exact Hc.
          -- destruct (proj1 (elem_of_list_lookup _ _) Hx) as [k Hkx].
             destruct (Forall2_lookup_r _ _ _ _ _ Hn Hkx) as (v & _ & Hv).
             apply (i_wf _ _ I) in Hv. eexists; exact Hv.
        * exists (Nat.max n1 n2), op2.
          assert (F : each_step (Nat.max n1 n2) vs op p = Ok op1).
          { unfold each_step. rewrite E1, HE. eapply rle_Ok; [apply (safe_add_mono g n1); lia|exact R1]. }
          assert (F2 : rfold (each_step (Nat.max n1 n2) vs) ps op1 = Ok op2).
          { eapply rle_Ok; [|exact R2]. apply rle_rfold. intros o lead. unfold each_step.
            destruct (set_syms (lo_set o) (map Foreign lead)). apply safe_add_mono. lia. }
          split; [cbn [rfold]; rewrite F; cbn [rbind]; exact F2|].
          rewrite decide_False by discriminate. destruct (decide (ps = [])) as [->|Hps].
          -- destruct H2 as [-> ->]. rewrite app_nil_r. constructor; assumption.
          -- destruct H2 as [I2 S2 O2 D2 C2 B2]. constructor.
             ++ rewrite adds_app. exact I2.
             ++ congruence.
             ++ congruence.
             ++ congruence.
             ++ congruence.
             ++ rewrite B2, B1, existsb_app, orb_assoc. reflexivity.
  Qed.
End Add.
