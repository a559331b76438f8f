(** Invariants of the packrat state machine on interned symbols. *)
From Verif.model Require Import Packrat.
From Coq Require Import Lia.

(** memo child relation: [child m c k] iff the definition stored at [k] lists [c]. *)
Definition child (m : gmap key tdef) (c k : key) : Prop :=
  exists d, m !! k = Some d /\ c ∈ td_children d.
Definition desc (m : gmap key tdef) : key -> key -> Prop := rtc (fun k c => child m c k).
Definition reach (m : gmap key tdef) (td : tdef) (root : key) : Prop :=
  exists c, c ∈ td_children td /\ desc m c root.

(** consecutive children spelling symbols [ss] from [i] to [j] *)
Fixpoint spans (ss : list nat) (cs : list key) (i j : nat) : Prop :=
  match ss, cs with
  | [], [] => i = j
  | s :: ss', c :: cs' => fst c = (s, i) /\ spans ss' cs' (snd c) j
  | _, _ => False
  end.

Lemma spans_length ss cs i j : spans ss cs i j -> length ss = length cs.
Proof.
  revert cs i; induction ss as [|s ss IH]; intros [|c cs] i; simpl; try done.
  intros [_ H]. f_equal. eauto.
Qed.
Lemma spans_snoc ss cs i k s c :
  spans ss cs i k -> fst c = (s, k) -> spans (ss ++ [s]) (cs ++ [c]) i (snd c).
Proof.
  revert cs i; induction ss as [|x ss IH]; intros [|y cs] i; simpl; try done.
  - intros ->. auto.
  - intros [? H] ?. split; [done|]. eauto.
Qed.
Lemma spans_lookup ss cs i j q c :
  spans ss cs i j -> cs !! q = Some c -> ss !! q = Some (fst (fst c)).
Proof.
  revert cs i q; induction ss as [|x ss IH]; intros [|y cs] i q; simpl; try done.
  intros [Hy H]. destruct q as [|q]; simpl.
  - intros [= <-]. rewrite Hy. done.
  - eauto.
Qed.

(** ** Acyclicity and depth *)
Fixpoint hb (m : gmap key tdef) (h : nat) (k : key) : Prop :=
  match h with
  | O => False
  | S h' => forall d, m !! k = Some d -> forall c, c ∈ td_children d -> hb m h' c
  end.
Lemma hb_mono m h h' k : h <= h' -> hb m h k -> hb m h' k.
Proof.
  revert h' k; induction h as [|h IH]; intros [|h'] k Hle; simpl; try done; try lia.
  intros H d Hd c Hc. apply (IH h'); [lia|]. eauto.
Qed.

Lemma acc_hb m k : Acc (child m) k ->
  forall X : gset key, (forall c, tc (fun a b => child m b a) k c -> c ∈ X) -> hb m (S (size X)) k.
Proof.
  induction 1 as [k HA IH]. intros X HX. simpl. intros d Hd c Hc.
  assert (Hck : child m c k) by (exists d; auto).
  assert (HcX : c ∈ X) by (apply HX; apply tc_once; done).
  assert (Hs : size X = S (size (X ∖ {[c]}))).
  { assert (HE : size X = size ({[c]} ∪ X ∖ {[c]})).
    { f_equal. apply leibniz_equiv. intros x.
      destruct (decide (x = c)); set_solver. }
    rewrite HE, size_union by set_solver. rewrite size_singleton. lia. }
  rewrite Hs. apply (IH c Hck).
  intros c' Hc'. rewrite elem_of_difference. split.
  - apply HX. eapply tc_l; [|exact Hc']. done.
  - rewrite elem_of_singleton. intros ->.
    (* c reaches itself: contradicts Acc *)
    pose proof (HA _ Hck) as Hacc. clear -Hacc Hc'.
    induction Hacc as [c _ IHc].
    (* pick predecessor *)
    inversion Hc' as [x y Hxy|x y z Hxy Hyz]; subst.
    + eapply (IHc c); [done|]. done.
    + eapply (IHc y); [done|]. eapply tc_transitive; [exact Hyz|]. apply tc_once. done.
Qed.

Lemma acc_insert_fresh m k td :
  m !! k = None ->
  (forall x d, m !! x = Some d -> forall c, c ∈ td_children d -> is_Some (m !! c)) ->
  (forall c, c ∈ td_children td -> is_Some (m !! c)) ->
  (forall x, is_Some (m !! x) -> Acc (child m) x) ->
  forall x, is_Some (<[k:=td]> m !! x) -> Acc (child (<[k:=td]> m)) x.
Proof.
  intros Hk Hcl Htd HA.
  assert (H1 : forall x, Acc (child m) x -> is_Some (m !! x) -> Acc (child (<[k:=td]> m)) x).
  { intros x Hx. induction Hx as [x _ IH]. intros Hs. constructor. intros c (d & Hd & Hc).
    destruct (decide (x = k)) as [->|Hne].
    { rewrite Hk in Hs. destruct Hs; done. }
    rewrite lookup_insert_ne in Hd by congruence.
    apply IH; [exists d; auto|]. eauto. }
  intros x Hx. destruct (decide (x = k)) as [->|Hne].
  - constructor. intros c (d & Hd & Hc). rewrite lookup_insert in Hd.
    assert (d = td) as -> by congruence. auto.
  - rewrite lookup_insert_ne in Hx by congruence. auto.
Qed.

Lemma acc_insert_replace m k td :
  is_Some (m !! k) ->
  (forall c, c ∈ td_children td -> is_Some (m !! c)) ->
  ~ reach m td k ->
  (forall x, is_Some (m !! x) -> Acc (child m) x) ->
  forall x, is_Some (<[k:=td]> m !! x) -> Acc (child (<[k:=td]> m)) x.
Proof.
  intros Hk Htd Hnr HA.
  assert (H1 : forall x, Acc (child m) x -> ~ desc m x k -> Acc (child (<[k:=td]> m)) x).
  { intros x Hx. induction Hx as [x _ IH]. intros Hs. constructor. intros c (d & Hd & Hc).
    destruct (decide (x = k)) as [->|Hne].
    { exfalso. apply Hs. apply rtc_refl. }
    rewrite lookup_insert_ne in Hd by congruence.
    assert (child m c x) by (exists d; auto).
    apply IH; [done|]. intros Hr. apply Hs. eapply rtc_l; [|exact Hr]. done. }
  assert (H2 : Acc (child (<[k:=td]> m)) k).
  { constructor. intros c (d & Hd & Hc). rewrite lookup_insert in Hd.
    assert (d = td) as -> by congruence. apply H1; [auto|].
    intros Hr. apply Hnr. exists c; auto. }
  assert (H3 : forall x, Acc (child m) x -> Acc (child (<[k:=td]> m)) x).
  { intros x Hx. induction Hx as [x _ IH]. constructor. intros c (d & Hd & Hc).
    destruct (decide (x = k)) as [->|Hne].
    - rewrite lookup_insert in Hd. assert (d = td) as -> by congruence.
      destruct H2 as [H2]. apply H2. exists td. rewrite lookup_insert. auto.
    - rewrite lookup_insert_ne in Hd by congruence. apply IH. exists d; auto. }
  intros x Hx. apply H3, HA. destruct (decide (x = k)) as [->|Hne]; [done|].
  rewrite lookup_insert_ne in Hx by congruence. done.
Qed.

Section Core.
  Context (prods : nat -> option (list (list nat))) (nonterms : list bool) (kinds : list nat) (start : nat).
  (** nonterms[s] holds exactly for the symbols with productions *)
  Hypothesis Hnt : forall s, nonterms !! s = Some true <-> is_Some (prods s).
  Hypothesis Hsz : forall s ps p x,
    prods s = Some ps -> p ∈ ps -> x ∈ p -> is_Some (nonterms !! x).
  Notation n := (length kinds).
  Definition isT s := nonterms !! s = Some false.

  Lemma isT_prods s : isT s -> prods s = None.
  Proof using Hnt.
    intros H. destruct (prods s) eqn:E; [|done].
    assert (is_Some (prods s)) as H1 by eauto. apply Hnt in H1. unfold isT in H. congruence.
  Qed.
  Lemma prods_nt s ps : prods s = Some ps -> nonterms !! s = Some true.
  Proof using Hnt. intros H. apply Hnt. eauto. Qed.

  Definition def_ok (d : tdef) : Prop :=
    let s := fst (fst (td_key d)) in let i := snd (fst (td_key d)) in let j := snd (td_key d) in
    (isT s /\ td_children d = [] /\ td_prio d = 0 /\ kinds !! i = Some s /\ j = S i)
    \/ (exists ps p, prods s = Some ps /\ ps !! td_prio d = Some p /\ spans p (td_children d) i j).

  Definition kspan (k : key) : Prop := snd (fst k) <= snd k /\ snd k <= n.

  (** the finite universe of keys *)
  Definition univ : gset key :=
    list_to_set (list_prod (list_prod (seq 0 (length nonterms)) (seq 0 (S n))) (seq 0 (S n))).
  Definition KU := size univ.
  Lemma elem_univ (k : key) : fst (fst k) < length nonterms -> kspan k -> k ∈ univ.
  Proof.
    destruct k as [[s i] j]. unfold kspan; simpl. intros Hs [Hij Hj].
    unfold univ. apply elem_of_list_to_set. apply elem_of_list_In.
    apply in_prod; [apply in_prod|]; apply in_seq; lia.
  Qed.

  Definition memo_ok (m : gmap key tdef) : Prop :=
    forall k d, m !! k = Some d ->
      td_key d = k /\ def_ok d /\ kspan k /\ forall c, c ∈ td_children d -> is_Some (m !! c).
  Definition acyc (m : gmap key tdef) : Prop :=
    forall k, is_Some (m !! k) -> Acc (child m) k.

  Lemma def_ok_sym d : def_ok d -> fst (fst (td_key d)) < length nonterms.
  Proof using Hnt.
    intros [(H & _)|(ps & p & H & _)].
    - eapply lookup_lt_Some. exact H.
    - eapply lookup_lt_Some. eapply prods_nt. exact H.
  Qed.

  Lemma memo_hb m k : memo_ok m -> acyc m -> is_Some (m !! k) -> hb m (S KU) k.
  Proof using Hnt.
    intros Hm Ha Hk. apply acc_hb; [by apply Ha|].
    intros c Hc. assert (is_Some (m !! c)) as [d Hd].
    { clear Hk. induction Hc as [x y (d & Hd & Hc)|x y z _ _ IH]; [|done].
      edestruct Hm as (_ & _ & _ & H); [exact Hd|]. auto. }
    destruct (Hm _ _ Hd) as (Hkey & Hok & Hsp & _).
    apply elem_univ; [|done]. rewrite <- Hkey. apply def_ok_sym; done.
  Qed.

  (** ** comparePriority neither panics nor runs out of fuel *)
  Lemma compare_ok m : memo_ok m -> forall h td td2 fuel,
    h < fuel ->
    def_ok td -> def_ok td2 -> fst (fst (td_key td)) = fst (fst (td_key td2)) ->
    (forall c, c ∈ td_children td -> is_Some (m !! c) /\ hb m h c) ->
    (forall c, c ∈ td_children td2 -> is_Some (m !! c)) ->
    exists z, compare_priority fuel m td td2 = Ok z /\ (z = 1%Z -> td_prio td <= td_prio td2)
       /\ (td_prio td < td_prio td2 -> z = 1%Z).
  Proof using Hnt.
    intros Hm. induction h as [|h IH]; intros td td2 [|fuel] Hf Ho1 Ho2 Hs Hc1 Hc2; try lia.
    - simpl. destruct (Nat.eqb_spec (td_prio td) (td_prio td2)) as [He|He].
      + destruct (td_children td) as [|c cs] eqn:Ec.
        * exists 0%Z. split; [done|]. split; [lia|lia].
        * exfalso. destruct (Hc1 c) as [_ []]. left.
      + destruct (Nat.ltb_spec (td_prio td) (td_prio td2)).
        * exists 1%Z; repeat split; lia.
        * exists (-1)%Z; repeat split; lia.
    - simpl. destruct (Nat.eqb_spec (td_prio td) (td_prio td2)) as [He|He].
      2:{ destruct (Nat.ltb_spec (td_prio td) (td_prio td2)).
        * exists 1%Z; repeat split; lia.
        * exists (-1)%Z; repeat split; lia. }
      (* equal production: children pairwise have the same symbol *)
      assert (HP : Forall2 (fun a b : key => fst (fst a) = fst (fst b)) (td_children td) (td_children td2)).
      { destruct Ho1 as [(T1 & E1 & _)|(ps1 & p1 & P1 & L1 & S1)];
        destruct Ho2 as [(T2 & E2 & _)|(ps2 & p2 & P2 & L2 & S2)].
        - rewrite E1, E2. constructor.
        - exfalso. rewrite <- Hs in P2. rewrite (isT_prods _ T1) in P2. done.
        - exfalso. rewrite Hs in P1. rewrite (isT_prods _ T2) in P1. done.
        - rewrite Hs in P1. assert (ps1 = ps2) as -> by congruence.
          rewrite He in L1. assert (p1 = p2) as -> by congruence.
          apply Forall2_same_length_lookup. split.
          + pose proof (spans_length _ _ _ _ S1). pose proof (spans_length _ _ _ _ S2). congruence.
          + intros q a b Ha Hb. pose proof (spans_lookup _ _ _ _ _ _ S1 Ha).
            pose proof (spans_lookup _ _ _ _ _ _ S2 Hb). congruence. }
      assert (HG : exists z, (fix loop (cs1 cs2 : list key) : res Z :=
           match cs1 with
           | [] => Ok 0%Z
           | ck1 :: r1 =>
               match cs2 with
               | [] => Panic
               | ck2 :: r2 =>
                   if decide (ck1 = ck2) then loop r1 r2
                   else
                     p <-! compare_priority fuel m (mget m ck1) (mget m ck2);
                     if (p =? 0)%Z then loop r1 r2 else Ok p
               end
           end) (td_children td) (td_children td2) = Ok z).
      { clear Ho1 Ho2 Hs He.
        induction HP as [|a b l1 l2 Hab HP IHP].
        - eauto.
        - destruct (decide (a = b)) as [->|Hne].
          { apply IHP; intros; [apply Hc1|apply Hc2]; right; done. }
          destruct (Hc1 a) as [[da Hda] Hha]; [left|].
          destruct (Hc2 b) as [db Hdb]; [left|].
          unfold mget at 1 2. rewrite Hda, Hdb. simpl.
          destruct (Hm _ _ Hda) as (Ka & Oa & _ & Ca).
          destruct (Hm _ _ Hdb) as (Kb & Ob & _ & Cb).
          destruct (IH da db fuel) as (z & Hz & _).
          + lia.
          + done.
          + done.
          + rewrite Ka, Kb. done.
          + intros c Hc. split; [auto|]. simpl in Hha. eauto.
          + auto.
          + rewrite Hz. simpl. destruct (z =? 0)%Z.
            * apply IHP; intros; [apply Hc1|apply Hc2]; right; done.
            * eauto. }
      destruct HG as [z Hz]. exists z. split; [exact Hz|]. split; lia.
  Qed.

  Lemma circular_ok m : memo_ok m -> forall h td root fuel,
    h < fuel ->
    (forall c, c ∈ td_children td -> is_Some (m !! c) /\ hb m h c) ->
    exists b, circular fuel m td root = Ok b /\ (b = true <-> reach m td root).
  Proof using.
    intros Hm. induction h as [|h IH]; intros td root [|fuel] Hf Hc1; try lia.
    - simpl. destruct (td_children td) as [|c cs] eqn:Ec.
      + exists false. split; [done|]. split; [done|]. intros (c & Hc & _).
        rewrite Ec in Hc. inversion Hc.
      + exfalso. destruct (Hc1 c) as [_ []]. left.
    - simpl. unfold reach.
      induction (td_children td) as [|c cs IHc].
      + exists false. split; [done|]. split; [done|]. intros (c & Hc & _). inversion Hc.
      + destruct (decide (c = root)) as [->|Hne].
        { exists true. split; [done|]. split; [|done]. intros _. exists root.
          split; [left|]. apply rtc_refl. }
        destruct (Hc1 c) as [[d Hd] Hh]; [left|].
        destruct (Hm _ _ Hd) as (Kd & Od & _ & Cd).
        destruct (IH d root fuel) as (b & Hb & Hbr); [lia| |].
        { intros x Hx. split; [auto|]. simpl in Hh. eauto. }
        unfold mget at 1. rewrite Hd. simpl. rewrite Hb. simpl.
        assert (Hdc : desc m c root <-> reach m d root).
        { split.
          - intros Hr. inversion Hr as [|? y ? (d' & Hd' & Hy) Hr']; subst; [done|].
            assert (d' = d) as -> by congruence. exists y; auto.
          - intros (y & Hy & Hr). eapply rtc_l; [|exact Hr]. exists d; auto. }
        destruct b.
        * exists true. split; [done|]. split; [|done]. intros _.
          exists c. split; [left|]. apply Hdc, Hbr. done.
        * destruct IHc as (b2 & Hb2 & Hbr2).
          { intros x Hx. apply Hc1. right. done. }
          exists b2. split; [exact Hb2|]. rewrite Hbr2. split.
          -- intros (x & Hx & Hr). exists x. split; [right; done|done].
          -- intros (x & Hx & Hr). apply elem_of_cons in Hx as [->|Hx]; [|eauto].
             exfalso. apply Hdc in Hr. apply Hbr in Hr. done.
  Qed.

  (** ** Span-level derivability *)
  Inductive dk : nat -> nat -> nat -> Prop :=
  | dk_term s i : isT s -> kinds !! i = Some s -> dk s i (S i)
  | dk_nt s i j ps p : prods s = Some ps -> p ∈ ps -> dks p i j -> dk s i j
  with dks : list nat -> nat -> nat -> Prop :=
  | dks_nil i : dks [] i i
  | dks_cons s ss i k j : dk s i k -> dks ss k j -> dks (s :: ss) i j.

  Inductive nullable : nat -> Prop :=
  | null_intro s ps p : prods s = Some ps -> p ∈ ps -> nullables p -> nullable s
  with nullables : list nat -> Prop :=
  | nulls_nil : nullables []
  | nulls_cons s ss : nullable s -> nullables ss -> nullables (s :: ss).

  Definition ustep (A B : nat) : Prop :=
    exists ps p a b, prods A = Some ps /\ p ∈ ps /\ p = a ++ B :: b /\ nullables a /\ nullables b.
  (** no symbol derives itself *)
  Definition nocyc : Prop := forall A, ~ tc ustep A A.

  (** The productions that derive the span of [c] come before those that derive the span
      of [c2]. *)
  Definition before (c c2 : key) : Prop :=
    exists ps, prods (fst (fst c)) = Some ps /\ prods (fst (fst c2)) = Some ps /\
      forall q q2 p p2, ps !! q = Some p -> ps !! q2 = Some p2 -> dks p (snd (fst c)) (snd c) ->
        dks p2 (snd (fst c2)) (snd c2) -> q < q2.
  (** This holds for the first children in which [cs] and [cs2] differ. *)
  Definition outranks (cs cs2 : list key) : Prop :=
    exists pre c c2 r r2, cs = pre ++ c :: r /\ cs2 = pre ++ c2 :: r2 /\ c <> c2 /\ before c c2.
  Definition best (k : key) (prio : nat) (cs : list key) : Prop :=
    forall ps p cs2, prods (fst (fst k)) = Some ps -> ps !! prio = Some p ->
      spans p cs2 (snd (fst k)) (snd k) ->
      (forall c, c ∈ cs2 -> dk (fst (fst c)) (snd (fst c)) (snd c)) -> cs2 = cs \/ outranks cs cs2.

  (** A symbol may begin at a position. *)
  Inductive predicted : nat -> nat -> Prop :=
  | pr_start : predicted start 0
  | pr_step A i ps a B b j : predicted A i -> prods A = Some ps -> (a ++ B :: b) ∈ ps -> dks a i j -> predicted B j.
  (** No lexeme is named like a non-terminal that may begin there and has a production whose
      first symbol derives what follows without being the last one. *)
  Hypothesis Hkd : forall A i ps X Y r j, predicted A i -> kinds !! i = Some A -> prods A = Some ps ->
    (X :: Y :: r) ∈ ps -> dk X i j -> False.

  Definition part_ok (m : gmap key tdef) (tp : tpart) (req : marker) : Prop :=
    exists ps done rest,
      prods (fst (td_marker (tp_def tp))) = Some ps /\
      ps !! td_prio (tp_def tp) = Some (tp_prod tp) /\
      tp_prod tp = done ++ fst req :: rest /\
      spans done (td_children (tp_def tp)) (snd (td_marker (tp_def tp))) (snd req) /\
      (forall c, c ∈ td_children (tp_def tp) -> is_Some (m !! c)) /\
      snd (td_marker (tp_def tp)) <= snd req /\ snd req <= n /\
      predicted (fst (td_marker (tp_def tp))) (snd (td_marker (tp_def tp))).

  Record WF (s : pst) : Prop := {
    wf_memo : memo_ok (memo s);
    wf_acyc : acyc (memo s);
    wf_mk : forall mk k, (exists d, d ∈ lget (markers s) mk /\ td_key d = k)
               <-> fst k = mk /\ is_Some (memo s !! k);
    wf_mknd : forall mk, NoDup (td_key <$> lget (markers s) mk);
    wf_part : forall mk tp, tp ∈ lget (partials s) mk ->
               part_ok (memo s) tp mk /\ nonterms !! fst mk = Some true;
    wf_stack : forall tp k, (tp, k) ∈ stack s ->
               part_ok (memo s) tp (fst k) /\ is_Some (memo s !! k)
  }.

  Definition ext (s s' : pst) : Prop :=
    (forall k d, memo s !! k = Some d ->
       exists d', memo s' !! k = Some d' /\ td_prio d' <= td_prio d /\
         (best k (td_prio d) (td_children d) -> td_prio d' = td_prio d -> td_children d' = td_children d)) /\
    (forall mk tp, tp ∈ lget (partials s) mk -> tp ∈ lget (partials s') mk) /\
    (forall m, m ∈ queued s -> m ∈ queued s') /\
    (forall x, x ∈ stack s -> x ∈ stack s') /\
    (forall k tp, is_Some (memo s' !! k) -> memo s !! k = None ->
       tp ∈ lget (partials s) (fst k) -> (tp, k) ∈ stack s').

  Lemma ext_refl s : ext s s.
  Proof.
    split_and!; auto.
    - intros k d H. exists d; auto.
    - intros k tp [? H] H'. congruence.
  Qed.
  Lemma ext_some s s' k : ext s s' -> is_Some (memo s !! k) -> is_Some (memo s' !! k).
  Proof. intros (H & _) [d Hd]. destruct (H _ _ Hd) as (d' & ? & _). eauto. Qed.
  Lemma ext_trans s1 s2 s3 : ext s1 s2 -> ext s2 s3 -> ext s1 s3.
  Proof.
    intros H12 H23. pose proof (fun k => ext_some _ _ k H12) as Hs.
    destruct H12 as (A1 & A2 & A3 & A4 & A5). destruct H23 as (B1 & B2 & B3 & B4 & B5).
    split_and!; auto.
    - intros k d Hd. destruct (A1 _ _ Hd) as (d' & Hd' & Hl1 & Hb1).
      destruct (B1 _ _ Hd') as (d'' & Hd'' & Hl2 & Hb2). exists d''. split; [done|]. split; [lia|].
      intros Hb E. assert (E1 : td_prio d' = td_prio d) by lia. specialize (Hb1 Hb E1).
      rewrite E1, Hb1 in Hb2. rewrite <- Hb1. rewrite Hb1. apply Hb2; [done|lia].
    - intros k tp Hk Hn Htp. destruct (memo s2 !! k) eqn:E.
      + apply B4, A5; eauto.
      + apply B5; eauto.
  Qed.

  Lemma part_ok_mono (m m' : gmap key tdef) tp req :
    (forall k, is_Some (m !! k) -> is_Some (m' !! k)) -> part_ok m tp req -> part_ok m' tp req.
  Proof.
    intros Hm (ps & dn & rest & H1 & H2 & H3 & H4 & H5 & H6).
    exists ps, dn, rest. split_and!; tauto || auto.
  Qed.

  (** ** soundness of the memo *)
  Lemma memo_dk m : memo_ok m -> acyc m -> forall k, is_Some (m !! k) -> dk (fst (fst k)) (snd (fst k)) (snd k).
  Proof.
    intros Hm Ha k Hk. pose proof (Ha k Hk) as HA. induction HA as [k _ IH].
    destruct Hk as [d Hd]. destruct (Hm _ _ Hd) as (Kd & Od & Sd & Cd).
    destruct Od as [(T1 & _ & _ & Hl & He)|(ps & p & Hp & Hl & Hsp)]; rewrite Kd in *.
    - rewrite He. constructor; done.
    - econstructor; [exact Hp|eapply elem_of_list_lookup_2; exact Hl|].
      assert (HC : forall c, c ∈ td_children d -> dk (fst (fst c)) (snd (fst c)) (snd c)).
      { intros c Hc. apply IH; [exists d; auto|auto]. }
      clear -Hsp HC. revert Hsp HC. generalize (td_children d) as cs. generalize (snd (fst k)) as i.
      induction p as [|s p IHp]; intros i [|c cs]; simpl; try done.
      + intros -> _. constructor.
      + intros [Hc Hsp] HC. econstructor.
        * assert (H := HC c ltac:(left)). rewrite Hc in H. exact H.
        * apply (IHp _ cs); [done|]. intros x Hx. apply HC. right; done.
  Qed.

  Scheme dk_mut := Induction for dk Sort Prop with dks_mut := Induction for dks Sort Prop.
  Combined Scheme dk_dks_ind from dk_mut, dks_mut.

  Lemma dk_le : (forall s i j, dk s i j -> i <= j) /\ (forall ss i j, dks ss i j -> i <= j).
  Proof. apply dk_dks_ind; intros; lia. Qed.
  Lemma dk_null :
    (forall s i j, dk s i j -> i = j -> nullable s) /\ (forall ss i j, dks ss i j -> i = j -> nullables ss).
  Proof.
    apply dk_dks_ind.
    - intros; lia.
    - intros. econstructor; eauto.
    - intros. constructor.
    - intros s ss i k j H1 IH1 H2 IH2 ->. pose proof (proj1 dk_le _ _ _ H1). pose proof (proj2 dk_le _ _ _ H2).
      constructor; [apply IH1; lia|apply IH2; lia].
  Qed.

  Lemma dks_app a b i j : dks (a ++ b) i j <-> exists k, dks a i k /\ dks b k j.
  Proof.
    revert i. induction a as [|s a IH]; intros i; simpl.
    - split; [intros; exists i; split; [constructor|done]|].
      intros (k & H & H'). inversion H; subst. done.
    - split.
      + intros H. inversion H as [|? ? ? k ? H1 H2]; subst. apply IH in H2 as (k' & ? & ?).
        exists k'. split; [econstructor; eauto|done].
      + intros (k' & H & H2). inversion H as [|? ? ? k ? H1 H3]; subst.
        econstructor; [done|]. apply IH. eauto.
  Qed.

  Lemma spans_dks m p cs i j : memo_ok m -> acyc m -> spans p cs i j ->
    (forall c, c ∈ cs -> is_Some (m !! c)) -> dks p i j.
  Proof.
    intros Hm Ha. revert cs i. induction p as [|s p IHp]; intros [|x cs] i; simpl; try done.
    - intros -> _. constructor.
    - intros [Hc Hsp] Hx. econstructor.
      + pose proof (memo_dk m Hm Ha x (Hx x ltac:(left))) as H. rewrite Hc in H. exact H.
      + apply (IHp cs); [done|]. intros y Hy. apply Hx. right; done.
  Qed.

  Lemma part_predicted m tp req : memo_ok m -> acyc m -> part_ok m tp req -> predicted (fst req) (snd req).
  Proof.
    intros Hm Ha (ps & dn & rest & H1 & H2 & H3 & H4 & H5 & _ & _ & H8). eapply pr_step; [exact H8|exact H1| |].
    - rewrite <- H3. eapply elem_of_list_lookup_2; exact H2.
    - eapply spans_dks; [exact Hm|exact Ha|exact H4|exact H5].
  Qed.

  (** one memo step inside the same span is a unit step *)
  Lemma child_step m : memo_ok m -> acyc m -> forall td c, def_ok td ->
    (forall x, x ∈ td_children td -> is_Some (m !! x)) -> c ∈ td_children td ->
    snd (fst (td_key td)) <= snd (fst c) /\ snd c <= snd (td_key td) /\
    (fst c = (fst (fst c), snd (fst (td_key td))) -> snd c = snd (td_key td) ->
       ustep (fst (fst (td_key td))) (fst (fst c))).
  Proof.
    intros Hm Ha td c Ho Hx Hc.
    destruct Ho as [(_ & E & _)|(ps & p & Hp & Hl & Hsp)].
    { rewrite E in Hc. inversion Hc. }
    assert (HH : exists a b k, p = a ++ fst (fst c) :: b /\ dks a (snd (fst (td_key td))) (snd (fst c))
              /\ dks b (snd c) (snd (td_key td)) /\ k = 0).
    { clear Hl Hp. revert Hsp Hx Hc. generalize (td_children td) as cs.
      generalize (snd (fst (td_key td))) as i.
      induction p as [|s p IHp]; intros i [|c' cs]; simpl; try done.
      { intros _ _ H; inversion H. }
      intros [Hc' Hsp] Hx Hc.
      assert (Hdk : dk s i (snd c')).
      { pose proof (memo_dk m Hm Ha c' (Hx c' ltac:(left))) as H. rewrite Hc' in H. exact H. }
      apply elem_of_cons in Hc as [->|Hc].
      - exists [], p, 0. rewrite Hc'. simpl. split_and!; auto.
        + constructor.
        + eapply spans_dks; eauto. intros y Hy. apply Hx. right; done.
      - destruct (IHp (snd c') cs Hsp) as (a & b & k & -> & Ha' & Hb & Hk); [|done|].
        { intros x Hx'. apply Hx. right; done. }
        exists (s :: a), b, 0. split_and!; auto. econstructor; eauto. }
    destruct HH as (a & b & _ & -> & Hda & Hdb & _).
    pose proof (proj2 dk_le _ _ _ Hda). pose proof (proj2 dk_le _ _ _ Hdb).
    split_and!; auto. intros H1 H2.
    exists ps, (a ++ fst (fst c) :: b), a, b. split_and!; auto.
    - eapply elem_of_list_lookup_2; exact Hl.
    - eapply (proj2 dk_null); [exact Hda|]. rewrite H1. done.
    - eapply (proj2 dk_null); [exact Hdb|]. done.
  Qed.

  Lemma reach_cyc m td : memo_ok m -> acyc m -> def_ok td ->
    (forall x, x ∈ td_children td -> is_Some (m !! x)) ->
    reach m td (td_key td) -> ~ nocyc.
  Proof.
    intros Hm Ha Ho Hx (c & Hc & Hr) Hnc.
    apply (Hnc (fst (fst (td_key td)))).
    (* generalise: from any td and descendant with the same span *)
    assert (HG : forall c k, desc m c k -> is_Some (m !! c) ->
       snd (fst c) <= snd (fst k) /\ snd k <= snd c /\
       (snd (fst c) = snd (fst k) -> snd k = snd c -> rtc ustep (fst (fst c)) (fst (fst k)))).
    { clear c Hc Hr. intros c k Hr. induction Hr as [x|x y z Hxy Hyz IH].
      - intros _. split_and!; auto. intros; apply rtc_refl.
      - intros [d Hd]. destruct Hxy as (d' & Hd' & Hy). assert (d' = d) as -> by congruence.
        destruct (Hm _ _ Hd) as (Kd & Od & Sd & Cd).
        destruct (child_step m Hm Ha d y Od Cd Hy) as (L1 & L2 & L3). rewrite Kd in *.
        destruct (IH (Cd _ Hy)) as (M1 & M2 & M3).
        split_and!; [lia|lia|]. intros E1 E2.
        eapply rtc_l; [apply L3|apply M3]; try lia.
        rewrite (surjective_pairing (fst y)) at 1. simpl. f_equal. lia. }
    destruct (child_step m Hm Ha td c Ho Hx Hc) as (L1 & L2 & L3).
    destruct (HG _ _ Hr (Hx _ Hc)) as (M1 & M2 & M3).
    eapply tc_rtc_r; [apply tc_once, L3|apply M3]; try lia.
    rewrite (surjective_pairing (fst c)) at 1. simpl. f_equal. lia.
  Qed.

  (** ** which split comparePriority keeps *)
  Lemma memo_before m c d c2 d2 : memo_ok m -> acyc m -> m !! c = Some d -> m !! c2 = Some d2 ->
    before c c2 -> td_prio d < td_prio d2.
  Proof using Hnt.
    intros Hm Ha Hd Hd2 (ps & Hp & Hp2 & Hq).
    assert (HD : forall c d, m !! c = Some d -> prods (fst (fst c)) = Some ps ->
      exists p, ps !! td_prio d = Some p /\ dks p (snd (fst c)) (snd c)).
    { clear - Hm Ha Hnt. intros c d Hd Hp. destruct (Hm _ _ Hd) as (Kd & Od & _ & Cd).
      destruct Od as [(HT & _)|(ps' & p & Hp' & Hl & Hs)]; rewrite Kd in *.
      - rewrite (isT_prods _ HT) in Hp. done.
      - assert (ps' = ps) as -> by congruence. exists p. split; [done|]. eapply spans_dks; eauto. }
    destruct (HD _ _ Hd Hp) as (p & Hl & Hs). destruct (HD _ _ Hd2 Hp2) as (p2 & Hl2 & Hs2). eauto.
  Qed.
  Lemma compare_outranks m fuel td td2 z : memo_ok m -> acyc m -> td_prio td = td_prio td2 ->
    (forall c, c ∈ td_children td -> is_Some (m !! c)) -> (forall c, c ∈ td_children td2 -> is_Some (m !! c)) ->
    outranks (td_children td) (td_children td2) \/ outranks (td_children td2) (td_children td) ->
    compare_priority fuel m td td2 = Ok z ->
    (outranks (td_children td) (td_children td2) -> z = 1%Z) /\ (outranks (td_children td2) (td_children td) -> z = (-1)%Z).
  Proof using Hnt.
    intros Hm Ha Hp H1 H2 Ho. destruct fuel as [|fuel]; [done|]. cbn [compare_priority]. rewrite Hp, Nat.eqb_refl.
    intros Hz.
    assert (HG : forall pre c c2 r r2, m !! c <> None -> m !! c2 <> None -> c <> c2 -> before c c2 \/ before c2 c ->
      (fix loop (cs1 cs2 : list key) : res Z :=
           match cs1 with
           | [] => Ok 0%Z
           | ck1 :: r1 =>
               match cs2 with
               | [] => Panic
               | ck2 :: r2 =>
                   if decide (ck1 = ck2) then loop r1 r2
                   else
                     p <-! compare_priority fuel m (mget m ck1) (mget m ck2);
                     if (p =? 0)%Z then loop r1 r2 else Ok p
               end
           end) (pre ++ c :: r) (pre ++ c2 :: r2) = Ok z -> (before c c2 -> z = 1%Z) /\ (before c2 c -> z = (-1)%Z)).
    { clear Hz Ho. intros pre c c2 r r2 Hc Hc2 Hne Hbe. induction pre as [|x pre IH]; cbn [app].
      - destruct (decide (c = c2)) as [->|_]; [done|].
        destruct (m !! c) as [d|] eqn:Ed; [|done]. destruct (m !! c2) as [d2|] eqn:Ed2; [|done].
        assert (HC : forall z0, compare_priority fuel m (mget m c) (mget m c2) = Ok z0 ->
          (before c c2 -> z0 = 1%Z) /\ (before c2 c -> z0 = (-1)%Z)).
        { intros z0. unfold mget. rewrite Ed, Ed2. cbn [default from_option]. destruct fuel as [|fuel']; [done|]. cbn [compare_priority].
          unfold default, id. intros Hz0.
          split; intros HB; [pose proof (memo_before m _ _ _ _ Hm Ha Ed Ed2 HB) as HL|pose proof (memo_before m _ _ _ _ Hm Ha Ed2 Ed HB) as HL]; revert Hz0.
          - destruct (Nat.eqb_spec (td_prio d) (td_prio d2)) as [|_]; [lia|].
            destruct (Nat.ltb_spec (td_prio d) (td_prio d2)); [|lia]. intros [= <-]; done.
          - destruct (Nat.eqb_spec (td_prio d) (td_prio d2)) as [|_]; [lia|].
            destruct (Nat.ltb_spec (td_prio d) (td_prio d2)); [lia|]. intros [= <-]; done. }
        destruct (compare_priority fuel m (mget m c) (mget m c2)) as [z0| |]; [|done|done]. cbn [rbind].
        destruct (HC z0 eq_refl) as [HC1 HC2]. intros Hz. assert (z0 = z) as ->.
        { destruct Hbe as [H|H]; [rewrite (HC1 H) in *|rewrite (HC2 H) in *]; simpl in Hz; congruence. }
        split; assumption.
      - destruct (decide (x = x)) as [_|]; [exact IH|done]. }
    assert (HS : forall (c : key) (cs : list key), (forall c, c ∈ cs -> is_Some (m !! c)) -> c ∈ cs -> m !! c <> None).
    { intros c cs H Hin E. destruct (H c Hin). congruence. }
    assert (HB : forall pre (c : key) r, c ∈ pre ++ c :: r) by (intros; apply elem_of_app; right; left).
    split; intros (pre & c & c2 & r & r2 & E1 & E2 & Hne & HB'); rewrite E1, E2 in *.
    - exact (proj1 (HG pre c c2 r r2 (HS c _ H1 (HB _ _ _)) (HS c2 _ H2 (HB _ _ _)) Hne (or_introl HB') Hz) HB').
    - exact (proj2 (HG pre c2 c r2 r (HS c2 _ H1 (HB _ _ _)) (HS c _ H2 (HB _ _ _)) (not_eq_sym Hne) (or_intror HB') Hz) HB').
  Qed.
  Lemma best_other m k td : memo_ok m -> acyc m -> def_ok td -> td_key td = k ->
    (forall c, c ∈ td_children td -> is_Some (m !! c)) -> forall cs, best k (td_prio td) cs -> td_children td <> cs ->
    outranks cs (td_children td) \/ prods (fst (fst k)) = None.
  Proof using Hnt.
    intros Hm Ha Ho <- Hc cs Hb Hne. destruct Ho as [(HT & _)|(ps & p & Hp & Hl & Hs)]; [right; by apply isT_prods|]. left.
    destruct (Hb ps p (td_children td) Hp Hl Hs) as [|H]; [|done|exact H].
    intros c Hin. apply (memo_dk m Hm Ha). auto.
  Qed.
  Lemma best_same m td cs : memo_ok m -> acyc m -> def_ok td -> (forall c, c ∈ td_children td -> is_Some (m !! c)) ->
    best (td_key td) (td_prio td) cs -> (prods (fst (fst (td_key td))) = None -> cs = []) ->
    td_children td = cs \/ outranks cs (td_children td).
  Proof using Hnt.
    intros Hm Ha Ho Hc Hb Hn. destruct (decide (td_children td = cs)) as [|Hne]; [by left|]. right.
    destruct (best_other m _ td Hm Ha Ho eq_refl Hc cs Hb Hne) as [H|H]; [exact H|]. exfalso. apply Hne. rewrite (Hn H).
    destruct Ho as [(_ & E & _)|(ps & p & Hp & _)]; congruence.
  Qed.
  Lemma def_none d : def_ok d -> prods (fst (fst (td_key d))) = None -> td_children d = [].
  Proof. intros [(_ & E & _)|(ps & p & Hp & _)] H; congruence. Qed.

  Definition fresh_state (s : pst) (td : tdef) : pst :=
    PSt (<[td_key td := td]> (memo s))
        (<[td_marker td := lget (markers s) (td_marker td) ++ [td]]> (markers s))
        (partials s) (queued s)
        (rev ((fun tp => (tp, td_key td)) <$> lget (partials s) (td_marker td)) ++ stack s).

  Lemma fold_push_partials l s k :
    fold_left (fun s tp => push s tp k) l s
    = PSt (memo s) (markers s) (partials s) (queued s) (rev ((fun tp => (tp, k)) <$> l) ++ stack s).
  Proof.
    revert s. induction l as [|tp l IH]; intros s; simpl; [by destruct s|].
    rewrite IH. unfold push; simpl. rewrite <- app_assoc. done.
  Qed.
  Lemma fold_push_markers l s tp :
    fold_left (fun s td => push s tp (td_key td)) l s
    = PSt (memo s) (markers s) (partials s) (queued s) (rev ((fun td => (tp, td_key td)) <$> l) ++ stack s).
  Proof.
    revert s. induction l as [|td l IH]; intros s; simpl; [by destruct s|].
    rewrite IH. unfold push; simpl. rewrite <- app_assoc. done.
  Qed.

  Lemma atm_cases fuel s td : S KU < fuel -> WF s -> def_ok td ->
    (forall c, c ∈ td_children td -> is_Some (memo s !! c)) ->
    exists s', add_to_memo fuel s td = Ok s' /\
      ((memo s !! td_key td = None /\ s' = fresh_state s td) \/
       (exists old, memo s !! td_key td = Some old /\ s' = s /\ (nocyc -> td_prio old <= td_prio td /\
          (td_prio old = td_prio td -> best (td_key td) (td_prio td) (td_children td) -> td_children old = td_children td))) \/
       (exists old, memo s !! td_key td = Some old /\ s' = set_memo s (<[td_key td := td]> (memo s)) /\
          ~ reach (memo s) td (td_key td) /\ td_prio td <= td_prio old /\
          (best (td_key td) (td_prio old) (td_children old) -> td_prio td = td_prio old -> td_children td = td_children old))).
  Proof using Hnt.
    intros Hf Hw Ho Hc. unfold add_to_memo.
    pose proof (wf_memo _ Hw) as Hm. pose proof (wf_acyc _ Hw) as Ha.
    destruct (memo s !! td_key td) as [old|] eqn:E.
    - destruct (Hm _ _ E) as (Ko & Oo & So & Co).
      assert (HH : forall c, c ∈ td_children td -> is_Some (memo s !! c) /\ hb (memo s) (S KU) c).
      { intros c Hcc. split; [auto|]. apply memo_hb; auto. }
      destruct (compare_ok _ Hm (S KU) td old fuel) as (z & Hz & Hz1 & Hz2); auto; [by rewrite Ko|].
      rewrite Hz. simpl.
      destruct (Z.eqb_spec z 1) as [->|Hne].
      + destruct (circular_ok _ Hm (S KU) td (td_key td) fuel) as (b & Hb & Hbr); auto.
        rewrite Hb. simpl. destruct b.
        * eexists; split; [done|]. right; left. exists old. split_and!; auto.
          intros Hnc. exfalso. apply (reach_cyc (memo s) td); auto. apply Hbr; done.
        * eexists; split; [done|]. right; right. exists old. split_and!; auto.
          -- intros Hr. apply Hbr in Hr. done.
          -- intros Hbst E'. rewrite <- E' in Hbst.
             destruct (best_same _ td _ Hm Ha Ho Hc Hbst) as [H|H]; [|exact H|].
             { rewrite <- Ko. by apply def_none. }
             exfalso. pose proof (proj2 (compare_outranks _ _ _ _ _ Hm Ha E' Hc Co (or_intror H) Hz) H). done.
      + eexists; split; [done|]. right; left. exists old. split_and!; auto.
        intros _. split.
        * destruct (decide (td_prio td < td_prio old)); [|lia]. exfalso; auto.
        * intros E' Hb. rewrite <- E', <- Ko in Hb.
          destruct (best_same _ old _ Hm Ha Oo Co Hb) as [H|H]; [|exact H|].
          { rewrite Ko. by apply def_none. }
          exfalso. apply Hne. exact (proj1 (compare_outranks _ _ _ _ _ Hm Ha (eq_sym E') Hc Co (or_introl H) Hz) H).
    - eexists; split; [done|]. left. split; [done|].
      rewrite fold_push_partials. done.
  Qed.

  Lemma lget_insert {V} (m : gmap marker (list V)) k v : lget (<[k:=v]> m) k = v.
  Proof. unfold lget. rewrite lookup_insert. done. Qed.
  Lemma lget_insert_ne {V} (m : gmap marker (list V)) k k' v : k <> k' -> lget (<[k:=v]> m) k' = lget m k'.
  Proof. intros. unfold lget. rewrite lookup_insert_ne by done. done. Qed.

  Lemma WF_fresh s td : WF s -> def_ok td -> kspan (td_key td) ->
    (forall c, c ∈ td_children td -> is_Some (memo s !! c)) ->
    memo s !! td_key td = None -> WF (fresh_state s td).
  Proof.
    intros Hw Ho Hk Hc Hn.
    assert (Hmono : forall x, is_Some (memo s !! x) -> is_Some (<[td_key td:=td]> (memo s) !! x)).
    { intros x [d Hd]. destruct (decide (x = td_key td)) as [->|Hne].
      - rewrite lookup_insert; eauto.
      - rewrite lookup_insert_ne by done. eauto. }
    constructor; simpl.
    - intros k d Hd. destruct (decide (k = td_key td)) as [->|Hne].
      + rewrite lookup_insert in Hd. assert (d = td) as -> by congruence. split_and!; auto.
      + rewrite lookup_insert_ne in Hd by done.
        destruct (wf_memo _ Hw _ _ Hd) as (? & ? & ? & ?). split_and!; auto.
    - unfold acyc. apply acc_insert_fresh; auto.
      + intros x d Hd c Hcc. edestruct (wf_memo _ Hw) as (_ & _ & _ & H); eauto.
      + apply (wf_acyc _ Hw).
    - intros mk k. destruct (decide (td_marker td = mk)) as [<-|Hne].
      + rewrite lget_insert. split.
        * intros (d & Hd & <-). apply elem_of_app in Hd as [Hd|Hd].
          -- destruct (proj1 (wf_mk _ Hw (td_marker td) (td_key d))) as [H1 H2]; [eauto|]. auto.
          -- apply elem_of_list_singleton in Hd as ->. split; [done|]. rewrite lookup_insert; eauto.
        * intros [Hk1 Hk2]. destruct (decide (k = td_key td)) as [->|Hne].
          -- exists td. split; [|done]. apply elem_of_app. right. apply elem_of_list_singleton; done.
          -- rewrite lookup_insert_ne in Hk2 by done.
             destruct (proj2 (wf_mk _ Hw (td_marker td) k)) as (d & Hd & Hdk); [auto|].
             exists d. split; [|done]. apply elem_of_app; auto.
      + rewrite lget_insert_ne by done. rewrite (wf_mk _ Hw). split; intros [H1 H2]; split; auto.
        destruct (decide (k = td_key td)) as [->|Hne2]; [exfalso; apply Hne; done|].
        rewrite lookup_insert_ne in H2 by done. done.
    - intros mk. destruct (decide (td_marker td = mk)) as [<-|Hne].
      + rewrite lget_insert. rewrite fmap_app. apply NoDup_app. split_and!.
        * apply (wf_mknd _ Hw).
        * intros x Hx Hx2. simpl in Hx2. apply elem_of_list_singleton in Hx2 as ->.
          apply elem_of_list_fmap in Hx as (d & Hdk & Hd).
          destruct (proj1 (wf_mk _ Hw (td_marker td) (td_key td))) as [_ H2]; [eauto|].
          rewrite Hn in H2. destruct H2; done.
        * simpl. apply NoDup_singleton.
      + rewrite lget_insert_ne by done. apply (wf_mknd _ Hw).
    - intros mk tp Htp. destruct (wf_part _ Hw _ _ Htp). split; [|done].
      eapply part_ok_mono; eauto.
    - intros tp k Hin. apply elem_of_app in Hin as [Hin|Hin].
      + apply elem_of_list_In in Hin. apply in_rev in Hin. apply elem_of_list_In in Hin.
        apply elem_of_list_fmap in Hin as (tp' & [= -> ->] & Hin).
        destruct (wf_part _ Hw _ _ Hin). split; [eapply part_ok_mono; eauto|].
        rewrite lookup_insert; eauto.
      + destruct (wf_stack _ Hw _ _ Hin). split; [eapply part_ok_mono; eauto|auto].
  Qed.

  Lemma WF_replace s td old : WF s -> def_ok td -> kspan (td_key td) ->
    (forall c, c ∈ td_children td -> is_Some (memo s !! c)) ->
    memo s !! td_key td = Some old -> ~ reach (memo s) td (td_key td) ->
    WF (set_memo s (<[td_key td := td]> (memo s))).
  Proof.
    intros Hw Ho Hk Hc Hn Hr.
    assert (Hmono : forall x, is_Some (memo s !! x) <-> is_Some (<[td_key td:=td]> (memo s) !! x)).
    { intros x. destruct (decide (x = td_key td)) as [->|Hne].
      - rewrite lookup_insert, Hn. split; eauto.
      - rewrite lookup_insert_ne by done. done. }
    constructor; simpl.
    - intros k d Hd. destruct (decide (k = td_key td)) as [->|Hne].
      + rewrite lookup_insert in Hd. assert (d = td) as -> by congruence. split_and!; auto.
        intros; apply Hmono; auto.
      + rewrite lookup_insert_ne in Hd by done.
        destruct (wf_memo _ Hw _ _ Hd) as (? & ? & ? & ?). split_and!; auto.
        intros; apply Hmono; auto.
    - unfold acyc. apply acc_insert_replace; eauto. apply (wf_acyc _ Hw).
    - intros mk k. rewrite (wf_mk _ Hw). rewrite Hmono. done.
    - apply (wf_mknd _ Hw).
    - intros mk tp Htp. destruct (wf_part _ Hw _ _ Htp). split; [|done].
      eapply part_ok_mono; [|eauto]. intros; apply Hmono; auto.
    - intros tp k Hin. destruct (wf_stack _ Hw _ _ Hin). split.
      + eapply part_ok_mono; [|eauto]. intros; apply Hmono; auto.
      + apply Hmono; auto.
  Qed.

  (** Production [prio] has been completed with the children [cs] on span (m, e). *)
  Definition done (s : pst) (m : marker) (prio : nat) (cs : list key) (e : nat) : Prop :=
    exists d, memo s !! (m, e) = Some d /\ (nocyc -> td_prio d <= prio /\
      (td_prio d = prio -> best (m, e) prio cs -> td_children d = cs)).

  Lemma done_ext s s' m p cs e : ext s s' -> done s m p cs e -> done s' m p cs e.
  Proof.
    intros (H & _) (d & Hd & Hp). destruct (H _ _ Hd) as (d' & Hd' & Hle & Hb).
    exists d'. split; [auto|]. intros Hnc. specialize (Hp Hnc) as [Hp Hc]. split; [lia|].
    intros E Hbest. assert (E1 : td_prio d = p) by lia. specialize (Hc E1 Hbest). rewrite E1, Hc in Hb. apply Hb; [done|lia].
  Qed.

  (** ** each (partial, key) pair is stacked at most once *)
  Definition pid (tp : tpart) : marker * nat * list key :=
    (td_marker (tp_def tp), td_prio (tp_def tp), td_children (tp_def tp)).
  Definition uid (x : tpart * key) : marker * nat * list key :=
    (td_marker (tp_def (fst x)), td_prio (tp_def (fst x)), td_children (tp_def (fst x)) ++ [snd x]).
  Notation hist_t := (list (marker * nat * list key)).

  Record NN (s : pst) (hist : hist_t) : Prop := {
    nn_nodup : NoDup (hist ++ (uid <$> stack s));
    nn_part : forall mk, NoDup (pid <$> lget (partials s) mk);
    nn_ids : forall m p cs, (m, p, cs) ∈ hist ++ (uid <$> stack s) ->
       m ∈ queued s /\ cs <> [] /\
       forall cs' k, cs = cs' ++ [k] -> is_Some (memo s !! k) /\ (cs' <> [] -> (m, p, cs') ∈ hist);
    nn_pids : forall mk tp, tp ∈ lget (partials s) mk ->
       td_marker (tp_def tp) ∈ queued s /\ (td_children (tp_def tp) <> [] -> pid tp ∈ hist)
  }.

  Definition present (s : pst) (hist : hist_t) (m : marker) (p : nat) : Prop :=
    (exists cs, (m, p, cs) ∈ hist ++ (uid <$> stack s)) \/
    (exists mk tp, tp ∈ lget (partials s) mk /\ td_marker (tp_def tp) = m /\ td_prio (tp_def tp) = p).

  Lemma fmap_rev' {A B} (f : A -> B) l : f <$> rev l = rev (f <$> l).
  Proof. apply map_rev. Qed.
  Lemma elem_of_rev {A} (x : A) l : x ∈ rev l <-> x ∈ l.
  Proof. rewrite !elem_of_list_In. symmetry. apply in_rev. Qed.
  Lemma NoDup_rev' {A} (l : list A) : NoDup (rev l) <-> NoDup l.
  Proof. rewrite !NoDup_ListNoDup. split; intros H; [rewrite <- (rev_involutive l)|]; apply NoDup_rev; done. Qed.

  (** pushing a batch of fresh pairs *)
  Lemma NN_push (s : pst) hist m' mk' (new : list (tpart * key)) :
    NN s hist ->
    NoDup (uid <$> new) ->
    (forall k, is_Some (memo s !! k) -> is_Some (m' !! k)) ->
    (forall x, x ∈ new ->
       uid x ∉ hist ++ (uid <$> stack s) /\ td_marker (tp_def (fst x)) ∈ queued s /\
       is_Some (m' !! snd x) /\ (td_children (tp_def (fst x)) <> [] -> pid (fst x) ∈ hist)) ->
    NN (PSt m' mk' (partials s) (queued s) (rev new ++ stack s)) hist.
  Proof.
    intros HN Hnd Hmono Hx. constructor; simpl.
    - rewrite fmap_app, fmap_rev'.
      rewrite (Permutation_app_comm (rev _)), app_assoc.
      apply NoDup_app. split_and!.
      + apply (nn_nodup _ _ HN).
      + intros u Hu1 Hu2. rewrite elem_of_rev in Hu2.
        apply elem_of_list_fmap in Hu2 as (x & -> & Hin). destruct (Hx x Hin) as (H & _). done.
      + apply NoDup_rev'. done.
    - apply (nn_part _ _ HN).
    - intros m p cs Hin. rewrite fmap_app, fmap_rev' in Hin.
      assert (Hin' : (m, p, cs) ∈ hist ++ (uid <$> stack s) \/ (m, p, cs) ∈ uid <$> new).
      { apply elem_of_app in Hin as [Hin|Hin]; [left; apply elem_of_app; auto|].
        apply elem_of_app in Hin as [Hin|Hin]; [right; by apply elem_of_rev|left; apply elem_of_app; auto]. }
      destruct Hin' as [Hi|Hi].
      + destruct (nn_ids _ _ HN _ _ _ Hi) as (H1 & H2 & H3). split_and!; auto.
        intros cs' k ->. destruct (H3 cs' k eq_refl). auto.
      + apply elem_of_list_fmap in Hi as (x & Hux & Hin2). unfold uid in Hux.
        injection Hux as -> -> ->. destruct (Hx x Hin2) as (_ & H1 & H2 & H3). split_and!; auto.
        * intros H. destruct (td_children (tp_def x.1)); done.
        * intros cs' k Hcs. apply app_inj_tail in Hcs as [<- <-]. split; [done|]. exact H3.
    - intros mk tp Htp. apply (nn_pids _ _ HN _ _ Htp).
  Qed.

  Lemma atm_spec fuel s td hist : S KU < fuel -> WF s -> NN s hist -> def_ok td -> kspan (td_key td) ->
    (forall c, c ∈ td_children td -> is_Some (memo s !! c)) ->
    exists s', add_to_memo fuel s td = Ok s' /\ WF s' /\ NN s' hist /\ ext s s' /\
      queued s' = queued s /\ partials s' = partials s /\
      done s' (td_marker td) (td_prio td) (td_children td) (td_end td) /\
      (forall m p, present s' hist m p -> present s hist m p).
  Proof using Hnt.
    intros Hf Hw HN Ho Hk Hc. destruct (atm_cases fuel s td Hf Hw Ho Hc) as (s' & Hs' & Hcase).
    exists s'. split; [done|].
    assert (Hkey : td_key td = (td_marker td, td_end td)) by (destruct td as [[? ?] ? ?]; done).
    destruct Hcase as [[Hn ->]|[(old & Ho' & -> & Hle)|(old & Ho' & -> & Hnr & Hle & Hbe)]].
    - split_and!.
      + apply WF_fresh; auto.
      + apply NN_push; auto.
        * rewrite <- list_fmap_compose.
          pose proof (nn_part _ _ HN (td_marker td)) as Hnd.
          revert Hnd. generalize (lget (partials s) (td_marker td)) as l.
          induction l as [|tp l IH]; [constructor|]. rewrite !fmap_cons.
          intros Hnd. apply NoDup_cons in Hnd as [Hni Hnd]. apply NoDup_cons. split; [|auto].
          intros Hin. apply Hni. rewrite elem_of_list_fmap in Hin. destruct Hin as (tp' & Heq & Hin).
          unfold uid, compose in Heq; simpl in Heq. injection Heq as H1 H2 H3.
          apply app_inj_tail in H3 as [H3 _].
          apply elem_of_list_fmap. exists tp'. split; [|done]. unfold pid. congruence.
        * intros k [d Hd]. destruct (decide (k = td_key td)) as [->|Hne].
          -- rewrite lookup_insert; eauto.
          -- rewrite lookup_insert_ne by done. eauto.
        * intros x Hx. apply elem_of_list_fmap in Hx as (tp & -> & Htp). simpl.
          destruct (nn_pids _ _ HN _ _ Htp) as [H1 H2]. split_and!; auto.
          -- intros Hin. destruct (nn_ids _ _ HN _ _ _ Hin) as (_ & _ & H).
             destruct (H _ _ eq_refl) as [[d Hd] _]. simpl in Hd. congruence.
          -- rewrite lookup_insert; eauto.
      + split_and!; simpl; auto.
        * intros k d Hd. destruct (decide (k = td_key td)) as [->|Hne]; [congruence|].
          rewrite lookup_insert_ne by done. exists d; auto.
        * intros x Hx. apply elem_of_app; auto.
        * intros k tp Hk1 Hk2 Htp. destruct (decide (k = td_key td)) as [->|Hne].
          -- apply elem_of_app. left. apply elem_of_rev. apply elem_of_list_fmap. exists tp. auto.
          -- rewrite lookup_insert_ne in Hk1 by done. destruct Hk1; congruence.
      + done.
      + done.
      + exists td. simpl. rewrite <- Hkey, lookup_insert. auto.
      + intros m p [(cs & Hin)|H]; [|right; exact H].
        simpl in Hin. rewrite fmap_app, fmap_rev' in Hin.
        apply elem_of_app in Hin as [Hin|Hin]; [left; exists cs; apply elem_of_app; auto|].
        apply elem_of_app in Hin as [Hin|Hin]; [|left; exists cs; apply elem_of_app; auto].
        rewrite elem_of_rev in Hin. apply elem_of_list_fmap in Hin as (x & Hux & Hin).
        apply elem_of_list_fmap in Hin as (tp & -> & Hin). unfold uid in Hux; simpl in Hux.
        right. exists (td_marker td), tp. split; [done|]. split; congruence.
    - split_and!; auto using ext_refl.
      exists old. rewrite <- Hkey. auto.
    - split_and!; auto.
      + eapply WF_replace; eauto.
      + destruct HN as [N1 N2 N3 N4]. constructor; simpl; auto.
        intros m p cs Hin. destruct (N3 _ _ _ Hin) as (H1 & H2 & H3). split_and!; auto.
        intros cs' k ->. destruct (H3 cs' k eq_refl) as [[d Hd] H5]. split; [|auto].
        destruct (decide (k = td_key td)) as [->|Hne].
          -- rewrite lookup_insert; eauto.
          -- rewrite lookup_insert_ne by done. eauto.
      + split_and!; simpl; auto.
        * intros k d Hd. destruct (decide (k = td_key td)) as [->|Hne].
          -- rewrite lookup_insert. exists td. split; [done|]. assert (d = old) as -> by congruence. done.
          -- rewrite lookup_insert_ne by done. exists d; auto.
        * intros k tp Hk1 Hk2 Htp. destruct (decide (k = td_key td)) as [->|Hne]; [congruence|].
          rewrite lookup_insert_ne in Hk1 by done. destruct Hk1; congruence.
      + exists td. simpl. rewrite <- Hkey, lookup_insert. auto.
  Qed.

  (** ** saturation *)
  Notation pairs_t := (list (tpart * key)).

  (** Partial [tp], next to match [rest] at [pos], is being served: its next symbol
      has been asked for, and each known match of it is stacked or already used. *)
  Fixpoint Act (s : pst) (E : pairs_t) (tp : tpart) (pos : nat) (rest : list nat) : Prop :=
    match rest with
    | [] => False
    | sym :: rest' =>
        (sym, pos) ∈ queued s /\
        (nonterms !! sym = Some true -> tp ∈ lget (partials s) (sym, pos)) /\
        (isT sym -> kinds !! pos = Some sym -> is_Some (memo s !! ((sym, pos), S pos))) /\
        (forall e, is_Some (memo s !! ((sym, pos), e)) ->
           (tp, ((sym, pos), e)) ∈ stack s ++ E \/
           match rest' with
           | [] => done s (td_marker (tp_def tp)) (td_prio (tp_def tp)) (td_children (tp_def tp) ++ [((sym, pos), e)]) e
           | _ => Act s E (extend tp ((sym, pos), e)) e rest'
           end)
    end.

  Lemma Act_mono s s' E : WF s' -> ext s s' -> forall rest tp pos,
    Act s E tp pos rest -> Act s' E tp pos rest.
  Proof using Hnt.
    intros Hw He. pose proof (fun k => ext_some _ _ k He) as Hs. pose proof (fun m p cs e => done_ext _ _ m p cs e He) as Hd.
    destruct He as (A1 & A2 & A3 & A4 & A5).
    induction rest as [|sym rest IH]; intros tp pos; [done|].
    intros (H1 & H2 & H3 & H4). cbn [Act]. split_and!; auto.
    intros e He. destruct (memo s !! (sym, pos, e)) as [d|] eqn:Ed.
    - destruct (H4 e) as [H|H]; [eauto| |].
      + left. apply elem_of_app in H as [H|H]; apply elem_of_app; auto.
      + right. destruct rest; auto.
    - (* a new match: it must be of a non-terminal, and was stacked *)
      destruct He as [d' Hd']. destruct (wf_memo _ Hw _ _ Hd') as (Kd & Od & _).
      destruct Od as [(T1 & _ & _ & Hl & Hj)|(ps & p & Hp & _)]; rewrite Kd in *; simpl in *.
      + exfalso. subst e. destruct (H3 T1 Hl). congruence.
      + left. apply elem_of_app. left. apply A5; eauto. simpl. apply H2. eapply prods_nt; eauto.
  Qed.

  Definition launched (s : pst) (E : pairs_t) (m : marker) (k : nat) (p : list nat) : Prop :=
    match p with
    | [] => done s m k [] (snd m)
    | _ => Act s E (TPart (TDef (m, 0) [] k) p) (snd m) p
    end.
  Lemma launched_mono s s' E m k p : WF s' -> ext s s' -> launched s E m k p -> launched s' E m k p.
  Proof using Hnt.
    intros Hw He. destruct p; cbn [launched]; [by apply done_ext|by apply Act_mono].
  Qed.

  Definition Cl (s : pst) (pend : list (marker * nat)) (E : pairs_t) : Prop :=
    forall m, m ∈ queued s -> forall ps k p, prods (fst m) = Some ps -> ps !! k = Some p ->
      (forall i0, (m, i0) ∈ pend -> k < i0) -> launched s E m k p.

  (** the finite universe of markers *)
  Definition MU : gset marker := list_to_set (list_prod (seq 0 (length nonterms)) (seq 0 (S n))).
  Definition unq (s : pst) : nat := size (MU ∖ queued s).
  Lemma elem_MU (m : marker) : fst m < length nonterms -> snd m <= n -> m ∈ MU.
  Proof.
    destruct m as [s i]; simpl. intros. apply elem_of_list_to_set, elem_of_list_In, in_prod; apply in_seq; lia.
  Qed.

  Lemma check_ok fuel s hist sym pos : S KU < fuel -> WF s -> NN s hist ->
    isT sym -> pos <= n ->
    exists s' o, check_non_terminal fuel kinds s (sym, pos) = Ok (s', o) /\ WF s' /\ NN s' hist /\
      ext s s' /\ queued s' = queued s /\ partials s' = partials s /\
      (kinds !! pos = Some sym -> is_Some (memo s' !! ((sym, pos), S pos))) /\
      (forall m p, present s' hist m p -> present s hist m p).
  Proof using Hnt.
    intros Hf Hw HN HT Hpos. unfold check_non_terminal; simpl.
    destruct (kinds !! pos) as [k|] eqn:Ek.
    2:{ exists s, None. split_and!; auto using ext_refl. done. }
    destruct (Nat.eqb_spec sym k) as [->|Hne].
    2:{ exists s, None. split_and!; auto using ext_refl. intros [= ->]; done. }
    destruct (atm_spec fuel s (TDef ((k, pos), S pos) [] 0) hist) as
      (s' & Hs' & H1 & H2 & H3 & H4 & H5 & H6 & H7); auto.
    - left. simpl. auto.
    - split; simpl; [lia|]. apply lookup_lt_Some in Ek. lia.
    - simpl. intros c Hc. inversion Hc.
    - rewrite Hs'. simpl. eexists _, _. split; [done|]. split_and!; auto.
      intros _. destruct H6 as (d & Hd & _). eauto.
  Qed.

  Section Fuel0.
  Variable fuel0 : nat.
  Hypothesis Hf0 : S KU < fuel0.

  Notation AP := (add_prods fuel0 prods nonterms kinds).
  Notation APT := (add_partial fuel0 prods nonterms kinds).

  Fixpoint ap_loop (fuel : nat) (root : marker) (i : nat) (ps : list (list nat)) (s : pst) : res pst :=
    match ps with
    | [] => Ok s
    | [] :: r =>
        s' <-! add_to_memo fuel0 s (TDef (root, snd root) [] i);
        ap_loop fuel root (S i) r s'
    | ((sym :: _) as p) :: r =>
        s' <-! APT fuel (TPart (TDef (root, 0) [] i) p) (sym, snd root) s;
        ap_loop fuel root (S i) r s'
    end.

  Lemma add_prods_S f root s :
    AP (S f) root s =
      if bool_decide (root ∈ queued s) then Ok s
      else
        match prods (fst root) with
        | None => Ok (set_queued s ({[root]} ∪ queued s))
        | Some ps => ap_loop f root 0 ps (set_queued s ({[root]} ∪ queued s))
        end.
  Proof.
    cbn [add_prods]. destruct (bool_decide _); [done|]. destruct (prods (fst root)) as [ps|]; [|done].
    match goal with |- ?F 0 ps _ = _ => assert (H : forall i s1, F i ps s1 = ap_loop f root i ps s1); [|apply H] end.
    clear s. induction ps as [|[|sym p] ps IH]; intros i s1; [done| |].
    - cbn [ap_loop]. destruct (add_to_memo _ _ _); cbn [rbind]; [apply IH|done|done].
    - cbn [ap_loop]. unfold add_partial at 1.
      match goal with |- rbind ?a _ = rbind ?b _ => change a with b; destruct b end; cbn [rbind]; [apply IH|done|done].
  Qed.

  Definition post (s : pst) hist pend E (s' : pst) : Prop :=
    WF s' /\ NN s' hist /\ Cl s' pend E /\ ext s s'.

  Definition Qspec (f : nat) : Prop :=
    forall root s hist pend E,
      fst root < length nonterms -> snd root <= n -> predicted (fst root) (snd root) ->
      WF s -> NN s hist -> Cl s pend E -> (forall m i0, (m, i0) ∈ pend -> m ∈ queued s) ->
      unq s < f ->
      exists s', AP f root s = Ok s' /\ post s hist pend E s' /\ root ∈ queued s' /\
        (forall m p, present s' hist m p -> present s hist m p \/ m ∉ queued s).

  Lemma Cl_mono s s' pend E : WF s' -> ext s s' -> queued s' = queued s -> Cl s pend E -> Cl s' pend E.
  Proof using Hnt.
    intros Hw He Hq HC m Hm ps k p H1 H2 H3. rewrite Hq in Hm.
    eapply launched_mono; eauto.
  Qed.

  Lemma unq_mono s s' : ext s s' -> unq s' <= unq s.
  Proof.
    intros (_ & _ & H & _). unfold unq. apply subseteq_size. set_solver.
  Qed.

  Lemma add_partial_spec f : Qspec f ->
    forall tp sym pos s hist pend E rest,
      WF s -> NN s hist -> Cl s pend E -> (forall m i0, (m, i0) ∈ pend -> m ∈ queued s) ->
      unq s < f ->
      part_ok (memo s) tp (sym, pos) ->
      td_marker (tp_def tp) ∈ queued s ->
      (forall k, uid (tp, k) ∉ hist ++ (uid <$> stack s)) ->
      pid tp ∉ pid <$> lget (partials s) (sym, pos) ->
      (td_children (tp_def tp) <> [] -> pid tp ∈ hist) ->
      exists s', APT f tp (sym, pos) s = Ok s' /\ post s hist pend E s' /\
        Act s' E tp pos (sym :: rest) /\
        (forall m p, present s' hist m p -> present s hist m p
            \/ (m = td_marker (tp_def tp) /\ p = td_prio (tp_def tp)) \/ m ∉ queued s).
  Proof using Hf0 Hnt Hsz Hkd.
    intros IH tp sym pos s hist pend E rest Hw HN HC Hpend Hunq Hpo Hq F1 F2 F3.
    assert (Hsym : is_Some (nonterms !! sym)).
    { destruct Hpo as (ps & dn & rs & P1 & P2 & P3 & _). eapply Hsz; [exact P1|eapply elem_of_list_lookup_2; exact P2|].
      rewrite P3. simpl. apply elem_of_app; right; left. }
    assert (Hpos : pos <= n) by (destruct Hpo as (ps & dn & rs & _ & _ & _ & _ & _ & _ & P & _); exact P).
    pose proof (part_predicted _ _ _ (wf_memo _ Hw) (wf_acyc _ Hw) Hpo) as Hprd.
    unfold add_partial. cbn [fst snd].
    destruct Hsym as [isnt Hsym]. rewrite Hsym.
    (* state after registering the partial or recognising the terminal *)
    assert (HS1 : exists s1,
      (if isnt then Ok (set_partials s (<[(sym, pos) := lget (partials s) (sym, pos) ++ [tp]]> (partials s)))
       else '(s', _) <-! check_non_terminal fuel0 kinds s (sym, pos); Ok s') = Ok s1 /\
      WF s1 /\ NN s1 hist /\ ext s s1 /\ queued s1 = queued s /\
      (isnt = true -> tp ∈ lget (partials s1) (sym, pos)) /\
      (isT sym -> kinds !! pos = Some sym -> is_Some (memo s1 !! ((sym, pos), S pos))) /\
      (forall k, uid (tp, k) ∉ hist ++ (uid <$> stack s1)) /\
      (forall m p, present s1 hist m p -> present s hist m p
            \/ (m = td_marker (tp_def tp) /\ p = td_prio (tp_def tp)))).
    { destruct isnt.
      - eexists; split; [done|]. split_and!.
        + constructor; simpl; try apply Hw.
          intros mk tp' Htp'. destruct (decide ((sym, pos) = mk)) as [<-|Hne].
          * rewrite lget_insert in Htp'. apply elem_of_app in Htp' as [Htp'|Htp'].
            -- apply (wf_part _ Hw); done.
            -- apply elem_of_list_singleton in Htp' as ->. done.
          * rewrite lget_insert_ne in Htp' by done. apply (wf_part _ Hw); done.
        + destruct HN as [N1 N2 N3 N4]. constructor; simpl; auto.
          * intros mk. destruct (decide ((sym, pos) = mk)) as [<-|Hne].
            -- rewrite lget_insert, fmap_app. apply NoDup_app. split_and!; auto.
               ++ intros x Hx Hx2. simpl in Hx2. apply elem_of_list_singleton in Hx2 as ->. done.
               ++ apply NoDup_singleton.
            -- rewrite lget_insert_ne by done. done.
          * intros mk tp' Htp'. destruct (decide ((sym, pos) = mk)) as [<-|Hne].
            -- rewrite lget_insert in Htp'. apply elem_of_app in Htp' as [Htp'|Htp']; [eauto|].
               apply elem_of_list_singleton in Htp' as ->. auto.
            -- rewrite lget_insert_ne in Htp' by done. eauto.
        + split_and!; simpl; auto.
          * intros k d Hd; exists d; auto.
          * intros mk tp' Htp'. destruct (decide ((sym, pos) = mk)) as [<-|Hne].
            -- rewrite lget_insert. apply elem_of_app; auto.
            -- rewrite lget_insert_ne by done. auto.
          * intros k tp' [? ?] ?. congruence.
        + done.
        + intros _. simpl. rewrite lget_insert. apply elem_of_app; right. apply elem_of_list_singleton; done.
        + intros HT. unfold isT in HT. congruence.
        + exact F1.
        + intros m p [H|(mk & tp' & H1 & H2 & H3)]; [left; left; exact H|]. simpl in H1.
          destruct (decide ((sym, pos) = mk)) as [<-|Hne].
          * rewrite lget_insert in H1. apply elem_of_app in H1 as [H1|H1].
            -- left; right. eauto.
            -- apply elem_of_list_singleton in H1 as ->. auto.
          * rewrite lget_insert_ne in H1 by done. left; right; eauto.
      - destruct (check_ok fuel0 s hist sym pos) as (s1 & o & He & H1 & H2 & H3 & H4 & H5 & H6 & H7); auto.
        rewrite He. simpl. eexists; split; [done|]. split_and!; auto.
        + done.
        + intros k Hin.
          (* no partial waits for a terminal, so nothing was stacked *)
          apply (F1 k). revert Hin. unfold check_non_terminal in He. simpl in He.
          destruct (kinds !! pos) as [kk|] eqn:Ek; [|injection He as -> _; done].
          destruct (sym =? kk) eqn:Es; [|injection He as -> _; done].
          apply Nat.eqb_eq in Es as <-.
          set (td := TDef ((sym, pos), S pos) [] 0) in He.
          destruct (atm_cases fuel0 s td Hf0 Hw) as (s1' & Hs1' & Hcase).
          { left. simpl. auto. }
          { simpl. intros c Hc; inversion Hc. }
          rewrite Hs1' in He. simpl in He. injection He as -> _.
          destruct Hcase as [[Hn ->]|[(old & Ho' & -> & Hle)|(old & Ho' & -> & Hnr & Hle & _)]]; auto.
          simpl. destruct (lget (partials s) (td_marker td)) as [|tp' l] eqn:El; [done|].
          exfalso. destruct (wf_part _ Hw (td_marker td) tp') as [_ HB].
          { rewrite El. left. }
          simpl in HB. congruence. }
    destruct HS1 as (s1 & -> & Hw1 & HN1 & He1 & Hq1 & Hin1 & HT1 & F1' & Hp1). cbn [rbind].
    rewrite fold_push_markers.
    set (new := (fun td => (tp, td_key td)) <$> lget (markers s1) (sym, pos)).
    set (s2 := PSt (memo s1) (markers s1) (partials s1) (queued s1) (rev new ++ stack s1)).
    assert (Hnew : forall x, x ∈ new -> fst x = tp /\ fst (snd x) = (sym, pos) /\ is_Some (memo s1 !! snd x)).
    { intros x Hx. apply elem_of_list_fmap in Hx as (d & -> & Hd). simpl. split; [done|].
      apply (wf_mk _ Hw1). eauto. }
    assert (Hw2 : WF s2).
    { destruct Hw1 as [W1 W2 W3 W4 W5 W6]. constructor; simpl; auto.
      intros tp' k Hin. apply elem_of_app in Hin as [Hin|Hin]; [|auto].
      rewrite elem_of_rev in Hin. destruct (Hnew _ Hin) as (H1 & H2 & H3). simpl in *. subst tp'.
      rewrite H2. split; [|done]. eapply part_ok_mono; [|exact Hpo].
      intros x. apply ext_some. done. }
    assert (HN2 : NN s2 hist).
    { apply NN_push; auto.
      - unfold new. rewrite <- list_fmap_compose.
        pose proof (wf_mknd _ Hw1 (sym, pos)) as Hnd. revert Hnd.
        generalize (lget (markers s1) (sym, pos)) as l.
        induction l as [|d l IHl]; [constructor|]. rewrite !fmap_cons.
        intros Hnd. apply NoDup_cons in Hnd as [Hni Hnd]. apply NoDup_cons. split; [|auto].
        intros Hin. apply Hni. apply elem_of_list_fmap in Hin as (d' & Heq & Hin).
        unfold uid, compose in Heq; simpl in Heq. injection Heq as Heq.
        apply app_inj_tail in Heq as [_ Heq]. apply elem_of_list_fmap. exists d'. auto.
      - intros [tp' k] Hx. destruct (Hnew _ Hx) as (H1 & H2 & H3). simpl in *. subst tp'.
        split_and!; auto. rewrite Hq1. done. }
    assert (He2 : ext s1 s2).
    { split_and!; simpl; auto.
      - intros k d Hd; exists d; auto.
      - intros x Hx. apply elem_of_app; auto.
      - intros k tp' [? ?] ?. congruence. }
    assert (He02 : ext s s2) by (eapply ext_trans; eauto).
    destruct (IH (sym, pos) s2 hist pend E) as (s3 & -> & (Hw3 & HN3 & HC3 & He3) & Hr3 & Hp3).
    - simpl. eapply lookup_lt_Some; eauto.
    - exact Hpos.
    - done.
    - done.
    - done.
    - eapply Cl_mono; eauto.
    - simpl. rewrite Hq1. done.
    - pose proof (unq_mono _ _ He02). lia.
    - assert (He03 : ext s s3) by (eapply ext_trans; eauto).
      exists s3. split; [done|]. split_and!; auto; [split_and!; auto| |].
      + cbn [Act]. split_and!; auto.
        * intros Hs. assert (isnt = true) as -> by congruence.
          destruct He3 as (_ & A2 & _). apply A2. simpl. auto.
        * intros HT Hk. eapply ext_some; [exact He3|]. simpl. auto.
        * intros e Hm. left. apply elem_of_app; left.
          destruct (memo s2 !! (sym, pos, e)) as [d|] eqn:Ed.
          -- destruct He3 as (_ & _ & _ & A4 & _). apply A4. simpl. apply elem_of_app; left.
             apply elem_of_rev. apply elem_of_list_fmap.
             destruct (proj2 (wf_mk _ Hw1 (sym, pos) (sym, pos, e))) as (d' & Hd' & Hk').
             { split; [done|]. simpl in Ed. eauto. }
             exists d'. rewrite Hk'. auto.
          -- destruct isnt.
             ++ destruct He3 as (_ & _ & _ & _ & A5). apply A5; auto.
             ++ exfalso. destruct Hm as [d Hd]. destruct (wf_memo _ Hw3 _ _ Hd) as (Kd & Od & _).
                destruct Od as [(T1 & _ & _ & Hl & Hj)|(ps & p & Hp & _)]; rewrite Kd in *; simpl in *.
                ** subst e. destruct (HT1 T1 Hl). simpl in Ed. congruence.
                ** apply prods_nt in Hp. congruence.
      + intros m p Hp. destruct (Hp3 _ _ Hp) as [Hp'|Hp'].
        * assert (present s1 hist m p \/ (m = td_marker (tp_def tp) /\ p = td_prio (tp_def tp))) as [H|H]; [| |tauto].
          { destruct Hp' as [(cs & Hcs)|H]; [|left; right; exact H].
            simpl in Hcs. rewrite fmap_app, fmap_rev' in Hcs.
            apply elem_of_app in Hcs as [Hcs|Hcs]; [left; left; exists cs; apply elem_of_app; auto|].
            apply elem_of_app in Hcs as [Hcs|Hcs]; [|left; left; exists cs; apply elem_of_app; auto].
            rewrite elem_of_rev in Hcs. apply elem_of_list_fmap in Hcs as (x & Hux & Hx).
            destruct (Hnew _ Hx) as (H1 & _). unfold uid in Hux. rewrite H1 in Hux. right. split; congruence. }
          destruct (Hp1 _ _ H); tauto.
        * right; right. simpl in Hp'. rewrite <- Hq1. done.
  Qed.

  Lemma ap_loop_spec f : Qspec f ->
    forall root ps0, prods (fst root) = Some ps0 -> fst root < length nonterms -> snd root <= n -> predicted (fst root) (snd root) ->
    forall ps i s hist pend E,
      drop i ps0 = ps ->
      WF s -> NN s hist -> Cl s ((root, i) :: pend) E ->
      (forall m i0, (m, i0) ∈ pend -> m ∈ queued s /\ m <> root) ->
      root ∈ queued s -> unq s < f ->
      (forall p, i <= p -> ~ present s hist root p) ->
      exists s', ap_loop f root i ps s = Ok s' /\ post s hist pend E s' /\
        (forall m p, present s' hist m p -> present s hist m p \/ m = root \/ m ∉ queued s).
  Proof using Hf0 Hnt Hsz Hkd.
    intros IH root ps0 Hps0 Hr1 Hr2 Hr3. induction ps as [|p ps IHps]; intros i s hist pend E Hdrop Hw HN HC Hpend Hrq Hunq Hpres.
    { exists s. split; [done|]. split; [split_and!; auto using ext_refl|auto].
      intros m Hm ps k p H1 H2 H3. eapply HC; eauto. intros i0 Hin.
      apply elem_of_cons in Hin as [[= -> ->]|Hin]; [|auto].
      assert (length ps0 <= i).
      { destruct (decide (i < length ps0)) as [Hlt|]; [|lia]. apply lookup_lt_is_Some in Hlt as [x Hx].
        apply drop_S in Hx. rewrite Hdrop in Hx. done. }
      rewrite Hps0 in H1. assert (ps = ps0) as -> by congruence. apply lookup_lt_Some in H2. lia. }
    assert (Hlk : ps0 !! i = Some p).
    { rewrite <- (Nat.add_0_r i), <- lookup_drop, Hdrop. done. }
    assert (Hdrop' : drop (S i) ps0 = ps).
    { erewrite drop_S in Hdrop by eassumption. congruence. }
    (* enough: one production launched *)
    assert (HONE : exists s1,
      match p with
      | [] => add_to_memo fuel0 s (TDef (root, snd root) [] i)
      | sym :: _ => APT f (TPart (TDef (root, 0) [] i) p) (sym, snd root) s
      end = Ok s1 /\ WF s1 /\ NN s1 hist /\ Cl s1 ((root, i) :: pend) E /\ ext s s1 /\
      launched s1 E root i p /\
      (forall m q, present s1 hist m q -> present s hist m q \/ (m = root /\ q = i) \/ m ∉ queued s)).
    { destruct p as [|sym p].
      - destruct (atm_spec fuel0 s (TDef (root, snd root) [] i) hist) as
          (s1 & Hs1 & H1 & H2 & H3 & H4 & H5 & H6 & H7); auto.
        + right. exists ps0, []. simpl. auto.
        + split; simpl; lia.
        + simpl. intros c Hc; inversion Hc.
        + exists s1. split; [done|]. split_and!; auto. eapply Cl_mono; eauto.
      - destruct (add_partial_spec f IH (TPart (TDef (root, 0) [] i) (sym :: p)) sym (snd root) s hist
                    ((root, i) :: pend) E p) as (s1 & Hs1 & (H1 & H2 & H3 & H4) & H5 & H6); auto.
        + intros m i0 Hin. apply elem_of_cons in Hin as [[= -> ->]|Hin]; [done|]. apply (Hpend m i0 Hin).
        + exists ps0, [], p. simpl. split_and!; auto. intros c Hc; inversion Hc.
        + intros k Hin. apply (Hpres i); [lia|]. left. eexists. exact Hin.
        + intros Hin. apply elem_of_list_fmap in Hin as (tp & Hpid & Hin).
          apply (Hpres i); [lia|]. right. exists (sym, snd root), tp.
          injection Hpid as E1 E2 E3. split; [done|]. split; symmetry; [exact E1|exact E2].
        + simpl. done.
        + exists s1. split; [done|]. split_and!; auto. }
    destruct HONE as (s1 & Hs1 & Hw1 & HN1 & HC1 & He1 & Hl1 & Hp1).
    assert (Hq1 : forall m, m ∈ queued s -> m ∈ queued s1) by (destruct He1 as (_ & _ & H & _); exact H).
    destruct (IHps (S i) s1 hist pend E) as (s2 & Hs2 & (Hw2 & HN2 & HC2 & He2) & Hp2); auto.
    - intros m Hm qs k q H1 H2 H3. destruct (decide (m = root /\ k = i)) as [[-> ->]|Hne].
      + assert (qs = ps0) as -> by congruence. assert (q = p) as -> by congruence. done.
      + apply (HC1 m Hm qs k q H1 H2). intros i0 Hin.
        apply elem_of_cons in Hin as [[= -> ->]|Hin].
        * specialize (H3 (S i) ltac:(left)). destruct (decide (k = i)); [exfalso; auto|lia].
        * apply H3. right; done.
    - intros m i0 Hin. destruct (Hpend m i0 Hin). auto.
    - pose proof (unq_mono _ _ He1). lia.
    - intros q Hq Hpr. destruct (Hp1 _ _ Hpr) as [H|[[_ H]|H]].
      + apply (Hpres q); [lia|done].
      + lia.
      + done.
    - exists s2. split.
      { destruct p; cbn [ap_loop]; rewrite Hs1; cbn [rbind]; exact Hs2. }
      split; [split_and!; auto; eapply ext_trans; eauto|].
      intros m q Hpr. destruct (Hp2 _ _ Hpr) as [H|[->|H]]; [|auto|].
      + destruct (Hp1 _ _ H) as [H'|[[-> _]|H']]; auto.
      + right; right. intros Hm. apply H, Hq1, Hm.
  Qed.

  Lemma add_prods_spec f : Qspec f.
  Proof using Hf0 Hnt Hsz Hkd.
    induction f as [|f IH]; intros root s hist pend E Hr1 Hr2 Hr3 Hw HN HC Hpend Hunq; [lia|].
    rewrite add_prods_S. case_bool_decide as Hin.
    { exists s. split; [done|]. split_and!; auto. split_and!; auto using ext_refl. }
    set (s1 := set_queued s ({[root]} ∪ queued s)).
    assert (Hu : unq s1 < unq s).
    { unfold unq, s1; simpl. apply subset_size. split; [set_solver|].
      intros HH. assert (root ∈ MU ∖ queued s) as H1.
      { apply elem_of_difference. split; [by apply elem_MU|done]. }
      apply HH in H1. set_solver. }
    assert (He1 : ext s s1).
    { split_and!; simpl; auto.
      - intros k d Hd; exists d; auto.
      - intros m Hm. set_solver.
      - intros k tp' [? ?] ?. congruence. }
    assert (Hw1 : WF s1) by (destruct Hw; constructor; auto).
    assert (HN1 : NN s1 hist).
    { destruct HN as [N1 N2 N3 N4]. constructor; simpl; auto.
      - intros m p cs Hcs. destruct (N3 _ _ _ Hcs) as (H1 & H2 & H3). split_and!; auto. set_solver.
      - intros mk tp Htp. destruct (N4 _ _ Htp). split; auto. set_solver. }
    assert (Hfresh : forall p, ~ present s1 hist root p).
    { intros p [(cs & Hcs)|(mk & tp & Htp & Hm & _)].
      - destruct (nn_ids _ _ HN _ _ _ Hcs) as (H1 & _). done.
      - destruct (nn_pids _ _ HN _ _ Htp) as (H1 & _). rewrite Hm in H1. done. }
    assert (HCx : forall m, m ∈ queued s -> forall ps k p, prods (fst m) = Some ps -> ps !! k = Some p ->
      (forall i0, (m, i0) ∈ pend -> k < i0) -> launched s1 E m k p).
    { intros m Hm ps k p H1 H2 H3. eapply launched_mono; [exact Hw1|exact He1|]. eapply HC; eauto. }
    destruct (prods (fst root)) as [ps0|] eqn:Ep.
    - destruct (ap_loop_spec f IH root ps0 Ep Hr1 Hr2 Hr3 ps0 0 s1 hist pend E) as (s2 & Hs2 & (Hw2 & HN2 & HC2 & He2) & Hp2); auto.
      + intros m Hm ps k p H1 H2 H3. simpl in Hm.
        destruct (decide (m = root)) as [->|Hne].
        * specialize (H3 0 ltac:(left)). lia.
        * apply HCx with ps; auto; [set_solver|]. intros i0 Hi0. apply H3. right; done.
      + intros m i0 Hi0. simpl. split; [apply elem_of_union; right; eauto|]. intros ->. apply Hin. eauto.
      + simpl. set_solver.
      + lia.
      + exists s2. split; [done|]. split_and!; [split_and!; auto; eapply ext_trans; eauto| |].
        * destruct He2 as (_ & _ & H & _). apply H. simpl. set_solver.
        * intros m p Hpr. destruct (Hp2 _ _ Hpr) as [H|[->|H]]; auto.
          right. intros Hm. apply H. simpl. set_solver.
    - exists s1. split; [done|]. split_and!; [split_and!; auto| |auto].
      + intros m Hm ps k p H1 H2 H3. simpl in Hm.
        destruct (decide (m = root)) as [->|Hne]; [congruence|].
        apply HCx with ps; auto. set_solver.
      + simpl. set_solver.
  Qed.

  (** discharging the pair being processed *)
  Definition resolved (s : pst) (E : pairs_t) (b : tpart) (x : key) : Prop :=
    match drop (S (length (td_children (tp_def b)))) (tp_prod b) with
    | [] => done s (td_marker (tp_def b)) (td_prio (tp_def b)) (td_children (tp_def b) ++ [x]) (snd x)
    | r => Act s E (extend b x) (snd x) r
    end.

  Lemma Act_discharge s b x : resolved s [] b x -> forall rest tp pos,
    drop (length (td_children (tp_def tp))) (tp_prod tp) = rest ->
    Act s [(b, x)] tp pos rest -> Act s [] tp pos rest.
  Proof.
    intros Hr. induction rest as [|sym rest IH]; intros tp pos Hd; [done|].
    intros (H1 & H2 & H3 & H4). cbn [Act]. split_and!; auto.
    intros e He. destruct (H4 e He) as [H|H].
    - apply elem_of_app in H as [H|H]; [left; apply elem_of_app; auto|].
      apply elem_of_list_singleton in H. injection H as <- <-. right.
      unfold resolved in Hr. assert (Hd' : drop (S (length (td_children (tp_def tp)))) (tp_prod tp) = rest).
      { replace (S (length (td_children (tp_def tp)))) with (length (td_children (tp_def tp)) + 1) by lia.
        rewrite <- drop_drop, Hd. done. }
      rewrite Hd' in Hr. simpl in Hr. destruct rest; done.
    - right. destruct rest as [|sym' rest]; [done|]. apply IH; [|done].
      simpl. rewrite app_length; simpl. rewrite <- drop_drop, Hd. done.
  Qed.

  Lemma Cl_discharge s b x : resolved s [] b x -> Cl s [] [(b, x)] -> Cl s [] [].
  Proof.
    intros Hr HC m Hm ps k p H1 H2 H3. specialize (HC m Hm ps k p H1 H2 H3).
    destruct p as [|sym p]; [done|]. cbn [launched] in *. eapply Act_discharge; eauto.
  Qed.

  Lemma update_spec s b x rest hist fuel : 
    stack s = (b, x) :: rest -> WF s -> NN s hist -> Cl s [] [] ->
    (forall m i, (m, i) ∈ ([] : list (marker * nat)) -> m ∈ queued s) ->
    0 < fuel -> unq s < fuel0 ->
    exists s', update fuel0 prods nonterms kinds fuel b x (set_stack s rest) = Ok s' /\
      WF s' /\ NN s' (hist ++ [uid (b, x)]) /\ Cl s' [] [] /\ unq s' < fuel0 /\
      (forall m, m ∈ queued s -> m ∈ queued s').
  Proof using Hf0 Hnt Hsz Hkd.
    intros Hst Hw HN HC _ Hfuel Hunq.
    set (s0 := set_stack s rest).
    assert (Hw0 : WF s0).
    { destruct Hw as [W1 W2 W3 W4 W5 W6]. constructor; simpl; auto.
      intros tp k Hin. apply W6. rewrite Hst. right; done. }
    assert (HN0 : NN s0 (hist ++ [uid (b, x)])).
    { destruct HN as [N1 N2 N3 N4]. rewrite Hst in N1. rewrite fmap_cons in N1.
      assert (Hiff : forall u, u ∈ (hist ++ [uid (b, x)]) ++ (uid <$> rest) <-> u ∈ hist ++ (uid <$> stack s)).
      { intros u. rewrite Hst, fmap_cons, <- app_assoc. done. }
      constructor; simpl; auto.
      - rewrite <- app_assoc. exact N1.
      - intros m p cs Hin. rewrite Hiff in Hin. destruct (N3 _ _ _ Hin) as (H1 & H2 & H3).
        split_and!; auto. intros cs' k Hcs. destruct (H3 cs' k Hcs). split; [done|].
        intros Hne. apply elem_of_app; auto.
      - intros mk tp Htp. destruct (N4 _ _ Htp). split; [done|]. intros; apply elem_of_app; auto. }
    assert (HC0 : Cl s0 [] [(b, x)]).
    { assert (HA : forall r tp pos, Act s [] tp pos r -> Act s0 [(b, x)] tp pos r).
      { induction r as [|sym r IH]; intros tp pos; [done|]. intros (H1 & H2 & H3 & H4).
        cbn [Act]. split_and!; auto. intros e He. destruct (H4 e He) as [H|H].
        - left. rewrite Hst, app_nil_r in H. simpl. apply elem_of_app.
          apply elem_of_cons in H as [H|H]; [right; rewrite H; left|left; done].
        - right. destruct r; auto. }
      intros m Hm ps k p H1 H2 H3. specialize (HC m Hm ps k p H1 H2 H3).
      destruct p; cbn [launched] in *; auto. }
    destruct (wf_stack _ Hw b x) as [Hpo Hx]; [rewrite Hst; left|].
    destruct Hpo as (ps & dn & rs & P1 & P2 & P3 & P4 & P5 & P6 & P7 & P8).
    pose proof (spans_length _ _ _ _ P4) as Hlen.
    assert (Hxs : kspan x).
    { destruct Hx as [d Hd]. apply (wf_memo _ Hw _ _ Hd). }
    assert (Hq : td_marker (tp_def b) ∈ queued s).
    { destruct (nn_ids _ _ HN (td_marker (tp_def b)) (td_prio (tp_def b)) (td_children (tp_def b) ++ [x])) as (H & _); [|done].
      rewrite Hst, fmap_cons. apply elem_of_app; right. left. }
    assert (Hch : forall c, c ∈ td_children (tp_def b) ++ [x] -> is_Some (memo s !! c)).
    { intros c Hc. apply elem_of_app in Hc as [Hc|Hc]; [auto|]. apply elem_of_list_singleton in Hc as ->. done. }
    assert (Hsp : spans (dn ++ [fst (fst x)]) (td_children (tp_def b) ++ [x]) (snd (td_marker (tp_def b))) (snd x)).
    { apply spans_snoc with (k := snd (fst x)); [done|]. destruct (fst x); done. }
    assert (Hrs : drop (S (length (td_children (tp_def b)))) (tp_prod b) = rs).
    { rewrite P3, <- Hlen. replace (S (length dn)) with (length dn + 1) by lia.
      rewrite <- drop_drop, drop_app. done. }
    assert (Hlp : length (tp_prod b) = S (length (td_children (tp_def b))) + length rs).
    { rewrite P3, app_length. simpl. lia. }
    destruct fuel as [|fuel]; [lia|]. cbn [update]. 
    change (tp_prod (extend b x)) with (tp_prod b).
    destruct (Nat.eqb_spec (S (length (td_children (tp_def b)))) (length (tp_prod b))) as [Heq|Hne].
    - (* production complete *)
      assert (rs = []) as Hrs0 by (destruct rs; simpl in *; [done|lia]).
      destruct (atm_spec fuel0 s0 (tp_def (extend b x)) (hist ++ [uid (b, x)])) as
          (s1 & Hs1 & H1 & H2 & H3 & H4 & H5 & H6 & H7); auto.
      + right. exists ps, (tp_prod b). split; [exact P1|]. split; [exact P2|].
        rewrite P3, Hrs0. exact Hsp.
      + destruct Hxs. split; simpl; [|lia]. change (fst (td_key (tp_def b))) with (td_marker (tp_def b)). lia.
      + exists s1. split; [done|]. split_and!; auto.
        * eapply Cl_discharge; [|eapply Cl_mono; eauto]. unfold resolved. rewrite Hrs, Hrs0. exact H6.
        * pose proof (unq_mono _ _ H3). unfold s0 in *. change (unq (set_stack s rest)) with (unq s) in *. lia.
        * rewrite H4. done.
    - destruct rs as [|sym rs]; [simpl in Hlp; lia|].
      assert (Hl : tp_prod b !! S (length (td_children (tp_def b))) = Some sym).
      { rewrite <- (Nat.add_0_r (S _)), <- lookup_drop, Hrs. done. }
      rewrite Hl.
      assert (Hcn : check_non_terminal fuel0 kinds s0 (td_marker (tp_def (extend b x))) = Ok (s0, None)).
      { unfold check_non_terminal. destruct (kinds !! _) as [k|] eqn:Ek; [|done].
        destruct (Nat.eqb_spec (fst (td_marker (tp_def (extend b x)))) k) as [He|]; [|done].
        exfalso. change (td_marker (tp_def (extend b x))) with (td_marker (tp_def b)) in He, Ek. rewrite <- He in Ek.
        assert (HX : exists X Y r c, tp_prod b = X :: Y :: r /\ c ∈ td_children (tp_def b) ++ [x] /\ fst c = (X, snd (td_marker (tp_def b)))).
        { revert Hsp P3. destruct (td_children (tp_def b)) as [|c cs], dn as [|X dn]; cbn [app spans]; intros [Hc Hs2] HP; try done.
          - exists (fst (fst x)), sym, rs, x. split; [exact HP|]. split; [left|exact Hc].
          - exists X. destruct dn as [|Y dn]; cbn [app] in HP; [exists (fst (fst x))|exists Y]; eexists _, c; (split; [exact HP|]); (split; [left|exact Hc]). }
        destruct HX as (X & Y & r & c & HP & Hc & Hcm). apply (Hkd _ _ ps X Y r (snd c) P8 Ek P1).
        - rewrite <- HP. eapply elem_of_list_lookup_2; exact P2.
        - pose proof (memo_dk _ (wf_memo _ Hw) (wf_acyc _ Hw) c (Hch c Hc)) as Hdk. rewrite Hcm in Hdk. exact Hdk. }
      rewrite Hcn. cbn [rbind].
      destruct (add_partial_spec fuel0 (add_prods_spec fuel0) (extend b x) sym (snd x) s0 (hist ++ [uid (b, x)]) [] [(b, x)] rs)
        as (s1 & Hs1 & (H1 & H2 & H3 & H4) & H5 & H6); auto.
      + intros m i Hin; inversion Hin.
      + exists ps, (dn ++ [fst (fst x)]), rs. split_and!; auto.
        * simpl. rewrite P3. rewrite <- app_assoc. done.
        * transitivity (snd (fst x)); [exact P6|apply Hxs].
        * apply Hxs.
      + intros k Hin.
        (* an id extending this one would have been created only after it was popped *)
        assert (HinS : (td_marker (tp_def b), td_prio (tp_def b), (td_children (tp_def b) ++ [x]) ++ [k]) ∈ hist ++ (uid <$> stack s)).
        { rewrite Hst, fmap_cons, (cons_middle _ hist), app_assoc. exact Hin. }
        destruct (nn_ids _ _ HN _ _ _ HinS) as (_ & _ & HJ).
        destruct (HJ _ _ eq_refl) as [_ HJ2].
        assert (HK : uid (b, x) ∈ hist). { apply HJ2. destruct (td_children (tp_def b)); done. }
        pose proof (nn_nodup _ _ HN) as Hnd. rewrite Hst, fmap_cons in Hnd.
        apply NoDup_app in Hnd as (_ & Hnd & _). apply (Hnd _ HK). left.
      + intros Hin. apply elem_of_list_fmap in Hin as (tp & Hpid & Hin).
        destruct (nn_pids _ _ HN _ _ Hin) as [_ HI].
        assert (HK : uid (b, x) ∈ hist).
        { change (uid (b, x)) with (pid (extend b x)). rewrite Hpid. apply HI.
          unfold pid in Hpid; simpl in Hpid. injection Hpid as _ _ Hc. rewrite <- Hc.
          destruct (td_children (tp_def b)); done. }
        pose proof (nn_nodup _ _ HN) as Hnd. rewrite Hst, fmap_cons in Hnd.
        apply NoDup_app in Hnd as (_ & Hnd & _). apply (Hnd _ HK). left.
      + intros _. apply elem_of_app; right. apply elem_of_list_singleton. done.
      + exists s1. split; [exact Hs1|]. split_and!; auto.
        * (* discharge: the new partial is active *)
          assert (HR : Act s1 [] (extend b x) (snd x) (sym :: rs)).
          { (* the pair (b,x) cannot be among the extensions of extend b x *)
            assert (HX : forall r tp pos, length (td_children (tp_def b)) < length (td_children (tp_def tp)) ->
               Act s1 [(b, x)] tp pos r -> Act s1 [] tp pos r).
            { induction r as [|y r IH]; intros tp pos Hlt; [done|]. intros (G1 & G2 & G3 & G4).
              cbn [Act]. split_and!; auto. intros e He. destruct (G4 e He) as [G|G].
              - apply elem_of_app in G as [G|G]; [left; apply elem_of_app; auto|].
                apply elem_of_list_singleton in G. injection G as -> _. lia.
              - right. destruct r; [done|]. apply IH; [|done]. simpl. rewrite app_length; simpl. lia. }
            apply HX; [simpl; rewrite app_length; simpl; lia|]. exact H5. }
          eapply Cl_discharge; [|exact H3]. unfold resolved. rewrite Hrs. exact HR.
        * pose proof (unq_mono _ _ H4). change (unq s0) with (unq s) in *. lia.
        * destruct H4 as (_ & _ & H & _). exact H.
  Qed.

  (** ** a finite universe of pairs bounds the number of iterations *)
  Fixpoint lists_of (q : nat) (X : list key) : list (list key) :=
    match q with
    | O => [[]]
    | S q' => [] :: flat_map (fun x => map (cons x) (lists_of q' X)) X
    end.
  Lemma elem_lists_of q X l : length l <= q -> (forall x, x ∈ l -> x ∈ X) -> In l (lists_of q X).
  Proof.
    revert l. induction q as [|q IH]; intros [|x l]; simpl; auto; try lia.
    intros Hl Hx. right. apply in_flat_map. exists x. split.
    - apply elem_of_list_In, Hx. left.
    - apply in_map, IH; [lia|]. intros y Hy. apply Hx. right; done.
  Qed.

  Definition UL : hist_t :=
    flat_map (fun m => match prods (fst m) with
      | None => []
      | Some ps => flat_map (fun p => map (fun cs => (m, p, cs))
                      (lists_of (length (default [] (ps !! p))) (elements univ))) (seq 0 (length ps))
      end) (elements MU).

  Definition id_ok (u : marker * nat * list key) : Prop := u ∈ UL.

  Lemma memo_univ s k : WF s -> is_Some (memo s !! k) -> k ∈ univ.
  Proof using Hnt.
    intros Hw [d Hd]. destruct (wf_memo _ Hw _ _ Hd) as (K & O & S & _).
    apply elem_univ; [|done]. rewrite <- K. apply def_ok_sym. done.
  Qed.

  Lemma stack_id_ok s x : WF s -> x ∈ stack s -> id_ok (uid x).
  Proof using Hf0 Hnt.
    destruct x as [tp k]. intros Hw Hin. destruct (wf_stack _ Hw _ _ Hin) as [Hpo Hk].
    destruct Hpo as (ps & dn & rs & P1 & P2 & P3 & P4 & P5 & P6 & P7 & P8).
    unfold id_ok, UL, uid. apply elem_of_list_In. apply in_flat_map.
    exists (td_marker (tp_def tp)). split.
    - apply elem_of_list_In, elem_of_elements, elem_MU; [|lia].
      eapply lookup_lt_Some, prods_nt; eauto.
    - cbn [fst snd]. rewrite P1. apply in_flat_map. exists (td_prio (tp_def tp)). split.
      + apply in_seq. apply lookup_lt_Some in P2. lia.
      + rewrite P2. cbn [default]. apply in_map. apply elem_lists_of.
        * pose proof (spans_length _ _ _ _ P4). simpl. rewrite P3, !app_length. simpl. lia.
        * intros x Hx. apply elem_of_elements. apply (memo_univ s); [done|].
          apply elem_of_app in Hx as [Hx|Hx]; [auto|]. apply elem_of_list_singleton in Hx as ->. done.
  Qed.

  Lemma NoDup_subset_length {A} (l k : list A) : NoDup l -> (forall x, x ∈ l -> x ∈ k) -> length l <= length k.
  Proof.
    intros Hn Hs. apply NoDup_ListNoDup in Hn. apply (NoDup_incl_length Hn).
    intros x Hx. apply elem_of_list_In, Hs, elem_of_list_In. done.
  Qed.

  Lemma run_spec : forall fuel s hist,
    WF s -> NN s hist -> Cl s [] [] -> (forall u, u ∈ hist -> id_ok u) -> unq s < fuel0 ->
    length UL - length hist < fuel ->
    exists s', run fuel0 prods nonterms kinds fuel s = Ok s' /\ WF s' /\ Cl s' [] [] /\ stack s' = [] /\
      (forall m, m ∈ queued s -> m ∈ queued s').
  Proof using Hf0 Hnt Hsz Hkd.
    induction fuel as [|fuel IH]; intros s hist Hw HN HC Hid Hunq Hf; [lia|].
    cbn [run]. destruct (stack s) as [|[b x] rest] eqn:Hst.
    { exists s. split_and!; auto. }
    destruct (update_spec s b x rest hist fuel0 Hst Hw HN HC) as (s1 & Hs1 & Hw1 & HN1 & HC1 & Hu1 & Hq1); auto; try lia.
    { intros m i Hin; inversion Hin. }
    rewrite Hs1. cbn [rbind].
    assert (Hid' : forall u, u ∈ hist ++ [uid (b, x)] -> id_ok u).
    { intros u Hu. apply elem_of_app in Hu as [Hu|Hu]; [auto|]. apply elem_of_list_singleton in Hu as ->.
      apply (stack_id_ok s); [done|]. rewrite Hst. left. }
    assert (Hlen : length (hist ++ [uid (b, x)]) <= length UL).
    { apply NoDup_subset_length; [|exact Hid']. pose proof (nn_nodup _ _ HN1) as Hnd.
      apply NoDup_app in Hnd as (Hnd & _). done. }
    destruct (IH s1 (hist ++ [uid (b, x)])) as (s2 & Hs2 & Hw2 & HC2 & Hst2 & Hq2); auto.
    { rewrite app_length in *. simpl in *. lia. }
    exists s2. split_and!; auto.
  Qed.

  Lemma init_WF : WF pst_init.
  Proof.
    constructor; simpl.
    - intros k d H. rewrite lookup_empty in H. done.
    - intros k [d H]. rewrite lookup_empty in H. done.
    - intros mk k. split.
      + intros (d & H & _). unfold lget in H. rewrite lookup_empty in H. inversion H.
      + intros [_ [d H]]. rewrite lookup_empty in H. done.
    - intros mk. unfold lget. rewrite lookup_empty. constructor.
    - intros mk tp H. unfold lget in H. rewrite lookup_empty in H. inversion H.
    - intros tp k H. inversion H.
  Qed.
  Lemma init_NN : NN pst_init [].
  Proof.
    constructor; simpl.
    - constructor.
    - intros mk. unfold lget. rewrite lookup_empty. constructor.
    - intros m p cs H. inversion H.
    - intros mk tp H. unfold lget in H. rewrite lookup_empty in H. inversion H.
  Qed.

  Lemma core_run : start < length nonterms -> size MU < fuel0 -> length UL < fuel0 ->
    exists s1 s2, AP fuel0 (start, 0) pst_init = Ok s1 /\ run fuel0 prods nonterms kinds fuel0 s1 = Ok s2 /\
      WF s2 /\ Cl s2 [] [] /\ stack s2 = [] /\ (start, 0) ∈ queued s2.
  Proof using Hf0 Hnt Hsz Hkd.
    intros Hs HM HU.
    assert (Hunq : unq pst_init < fuel0).
    { unfold unq. simpl. rewrite difference_empty_L. done. }
    destruct (add_prods_spec fuel0 (start, 0) pst_init [] [] []) as (s1 & Hs1 & (Hw1 & HN1 & HC1 & He1) & Hr & _); auto.
    - simpl. lia.
    - constructor.
    - apply init_WF.
    - apply init_NN.
    - intros m Hm. simpl in Hm. set_solver.
    - intros m i Hin. inversion Hin.
    - destruct (run_spec fuel0 s1 []) as (s2 & Hs2 & Hw2 & HC2 & Hst2 & Hq2); auto.
      + intros u Hu. inversion Hu.
      + pose proof (unq_mono _ _ He1). lia.
      + simpl. lia.
      + exists s1, s2. split_and!; auto.
  Qed.

  End Fuel0.

  (** ** completeness of a saturated state *)
  Lemma saturated s : WF s -> Cl s [] [] -> stack s = [] ->
    (forall a i j, dk a i j -> (a, i) ∈ queued s ->
       (isT a -> kinds !! i = Some a -> is_Some (memo s !! ((a, i), S i))) ->
       is_Some (memo s !! ((a, i), j))) /\
    (forall ss i j, dks ss i j -> forall tp, ss <> [] -> Act s [] tp i ss ->
       exists cs, done s (td_marker (tp_def tp)) (td_prio (tp_def tp)) cs j).
  Proof using Hnt.
    intros Hw HC Hst. apply dk_dks_ind.
    - intros a i HT Hk Hq Hm. auto.
    - intros a i j ps p Hp Hin Hd IH Hq _. apply elem_of_list_lookup in Hin as [k Hk].
      assert (Hl := HC (a, i) Hq ps k p Hp Hk ltac:(intros ? H; inversion H)).
      destruct p as [|sym p].
      + cbn [launched] in Hl. inversion Hd; subst. destruct Hl as (d & Hd' & _). eauto.
      + cbn [launched] in Hl. destruct (IH _ ltac:(done) Hl) as (cs & d & Hd' & _). eauto.
    - intros i tp Hne. done.
    - intros a ss i k j Hd IHd Hds IHds tp _ (H1 & H2 & H3 & H4).
      destruct (H4 k (IHd H1 H3)) as [H|H].
      + rewrite Hst in H. inversion H.
      + destruct ss as [|b ss].
        * inversion Hds; subst. by eexists.
        * apply (IHds (extend tp ((a, i), k))); [done|]. exact H.
  Qed.

  Lemma saturated_prod s A i ps k p j : WF s -> Cl s [] [] -> stack s = [] -> (A, i) ∈ queued s ->
    prods A = Some ps -> ps !! k = Some p -> dks p i j -> exists cs, done s (A, i) k cs j.
  Proof using Hnt.
    intros Hw HC Hst Hq Hp Hk Hd.
    assert (Hl := HC (A, i) Hq ps k p Hp Hk ltac:(intros ? H; inversion H)).
    destruct p as [|sym p].
    - inversion Hd; subst. by eexists.
    - cbn [launched] in Hl. apply (proj2 (saturated s Hw HC Hst) _ _ _ Hd _ ltac:(done) Hl).
  Qed.

  Lemma saturated_split s A i ps k p cs j : WF s -> Cl s [] [] -> stack s = [] -> (A, i) ∈ queued s ->
    prods A = Some ps -> ps !! k = Some p -> spans p cs i j ->
    (forall c, c ∈ cs -> dk (fst (fst c)) (snd (fst c)) (snd c)) -> done s (A, i) k cs j.
  Proof using Hnt.
    intros Hw HC Hst Hq Hp Hk Hsp Hdk.
    assert (Hl := HC (A, i) Hq ps k p Hp Hk ltac:(intros ? H; inversion H)).
    destruct p as [|sym p].
    { destruct cs; [|done]. simpl in Hsp. subst j. exact Hl. }
    cbn [launched] in Hl.
    assert (HG : forall r cs pos tp, r <> [] -> Act s [] tp pos r -> spans r cs pos j ->
      (forall c, c ∈ cs -> dk (fst (fst c)) (snd (fst c)) (snd c)) ->
      done s (td_marker (tp_def tp)) (td_prio (tp_def tp)) (td_children (tp_def tp) ++ cs) j).
    { clear - Hw HC Hst Hnt. induction r as [|x r IH]; intros cs pos tp Hne HA Hsp Hdk; [done|]. clear Hne.
      destruct cs as [|c cs]; [done|]. cbn [spans] in Hsp. destruct Hsp as [Hc Hsp]. destruct HA as (H1 & H2 & H3 & H4).
      pose proof (Hdk c ltac:(left)) as Hd. rewrite Hc in Hd. cbn [fst snd] in Hd.
      assert (c = ((x, pos), snd c)) as Ec by (destruct c; simpl in *; congruence).
      destruct (H4 _ (proj1 (saturated s Hw HC Hst) _ _ _ Hd H1 H3)) as [H|H]; [rewrite Hst in H; inversion H|]. rewrite <- Ec in H.
      destruct r as [|y r].
      - destruct cs; [|done]. simpl in Hsp. rewrite Hsp in H. exact H.
      - specialize (IH cs (snd c) (extend tp c) ltac:(done) H Hsp ltac:(intros z Hz; apply Hdk; right; exact Hz)).
        simpl in IH. rewrite <- app_assoc in IH. exact IH. }
    exact (HG (sym :: p) cs i _ ltac:(done) Hl Hsp Hdk).
  Qed.

  Lemma saturated_children s : WF s -> Cl s [] [] -> stack s = [] ->
    forall k d, memo s !! k = Some d -> fst k ∈ queued s -> forall c, c ∈ td_children d -> fst c ∈ queued s.
  Proof using Hnt.
    intros Hw HC Hst k d Hd Hq. destruct (wf_memo _ Hw _ _ Hd) as (Kd & Od & _ & Cd).
    destruct Od as [(_ & Hc & _)|(ps & p & Hp & Hl & Hsp)].
    { rewrite Hc. intros c Hin; inversion Hin. }
    rewrite Kd in Hp, Hsp.
    assert (Hla := HC (fst k) Hq ps _ p Hp Hl ltac:(intros ? H; inversion H)).
    destruct p as [|sym p].
    { destruct (td_children d); [|done]. intros c Hin; inversion Hin. }
    cbn [launched] in Hla. revert Hla Hsp Cd. generalize (TPart (TDef (fst k, 0) [] (td_prio d)) (sym :: p)) as tp.
    generalize (snd (fst k)) as pos. generalize (td_children d) as cs. generalize (sym :: p) as r.
    induction r as [|x r IH]; intros cs pos tp HA Hsp Cd; [done|].
    destruct cs as [|c cs]; [done|]. destruct Hsp as [Hc Hsp]. destruct HA as (H1 & H2 & H3 & H4).
    intros c' Hin. apply elem_of_cons in Hin as [->|Hin]; [by rewrite Hc|].
    assert (is_Some (memo s !! (x, pos, snd c))) as Hs.
    { destruct c as [mk e]; simpl in Hc |- *; subst mk. apply Cd. left. }
    destruct (H4 _ Hs) as [H|H]; [rewrite Hst in H; inversion H|].
    destruct r as [|y r].
    - destruct cs; [inversion Hin|done].
    - eapply IH; [exact H|exact Hsp| |exact Hin]. intros z Hz. apply Cd. right; done.
  Qed.
End Core.
