(** The packrat parser does not depend on the names and indexes of the symbols, nor on symbols
    that cannot be reached from the start. *)
From Coq Require Import Lia.
From Verif.model Require Import Packrat.
From Verif.spec Require Import Outcome Rename PackratSpec.
From Verif.proofs Require Import Fuel PackratFuel PackratProofs TdDepends SetProofs.
Local Open Scope nat_scope.

Definition rr {A B : Type} (R : A -> B -> Prop) (x : res A) (y : res B) : Prop :=
  match x, y with
  | Ok a, Ok b => R a b
  | Panic, Panic | OutOfFuel, OutOfFuel => True
  | _, _ => False
  end.
Lemma rr_bind {A B C D : Type} (R : A -> B -> Prop) (Q : C -> D -> Prop) x y f h :
  rr R x y -> (forall a b, R a b -> rr Q (f a) (h b)) -> rr Q (rbind x f) (rbind y h).
Proof. destruct x, y; cbn; intros H1 H2; try done. by apply H2. Qed.
Definition orel {A B : Type} (R : A -> B -> Prop) (x : option A) (y : option B) : Prop :=
  match x, y with Some a, Some b => R a b | None, None => True | _, _ => False end.

Section Sim.
  Variable rho : nat -> nat -> Prop.
  Hypothesis Hbij : forall i j i' j', rho i j -> rho i' j' -> (i = i' <-> j = j').

  Definition mr (m m' : marker) : Prop := rho (fst m) (fst m') /\ snd m = snd m'.
  Definition kr (k k' : key) : Prop := mr (fst k) (fst k') /\ snd k = snd k'.
  Lemma mr_eq m m' q q' : mr m m' -> mr q q' -> (m = q <-> m' = q').
  Proof using Hbij.
    destruct m as [i p], m' as [i' p'], q as [j r], q' as [j' r']. intros [H1 E1] [H2 E2]. cbn in *. subst.
    pose proof (Hbij _ _ _ _ H1 H2). split; intros [= -> ->]; f_equal; tauto.
  Qed.
  Lemma kr_eq m m' q q' : kr m m' -> kr q q' -> (m = q <-> m' = q').
  Proof using Hbij.
    destruct m as [i p], m' as [i' p'], q as [j r], q' as [j' r']. intros [H1 E1] [H2 E2]. cbn in *. subst.
    pose proof (mr_eq _ _ _ _ H1 H2). split; intros [= -> ->]; f_equal; tauto.
  Qed.
  (** children and priority only *)
  Definition bdr (d d' : tdef) : Prop := Forall2 kr (td_children d) (td_children d') /\ td_prio d = td_prio d'.
  Definition tdr (d d' : tdef) : Prop := kr (td_key d) (td_key d') /\ bdr d d'.
  Definition tpr (t t' : tpart) : Prop := tdr (tp_def t) (tp_def t') /\ Forall2 rho (tp_prod t) (tp_prod t').
  Definition memr (m m' : gmap key tdef) : Prop := forall k k', kr k k' -> orel tdr (m !! k) (m' !! k').
  Definition lr {V : Type} (R : V -> V -> Prop) (m m' : gmap marker (list V)) : Prop :=
    forall k k', mr k k' -> Forall2 R (lget m k) (lget m' k').
  Record sr (s s' : pst) : Prop := Sr {
    sr_memo : memr (memo s) (memo s'); sr_markers : lr tdr (markers s) (markers s'); sr_partials : lr tpr (partials s) (partials s');
    sr_queued : forall m m', mr m m' -> (m ∈ queued s <-> m' ∈ queued s');
    sr_stack : Forall2 (fun x y => tpr (fst x) (fst y) /\ kr (snd x) (snd y)) (stack s) (stack s') }.

  Lemma mget_bdr m m' k k' : memr m m' -> kr k k' -> bdr (mget m k) (mget m' k').
  Proof using.
    intros Hm Hk. specialize (Hm _ _ Hk). unfold mget. destruct (m !! k), (m' !! k'); cbn in Hm |- *; try done; [apply Hm|].
    split; [constructor|done].
  Qed.
  Lemma memr_insert m m' d d' : memr m m' -> tdr d d' -> memr (<[td_key d := d]> m) (<[td_key d' := d']> m').
  Proof using Hbij.
    intros Hm Hd k k' Hk. destruct Hd as [Hd1 Hd2]. pose proof (kr_eq _ _ _ _ Hd1 Hk) as E.
    destruct (decide (td_key d = k)) as [<-|Hne].
    - rewrite lookup_insert. rewrite (proj1 E eq_refl). rewrite lookup_insert. by split.
    - rewrite !lookup_insert_ne by tauto. by apply Hm.
  Qed.
  Lemma lr_insert {V : Type} (R : V -> V -> Prop) m m' k k' l l' : lr R m m' -> mr k k' -> Forall2 R l l' -> lr R (<[k := l]> m) (<[k' := l']> m').
  Proof using Hbij.
    intros Hm Hk Hl j j' Hj. unfold lget. pose proof (mr_eq _ _ _ _ Hk Hj) as E.
    destruct (decide (k = j)) as [<-|Hne].
    - rewrite lookup_insert. rewrite (proj1 E eq_refl). by rewrite lookup_insert.
    - rewrite !lookup_insert_ne by tauto. by apply Hm.
  Qed.

  Lemma compare_rr n : forall m m' d d' e e', memr m m' -> bdr d d' -> bdr e e' ->
    rr eq (compare_priority n m d e) (compare_priority n m' d' e').
  Proof using Hbij.
    induction n as [|n IH]; intros m m' d d' e e' Hm Hd He; [done|]. cbn [compare_priority].
    destruct Hd as [Hd1 Hd2], He as [He1 He2]. rewrite <- Hd2, <- He2.
    destruct (td_prio d =? td_prio e); [|by destruct (td_prio d <? td_prio e)].
    revert He1. generalize (td_children e), (td_children e').
    induction Hd1 as [|c c' r r' Hc Hr IHr]; intros l l' He1; [done|].
    destruct He1 as [|c2 c2' r2 r2' Hc2 Hr2]; [done|].
    pose proof (kr_eq _ _ _ _ Hc Hc2) as E. destruct (decide (c = c2)) as [E1|E1], (decide (c' = c2')) as [E2|E2]; [|tauto|tauto|].
    - by apply IHr.
    - apply (rr_bind eq); [apply IH; [done|by apply mget_bdr..]|]. intros a b ->. destruct (b =? 0)%Z; [by apply IHr|done].
  Qed.
  Lemma circular_rr n : forall m m' d d' k k', memr m m' -> bdr d d' -> kr k k' ->
    rr eq (circular n m d k) (circular n m' d' k').
  Proof using Hbij.
    induction n as [|n IH]; intros m m' d d' k k' Hm Hd Hk; [done|]. cbn [circular]. destruct Hd as [Hd1 _].
    induction Hd1 as [|c c' r r' Hc Hr IHr]; [done|].
    pose proof (kr_eq _ _ _ _ Hc Hk) as E. destruct (decide (c = k)) as [E1|E1], (decide (c' = k')) as [E2|E2]; [done|tauto|tauto|].
    apply (rr_bind eq); [apply IH; [done|by apply mget_bdr|done]|]. intros a b ->. destruct b; [done|]. apply IHr.
  Qed.

  Lemma push_sr s s' tp tp' k k' : sr s s' -> tpr tp tp' -> kr k k' -> sr (push s tp k) (push s' tp' k').
  Proof using. intros [H1 H2 H3 H4 H5] Ht Hk. split; try done. cbn [push stack]. by constructor. Qed.
  Lemma push_all_sr (l l' : list tpart) k k' : Forall2 tpr l l' -> kr k k' -> forall s s', sr s s' ->
    sr (fold_left (fun s tp => push s tp k) l s) (fold_left (fun s tp => push s tp k') l' s').
  Proof using. intros Hl Hk. induction Hl as [|x y l l' Hx Hl IH]; intros s s' Hs; cbn [fold_left]; [done|]. apply IH. by apply push_sr. Qed.
  Lemma push_keys_sr (l l' : list tdef) tp tp' : Forall2 tdr l l' -> tpr tp tp' -> forall s s', sr s s' ->
    sr (fold_left (fun s td => push s tp (td_key td)) l s) (fold_left (fun s td => push s tp' (td_key td)) l' s').
  Proof using. intros Hl Ht. induction Hl as [|x y l l' Hx Hl IH]; intros s s' Hs; cbn [fold_left]; [done|]. apply IH. apply push_sr; [done|done|apply Hx]. Qed.

  Lemma add_to_memo_rr n s s' d d' : sr s s' -> tdr d d' -> rr sr (add_to_memo n s d) (add_to_memo n s' d').
  Proof using Hbij.
    intros Hs Hd. unfold add_to_memo. pose proof Hs as [H1 H2 H3 H4 H5]. pose proof Hd as [Hk Hb].
    pose proof (H1 _ _ Hk) as Hm. destruct (memo s !! td_key d) as [old|], (memo s' !! td_key d') as [old'|]; cbn [orel] in Hm; try done.
    - apply (rr_bind eq); [apply compare_rr; [done|done|apply Hm]|]. intros a b ->. destruct (b =? 1)%Z; [|done].
      apply (rr_bind eq); [by apply circular_rr|]. intros c c' ->. destruct c'; [done|]. cbn [rr]. split; try done. cbn [set_memo memo]. by apply memr_insert.
    - cbn [rr]. apply push_all_sr; [|done|].
      + cbn [set_markers set_memo partials]. apply H3. apply Hk.
      + split; try done; cbn [set_markers set_memo memo markers partials queued stack].
        * by apply memr_insert.
        * apply lr_insert; [done|apply Hk|]. apply Forall2_app; [apply H2, Hk|]. by constructor.
  Qed.

  Variables prods1 prods2 : nat -> option (list (list nat)).
  Variables nonterms1 nonterms2 : list bool.
  Variables kinds1 kinds2 : list nat.
  Hypothesis Hp : forall i j, rho i j -> orel (Forall2 (Forall2 rho)) (prods1 i) (prods2 j).
  Hypothesis Hnt : forall i j, rho i j -> nonterms1 !! i = nonterms2 !! j.
  Hypothesis Hkd : forall i j p, rho i j -> orel (fun a b => (i =? a) = (j =? b)) (kinds1 !! p) (kinds2 !! p).
  Variable F : nat.

  Definition ctr (x y : pst * option tdef) : Prop := sr (fst x) (fst y) /\ orel tdr (snd x) (snd y).
  Lemma check_rr s s' m m' : sr s s' -> mr m m' ->
    rr ctr (check_non_terminal F kinds1 s m) (check_non_terminal F kinds2 s' m').
  Proof using Hbij Hkd.
    intros Hs Hm. unfold check_non_terminal. destruct Hm as [Hm1 Hm2]. pose proof (Hkd _ _ (snd m) Hm1) as Hk. rewrite <- Hm2.
    destruct (kinds1 !! snd m) as [a|], (kinds2 !! snd m) as [b|]; cbn [orel] in Hk; try done.
    rewrite Hk. destruct (fst m' =? b); [|done].
    assert (Ht : tdr (TDef (m, S (snd m)) [] 0) (TDef (m', S (snd m)) [] 0)) by (split; [by split|split; [constructor|done]]).
    apply (rr_bind sr); [by apply add_to_memo_rr|]. intros x y Hxy. by split.
  Qed.

  Lemma add_prods_rr n : forall m m' s s', mr m m' -> sr s s' ->
    rr sr (add_prods F prods1 nonterms1 kinds1 n m s) (add_prods F prods2 nonterms2 kinds2 n m' s').
  Proof using Hbij Hkd Hnt Hp.
    induction n as [|n IH]; intros m m' s s' Hm Hs; [done|]. cbn [add_prods].
    pose proof (sr_queued _ _ Hs _ _ Hm) as Hq.
    destruct (bool_decide_reflect (m ∈ queued s)) as [E1|E1], (bool_decide_reflect (m' ∈ queued s')) as [E2|E2]; [done|tauto|tauto|].
    assert (Hs1 : sr (set_queued s ({[m]} ∪ queued s)) (set_queued s' ({[m']} ∪ queued s'))).
    { destruct Hs as [H1 H2 H3 H4 H5]. split; try done. cbn [set_queued queued]. intros q q' Hqq. rewrite !elem_of_union, !elem_of_singleton.
      pose proof (mr_eq _ _ _ _ Hqq Hm). pose proof (H4 _ _ Hqq). tauto. }
    pose proof (Hp _ _ (proj1 Hm)) as Hps. destruct (prods1 (fst m)) as [ps|], (prods2 (fst m')) as [ps'|]; cbn [orel] in Hps; try done.
    match goal with |- rr _ (?f 0 ps ?a) (?h 0 ps' ?b) => cut (forall i, rr sr (f i ps a) (h i ps' b)); [intros HH; apply HH|] end.
    revert Hs1. generalize (set_queued s ({[m]} ∪ queued s)), (set_queued s' ({[m']} ∪ queued s')). clear Hs Hq E1 E2 s s'.
    induction Hps as [|p p' ps ps' Hpp Hps IHp]; intros s s' Hs i; [done|].
    destruct Hpp as [|x x' p p' Hx Hpp].
    - apply (rr_bind sr); [|intros a b Hab; by apply IHp]. apply add_to_memo_rr; [done|]. destruct Hm as [Hm1 Hm2]. split; [split; [by split|done]|]. split; [constructor|done].
    - apply (rr_bind sr); [|intros a b Hab; by apply IHp]. cbn [fst]. rewrite (Hnt _ _ Hx). destruct (nonterms2 !! x') as [isnt|]; [|done].
      assert (Hm2 : mr (x, snd m) (x', snd m')) by (split; [done|apply Hm]).
      assert (Ht : tpr (TPart (TDef (m, 0) [] i) (x :: p)) (TPart (TDef (m', 0) [] i) (x' :: p'))).
      { split; [split; [by split|split; [constructor|done]]|]. by constructor. }
      apply (rr_bind sr).
      + destruct isnt.
        * cbn [rr]. destruct Hs as [H1 H2 H3 H4 H5]. split; try done. cbn [set_partials partials]. apply lr_insert; [done|done|].
          apply Forall2_app; [by apply H3|]. by constructor.
        * apply (rr_bind ctr); [by apply check_rr|]. intros [a o] [b o'] [Hab _]. done.
      + intros a b Hab. apply IH; [done|]. apply push_keys_sr; [|done|done]. by apply (sr_markers _ _ Hab).
  Qed.

  Lemma add_partial_rr n tp tp' m m' s s' : tpr tp tp' -> mr m m' -> sr s s' ->
    rr sr (add_partial F prods1 nonterms1 kinds1 n tp m s) (add_partial F prods2 nonterms2 kinds2 n tp' m' s').
  Proof using Hbij Hkd Hnt Hp.
    intros Ht Hm Hs. unfold add_partial. rewrite (Hnt _ _ (proj1 Hm)). destruct (nonterms2 !! fst m') as [isnt|]; [|done].
    apply (rr_bind sr).
    - destruct isnt.
      + cbn [rr]. destruct Hs as [H1 H2 H3 H4 H5]. split; try done. cbn [set_partials partials]. apply lr_insert; [done|done|].
        apply Forall2_app; [by apply H3|]. by constructor.
      + apply (rr_bind ctr); [by apply check_rr|]. intros [a o] [b o'] [Hab _]. done.
    - intros a b Hab. apply add_prods_rr; [done|]. apply push_keys_sr; [|done|done]. by apply (sr_markers _ _ Hab).
  Qed.

  Lemma extend_tpr tp tp' k k' : tpr tp tp' -> kr k k' -> tpr (extend tp k) (extend tp' k').
  Proof using.
    intros [[[H1 H2] [H3 H4]] H5] [Hk1 Hk2]. split; [|done]. split; [by split|]. split; [|done].
    cbn [extend tp_def td_children]. apply Forall2_app; [done|]. by constructor.
  Qed.
  Lemma update_rr n : forall tp tp' k k' s s', tpr tp tp' -> kr k k' -> sr s s' ->
    rr sr (update F prods1 nonterms1 kinds1 n tp k s) (update F prods2 nonterms2 kinds2 n tp' k' s').
  Proof using Hbij Hkd Hnt Hp.
    induction n as [|n IH]; intros tp tp' k k' s s' Ht Hk Hs; [done|]. cbn [update].
    pose proof (extend_tpr _ _ _ _ Ht Hk) as He.
    assert (El : length (td_children (tp_def tp)) = length (td_children (tp_def tp'))) by (eapply Forall2_length; apply Ht).
    assert (Ep : length (tp_prod (extend tp k)) = length (tp_prod (extend tp' k'))) by (eapply Forall2_length; apply He).
    rewrite <- El, <- Ep. destruct (S (length (td_children (tp_def tp))) =? length (tp_prod (extend tp k))); [apply add_to_memo_rr; [done|apply He]|].
    pose proof (proj2 He) as Hpr. destruct (tp_prod (extend tp k) !! S (length (td_children (tp_def tp)))) as [x|] eqn:E.
    - destruct (Forall2_lookup_l _ _ _ _ _ Hpr E) as (x' & E' & Hx). rewrite E'.
      apply (rr_bind ctr); [apply check_rr; [done|apply He]|]. intros [a o] [b o'] [Hab Ho]. cbn [fst snd] in Hab, Ho.
      destruct o as [d|], o' as [d'|]; cbn [orel] in Ho; try done.
      + apply IH; [done|apply Ho|done].
      + apply add_partial_rr; [done| |done]. split; [done|apply Hk].
    - assert (E' : tp_prod (extend tp' k') !! S (length (td_children (tp_def tp))) = None).
      { apply lookup_ge_None. rewrite <- Ep. by apply lookup_ge_None. }
      by rewrite E'.
  Qed.
  Lemma run_rr n : forall s s', sr s s' ->
    rr sr (Packrat.run F prods1 nonterms1 kinds1 n s) (Packrat.run F prods2 nonterms2 kinds2 n s').
  Proof using Hbij Hkd Hnt Hp.
    induction n as [|n IH]; intros s s' Hs; cbn [Packrat.run]; pose proof (sr_stack _ _ Hs) as Hst;
      destruct Hst as [|[tp k] [tp' k'] st st' [Ht Hk] Hst]; try done.
    apply (rr_bind sr); [|by apply IH]. apply update_rr; [done|done|]. destruct Hs as [H1 H2 H3 H4 H5]. by split.
  Qed.

  Variable f : gostring -> gostring.
  Variables lx1 lx2 : list (nat * lexeme).
  Hypothesis Hlx : map snd lx2 = map (rn_lexeme f) (map snd lx1).
  Hypothesis Hk1 : kinds1 = map fst lx1.
  Hypothesis Hk2 : kinds2 = map fst lx2.
  Variables nm1 nm2 : nat -> gostring.
  Hypothesis Hnm : forall i j, rho i j -> nm2 j = f (nm1 i).
  Hypothesis H00 : rho 0 0.
  Lemma mget_tdr m m' k k' : memr m m' -> kr k k' -> tdr (mget m k) (mget m' k').
  Proof using H00.
    intros Hm Hk. specialize (Hm _ _ Hk). unfold mget. destruct (m !! k), (m' !! k'); cbn in Hm |- *; try done.
    split; [done|]. split; [constructor|done].
  Qed.
  Lemma rmap_rr {A B C : Type} (R : A -> A -> Prop) (q : B -> C) (u : A -> res B) (v : A -> res C) l l' : Forall2 R l l' ->
    (forall a b, R a b -> rr (fun x y => y = q x) (u a) (v b)) -> rr (fun x y => y = map q x) (rmap u l) (rmap v l').
  Proof using.
    intros Hl Hf. induction Hl as [|x y l l' Hx Hl IH]; [done|]. cbn [rmap].
    apply (rr_bind (fun x y => y = q x)); [by apply Hf|]. intros a b ->.
    apply (rr_bind (fun x y => y = map q x)); [done|]. intros c d ->. done.
  Qed.
  Lemma to_pn_rr n : forall m m' d d', memr m m' -> tdr d d' ->
    rr (fun t t' => t' = rn_tree f t) (to_pn n lx1 m nm1 d) (to_pn n lx2 m' nm2 d').
  Proof using H00 Hk1 Hk2 Hkd Hlx Hnm.
    induction n as [|n IH]; intros m m' d d' Hm [Hk [Hc Hpr]]; [done|]. cbn [to_pn].
    destruct (td_key d) as [[i p] e], (td_key d') as [[i' p'] e']. destruct Hk as [[Hi Ep] Ee]. cbn [fst snd] in *. subst p' e'.
    apply (rr_bind (fun x y => y = map (rn_tree f) x)).
    - apply (rmap_rr kr); [done|]. intros a b Hab. apply IH; [done|]. by apply mget_tdr.
    - intros cs cs' ->. rewrite (Hnm _ _ Hi).
      assert (Eo : match lx2 !! p with Some (k, lx) => if k =? i' then Some lx else None | None => None end
                 = option_map (rn_lexeme f) (match lx1 !! p with Some (k, lx) => if k =? i then Some lx else None | None => None end)).
      { pose proof (Hkd _ _ p Hi) as H. rewrite Hk1, Hk2 in H.
        assert (Es : snd <$> (lx2 !! p) = rn_lexeme f <$> (snd <$> (lx1 !! p))).
        { rewrite <- !list_lookup_fmap. change (snd <$> lx1) with (map snd lx1). change (snd <$> lx2) with (map snd lx2). by rewrite Hlx. }
        change (map fst lx1) with (fst <$> lx1) in H. change (map fst lx2) with (fst <$> lx2) in H. rewrite !list_lookup_fmap in H.
        destruct (lx1 !! p) as [[k lx]|], (lx2 !! p) as [[k' lx']|]; cbn in H, Es; try done. injection Es as ->.
        rewrite (Nat.eqb_sym k i), (Nat.eqb_sym k' i'), H. by destruct (i' =? k'). }
      rewrite Eo. destruct (match lx1 !! p with Some (k, lx) => if k =? i then Some lx else None | None => None end); cbn [option_map rr]; [done|].
      destruct cs as [|[c ch] cs]; done.
  Qed.
End Sim.

(** The set that [packrat_parse] builds. *)
Lemma first_zero g s0 rest set1 : g_wf g -> g_nts g = s0 :: rest -> load_grammar g set_new = Ok set1 -> symb2str set1 !! 0 = Some s0.
Proof.
  intros Hg Hn Hl. revert Hl. unfold load_grammar. rewrite Hn. cbn [load_nts].
  assert (Hf : set_str set_new s0 = (0, snd (set_str set_new s0))) by done.
  destruct (set_str_spec _ _ _ _ set_new_wf Hf) as (Hwx & Hlx' & Hv & _).
  destruct (g_prods g s0) as [ps|]; [|done]. intros Hl.
  destruct (load_prods_spec ps _ Hwx) as (Hwy & [l1 Hl1] & _).
  destruct (load_nts_spec g rest (fold_left load_prod ps (snd (set_str set_new s0))) Hwy) as (s' & Hs' & _ & [l2 Hl2] & _).
  { intros nt Hnt'. apply Hg. rewrite Hn. right; done. }
  assert (s' = set1) as -> by congruence. rewrite Hl2, Hl1, <- app_assoc. apply lookup_app_l_Some. done.
Qed.

Definition namerel (f : gostring -> gostring) (g : grammar) (s1 s2 : SetSym.set) (i j : nat) : Prop :=
  exists nm, reachable g nm /\ symb2str s1 !! i = Some nm /\ symb2str s2 !! j = Some (f nm).

Definition rres {A B : Type} (h : A -> B) (x : res A) : res B :=
  match x with Ok a => Ok (h a) | Panic => Panic | OutOfFuel => OutOfFuel end.
Lemma rr_rres {A B : Type} (h : A -> B) x y : rr (fun a b => b = h a) x y -> y = rres h x.
Proof. destruct x, y; cbn [rr rres]; intros HH; first [done|by rewrite HH]. Qed.

Theorem packrat_renamed n f g1 g2 lexemes : g_wf g1 -> g_wf g2 -> one_to_one f -> renamed f g1 g2 ->
  packrat_parse n g2 (map (rn_lexeme f) lexemes) = rres (option_map (rn_tree f)) (packrat_parse n g1 lexemes).
Proof.
  intros Hg1 Hg2 Hf [Hh Hsame]. apply rr_rres.
  unfold packrat_parse at 1 2. destruct (g_nts g1) as [|s0 rest1] eqn:Hn1, (g_nts g2) as [|s0' rest2] eqn:Hn2; try done.
  injection Hh as ->. rewrite <- Hn1, <- Hn2.
  destruct (load_grammar_ok g1 Hg1) as (set1 & Hl1 & Hw1 & Hk1 & Hk1'). destruct (load_grammar_ok g2 Hg2) as (set2 & Hl2 & Hw2 & Hk2 & Hk2').
  rewrite Hl1, Hl2. cbn [rbind].
  destruct (load_lexemes set1 lexemes) as [lx1 st1] eqn:El1. destruct (load_lexemes set2 (map (rn_lexeme f) lexemes)) as [lx2 st2] eqn:El2.
  destruct (load_lexemes_spec _ _ _ _ Hw1 El1) as (Hst1 & Hle1 & Hlx1 & Hlk1).
  destruct (load_lexemes_spec _ _ _ _ Hw2 El2) as (Hst2 & Hle2 & Hlx2 & Hlk2).
  assert (Hknt1 : forall nt, nt ∈ g_nts g1 -> known st1 nt) by (intros nt Hnt; apply (known_le set1 st1); auto).
  assert (Hknt2 : forall nt, nt ∈ g_nts g2 -> known st2 nt) by (intros nt Hnt; apply (known_le set2 st2); auto).
  assert (Hkp1 : forall nt ps p x, g_prods g1 nt = Some ps -> p ∈ ps -> x ∈ p -> known st1 x) by (intros; apply (known_le set1 st1); eauto).
  assert (Hkp2 : forall nt ps p x, g_prods g2 nt = Some ps -> p ∈ ps -> x ∈ p -> known st2 x) by (intros; apply (known_le set2 st2); eauto).
  set (rho := namerel f g1 st1 st2).
  assert (Hbij : forall i j i' j', rho i j -> rho i' j' -> (i = i' <-> j = j')).
  { intros i j i' j' (a & _ & Ha1 & Ha2) (b & _ & Hb1 & Hb2). split; intros <-.
    - assert (a = b) as <- by congruence. apply Hst2 in Ha2, Hb2. congruence.
    - assert (a = b) as <- by (apply Hf; congruence). apply Hst1 in Ha1, Hb1. congruence. }
  assert (Hp : forall i j, rho i j -> orel (Forall2 (Forall2 rho)) (prods_of g1 st1 i) (prods_of g2 st2 j)).
  { intros i j (a & Hr & Ha1 & Ha2). unfold prods_of. rewrite Ha1, Ha2. pose proof (Hsame a Hr) as Ea. rewrite Ea.
    destruct (g_prods g1 a) as [ps|] eqn:Eps; [|done]. cbn.
    assert (Hall : forall p x, p ∈ ps -> x ∈ p -> rho (fst (set_str st1 x)) (fst (set_str st2 (f x)))).
    { intros p x Hpi Hx. exists x. split; [by eapply reach_step|]. split.
      - apply (idx_str st1 Hst1). by eapply Hkp1.
      - apply (idx_str st2 Hst2). eapply Hkp2; [exact Ea|apply (elem_of_list_fmap_1 (map f)), Hpi|]. by apply (elem_of_list_fmap_1 f). }
    clear Eps Ea. induction ps as [|p ps IH]; [constructor|]. cbn [map]. constructor.
    - assert (Hp1 : forall x, x ∈ p -> rho (fst (set_str st1 x)) (fst (set_str st2 (f x)))) by (intros x; apply Hall; left).
      clear -Hp1. induction p as [|x p IH]; [constructor|]. cbn [map]. constructor; [apply Hp1; left|]. apply IH. intros y Hy. apply Hp1. by right.
    - apply IH. intros q x Hq. apply Hall. by right. }
  assert (Hnt : forall i j, rho i j -> mark_nonterms st1 (g_nts g1) (replicate (sym_count st1) false) !! i
                                    = mark_nonterms st2 (g_nts g2) (replicate (sym_count st2) false) !! j).
  { intros i j (a & Hr & Ha1 & Ha2). pose proof (Hsame a Hr) as Ea. destruct (g_prods g1 a) as [ps|] eqn:Eps.
    - rewrite (proj2 (inst_nt g1 st1 Hg1 Hst1 Hknt1 i)); [symmetry; apply (inst_nt g2 st2 Hg2 Hst2 Hknt2 j)|].
      + unfold prods_of. rewrite Ha2, Ea. cbn. eauto.
      + unfold prods_of. rewrite Ha1, Eps. cbn. eauto.
    - rewrite (nonterms_false g1 st1 Hg1 Hst1 Hknt1 i a Ha1 Eps). symmetry.
      apply (nonterms_false g2 st2 Hg2 Hst2 Hknt2 j (f a) Ha2). exact Ea. }
  assert (Hsnd : map snd lx2 = map (rn_lexeme f) (map snd lx1)) by congruence.
  assert (Hkd : forall i j p, rho i j -> orel (fun a b => (i =? a) = (j =? b)) (map fst lx1 !! p) (map fst lx2 !! p)).
  { intros i j p (a & Hr & Ha1 & Ha2). change (map fst lx1) with (fst <$> lx1). change (map fst lx2) with (fst <$> lx2). rewrite !list_lookup_fmap.
    destruct (lx1 !! p) as [[k1 x1]|] eqn:E1, (lx2 !! p) as [[k2 x2]|] eqn:E2; cbn.
    - destruct (lxms_lookup lexemes st1 lx1 Hlx1 Hlk1 _ _ _ E1) as [F1 G1]. destruct (lxms_lookup (map (rn_lexeme f) lexemes) st2 lx2 Hlx2 Hlk2 _ _ _ E2) as [F2 G2].
      change (map (rn_lexeme f) lexemes) with (rn_lexeme f <$> lexemes) in F2. rewrite list_lookup_fmap, F1 in F2. injection F2 as <-. cbn [rn_lexeme lx_kind] in G2.
      destruct (Nat.eqb_spec i k1) as [->|Hi], (Nat.eqb_spec j k2) as [->|Hj]; try done; exfalso.
      + assert (a = lx_kind x1) as -> by congruence. apply Hst2 in Ha2, G2. congruence.
      + assert (a = lx_kind x1) as -> by (apply Hf; congruence). apply Hst1 in Ha1, G1. congruence.
    - apply lookup_lt_Some in E1. apply lookup_ge_None in E2. apply (f_equal length) in Hsnd. rewrite !map_length in Hsnd. lia.
    - apply lookup_lt_Some in E2. apply lookup_ge_None in E1. apply (f_equal length) in Hsnd. rewrite !map_length in Hsnd. lia.
    - done. }
  assert (Hnm : forall i j, rho i j -> name_of st2 j = f (name_of st1 i)).
  { intros i j (a & _ & Ha1 & Ha2). unfold name_of. by rewrite Ha1, Ha2. }
  assert (Hr0 : reachable g1 s0) by (eapply reach_start; exact Hn1).
  assert (H00 : rho 0 0).
  { exists s0. split; [done|]. split.
    - pose proof (first_zero g1 s0 rest1 set1 Hg1 Hn1 Hl1) as Hz. destruct Hle1 as [l1 ->]. by apply lookup_app_l_Some.
    - pose proof (first_zero g2 (f s0) rest2 set2 Hg2 Hn2 Hl2) as Hz. destruct Hle2 as [l2 ->]. by apply lookup_app_l_Some. }
  assert (Hss : rho (fst (set_str st1 s0)) (fst (set_str st2 (f s0)))).
  { exists s0. split; [done|]. split; [apply (idx_str st1 Hst1)|apply (idx_str st2 Hst2)]; [apply Hknt1; rewrite Hn1; left|apply Hknt2; rewrite Hn2; left]. }
  assert (Hinit : sr rho pst_init pst_init).
  { split.
    - intros k k' _. unfold pst_init. cbn [memo]. by rewrite !lookup_empty.
    - intros k k' _. unfold lget, pst_init. cbn [markers]. rewrite !lookup_empty. constructor.
    - intros k k' _. unfold lget, pst_init. cbn [partials]. rewrite !lookup_empty. constructor.
    - intros m m' _. unfold pst_init. cbn [queued]. set_solver.
    - constructor. }
  rewrite map_length.
  apply (rr_bind (sr rho)). { apply (add_prods_rr rho Hbij); [exact Hp|exact Hnt|exact Hkd|by split|exact Hinit]. }
  intros s1 s1' Hs1. apply (rr_bind (sr rho)). { apply (run_rr rho Hbij); [exact Hp|exact Hnt|exact Hkd|exact Hs1]. }
  intros s2 s2' Hs2.
  assert (Ht : tdr rho (mget (memo s2) ((fst (set_str st1 s0), 0), length lexemes)) (mget (memo s2') ((fst (set_str st2 (f s0)), 0), length lexemes))).
  { apply (mget_tdr rho H00); [apply Hs2|]. by split. }
  assert (Ee : td_end (mget (memo s2) ((fst (set_str st1 s0), 0), length lexemes)) = td_end (mget (memo s2') ((fst (set_str st2 (f s0)), 0), length lexemes))) by apply Ht.
  cbn zeta. rewrite <- Ee. destruct (td_end _ =? length lexemes); [|done].
  apply (rr_bind (fun t t' => t' = rn_tree f t)).
  - apply (to_pn_rr rho (map fst lx1) (map fst lx2) Hkd f lx1 lx2 Hsnd eq_refl eq_refl (name_of st1) (name_of st2) Hnm H00); [apply Hs2|exact Ht].
  - intros a b ->. done.
Qed.

(** * Renaming nothing *)
Lemma rn_lexeme_id lx : rn_lexeme (fun x => x) lx = lx.
Proof. by destruct lx. Qed.
Fixpoint rn_tree_id t : rn_tree (fun x => x) t = t.
Proof.
  destruct t as [lx ch]. cbn [rn_tree]. rewrite rn_lexeme_id. f_equal.
  exact ((fix go (l : list pn) : map (rn_tree (fun x => x)) l = l :=
    match l with [] => eq_refl | c :: r => f_equal2 cons (rn_tree_id c) (go r) end) ch).
Qed.
Lemma same_renamed g1 g2 : same_reachable g1 g2 -> renamed (fun x => x) g1 g2.
Proof.
  intros [Hh Hs]. split; [rewrite <- Hh; by destruct (head (g_nts g1))|]. intros x Hx. rewrite <- (Hs x Hx).
  destruct (g_prods g1 x) as [ps|]; [|done]. cbn [option_map]. f_equal. symmetry.
  rewrite <- (map_id ps) at 2. apply map_ext. intros p. apply map_id.
Qed.
Theorem packrat_same n g1 g2 lexemes : g_wf g1 -> g_wf g2 -> same_reachable g1 g2 ->
  packrat_parse n g1 lexemes = packrat_parse n g2 lexemes.
Proof.
  intros H1 H2 Hs. pose proof (packrat_renamed n (fun x => x) g1 g2 lexemes H1 H2 (fun x y E => E) (same_renamed _ _ Hs)) as E.
  rewrite (map_ext _ (fun x => x) rn_lexeme_id), map_id in E. rewrite E.
  destruct (packrat_parse n g1 lexemes) as [[t|]| |]; cbn [rres option_map]; [by rewrite rn_tree_id|done..].
Qed.
Lemma packrat_reachable g1 g2 lexemes r : g_wf g1 -> g_wf g2 -> same_reachable g1 g2 ->
  returns (fun n => packrat_parse n g1 lexemes) r <-> returns (fun n => packrat_parse n g2 lexemes) r.
Proof.
  intros H1 H2 Hs. split; intros [F HF]; exists F; intros n Hn; [rewrite <- (packrat_same n g1 g2)|rewrite (packrat_same n g1 g2)]; auto.
Qed.
Lemma packrat_rename f g1 g2 lexemes r2 : g_wf g1 -> g_wf g2 -> one_to_one f -> renamed f g1 g2 ->
  returns (fun n => packrat_parse n g2 (map (rn_lexeme f) lexemes)) r2
  <-> exists r1, returns (fun n => packrat_parse n g1 lexemes) r1 /\ r2 = option_map (rn_tree f) r1.
Proof.
  intros H1 H2 Hf Hr. split.
  - intros [F HF]. pose proof (HF F (le_n F)) as E. rewrite (packrat_renamed F f g1 g2 lexemes H1 H2 Hf Hr) in E.
    destruct (packrat_parse F g1 lexemes) as [r1| |] eqn:E1; try done. injection E as <-. exists r1. split; [|done].
    eapply (returns_at (fun n => packrat_parse n g1 lexemes)); [apply packrat_parse_mono|exact E1].
  - intros (r1 & [F HF] & ->). exists F. intros n Hn. by rewrite (packrat_renamed n f g1 g2 lexemes H1 H2 Hf Hr), (HF n Hn).
Qed.
