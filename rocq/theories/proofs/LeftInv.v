(** The packrat machine on the grammar of the math example: its state as a function of the
    expressions found, and single steps. *)
From Verif.model Require Import Packrat.
From Verif.proofs Require Import Fuel PackratFuel.
From Verif.proofs Require Export LeftPos.

Definition prio (o : nat) : nat := if decide (o = s2) then 0 else 1.
Definition T0 b o := TPart (TDef ((sE, b), 0) [] (prio o)) [sE; o; sE].
Definition T1 b k o := TPart (TDef ((sE, b), k) [((sE, b), k)] (prio o)) [sE; o; sE].
Definition T2 b k o := TPart (TDef ((sE, b), S k) [((sE, b), k); ((o, k), S k)] (prio o)) [sE; o; sE].
Definition C b k o e := TDef ((sE, b), e) [((sE, b), k); ((o, k), S k); ((sE, S k), e)] (prio o).
Definition np b := TPart (TDef ((sE, b), 0) [] 2) [sn].
Definition sp0 b := TPart (TDef ((sE, b), 0) [] 3) [s2; sn].
Definition sp1 b := TPart (TDef ((sE, b), S b) [((s2, b), S b)] 3) [s2; sn].
Definition qp b := TPart (TDef ((sE, b), 0) [] 4) [sP].
Definition pp0 b := TPart (TDef ((sP, b), 0) [] 0) [so; sE; sc].
Definition pp1 b := TPart (TDef ((sP, b), S b) [((so, b), S b)] 0) [so; sE; sc].
Definition pp2 b e := TPart (TDef ((sP, b), e) [((so, b), S b); ((sE, S b), e)] 0) [so; sE; sc].
Definition PD b e := TDef ((sP, b), S e) [((so, b), S b); ((sE, S b), e); ((sc, e), S e)] 0.
Definition tmn (t : nat) : Prop := t = s2 \/ t = s1 \/ t = sn \/ t = so \/ t = sc.

Section M.
  Variable prods : nat -> option (list (list nat)).
  Variable nonterms : list bool.
  Variable kinds : list nat.
  Hypothesis prods_E : prods sE = Some [[sE; s2; sE]; [sE; s1; sE]; [sn]; [s2; sn]; [sP]].
  Hypothesis prods_P : prods sP = Some [[so; sE; sc]].
  Hypothesis prods_t : forall t, tmn t -> prods t = None.
  Hypothesis nt_E : nonterms !! sE = Some true.
  Hypothesis nt_P : nonterms !! sP = Some true.
  Hypothesis nt_t : forall t, tmn t -> nonterms !! t = Some false.
  Hypothesis kinds_t : forall p t, kinds !! p = Some t -> tmn t.

  Notation At := (At kinds).
  Notation Sq := (Sq kinds).
  Notation isop := (isop kinds).

  Lemma nt_E_not : ~ tmn sE. Proof. unfold tmn. lia. Qed.
  Lemma nt_P_not : ~ tmn sP. Proof. unfold tmn. lia. Qed.

  (** * Terminals *)
  Definition leaf (t p : nat) : tdef := TDef ((t, p), S p) [] 0.
  Definition tst (s : pst) (t p : nat) : Prop :=
    (memo s !! ((t, p), S p) = None /\ lget (markers s) (t, p) = [])
    \/ (kinds !! p = Some t /\ memo s !! ((t, p), S p) = Some (leaf t p) /\ lget (markers s) (t, p) = [leaf t p]).
  Definition TI (s : pst) : Prop := forall t p, tmn t ->
    tst s t p /\ lget (partials s) (t, p) = [] /\ forall e d, memo s !! ((t, p), e) = Some d -> e = S p.
  Record sameEP (s s' : pst) : Prop := {
    se_memo : forall x b e, ~ tmn x -> memo s' !! ((x, b), e) = memo s !! ((x, b), e);
    se_mk : forall x b, ~ tmn x -> lget (markers s') (x, b) = lget (markers s) (x, b);
    se_pt : partials s' = partials s;
    se_q : forall x b, ~ tmn x -> (x, b) ∈ queued s' <-> (x, b) ∈ queued s;
    se_mono : forall k, is_Some (memo s !! k) -> is_Some (memo s' !! k)
  }.
  Lemma same_refl s : sameEP s s. Proof. by split. Qed.
  Lemma same_trans s s1 s2 : sameEP s s1 -> sameEP s1 s2 -> sameEP s s2.
  Proof.
    intros A B. split; intros.
    - rewrite (se_memo _ _ B) by done. by apply (se_memo _ _ A).
    - rewrite (se_mk _ _ B) by done. by apply (se_mk _ _ A).
    - rewrite (se_pt _ _ B). apply (se_pt _ _ A).
    - rewrite (se_q _ _ B) by done. by apply (se_q _ _ A).
    - apply (se_mono _ _ B). by apply (se_mono _ _ A).
  Qed.

  Lemma lget_insert {V} (m : gmap marker (list V)) k v : lget (<[k := v]> m) k = v.
  Proof. unfold lget. by rewrite lookup_insert. Qed.
  Lemma lget_insert_ne {V} (m : gmap marker (list V)) k k' v : k <> k' -> lget (<[k := v]> m) k' = lget m k'.
  Proof. intros H. unfold lget. by rewrite lookup_insert_ne. Qed.
  Definition items (tp : tpart) (ds : list tdef) : list (tpart * key) := rev (map (fun d => (tp, td_key d)) ds).
  Lemma push_all tp ds : forall s, fold_left (fun s td => push s tp (td_key td)) ds s = set_stack s (items tp ds ++ stack s).
  Proof.
    induction ds as [|d ds IH]; intros s; [by destruct s|]. cbn [fold_left]. rewrite IH. unfold push, set_stack, items. cbn.
    by rewrite <- app_assoc.
  Qed.
  Lemma push_parts k tps : forall s, fold_left (fun s tp => push s tp k) tps s = set_stack s (rev (map (fun tp => (tp, k)) tps) ++ stack s).
  Proof.
    induction tps as [|d ds IH]; intros s; [by destruct s|]. cbn [fold_left]. rewrite IH. unfold push, set_stack. cbn.
    by rewrite <- app_assoc.
  Qed.

  Lemma check_term t p s : tmn t -> TI s -> exists s' o,
    (forall n, 1 <= n -> check_non_terminal n kinds s (t, p) = Ok (s', o)) /\ sameEP s s' /\ TI s' /\ stack s' = stack s /\ queued s' = queued s
    /\ lget (markers s') (t, p) = (if decide (kinds !! p = Some t) then [leaf t p] else [])
    /\ (kinds !! p = Some t -> is_Some (memo s' !! ((t, p), S p))).
  Proof.
    intros Ht Hs. unfold check_non_terminal. cbn [fst snd]. destruct (decide (kinds !! p = Some t)) as [Hk|Hk].
    - rewrite Hk, Nat.eqb_refl. unfold add_to_memo. cbn [td_key].
      destruct (Hs t p Ht) as ([[Hm Hmk]|(_ & Hm & Hmk)] & Hp & He); rewrite Hm.
      + eexists _, _. split; [by intros n _|]. cbn [rbind td_marker td_key fst set_memo set_markers markers partials].
        unfold td_marker. cbn [td_key fst]. rewrite Hp. cbn [fold_left memo markers partials queued stack].
        split; [|split; [|split; [done|split; [done|split]]]].
        * split; cbn [set_memo set_markers memo markers partials queued]; try done.
          -- intros x b e Hx. rewrite lookup_insert_ne; [done|]. intros Hq. injection Hq; intros; by subst.
          -- intros x b Hx. rewrite lget_insert_ne; [done|]. intros Hq. injection Hq; intros; by subst.
          -- intros k [d Hd]. destruct (decide (((t, p), S p) = k)) as [<-|Hn]; [rewrite lookup_insert; eauto|].
             rewrite lookup_insert_ne by done. eauto.
        * intros t' p' Ht'. destruct (Hs t' p' Ht') as (H1 & H2 & H3). unfold tst. cbn [set_memo set_markers memo markers partials].
          destruct (decide ((t', p') = (t, p))) as [[= -> ->]|Hn].
          -- split; [|split; [done|]].
             ++ right. rewrite lookup_insert, lget_insert, Hmk. done.
             ++ intros e d. destruct (decide (e = S p)); [done|]. rewrite lookup_insert_ne by congruence. apply H3.
          -- split; [|split; [done|]].
             ++ rewrite lookup_insert_ne, lget_insert_ne by congruence. done.
             ++ intros e d. rewrite lookup_insert_ne by congruence. apply H3.
        * cbn [set_memo set_markers markers]. rewrite lget_insert, Hmk. done.
        * intros _. cbn [set_memo set_markers memo]. rewrite lookup_insert. eauto.
      + exists s, (Some (leaf t p)). split.
        { intros n Hn. destruct n as [|n]; [lia|]. done. }
        split; [apply same_refl|]. split; [done|]. split; [done|]. split; [done|]. split; [done|]. rewrite Hm. eauto.
    - exists s, None. split.
      { intros n _. destruct (kinds !! p) as [k|]; [|done]. destruct (t =? k) eqn:E; [|done]. apply Nat.eqb_eq in E. congruence. }
      split; [apply same_refl|]. split; [done|]. split; [done|]. split; [done|]. split; [|done].
      destruct (Hs t p Ht) as ([[Hm Hmk]|(? & _)] & _); done.
  Qed.

  Lemma queue_term t p s : tmn t -> TI s -> exists s', (forall n f, 1 <= f -> add_prods n prods nonterms kinds f (t, p) s = Ok s')
    /\ sameEP s s' /\ TI s' /\ stack s' = stack s /\ memo s' = memo s.
  Proof.
    intros Ht Hs. destruct (bool_decide ((t, p) ∈ queued s)) eqn:E.
    - exists s. split; [|split; [apply same_refl|done]]. intros n [|f] Hf; [lia|]. cbn [add_prods]. by rewrite E.
    - exists (set_queued s ({[(t, p)]} ∪ queued s)). split.
      { intros n [|f] Hf; [lia|]. cbn [add_prods fst]. by rewrite E, prods_t. }
      split; [|done]. split; try done. intros x b Hx. cbn [set_queued queued]. rewrite elem_of_union, elem_of_singleton.
      split; [intros [[= -> ->]|H]; done|by right].
  Qed.

  Lemma set_stack_same s k : sameEP s (set_stack s k). Proof. by split. Qed.
  Lemma set_stack_TI s k : TI s -> TI (set_stack s k). Proof. done. Qed.

  (** A partial that needs a terminal next. *)
  Definition found (tp : tpart) (t p : nat) : list (tpart * key) := if decide (kinds !! p = Some t) then [(tp, ((t, p), S p))] else [].
  Lemma partial_term tp t p s : tmn t -> TI s -> exists s',
    (forall n f, 1 <= n -> 1 <= f -> add_partial n prods nonterms kinds f tp (t, p) s = Ok s')
    /\ sameEP s s' /\ TI s' /\ stack s' = found tp t p ++ stack s
    /\ (kinds !! p = Some t -> is_Some (memo s' !! ((t, p), S p))).
  Proof.
    intros Ht Hs. destruct (check_term t p s Ht Hs) as (sa & o & Hc & Hsa & Ta & Ka & Qa & Ma & Pa).
    destruct (queue_term t p (set_stack sa (items tp (lget (markers sa) (t, p)) ++ stack sa)) Ht Ta) as (sb & Hq & Hsb & Tb & Kb & Mb).
    exists sb. split; [|split; [|split; [done|split]]].
    - intros n f Hn Hf. unfold add_partial. cbn [fst]. rewrite (nt_t _ Ht), Hc by done. cbn [rbind].
      rewrite push_all. by apply Hq.
    - eapply same_trans; [exact Hsa|]. eapply same_trans; [|exact Hsb]. apply set_stack_same.
    - rewrite Kb. cbn [set_stack stack]. rewrite Ka, Ma. unfold found, items. by destruct (decide _).
    - rewrite Mb. exact Pa.
  Qed.
  (** * Asking for an expression *)
  Lemma prods_E_unfold n f b s : (sE, b) ∉ queued s ->
    add_prods n prods nonterms kinds (S f) (sE, b) s =
      (a <-! add_partial n prods nonterms kinds f (T0 b s2) (sE, b) (set_queued s ({[(sE, b)]} ∪ queued s));
       a <-! add_partial n prods nonterms kinds f (T0 b s1) (sE, b) a;
       a <-! add_partial n prods nonterms kinds f (np b) (sn, b) a;
       a <-! add_partial n prods nonterms kinds f (sp0 b) (s2, b) a;
       a <-! add_partial n prods nonterms kinds f (qp b) (sP, b) a; Ok a).
  Proof. intros Hq. cbn [add_prods]. rewrite bool_decide_eq_false_2 by done. cbn [fst]. rewrite prods_E. reflexivity. Qed.
  Lemma prods_P_unfold n f b s : (sP, b) ∉ queued s ->
    add_prods n prods nonterms kinds (S f) (sP, b) s =
      (a <-! add_partial n prods nonterms kinds f (pp0 b) (so, b) (set_queued s ({[(sP, b)]} ∪ queued s)); Ok a).
  Proof. intros Hq. cbn [add_prods]. rewrite bool_decide_eq_false_2 by done. cbn [fst]. rewrite prods_P. reflexivity. Qed.

  Definition add_wait (s : pst) (r : marker) (tp : tpart) : pst := set_partials s (<[r := lget (partials s) r ++ [tp]]> (partials s)).
  Lemma partial_nt n f x b tp s : nonterms !! x = Some true ->
    add_partial n prods nonterms kinds f tp (x, b) s =
      add_prods n prods nonterms kinds f (x, b) (set_stack (add_wait s (x, b) tp) (items tp (lget (markers s) (x, b)) ++ stack s)).
  Proof. intros Hx. unfold add_partial. cbn [fst]. rewrite Hx. cbn [rbind]. rewrite push_all. reflexivity. Qed.
  Lemma prods_queued n f r s : r ∈ queued s -> 1 <= f -> add_prods n prods nonterms kinds f r s = Ok s.
  Proof. intros Hq Hf. destruct f as [|f]; [lia|]. cbn [add_prods]. by rewrite bool_decide_eq_true_2. Qed.

  Lemma add_wait_TI s x b tp : ~ tmn x -> TI s -> TI (add_wait s (x, b) tp).
  Proof.
    intros Hx Hs t p Ht. destruct (Hs t p Ht) as (H1 & H2 & H3). split; [done|]. split; [|done].
    cbn [add_wait set_partials partials]. rewrite lget_insert_ne; [done|]. intros Hq. injection Hq; intros; by subst.
  Qed.

  Record visited (b : nat) (s s' : pst) : Prop := {
    vi_memo : forall x p e, ~ tmn x -> memo s' !! ((x, p), e) = memo s !! ((x, p), e);
    vi_mk : forall x p, ~ tmn x -> lget (markers s') (x, p) = lget (markers s) (x, p);
    vi_ptE : lget (partials s') (sE, b) = lget (partials s) (sE, b) ++ [T0 b s2; T0 b s1];
    vi_ptP : lget (partials s') (sP, b) = lget (partials s) (sP, b) ++ [qp b];
    vi_pt : forall x p, p <> b -> lget (partials s') (x, p) = lget (partials s) (x, p);
    vi_q : forall x p, ~ tmn x -> (x, p) ∈ queued s' <-> (x, p) ∈ queued s \/ (p = b /\ (x = sE \/ x = sP));
    vi_mono : forall k, is_Some (memo s !! k) -> is_Some (memo s' !! k);
    vi_TI : TI s'
  }.
  Definition begins (b : nat) : list (tpart * key) := found (pp0 b) so b ++ found (sp0 b) s2 b ++ found (np b) sn b.
  Lemma visit b s : TI s -> (sE, b) ∉ queued s -> (sP, b) ∉ queued s -> lget (markers s) (sE, b) = [] -> lget (markers s) (sP, b) = [] ->
    exists s', (forall n f, 4 <= n -> 4 <= f -> add_prods n prods nonterms kinds f (sE, b) s = Ok s') /\ visited b s s'
      /\ stack s' = begins b ++ stack s
      /\ (forall t, kinds !! b = Some t -> t = sn \/ t = s2 \/ t = so -> is_Some (memo s' !! ((t, b), S b))).
  Proof.
    intros Hs HqE HqP HmE HmP.
    set (sa := add_wait (add_wait (set_queued s ({[(sE, b)]} ∪ queued s)) (sE, b) (T0 b s2)) (sE, b) (T0 b s1)).
    assert (Ta : TI sa) by (apply add_wait_TI; [exact nt_E_not|]; apply add_wait_TI; [exact nt_E_not|]; exact Hs).
    destruct (partial_term (np b) sn b sa) as (sb & Hb & Sb & Tb & Kb & Pb); [unfold tmn; lia|done|].
    destruct (partial_term (sp0 b) s2 b sb) as (sc' & Hc & Sc & Tc & Kc & Pc); [unfold tmn; lia|done|].
    set (sd := set_queued (add_wait sc' (sP, b) (qp b)) ({[(sP, b)]} ∪ queued sc')).
    assert (Td : TI sd) by (apply (add_wait_TI sc'); [exact nt_P_not|done]).
    destruct (partial_term (pp0 b) so b sd) as (sf & Hf & Sf & Tf & Kf & Pf); [unfold tmn; lia|done|].
    assert (HmP' : lget (markers sc') (sP, b) = []).
    { rewrite (se_mk _ _ Sc), (se_mk _ _ Sb) by exact nt_P_not. exact HmP. }
    assert (HqP' : (sP, b) ∉ queued sc').
    { rewrite (se_q _ _ Sc), (se_q _ _ Sb) by exact nt_P_not. unfold sa. cbn. rewrite elem_of_union, elem_of_singleton. intros [H|H]; [congruence|done]. }
    assert (Hin : (sE, b) ∈ ({[(sE, b)]} ∪ queued s : gset marker)) by (by apply elem_of_union_l, elem_of_singleton_2).
    exists sf. split; [|split; [|split]].
    - intros n f Hn Hfu. destruct f as [|f]; [lia|]. rewrite prods_E_unfold by done.
      rewrite (partial_nt _ _ sE) by exact nt_E. rewrite prods_queued; [|exact Hin|lia]. cbn [rbind].
      change (lget (markers (set_queued s ({[(sE, b)]} ∪ queued s))) (sE, b)) with (lget (markers s) (sE, b)). rewrite HmE.
      rewrite (partial_nt _ _ sE) by exact nt_E. rewrite prods_queued; [|exact Hin|lia]. cbn [rbind].
      match goal with |- context [items (T0 b s1) ?l] => replace l with (@nil tdef) by (symmetry; exact HmE) end.
      match goal with |- context [add_partial n prods nonterms kinds f (np b) (sn, b) ?x] => replace x with sa by (destruct s; reflexivity) end.
      rewrite Hb by lia. cbn [rbind]. rewrite Hc by lia. cbn [rbind].
      rewrite (partial_nt _ _ sP), HmP' by done. destruct f as [|f]; [lia|]. rewrite prods_P_unfold by exact HqP'.
      match goal with |- context [add_partial n prods nonterms kinds f (pp0 b) (so, b) ?x] => replace x with sd by (destruct sc'; reflexivity) end.
      rewrite Hf by lia. reflexivity.
    - split.
      + intros x p e Hx. rewrite (se_memo _ _ Sf) by done. change (memo sd) with (memo sc'). rewrite (se_memo _ _ Sc), (se_memo _ _ Sb) by done. done.
      + intros x p Hx. rewrite (se_mk _ _ Sf) by done. change (markers sd) with (markers sc'). rewrite (se_mk _ _ Sc), (se_mk _ _ Sb) by done. done.
      + rewrite (se_pt _ _ Sf). unfold sd. cbn [set_queued partials add_wait set_partials]. rewrite lget_insert_ne by congruence.
        rewrite (se_pt _ _ Sc), (se_pt _ _ Sb). unfold sa. cbn [set_queued partials add_wait set_partials]. rewrite !lget_insert. by rewrite <- app_assoc.
      + rewrite (se_pt _ _ Sf). unfold sd. cbn [set_queued partials add_wait set_partials]. rewrite lget_insert.
        rewrite (se_pt _ _ Sc), (se_pt _ _ Sb). unfold sa. cbn [set_queued partials add_wait set_partials]. rewrite !lget_insert_ne by congruence. done.
      + intros x p Hp. rewrite (se_pt _ _ Sf). unfold sd. cbn [set_queued partials add_wait set_partials]. rewrite lget_insert_ne by congruence.
        rewrite (se_pt _ _ Sc), (se_pt _ _ Sb). unfold sa. cbn [set_queued partials add_wait set_partials]. rewrite !lget_insert_ne by congruence. done.
      + intros x p Hx. rewrite (se_q _ _ Sf) by done. unfold sd. cbn [set_queued queued]. rewrite elem_of_union, elem_of_singleton.
        rewrite (se_q _ _ Sc), (se_q _ _ Sb) by done. unfold sa. cbn [set_queued queued add_wait set_partials]. rewrite elem_of_union, elem_of_singleton.
        split.
        * intros [H|[H|H]]; [injection H as -> ->; right; auto|injection H as -> ->; right; auto|by left].
        * intros [H|[-> [-> | ->]]]; auto.
      + intros k Hk. apply (se_mono _ _ Sf). change (memo sd) with (memo sc'). apply (se_mono _ _ Sc), (se_mono _ _ Sb). exact Hk.
      + done.
    - rewrite Kf. change (stack sd) with (stack sc'). rewrite Kc, Kb. unfold begins. by rewrite <- !app_assoc.
    - intros t Ht [-> |[-> | ->]].
      + apply (se_mono _ _ Sf). change (memo sd) with (memo sc'). apply (se_mono _ _ Sc). by apply Pb.
      + apply (se_mono _ _ Sf). change (memo sd) with (memo sc'). by apply Pc.
      + by apply Pf.
  Qed.

  (** * The state as a function of the expressions found *)
  Inductive Wait : nat -> list tpart -> Prop :=
  | w0 : Wait 0 []
  | wp b : kinds !! b = Some so -> Wait (S b) [pp1 b]
  | wo b k o : At b k -> kinds !! k = Some o -> o = s1 \/ o = s2 -> Wait (S k) [T2 b k o].
  Inductive atd : nat -> nat -> tdef -> Prop :=
  | atd_n b : atd b (S b) (TDef ((sE, b), S b) [((sn, b), S b)] 2)
  | atd_s b : atd b (S (S b)) (TDef ((sE, b), S (S b)) [((s2, b), S b); ((sn, S b), S (S b))] 3)
  | atd_p b e : atd b (S e) (TDef ((sE, b), S e) [((sP, b), S e)] 4).
  (** [k] is at least as good a place to split as [k']. *)
  Definition beats (k' k : nat) : Prop := (kinds !! k' = Some s1 /\ kinds !! k = Some s2) \/ (kinds !! k' = kinds !! k /\ k' <= k).
  Definition entry (Av : nat -> nat -> nat -> Prop) (b e : nat) (d : tdef) : Prop :=
    (At b e /\ atd b e d)
    \/ (~ At b e /\ exists k o, d = C b k o e /\ kinds !! k = Some o /\ (o = s1 \/ o = s2) /\ Av b k e /\ forall k', Av b k' e -> beats k' k).
  Definition mu (k : key) : nat := 3 * (snd k - snd (fst k)) + (if decide (fst (fst k) = sE) then 2 else if decide (fst (fst k) = sP) then 1 else 0).
  Definition kids (s : pst) (d : tdef) : Prop := forall ck, ck ∈ td_children d -> mu ck < mu (td_key d) /\ is_Some (memo s !! ck).
  Definition here (s : pst) (tp : tpart) : Prop := forall ck, ck ∈ td_children (tp_def tp) -> is_Some (memo s !! ck).

  (** [Pr b e]: an expression from b to e was found. [Av b k e]: found as the operator at k
      applied to two. [V b]: asked for at b. [Pq]: parentheses found. *)
  Record Inv (Pr : nat -> nat -> Prop) (Av : nat -> nat -> nat -> Prop) (V : nat -> Prop) (Pq : nat -> nat -> Prop) (s : pst) : Prop := {
    v_memo : forall b e d, memo s !! ((sE, b), e) = Some d -> Pr b e /\ entry Av b e d;
    v_pr : forall b e, Pr b e -> is_Some (memo s !! ((sE, b), e)) /\ V b /\ Sq b e;
    v_av : forall b k e, Av b k e -> isop k /\ Pr b k /\ Pr (S k) e /\ Pr b e;
    v_first : forall b f e, Pr b e -> At b f -> f <> e -> Av b f e;
    v_mk : forall b d, d ∈ lget (markers s) (sE, b) -> exists e, td_key d = ((sE, b), e) /\ Pr b e;
    v_mk' : forall b e, Pr b e -> exists d, d ∈ lget (markers s) (sE, b) /\ td_key d = ((sE, b), e);
    v_part : forall b, V b -> exists X ex, Wait b X /\ (forall b' k o, X = [T2 b' k o] -> Pr b' k) /\ Forall (here s) X
      /\ lget (partials s) (sE, b) = X ++ [T0 b s2; T0 b s1] ++ ex
      /\ (ex = [] \/ exists b1 k, b = S k /\ Pr b1 k /\ ~ At b1 k /\ isop k);
    v_part' : forall b, ~ V b -> lget (partials s) (sE, b) = [];
    v_q : forall b, (sE, b) ∈ queued s <-> V b;
    v_qP : forall b, (sP, b) ∈ queued s <-> V b;
    v_pp : forall b, V b -> lget (partials s) (sP, b) = [qp b];
    v_pp' : forall b, ~ V b -> lget (partials s) (sP, b) = [];
    v_pm : forall b e d, memo s !! ((sP, b), e) = Some d -> Pq b e /\ exists e0, e = S e0 /\ d = PD b e0;
    v_pk : forall b d, d ∈ lget (markers s) (sP, b) -> V b;
    v_ch : forall x b e d, ~ tmn x -> memo s !! ((x, b), e) = Some d -> td_key d = ((x, b), e) /\ kids s d;
    v_TI : TI s
  }.

  Lemma kids_mono s s' d : (forall k, is_Some (memo s !! k) -> is_Some (memo s' !! k)) -> kids s d -> kids s' d.
  Proof. intros Hm H ck Hc. destruct (H ck Hc). auto. Qed.
  Lemma here_mono s s' d : (forall k, is_Some (memo s !! k) -> is_Some (memo s' !! k)) -> here s d -> here s' d.
  Proof. intros Hm H ck Hc. auto. Qed.

  Lemma inv_same Pr Av V Pq s s' : Inv Pr Av V Pq s -> sameEP s s' -> TI s' -> Inv Pr Av V Pq s'.
  Proof.
    intros I Hs HT. pose proof nt_E_not. pose proof nt_P_not. split; try done.
    - intros b e d. rewrite (se_memo _ _ Hs) by done. apply I.
    - intros b e Hp. rewrite (se_memo _ _ Hs) by done. by apply I.
    - apply I.
    - apply I.
    - intros b d. rewrite (se_mk _ _ Hs) by done. apply I.
    - intros b d. rewrite (se_mk _ _ Hs) by done. apply I.
    - intros b Hv. destruct (v_part _ _ _ _ _ I b Hv) as (X & ex & H1 & H2 & H3 & H4 & H5). exists X, ex. split; [done|]. split; [done|].
      rewrite (se_pt _ _ Hs). split; [|done]. eapply List.Forall_impl; [|exact H3]. intros tp. apply here_mono, Hs.
    - intros b. rewrite (se_pt _ _ Hs). apply (v_part' _ _ _ _ _ I).
    - intros b. rewrite (se_q _ _ Hs) by done. apply I.
    - intros b. rewrite (se_q _ _ Hs) by done. apply (v_qP _ _ _ _ _ I).
    - intros b. rewrite (se_pt _ _ Hs). apply (v_pp _ _ _ _ _ I).
    - intros b. rewrite (se_pt _ _ Hs). apply (v_pp' _ _ _ _ _ I).
    - intros b e d. rewrite (se_memo _ _ Hs) by done. apply (v_pm _ _ _ _ _ I).
    - intros b d. rewrite (se_mk _ _ Hs) by done. apply (v_pk _ _ _ _ _ I).
    - intros x b e d Hx. rewrite (se_memo _ _ Hs) by done. intros Hd. destruct (v_ch _ _ _ _ _ I _ _ _ _ Hx Hd). split; [done|].
      eapply kids_mono; [apply Hs|done].
  Qed.
  Lemma inv_stack Pr Av V Pq s k : Inv Pr Av V Pq s -> Inv Pr Av V Pq (set_stack s k).
  Proof. intros I. eapply inv_same; [exact I|apply set_stack_same|]. exact (v_TI _ _ _ _ _ I). Qed.
  Lemma wait_fore b X : Wait b X -> fore kinds b.
  Proof.
    intros H. inversion H; subst; [by left|right; eauto|]. right. eexists. split; [done|]. right. split; [|eauto using sq_a].
    unfold LeftPos.isop. naive_solver.
  Qed.
  Lemma v_fore Pr Av V Pq s b : Inv Pr Av V Pq s -> V b -> fore kinds b.
  Proof. intros I Hv. destruct (v_part _ _ _ _ _ I b Hv) as (X & _ & H & _). by eapply wait_fore. Qed.

  (** A new position. *)
  Lemma inv_visit Pr Av V Pq s s1 s' c X : Inv Pr Av V Pq s -> ~ V c ->
    memo s1 = memo s -> markers s1 = markers s -> queued s1 = queued s ->
    lget (partials s1) (sE, c) = X -> (forall x p, (x, p) <> (sE, c) -> lget (partials s1) (x, p) = lget (partials s) (x, p)) ->
    Wait c X -> (forall b' k o, X = [T2 b' k o] -> Pr b' k) -> Forall (here s) X -> visited c s1 s' ->
    Inv Pr Av (fun x => V x \/ x = c) Pq s'.
  Proof.
    intros I Hc Em Ek Eq Ep Ep' Hw HX Hh Hv. pose proof nt_E_not. pose proof nt_P_not.
    assert (Hmono : forall k, is_Some (memo s !! k) -> is_Some (memo s' !! k)).
    { intros k Hk. apply (vi_mono _ _ _ Hv). by rewrite Em. }
    split; try apply I; try apply Hv.
    - intros b e d. rewrite (vi_memo _ _ _ Hv), Em by done. apply I.
    - intros b e Hp. rewrite (vi_memo _ _ _ Hv), Em by done. destruct (v_pr _ _ _ _ _ I _ _ Hp) as (? & ? & ?). auto.
    - intros b d. rewrite (vi_mk _ _ _ Hv), Ek by done. apply I.
    - intros b d. rewrite (vi_mk _ _ _ Hv), Ek by done. apply I.
    - intros b Hb. destruct (decide (b = c)) as [->|Hn].
      + exists X, []. split; [done|]. split; [done|]. split; [eapply List.Forall_impl; [|exact Hh]; intros tp; by apply here_mono|].
        rewrite (vi_ptE _ _ _ Hv), Ep. split; [by rewrite app_nil_r|by left].
      + destruct Hb as [Hb|Hb]; [|done]. destruct (v_part _ _ _ _ _ I b Hb) as (X' & ex & H1 & H2 & H3 & H4 & H5). exists X', ex.
        split; [done|]. split; [done|]. rewrite (vi_pt _ _ _ Hv) by done. rewrite Ep' by congruence.
        split; [|done]. eapply List.Forall_impl; [|exact H3]. intros tp. by apply here_mono.
    - intros b Hb. assert (b <> c) by (intros ->; apply Hb; by right). rewrite (vi_pt _ _ _ Hv), Ep' by (done || congruence).
      apply I. intros Hx. apply Hb. by left.
    - intros b. rewrite (vi_q _ _ _ Hv), Eq by done. rewrite (v_q _ _ _ _ _ I). naive_solver.
    - intros b. rewrite (vi_q _ _ _ Hv), Eq by done. rewrite (v_qP _ _ _ _ _ I). naive_solver.
    - intros b Hb. destruct (decide (b = c)) as [->|Hn].
      + rewrite (vi_ptP _ _ _ Hv), Ep' by congruence. rewrite (v_pp' _ _ _ _ _ I) by done. done.
      + destruct Hb as [Hb|Hb]; [|done]. rewrite (vi_pt _ _ _ Hv), Ep' by (done || congruence). by apply I.
    - intros b Hb. assert (b <> c) by (intros ->; apply Hb; by right). rewrite (vi_pt _ _ _ Hv), Ep' by (done || congruence).
      apply I. intros Hx. apply Hb. by left.
    - intros b e d. rewrite (vi_memo _ _ _ Hv), Em by done. apply (v_pm _ _ _ _ _ I).
    - intros b d. rewrite (vi_mk _ _ _ Hv), Ek by done. intros Hd. left. exact (v_pk _ _ _ _ _ I _ _ Hd).
    - intros x b e d Hx. rewrite (vi_memo _ _ _ Hv), Em by done. intros Hd. destruct (v_ch _ _ _ _ _ I _ _ _ _ Hx Hd). split; [done|].
      by eapply kids_mono.
  Qed.

  Lemma no_markers Pr Av V Pq s b : Inv Pr Av V Pq s -> ~ V b -> lget (markers s) (sE, b) = [] /\ lget (markers s) (sP, b) = [].
  Proof.
    intros I Hb. split.
    - destruct (lget (markers s) (sE, b)) as [|d l] eqn:E; [done|]. exfalso. apply Hb.
      destruct (v_mk _ _ _ _ _ I b d) as (e & _ & He); [rewrite E; left|]. destruct (v_pr _ _ _ _ _ I _ _ He) as (_ & Hv & _). exact Hv.
    - destruct (lget (markers s) (sP, b)) as [|d l] eqn:E; [done|]. exfalso. apply Hb. apply (v_pk _ _ _ _ _ I b d). rewrite E. left.
  Qed.

  (** A partial that needs an expression where none was asked for. *)
  Lemma partial_new Pr Av V Pq s c X : Inv Pr Av V Pq s -> ~ V c -> Wait c [X] -> (forall b' k o, X = T2 b' k o -> Pr b' k) -> here s X ->
    exists s', (forall n f, 4 <= n -> 4 <= f -> add_partial n prods nonterms kinds f X (sE, c) s = Ok s')
      /\ Inv Pr Av (fun x => V x \/ x = c) Pq s' /\ stack s' = begins c ++ stack s
      /\ (forall k, is_Some (memo s !! k) -> is_Some (memo s' !! k))
      /\ (forall t, kinds !! c = Some t -> t = sn \/ t = s2 \/ t = so -> is_Some (memo s' !! ((t, c), S c))).
  Proof.
    intros I Hc Hw HX Hh. destruct (no_markers _ _ _ _ _ _ I Hc) as [M1 M2]. pose proof nt_E_not.
    set (s0 := set_stack (add_wait s (sE, c) X) (stack s)).
    destruct (visit c s0) as (s' & H1 & H2 & H3 & H4).
    - apply (add_wait_TI s); [done|]. exact (v_TI _ _ _ _ _ I).
    - intros Hq. apply Hc. by apply (v_q _ _ _ _ _ I).
    - intros Hq. apply Hc. by apply (v_qP _ _ _ _ _ I).
    - exact M1.
    - exact M2.
    - exists s'. split; [|split; [|split; [done|split; [|done]]]].
      + intros n f Hn Hf. rewrite partial_nt by exact nt_E. rewrite M1. by apply H1.
      + eapply inv_visit with (s1 := s0) (X := [X]); try done.
        * unfold s0. cbn. rewrite lget_insert. rewrite (v_part' _ _ _ _ _ I) by done. done.
        * intros x p Hx. unfold s0. cbn. by rewrite lget_insert_ne.
        * intros b' k o [= ->]. by eapply HX.
        * by constructor.
      + intros k. apply (vi_mono _ _ _ H2).
  Qed.
  (** Where one was. *)
  Lemma partial_seen Pr Av V Pq s b k o : Inv Pr Av V Pq s -> V (S k) -> Pr b k -> ~ At b k -> isop k ->
    exists s', (forall n f, 1 <= f -> add_partial n prods nonterms kinds f (T2 b k o) (sE, S k) s = Ok s')
      /\ Inv Pr Av V Pq s' /\ stack s' = items (T2 b k o) (lget (markers s) (sE, S k)) ++ stack s
      /\ memo s' = memo s.
  Proof.
    intros I Hv Hp Ha Ho. exists (set_stack (add_wait s (sE, S k) (T2 b k o)) (items (T2 b k o) (lget (markers s) (sE, S k)) ++ stack s)).
    split; [|split; [|done]].
    - intros n f Hf. rewrite partial_nt by exact nt_E. apply prods_queued; [|done]. by apply (v_q _ _ _ _ _ I).
    - apply inv_stack. split; try apply I.
      + intros c Hc. destruct (v_part _ _ _ _ _ I c Hc) as (X' & ex & H1 & H2 & H3 & H4 & H5). cbn [add_wait set_partials partials].
        destruct (decide (c = S k)) as [->|Hn].
        * exists X', (ex ++ [T2 b k o]). rewrite lget_insert, H4. split; [done|]. split; [done|]. split; [done|]. split; [by rewrite <- !app_assoc|].
          right. eauto 10.
        * exists X', ex. rewrite lget_insert_ne by congruence. done.
      + intros c Hc. cbn [add_wait set_partials partials]. rewrite lget_insert_ne by (intros [= <-]; done). by apply I.
      + intros c Hc. cbn [add_wait set_partials partials]. rewrite lget_insert_ne by congruence. by apply I.
      + intros c Hc. cbn [add_wait set_partials partials]. rewrite lget_insert_ne by congruence. by apply I.
      + apply (add_wait_TI s); [exact nt_E_not|]. apply I.
  Qed.

  (** * A new expression *)
  Definition withP (Pr : nat -> nat -> Prop) (b e : nat) : nat -> nat -> Prop := fun x y => Pr x y \/ (x = b /\ y = e).
  Definition ekey (b e : nat) : key := ((sE, b), e).
  Definition woken (b e : nat) (X : list tpart) : list (tpart * key) :=
    [(T0 b s1, ekey b e); (T0 b s2, ekey b e)] ++ map (fun tp => (tp, ekey b e)) X.
  Lemma wait_rev b X : Wait b X -> rev X = X.
  Proof. intros H. by inversion H. Qed.
  Lemma arrive Pr Av V Pq s b e d (Av' : nat -> nat -> nat -> Prop) : Inv Pr Av V Pq s -> V b -> ~ Pr b e -> Sq b e ->
    entry Av' b e d -> td_key d = ekey b e -> kids s d ->
    (forall x k y, Av x k y -> Av' x k y) ->
    (forall x k y, Av' x k y -> Av x k y \/ (x = b /\ y = e /\ isop k /\ Pr b k /\ Pr (S k) e)) ->
    (forall f, At b f -> f <> e -> Av' b f e) ->
    (forall b1 k, b = S k -> Pr b1 k -> isop k -> ~ At b1 k -> False) ->
    exists s' X, (forall n, add_to_memo n s d = Ok s') /\ Inv (withP Pr b e) Av' V Pq s'
      /\ Wait b X /\ (forall b' k o, X = [T2 b' k o] -> Pr b' k) /\ Forall (here s') X
      /\ stack s' = woken b e X ++ stack s /\ (forall k, is_Some (memo s !! k) -> is_Some (memo s' !! k)).
  Proof.
    intros I Hv Hn Hs He Hk Hkids Ha1 Ha2 Ha3 Hex. pose proof nt_E_not. pose proof nt_P_not.
    assert (Hnone : memo s !! ekey b e = None).
    { destruct (memo s !! ekey b e) as [d0|] eqn:E; [|done]. exfalso. apply Hn. by apply (v_memo _ _ _ _ _ I) in E as [? _]. }
    destruct (v_part _ _ _ _ _ I b Hv) as (X & ex & W1 & W2 & W3 & W4 & W5).
    assert (ex = []) as ->.
    { destruct W5 as [->|(b1 & k & -> & H1 & H2 & H3)]; [done|]. exfalso. by eapply Hex. }
    set (s' := set_stack (set_markers (set_memo s (<[ekey b e := d]> (memo s))) (<[(sE, b) := lget (markers s) (sE, b) ++ [d]]> (markers s)))
                 (woken b e X ++ stack s)).
    assert (Hmono : forall k, is_Some (memo s !! k) -> is_Some (memo s' !! k)).
    { intros k [d0 Hd]. unfold s'. cbn. destruct (decide (ekey b e = k)) as [<-|]; [rewrite lookup_insert; eauto|]. rewrite lookup_insert_ne by done. eauto. }
    exists s', X. split; [|split; [|split; [done|split; [done|split; [|split; [done|done]]]]]].
    - intros n. unfold add_to_memo. rewrite Hk, Hnone. f_equal. unfold td_marker. rewrite Hk. cbn [fst ekey].
      cbn [set_markers set_memo partials markers]. rewrite W4, push_parts. unfold s', set_stack. cbn [set_markers set_memo memo markers partials queued stack]. f_equal.
      rewrite app_nil_r, map_app, rev_app_distr, <- (map_rev _ X), (wait_rev _ _ W1). reflexivity.
    - split.
      + intros x y d0. unfold s'. cbn [set_stack set_markers set_memo memo]. destruct (decide (ekey b e = ((sE, x), y))) as [Heq|Hne].
        * rewrite Heq, lookup_insert. injection Heq as -> ->. intros [= <-]. split; [by right|done].
        * rewrite lookup_insert_ne by done. intros Hd. destruct (v_memo _ _ _ _ _ I _ _ _ Hd) as [H1 H2]. split; [by left|].
          destruct H2 as [H2|(H2 & k & o & H3 & H4 & H5 & H6 & H7)]; [by left|]. right. split; [done|]. exists k, o.
          split; [done|]. split; [done|]. split; [done|]. split; [by apply Ha1|]. intros k' Hk'. apply H7.
          destruct (Ha2 _ _ _ Hk') as [?|(-> & -> & _)]; [done|]. by destruct Hne.
      + intros x y [Hp|[-> ->]].
        * destruct (v_pr _ _ _ _ _ I _ _ Hp) as (H1 & H2 & H3). split; [by apply Hmono|done].
        * split; [|done]. unfold s'. cbn. rewrite lookup_insert. eauto.
      + intros x k y Hav. destruct (Ha2 _ _ _ Hav) as [Hav'|(-> & -> & H1 & H2 & H3)].
        * destruct (v_av _ _ _ _ _ I _ _ _ Hav') as (? & ? & ? & ?). unfold withP. auto 10.
        * unfold withP. auto 10.
      + intros x f y [Hp|[-> ->]] Hat Hne; [|by apply Ha3]. apply Ha1. by apply (v_first _ _ _ _ _ I).
      + intros x d0. unfold s'. cbn [set_stack set_markers set_memo markers]. destruct (decide (b = x)) as [<-|Hne].
        * rewrite lget_insert. intros Hd. apply elem_of_app in Hd as [Hd|Hd].
          -- destruct (v_mk _ _ _ _ _ I _ _ Hd) as (y & H1 & H2). exists y. split; [done|by left].
          -- apply elem_of_list_singleton in Hd as ->. exists e. split; [done|by right].
        * rewrite lget_insert_ne by congruence. intros Hd. destruct (v_mk _ _ _ _ _ I _ _ Hd) as (y & H1 & H2). exists y. split; [done|by left].
      + intros x y [Hp|[-> ->]]; unfold s'; cbn [set_stack set_markers set_memo markers].
        * destruct (v_mk' _ _ _ _ _ I _ _ Hp) as (d0 & H1 & H2). exists d0. split; [|done]. destruct (decide (b = x)) as [<-|Hne].
          -- rewrite lget_insert. apply elem_of_app. by left.
          -- by rewrite lget_insert_ne by congruence.
        * exists d. split; [|done]. rewrite lget_insert. apply elem_of_app. right. by apply elem_of_list_singleton.
      + intros x Hx. destruct (v_part _ _ _ _ _ I x Hx) as (X' & ex & H1 & H2 & H3 & H4 & H5). exists X', ex. split; [done|].
        split; [intros b' k o Hq; left; by eapply H2|]. split; [eapply List.Forall_impl; [|exact H3]; intros tp; by apply here_mono|].
        split; [done|]. destruct H5 as [->|(b1 & k & Q1 & Q2 & Q3 & Q4)]; [by left|]. right. exists b1, k. unfold withP. auto.
      + exact (v_part' _ _ _ _ _ I).
      + exact (v_q _ _ _ _ _ I).
      + exact (v_qP _ _ _ _ _ I).
      + exact (v_pp _ _ _ _ _ I).
      + exact (v_pp' _ _ _ _ _ I).
      + intros x y d0. unfold s'. cbn [set_stack set_markers set_memo memo]. rewrite lookup_insert_ne by (unfold ekey; congruence). apply (v_pm _ _ _ _ _ I).
      + intros x d0. unfold s'. cbn [set_stack set_markers set_memo markers]. rewrite lget_insert_ne by congruence. apply (v_pk _ _ _ _ _ I).
      + intros x p y d0 Hx Hm. unfold s' in Hm. cbn [set_stack set_markers set_memo memo] in Hm. destruct (decide (ekey b e = ((x, p), y))) as [Heq|Hne].
        * rewrite Heq, lookup_insert in Hm. injection Hm as <-. rewrite Hk, Heq. split; [done|]. exact (kids_mono _ _ _ Hmono Hkids).
        * rewrite lookup_insert_ne in Hm by done. rename Hm into Hd. destruct (v_ch _ _ _ _ _ I _ _ _ _ Hx Hd) as [? Hkd]. split; [done|]. exact (kids_mono _ _ _ Hmono Hkd).
      + intros t p Ht. destruct (v_TI _ _ _ _ _ I t p Ht) as (H1 & H2 & H3). unfold tst, s'. cbn [set_stack set_markers set_memo memo markers partials].
        assert (Hne : forall y, ekey b e <> ((t, p), y)) by (intros y [= <- _ _]; done).
        rewrite lookup_insert_ne, lget_insert_ne by (done || (intros [= <- _]; done)). split; [done|]. split; [done|].
        intros y d0. rewrite lookup_insert_ne by done. apply H3.
    - eapply List.Forall_impl; [|exact W3]. intros tp. by apply here_mono.
  Qed.

  (** Parentheses. *)
  Lemma arrive_P Pr Av V Pq s b e : Inv Pr Av V Pq s -> V b -> ~ Pq b (S e) -> kids s (PD b e) ->
    exists s', (forall n, add_to_memo n s (PD b e) = Ok s') /\ Inv Pr Av V (withP Pq b (S e)) s'
      /\ stack s' = (qp b, ((sP, b), S e)) :: stack s /\ (forall k, is_Some (memo s !! k) -> is_Some (memo s' !! k))
      /\ is_Some (memo s' !! ((sP, b), S e)).
  Proof.
    intros I Hv Hn Hkids. pose proof nt_E_not. pose proof nt_P_not. set (k0 := ((sP, b), S e) : key).
    assert (Hnone : memo s !! k0 = None).
    { destruct (memo s !! k0) as [d0|] eqn:E; [|done]. exfalso. apply Hn. by apply (v_pm _ _ _ _ _ I) in E as [? _]. }
    set (s' := set_stack (set_markers (set_memo s (<[k0 := PD b e]> (memo s))) (<[(sP, b) := lget (markers s) (sP, b) ++ [PD b e]]> (markers s)))
                 ((qp b, k0) :: stack s)).
    assert (Hmono : forall k, is_Some (memo s !! k) -> is_Some (memo s' !! k)).
    { intros k [d0 Hd]. unfold s'. cbn. destruct (decide (k0 = k)) as [<-|]; [rewrite lookup_insert; eauto|]. rewrite lookup_insert_ne by done. eauto. }
    assert (HkE : forall x y, k0 <> ((sE, x), y)) by (unfold k0; congruence).
    exists s'. split; [|split; [|split; [done|split; [done|]]]].
    - intros n. unfold add_to_memo. change (td_key (PD b e)) with k0. rewrite Hnone. f_equal.
      change (td_marker (PD b e)) with (sP, b). cbn [set_markers set_memo partials markers].
      rewrite (v_pp _ _ _ _ _ I) by done. reflexivity.
    - split.
      + intros x y d0. unfold s'. cbn [set_stack set_markers set_memo memo]. rewrite lookup_insert_ne by done. apply (v_memo _ _ _ _ _ I).
      + intros x y Hp. destruct (v_pr _ _ _ _ _ I _ _ Hp) as (H1 & H2 & H3). split; [by apply Hmono|done].
      + exact (v_av _ _ _ _ _ I).
      + exact (v_first _ _ _ _ _ I).
      + intros x d0. unfold s'. cbn [set_stack set_markers set_memo markers]. rewrite lget_insert_ne by congruence. apply (v_mk _ _ _ _ _ I).
      + intros x d0. unfold s'. cbn [set_stack set_markers set_memo markers]. rewrite lget_insert_ne by congruence. apply (v_mk' _ _ _ _ _ I).
      + intros x Hx. destruct (v_part _ _ _ _ _ I x Hx) as (X' & ex & H1 & H2 & H3 & H4 & H5). exists X', ex. split; [done|]. split; [done|].
        split; [eapply List.Forall_impl; [|exact H3]; intros tp; by apply here_mono|done].
      + exact (v_part' _ _ _ _ _ I).
      + exact (v_q _ _ _ _ _ I).
      + exact (v_qP _ _ _ _ _ I).
      + exact (v_pp _ _ _ _ _ I).
      + exact (v_pp' _ _ _ _ _ I).
      + intros x y d0. unfold s'. cbn [set_stack set_markers set_memo memo]. destruct (decide (k0 = ((sP, x), y))) as [Heq|Hne].
        * rewrite Heq, lookup_insert. injection Heq as -> <-. intros [= <-]. split; [by right|]. eauto.
        * rewrite lookup_insert_ne by done. intros Hd. destruct (v_pm _ _ _ _ _ I _ _ _ Hd). split; [by left|done].
      + intros x d0. unfold s'. cbn [set_stack set_markers set_memo markers]. destruct (decide (b = x)) as [<-|Hne]; [done|].
        rewrite lget_insert_ne by congruence. apply (v_pk _ _ _ _ _ I).
      + intros x p y d0 Hx Hm. unfold s' in Hm. cbn [set_stack set_markers set_memo memo] in Hm. destruct (decide (k0 = ((x, p), y))) as [Heq|Hne].
        * rewrite Heq, lookup_insert in Hm. injection Hm as <-. rewrite <- Heq. split; [done|]. exact (kids_mono _ _ _ Hmono Hkids).
        * rewrite lookup_insert_ne in Hm by done. rename Hm into Hd. destruct (v_ch _ _ _ _ _ I _ _ _ _ Hx Hd) as [? Hkd]. split; [done|]. exact (kids_mono _ _ _ Hmono Hkd).
      + intros t p Ht. destruct (v_TI _ _ _ _ _ I t p Ht) as (H1 & H2 & H3). unfold tst, s'. cbn [set_stack set_markers set_memo memo markers partials].
        assert (Hne : forall y, k0 <> ((t, p), y)) by (intros y [= <- _ _]; done).
        rewrite lookup_insert_ne, lget_insert_ne by (done || (intros [= <- _]; done)). split; [done|]. split; [done|].
        intros y d0. rewrite lookup_insert_ne by done. apply H3.
    - unfold s'. cbn. rewrite lookup_insert. eauto.
  Qed.

  (** * A second way to find an expression *)
  Lemma all_kids Pr Av V Pq s k d : Inv Pr Av V Pq s -> memo s !! k = Some d -> (forall x b e, k = ((x, b), e) -> td_key d = k /\ kids s d \/ tmn x /\ td_children d = []).
  Proof.
    intros I Hd x b e ->. destruct (decide (x = s2 \/ x = s1 \/ x = sn \/ x = so \/ x = sc)) as [Hx|Hx].
    - right. split; [done|]. destruct (v_TI _ _ _ _ _ I x b Hx) as ([[H1 _]|(_ & H1 & _)] & _ & H3); rewrite (H3 _ _ Hd) in Hd; rewrite H1 in Hd; [done|].
      by injection Hd as <-.
    - left. by apply (v_ch _ _ _ _ _ I).
  Qed.
  Lemma circ_ok Pr Av V Pq s root : Inv Pr Av V Pq s -> forall n node fuel, n < fuel -> n <= mu root ->
    (forall ck, ck ∈ td_children node -> mu ck < n /\ is_Some (memo s !! ck)) -> circular fuel (memo s) node root = Ok false.
  Proof.
    intros I. induction n as [|n IH]; intros node fuel Hf Hr Hk; destruct fuel as [|fuel]; try lia; cbn [circular].
    - destruct (td_children node) as [|ck l]; [done|]. destruct (Hk ck); [apply elem_of_cons; by left|lia].
    - induction (td_children node) as [|ck l IHl]; [done|].
      destruct (Hk ck) as [Hlt [d Hd]]; [apply elem_of_cons; by left|].
      rewrite decide_False by (intros ->; lia). unfold mget at 1. rewrite Hd. cbn [default]. rewrite (IH d).
      + cbn [rbind]. apply IHl. intros c Hc. apply Hk, elem_of_cons. by right.
      + lia.
      + lia.
      + intros c Hc. destruct ck as [[x b] e]. destruct (all_kids _ _ _ _ _ _ _ I Hd x b e eq_refl) as [[Hkd Hkk]|[_ Hn]].
        * destruct (Hkk c Hc) as [H1 H2]. rewrite Hkd in H1. split; [lia|done].
        * rewrite Hn in Hc. by apply elem_of_nil in Hc.
  Qed.

  Lemma mget_pr Pr Av V Pq s b e : Inv Pr Av V Pq s -> Pr b e -> entry Av b e (mget (memo s) (ekey b e)).
  Proof.
    intros I Hp. destruct (v_pr _ _ _ _ _ I _ _ Hp) as ([d Hd] & _ & _). unfold mget, ekey. rewrite Hd. cbn [default].
    by apply (v_memo _ _ _ _ _ I).
  Qed.
  Lemma atd_prio b e d : atd b e d -> 2 <= td_prio d.
  Proof. intros H. inversion H; subst; cbn [td_prio]; lia. Qed.
  Lemma prio_le o : prio o <= 1.
  Proof. unfold prio. destruct (decide _); lia. Qed.
  Lemma atom_loses Pr Av V Pq s b k e n : Inv Pr Av V Pq s -> Pr b k -> Pr b e -> At b k -> k <> e ->
    compare_priority (S n) (memo s) (mget (memo s) (ekey b k)) (mget (memo s) (ekey b e)) = Ok (-1)%Z
    /\ compare_priority (S n) (memo s) (mget (memo s) (ekey b e)) (mget (memo s) (ekey b k)) = Ok 1%Z.
  Proof.
    intros I H1 H2 Ha Hne. destruct (mget_pr _ _ _ _ _ _ _ I H1) as [[_ E1]|[E1 _]]; [|done].
    destruct (mget_pr _ _ _ _ _ _ _ I H2) as [[E2 _]|(_ & k0 & o0 & E2 & _)].
    { by destruct (at_not _ _ _ _ Ha Hne). }
    apply atd_prio in E1. rewrite E2. cbn [compare_priority]. cbn [C td_prio]. pose proof (prio_le o0).
    rewrite !(proj2 (Nat.eqb_neq _ _)) by lia. rewrite (proj2 (Nat.ltb_ge _ _)) by lia. by rewrite (proj2 (Nat.ltb_lt _ _)) by lia.
  Qed.

  Definition Fr (Pr : nat -> nat -> Prop) (k : nat) : Prop := forall b1 e1, Pr b1 e1 -> ~ At b1 e1 -> isop e1 -> k <= e1.
  Lemma beats_prio k' k o' o : beats k' k -> kinds !! k' = Some o' -> kinds !! k = Some o -> (o' = s1 /\ o = s2) \/ (o' = o /\ k' <= k).
  Proof. intros [[H1 H2]|[H1 H2]] E1 E2; [left; split; congruence|right; split; [congruence|done]]. Qed.
  Lemma fresh_less Pr Av V Pq s k : Inv Pr Av V Pq s -> Fr Pr k -> forall n b e fuel, k - b <= n -> n < fuel -> Pr b k -> Pr b e -> k < e ->
    compare_priority fuel (memo s) (mget (memo s) (ekey b k)) (mget (memo s) (ekey b e)) = Ok (-1)%Z.
  Proof.
    intros I HF. induction n as [|n IH]; intros b e fuel Hn Hf H1 H2 Hlt.
    { destruct (v_pr _ _ _ _ _ I _ _ H1) as (_ & _ & Hs). apply sq_lt in Hs. lia. }
    destruct fuel as [|fuel]; [lia|]. destruct (mget_pr _ _ _ _ _ _ _ I H1) as [[E1 _]|(E1 & k' & o' & Ek & Ko' & Ho' & A1 & _)].
    { by apply (atom_loses _ _ _ _ _ _ _ _ _ I H1 H2 E1 ltac:(lia)). }
    destruct (mget_pr _ _ _ _ _ _ _ I H2) as [[E2 _]|(E2 & s0 & o0 & Es & Ko0 & Ho0 & A2 & B2)].
    { exfalso. destruct (v_pr _ _ _ _ _ I _ _ H1) as (_ & _ & Hs). destruct (sq_first _ _ _ Hs) as (f & Hf' & Hle & _).
      rewrite (at_fun _ _ _ _ Hf' E2) in Hle. lia. }
    destruct (v_av _ _ _ _ _ I _ _ _ A1) as (Hi1 & Hp1 & Hp1' & _). destruct (v_av _ _ _ _ _ I _ _ _ A2) as (Hi2 & Hp2 & Hp2' & _).
    assert (Hk' : k' < k). { destruct (v_pr _ _ _ _ _ I _ _ Hp1') as (_ & _ & Hs). apply sq_lt in Hs. lia. }
    assert (Hbk : b < k'). { destruct (v_pr _ _ _ _ _ I _ _ Hp1) as (_ & _ & Hs). by apply sq_lt in Hs. }
    assert (Ha : At b k').
    { destruct (v_pr _ _ _ _ _ I _ _ Hp1) as (_ & _ & Hs). destruct (sq_first _ _ _ Hs) as (f & Hf' & Hle & _).
      destruct (decide (f = k')) as [<-|Hne]; [done|]. exfalso. assert (k <= k'); [|lia]. apply (HF b); [done| |done]. by eapply at_not. }
    assert (A3 : Av b k' e) by (apply (v_first _ _ _ _ _ I); [done|done|lia]).
    destruct (v_av _ _ _ _ _ I _ _ _ A3) as (_ & _ & Hp3 & _).
    rewrite Ek, Es. cbn [compare_priority]. cbn [C td_prio td_children].
    destruct (beats_prio _ _ _ _ (B2 _ A3) Ko' Ko0) as [[-> ->]|[-> Hle]]; [done|].
    rewrite Nat.eqb_refl. destruct (decide (s0 = k')) as [->|Hne].
    - rewrite decide_True by done. rewrite decide_True by done. rewrite decide_False by (intros [= ?]; lia).
      change ((sE, S k'), k) with (ekey (S k') k). change ((sE, S k'), e) with (ekey (S k') e).
      rewrite IH; [done|lia|lia|done|done|lia].
    - rewrite decide_False by congruence. change ((sE, b), k') with (ekey b k'). change ((sE, b), s0) with (ekey b s0).
      destruct fuel as [|fuel]; [lia|]. destruct (atom_loses _ _ _ _ _ _ _ _ fuel I Hp1 Hp2 Ha ltac:(lia)) as [-> _]. done.
  Qed.

  (** Replacing the way an expression was found. *)
  Definition withA (Av : nat -> nat -> nat -> Prop) (b k e : nat) : nat -> nat -> nat -> Prop := fun x y z => Av x y z \/ (x = b /\ y = k /\ z = e).
  Lemma inv_better Pr Av V Pq s b k o e : Inv Pr Av V Pq s -> Pr b e -> ~ At b e -> kinds !! k = Some o -> o = s1 \/ o = s2 -> Pr b k -> Pr (S k) e ->
    kids s (C b k o e) -> (forall k', Av b k' e -> beats k' k) ->
    Inv Pr (withA Av b k e) V Pq (set_memo s (<[ekey b e := C b k o e]> (memo s))).
  Proof.
    intros I Hp Hna Hk Ho Hp1 Hp2 Hkids Hb. pose proof nt_E_not. pose proof nt_P_not. set (s' := set_memo s (<[ekey b e := C b k o e]> (memo s))).
    assert (Hmono : forall k, is_Some (memo s !! k) -> is_Some (memo s' !! k)).
    { intros k' [d0 Hd]. unfold s'. cbn. destruct (decide (ekey b e = k')) as [<-|]; [rewrite lookup_insert; eauto|]. rewrite lookup_insert_ne by done. eauto. }
    split; try apply I.
    - intros x y d0. unfold s'. cbn [set_memo memo]. destruct (decide (ekey b e = ((sE, x), y))) as [Heq|Hne].
      + rewrite Heq, lookup_insert. injection Heq as -> ->. intros [= <-]. split; [done|]. right. split; [done|]. exists k, o. split; [done|]. split; [done|]. split; [done|].
        split; [right; auto|]. intros k' [H1|(_ & -> & _)]; [by apply Hb|]. right. done.
      + rewrite lookup_insert_ne by done. intros Hd. destruct (v_memo _ _ _ _ _ I _ _ _ Hd) as [H1 H2]. split; [done|].
        destruct H2 as [H2|(H2 & k1 & o1 & H3 & H4 & H5 & H6 & H7)]; [by left|]. right. split; [done|]. exists k1, o1.
        split; [done|]. split; [done|]. split; [done|]. split; [by left|]. intros k' [Hk'|(-> & -> & ->)]; [by apply H7|]. by destruct Hne.
    - intros x y Hxy. destruct (v_pr _ _ _ _ _ I _ _ Hxy) as (H1 & H2 & H3). split; [by apply Hmono|done].
    - intros x y z [Hav|(-> & -> & ->)]; [by apply (v_av _ _ _ _ _ I)|]. unfold LeftPos.isop. split; [naive_solver|done].
    - intros x f y H1 H2 H3. left. by apply (v_first _ _ _ _ _ I).
    - intros x Hx. destruct (v_part _ _ _ _ _ I x Hx) as (X' & ex & H1 & H2 & H3 & H4 & H5). exists X', ex. split; [done|]. split; [done|].
      split; [eapply List.Forall_impl; [|exact H3]; intros tp; by apply here_mono|done].
    - intros x y d0. unfold s'. cbn [set_memo memo]. rewrite lookup_insert_ne by (unfold ekey; congruence). apply (v_pm _ _ _ _ _ I).
    - intros x p y d0 Hx Hm. unfold s' in Hm. cbn [set_memo memo] in Hm. destruct (decide (ekey b e = ((x, p), y))) as [Heq|Hne].
      + rewrite Heq, lookup_insert in Hm. injection Hm as <-. rewrite <- Heq. split; [done|]. exact (kids_mono _ _ _ Hmono Hkids).
      + rewrite lookup_insert_ne in Hm by done. destruct (v_ch _ _ _ _ _ I _ _ _ _ Hx Hm) as [? Hkd]. split; [done|]. exact (kids_mono _ _ _ Hmono Hkd).
    - intros t p Ht. destruct (v_TI _ _ _ _ _ I t p Ht) as (H1 & H2 & H3). unfold tst, s'. cbn [set_memo memo markers partials].
      assert (Hne : forall y, ekey b e <> ((t, p), y)) by (intros y [= <- _ _]; done).
      rewrite lookup_insert_ne by done. split; [done|]. split; [done|].
      intros y d0. rewrite lookup_insert_ne by done. apply H3.
  Qed.
  Lemma inv_worse Pr Av V Pq s b k e : Inv Pr Av V Pq s -> isop k -> Pr b k -> Pr (S k) e -> Pr b e ->
    (forall k0 o0, kinds !! k0 = Some o0 -> Av b k0 e -> (forall k', Av b k' e -> beats k' k0) -> mget (memo s) (ekey b e) = C b k0 o0 e -> beats k k0) ->
    Inv Pr (withA Av b k e) V Pq s.
  Proof.
    intros I Hi Hp1 Hp2 Hp Hw. split; try apply I.
    - intros x y d0 Hd. destruct (v_memo _ _ _ _ _ I _ _ _ Hd) as [H1 H2]. split; [done|].
      destruct H2 as [H2|(H2 & k1 & o1 & H3 & H4 & H5 & H6 & H7)]; [by left|]. right. split; [done|]. exists k1, o1.
      split; [done|]. split; [done|]. split; [done|]. split; [by left|]. intros k' [Hk'|(-> & -> & ->)]; [by apply H7|].
      eapply Hw; [done|done|done|]. unfold mget, ekey. rewrite Hd. done.
    - intros x y z [Hav|(-> & -> & ->)]; [by apply (v_av _ _ _ _ _ I)|]. done.
    - intros x f y H1 H2 H3. left. by apply (v_first _ _ _ _ _ I).
  Qed.

  Lemma candidate Pr Av V Pq s b k o e : Inv Pr Av V Pq s -> kinds !! k = Some o -> o = s1 \/ o = s2 -> Pr b k -> Pr (S k) e -> Pr b e ->
    kids s (C b k o e) -> At b k \/ Fr Pr k ->
    exists s' F, (forall n, F <= n -> add_to_memo n s (C b k o e) = Ok s') /\ Inv Pr (withA Av b k e) V Pq s' /\ stack s' = stack s
      /\ (forall k, is_Some (memo s !! k) -> is_Some (memo s' !! k)).
  Proof.
    intros I Hk Ho Hp1 Hp2 Hp Hkids Hfr.
    assert (Hi : isop k) by (unfold LeftPos.isop; naive_solver).
    destruct (v_pr _ _ _ _ _ I _ _ Hp) as ([d Hd] & _ & Hs). destruct (v_pr _ _ _ _ _ I _ _ Hp1) as (_ & _ & Hs1).
    assert (Hke : k < e). { destruct (v_pr _ _ _ _ _ I _ _ Hp2) as (_ & _ & Hs2). apply sq_lt in Hs2. lia. }
    assert (Hna : ~ At b e).
    { intros Ha. destruct (sq_first _ _ _ Hs1) as (f & Hf' & Hle & _). rewrite (at_fun _ _ _ _ Hf' Ha) in Hle. lia. }
    destruct (v_memo _ _ _ _ _ I _ _ _ Hd) as [_ [[? _]|(_ & k0 & o0 & Ed & Ko & Ho0 & Hav & Hb)]]; [done|].
    destruct (v_av _ _ _ _ _ I _ _ _ Hav) as (Hi0 & Hq1 & Hq2 & _).
    assert (Hcmp : exists F c, (forall n, F <= n -> compare_priority n (memo s) (C b k o e) d = Ok c)
      /\ ((c <> 1%Z /\ beats k k0) \/ (c = 1%Z /\ forall k', Av b k' e -> beats k' k))).
    { rewrite Ed. destruct (decide (o = o0)) as [<-|Hne].
      - destruct (lt_eq_lt_dec k k0) as [[Hlt|Heq]|Hlt].
        + exists (S (S (S k))), (-1)%Z. split; [|left; split; [done|]; right; split; [congruence|lia]].
          intros [|n] Hn; [lia|]. cbn [compare_priority]. cbn [C td_prio td_children]. rewrite Nat.eqb_refl.
          rewrite decide_False by (intros [= ?]; lia). change ((sE, b), k) with (ekey b k). change ((sE, b), k0) with (ekey b k0).
          destruct Hfr as [Ha|Hfr].
          * destruct n as [|n]; [lia|]. destruct (atom_loses _ _ _ _ _ _ _ _ n I Hp1 Hq1 Ha ltac:(lia)) as [-> _]. done.
          * rewrite (fresh_less _ _ _ _ _ _ I Hfr (S k)); [done|lia|lia|done|done|lia].
        + subst k0. exists 1, 0%Z. split; [|left; split; [done|]; right; split; [done|lia]].
          intros [|n] Hn; [lia|]. cbn [compare_priority]. cbn [C td_prio td_children]. rewrite Nat.eqb_refl.
          rewrite !decide_True by done. done.
        + exists 2, 1%Z. split; [|right; split; [done|]].
          * intros [|[|n]] Hn; [lia|lia|]. remember (S n) as m eqn:Em. cbn [compare_priority]. cbn [C td_prio td_children]. rewrite Nat.eqb_refl.
            rewrite decide_False by (intros [= ?]; lia). change ((sE, b), k) with (ekey b k). change ((sE, b), k0) with (ekey b k0).
            assert (Ha : At b k0).
            { destruct (v_pr _ _ _ _ _ I _ _ Hq1) as (_ & _ & Hs0). destruct (sq_first _ _ _ Hs0) as (f & Hf' & Hle & _).
              destruct (decide (f = k0)) as [<-|Hne]; [done|]. exfalso. destruct Hfr as [Ha|Hfr].
              - rewrite (at_fun _ _ _ _ Hf' Ha) in Hle. lia.
              - assert (k <= k0); [|lia]. apply (Hfr b); [done| |done]. by eapply at_not. }
            subst m. destruct (atom_loses _ _ _ _ _ _ _ _ n I Hq1 Hp1 Ha ltac:(lia)) as [_ ->]. done.
          * intros k' Hk'. destruct (Hb _ Hk') as [[? ?]|[? ?]]; [left; split; [done|congruence]|right; split; [congruence|lia]].
      - destruct Ho as [-> | ->], Ho0 as [-> | ->]; try done.
        + exists 1, (-1)%Z. split; [|left; split; [done|by left]]. intros [|n] Hn; [lia|]. reflexivity.
        + exists 1, 1%Z. split; [|right; split; [done|]]. { intros [|n] Hn; [lia|]. reflexivity. }
          intros k' Hk'. destruct (Hb _ Hk') as [[? ?]|[? ?]]; [congruence|]. left. split; [congruence|done]. }
    destruct Hcmp as (F & c & Hc & Hcase). destruct Hcase as [[Hc1 Hbt]|[-> Hbt]].
    - exists s, F. split.
      { intros n Hn. unfold add_to_memo. change (td_key (C b k o e)) with ((sE, b), e). rewrite Hd, Hc by done. cbn [rbind].
        by rewrite (proj2 (Z.eqb_neq _ _)). }
      split; [|done]. apply inv_worse; try done. intros k1 o1 _ _ Hb1 Hm. unfold mget, ekey in Hm. rewrite Hd in Hm. cbn [default] in Hm.
      rewrite Ed in Hm. injection Hm as -> _. done.
    - exists (set_memo s (<[ekey b e := C b k o e]> (memo s))), (F + S (mu (ekey b e))). split.
      { intros n Hn. unfold add_to_memo. change (td_key (C b k o e)) with (ekey b e). unfold ekey at 1. rewrite Hd, Hc by lia. cbn [rbind].
        change (1 =? 1)%Z with true. cbn [rbind]. rewrite (circ_ok _ _ _ _ _ _ I (mu (ekey b e))); [done|lia|lia|exact Hkids]. }
      split; [by apply inv_better|]. split; [done|]. intros k1 [d1 Hd1]. cbn [set_memo memo].
      destruct (decide (ekey b e = k1)) as [<-|]; [rewrite lookup_insert; eauto|]. rewrite lookup_insert_ne by done. eauto.
  Qed.

  (** * Steps *)
  Definition pop (s s' : pst) : Prop := exists base ext rest F, stack s = (base, ext) :: rest
    /\ forall n, F <= n -> update n prods nonterms kinds n base ext (set_stack s rest) = Ok s'.
  Definition mono (s s' : pst) : Prop := forall k, is_Some (memo s !! k) -> is_Some (memo s' !! k).
  Inductive reach : pst -> pst -> Prop :=
  | re_refl s : reach s s
  | re_step s s1 s' : pop s s1 -> reach s1 s' -> reach s s'.
  Lemma re_trans s s1 s' : reach s s1 -> reach s1 s' -> reach s s'.
  Proof. induction 1; [done|]. intros H1. eapply re_step; eauto. Qed.
  Lemma re_one s s' : pop s s' -> reach s s'.
  Proof. intros H. eapply re_step; [done|apply re_refl]. Qed.

  Definition QS (Pr : nat -> nat -> Prop) (Av : nat -> nat -> nat -> Prop) (K : list (tpart * key)) : Prop :=
    forall b k o e2, kinds !! k = Some o -> o = s1 \/ o = s2 -> Pr b k -> Pr (S k) e2 ->
      Av b k e2 \/ (T2 b k o, ekey (S k) e2) ∈ K \/ (T1 b k o, ((o, k), S k)) ∈ K \/ (T0 b o, ekey b k) ∈ K.
  Record St (Pr : nat -> nat -> Prop) (Av : nat -> nat -> nat -> Prop) (V : nat -> Prop) (Pq : nat -> nat -> Prop) (K : list (tpart * key)) (s : pst) : Prop := {
    st_I : Inv Pr Av V Pq s;
    st_K : stack s = K;
    st_Q : QS Pr Av K
  }.
  Definition harmless (Av : nat -> nat -> nat -> Prop) (it : tpart * key) : Prop :=
    forall b k o, kinds !! k = Some o -> o = s1 \/ o = s2 ->
      it <> (T1 b k o, ((o, k), S k)) /\ it <> (T0 b o, ekey b k) /\ forall e2, it = (T2 b k o, ekey (S k) e2) -> Av b k e2.
  Lemma qs_pop Pr Av (Av' : nat -> nat -> nat -> Prop) it K : QS Pr Av (it :: K) -> (forall x y z, Av x y z -> Av' x y z) -> harmless Av' it -> QS Pr Av' K.
  Proof.
    intros HQ HA HH b k o e2 H1 H2 H3 H4. destruct (HH b k o H1 H2) as (N1 & N0 & N2).
    destruct (HQ b k o e2 H1 H2 H3 H4) as [?|[Hi|[Hi|Hi]]]; [by left; apply HA| | |]; apply elem_of_cons in Hi as [Hi|Hi].
    - left. by apply N2.
    - auto.
    - congruence.
    - auto.
    - congruence.
    - auto.
  Qed.
  Lemma qs_weak Pr Av K K' : QS Pr Av K -> (forall x, x ∈ K -> x ∈ K') -> QS Pr Av K'.
  Proof.
    intros HQ HK b k o e2 H1 H2 H3 H4. destruct (HQ b k o e2 H1 H2 H3 H4) as [?|[Hi|[Hi|Hi]]]; auto.
  Qed.
  Lemma st_same Pr Av V Pq K K' s s' : St Pr Av V Pq K s -> sameEP s s' -> TI s' -> stack s' = K' -> QS Pr Av K' -> St Pr Av V Pq K' s'.
  Proof. intros [I _ _] H1 H2 H3 H4. split; [|done|done]. by eapply inv_same. Qed.

  Lemma own_none n s x b : ~ tmn x -> check_non_terminal n kinds s (x, b) = Ok (s, None).
  Proof.
    intros Hx. unfold check_non_terminal. cbn [fst snd]. destruct (kinds !! b) as [k|] eqn:E; [|done].
    destruct (x =? k) eqn:E2; [|done]. apply Nat.eqb_eq in E2. subst. by apply kinds_t in E.
  Qed.
  Lemma upd_part n base ext s x b sym : td_marker (tp_def base) = (x, b) -> ~ tmn x ->
    (S (length (td_children (tp_def base))) =? length (tp_prod base)) = false ->
    tp_prod base !! S (length (td_children (tp_def base))) = Some sym ->
    update (S n) prods nonterms kinds (S n) base ext s = add_partial (S n) prods nonterms kinds (S n) (extend base ext) (sym, snd ext) s.
  Proof.
    intros Hm Hx Hl Hs. cbn [update]. change (tp_prod (extend base ext)) with (tp_prod base). rewrite Hl, Hs.
    change (td_marker (tp_def (extend base ext))) with (td_marker (tp_def base)). rewrite Hm, own_none by done. reflexivity.
  Qed.
  Lemma upd_full n base ext s : (S (length (td_children (tp_def base))) =? length (tp_prod base)) = true ->
    update (S n) prods nonterms kinds (S n) base ext s = add_to_memo (S n) s (tp_def (extend base ext)).
  Proof. intros Hl. cbn [update]. change (tp_prod (extend base ext)) with (tp_prod base). by rewrite Hl. Qed.

  (** A partial of an expression or of parentheses that waits for a terminal. *)
  Lemma pop_term Pr Av V Pq base ext K s x b t : St Pr Av V Pq ((base, ext) :: K) s -> td_marker (tp_def base) = (x, b) -> ~ tmn x ->
    (S (length (td_children (tp_def base))) =? length (tp_prod base)) = false ->
    tp_prod base !! S (length (td_children (tp_def base))) = Some t -> tmn t ->
    QS Pr Av (found (extend base ext) t (snd ext) ++ K) ->
    exists s', pop s s' /\ St Pr Av V Pq (found (extend base ext) t (snd ext) ++ K) s' /\ mono s s'
      /\ (kinds !! snd ext = Some t -> is_Some (memo s' !! ((t, snd ext), S (snd ext)))).
  Proof.
    intros [I HK HQ] Hm Hx Hl Hs Ht HQ'. destruct (partial_term (extend base ext) t (snd ext) (set_stack s K) Ht (v_TI _ _ _ _ _ I)) as (s' & H1 & H2 & H3 & H4 & H5).
    exists s'. split; [|split; [|split; [|done]]].
    - exists base, ext, K, 1. split; [done|]. intros [|n] Hn; [lia|]. rewrite (upd_part _ _ _ _ x b t) by done. apply H1; lia.
    - split; [eapply inv_same; [exact (inv_stack _ _ _ _ s K I)|done|done]|done|done].
    - intros k Hk. by apply (se_mono _ _ H2).
  Qed.

  Ltac ne := unfold harmless, T0, T1, T2, np, sp0, sp1, qp, pp0, pp1, pp2, ekey in *; congruence.
  Lemma T0_no Pr Av V Pq K s b o k : St Pr Av V Pq ((T0 b o, ekey b k) :: K) s -> o = s1 \/ o = s2 -> kinds !! k <> Some o ->
    exists s', pop s s' /\ St Pr Av V Pq K s' /\ mono s s'.
  Proof.
    intros HS Ho Hk. pose proof nt_E_not. assert (Hf : found (T1 b k o) o k = []) by (unfold found; by rewrite decide_False).
    destruct (pop_term _ _ _ _ _ _ _ _ sE b o HS) as (s' & H1 & H2 & H3 & _); try done.
    - unfold tmn. lia.
    - change (extend (T0 b o) (ekey b k)) with (T1 b k o). change (snd (ekey b k)) with k. rewrite Hf. cbn [app].
      eapply qs_pop; [exact (st_Q _ _ _ _ _ _ HS)|done|]. intros b0 k0 o0 E1 E2. split; [ne|]. split; [ne|]. intros e2. ne.
    - change (extend (T0 b o) (ekey b k)) with (T1 b k o) in H2. change (snd (ekey b k)) with k in H2. rewrite Hf in H2. eauto.
  Qed.
  Lemma T0_op Pr Av V Pq K s b o k : St Pr Av V Pq ((T0 b o, ekey b k) :: K) s -> o = s1 \/ o = s2 -> kinds !! k = Some o ->
    exists s', pop s s' /\ St Pr Av V Pq ((T1 b k o, ((o, k), S k)) :: K) s' /\ mono s s' /\ is_Some (memo s' !! ((o, k), S k)).
  Proof.
    intros HS Ho Hk. pose proof nt_E_not. assert (Hf : found (T1 b k o) o k = [(T1 b k o, ((o, k), S k))]) by (unfold found; by rewrite decide_True).
    destruct (pop_term _ _ _ _ _ _ _ _ sE b o HS) as (s' & H1 & H2 & H3 & H4); try done.
    - unfold tmn. lia.
    - change (extend (T0 b o) (ekey b k)) with (T1 b k o). change (snd (ekey b k)) with k. rewrite Hf. cbn [app].
      intros b0 k0 o0 e2 E1 E2 E3 E4. destruct (st_Q _ _ _ _ _ _ HS b0 k0 o0 e2 E1 E2 E3 E4) as [?|[Hi|[Hi|Hi]]]; [by left| | |]; apply elem_of_cons in Hi as [Hi|Hi].
      + exfalso. ne.
      + right. left. apply elem_of_cons. auto.
      + exfalso. ne.
      + right. right. left. apply elem_of_cons. auto.
      + right. right. left. apply elem_of_cons. left. unfold T0, ekey in Hi. injection Hi. intros. subst. done.
      + right. right. right. apply elem_of_cons. auto.
    - change (extend (T0 b o) (ekey b k)) with (T1 b k o) in H2. change (snd (ekey b k)) with k in H2. rewrite Hf in H2. eauto 10.
  Qed.

  Lemma pop_new Pr Av V Pq base ext K s x b c X : St Pr Av V Pq ((base, ext) :: K) s -> td_marker (tp_def base) = (x, b) -> ~ tmn x ->
    (S (length (td_children (tp_def base))) =? length (tp_prod base)) = false ->
    tp_prod base !! S (length (td_children (tp_def base))) = Some sE -> snd ext = c -> extend base ext = X ->
    ~ V c -> Wait c [X] -> (forall b' k o, X = T2 b' k o -> Pr b' k) -> here s X ->
    (forall b' k o, base = T2 b' k o -> False) -> (forall b' o, base = T0 b' o -> False) -> (forall b' k o, base = T1 b' k o -> c = S k) ->
    exists s', pop s s' /\ St Pr Av (fun x => V x \/ x = c) Pq (begins c ++ K) s' /\ mono s s'
      /\ (forall t, kinds !! c = Some t -> t = sn \/ t = s2 \/ t = so -> is_Some (memo s' !! ((t, c), S c))).
  Proof.
    intros [I HK HQ] Hm Hx Hl Hs <- HX Hc Hw HX2 Hh B2 B0 B1.
    destruct (partial_new Pr Av V Pq (set_stack s K) (snd ext) X) as (s' & H1 & H2 & H3 & H4 & H5); [by apply inv_stack|done|done|done|done|].
    exists s'. split; [|split; [|split; [|done]]].
    - exists base, ext, K, 4. split; [done|]. intros [|n] Hn; [lia|]. rewrite (upd_part _ _ _ _ x b sE) by done. rewrite HX. apply H1; lia.
    - split; [done|done|]. apply (qs_weak _ _ K); [|intros y Hy; apply elem_of_app; auto].
      intros b0 k0 o0 e2 E1 E2 E3 E4. destruct (HQ b0 k0 o0 e2 E1 E2 E3 E4) as [?|[Hi|[Hi|Hi]]]; [by left| | |]; apply elem_of_cons in Hi as [Hi|Hi]; auto.
      + injection Hi as Hi _. exfalso. by apply (B2 b0 k0 o0).
      + injection Hi as Hi _. exfalso. apply Hc. rewrite (B1 b0 k0 o0) by done. destruct (v_pr _ _ _ _ _ I _ _ E4) as (_ & Hv & _). exact Hv.
      + injection Hi as Hi _. exfalso. by apply (B0 b0 o0).
    - exact H4.
  Qed.
  Lemma T1_new Pr Av V Pq K s b k o : St Pr Av V Pq ((T1 b k o, ((o, k), S k)) :: K) s -> kinds !! k = Some o -> o = s1 \/ o = s2 ->
    At b k -> Pr b k -> ~ V (S k) -> is_Some (memo s !! ((o, k), S k)) ->
    exists s', pop s s' /\ St Pr Av (fun x => V x \/ x = S k) Pq (begins (S k) ++ K) s' /\ mono s s'
      /\ (forall t, kinds !! S k = Some t -> t = sn \/ t = s2 \/ t = so -> is_Some (memo s' !! ((t, S k), S (S k)))).
  Proof.
    intros HS Hk Ho Ha Hp Hv Hm. pose proof nt_E_not. apply (pop_new _ _ _ _ _ _ _ _ sE b (S k) (T2 b k o) HS); try done.
    - by apply wo.
    - intros b' k' o' Hq. unfold T2 in Hq. injection Hq. intros. by subst.
    - intros ck Hck. unfold T2 in Hck. cbn [tp_def td_children] in Hck. apply elem_of_cons in Hck as [->|Hck].
      + by apply (v_pr _ _ _ _ _ (st_I _ _ _ _ _ _ HS)).
      + apply elem_of_list_singleton in Hck as ->. done.
    - intros b' k' o' Hq. unfold T1 in Hq. injection Hq. intros. by subst.
  Qed.
  Lemma pp0_pop Pr Av V Pq K s b : St Pr Av V Pq ((pp0 b, ((so, b), S b)) :: K) s -> kinds !! b = Some so ->
    ~ V (S b) -> is_Some (memo s !! ((so, b), S b)) ->
    exists s', pop s s' /\ St Pr Av (fun x => V x \/ x = S b) Pq (begins (S b) ++ K) s' /\ mono s s'
      /\ (forall t, kinds !! S b = Some t -> t = sn \/ t = s2 \/ t = so -> is_Some (memo s' !! ((t, S b), S (S b)))).
  Proof.
    intros HS Hk Hv Hm. pose proof nt_P_not. apply (pop_new _ _ _ _ _ _ _ _ sP b (S b) (pp1 b) HS); try done.
    - by apply wp.
    - intros ck Hck. unfold pp1 in Hck. cbn [tp_def td_children] in Hck. apply elem_of_list_singleton in Hck as ->. done.
  Qed.

  Definition round (b k o : nat) (es : list nat) : list (tpart * key) := map (fun e2 => (T2 b k o, ekey (S k) e2)) es.
  Lemma T1_seen Pr Av V Pq K s b k o : St Pr Av V Pq ((T1 b k o, ((o, k), S k)) :: K) s -> kinds !! k = Some o -> o = s1 \/ o = s2 ->
    ~ At b k -> Pr b k -> V (S k) ->
    exists s' es, pop s s' /\ St Pr Av V Pq (round b k o es ++ K) s' /\ mono s s' /\ Forall (fun e2 => Pr (S k) e2) es.
  Proof.
    intros [I HK HQ] Hk Ho Ha Hp Hv. pose proof nt_E_not.
    assert (Hi : isop k) by (unfold LeftPos.isop; naive_solver).
    destruct (partial_seen Pr Av V Pq (set_stack s K) b k o) as (s' & H1 & H2 & H3 & H4); [by apply inv_stack|done|done|done|done|].
    set (es := rev (map (fun d => snd (td_key d)) (lget (markers s) (sE, S k)))).
    assert (Hes : items (T2 b k o) (lget (markers s) (sE, S k)) = round b k o es).
    { unfold items, round, es. rewrite map_rev, map_map. f_equal. apply map_ext_in. intros d Hd. f_equal.
      apply elem_of_list_In in Hd. destruct (v_mk _ _ _ _ _ I _ _ Hd) as (e & -> & _). done. }
    exists s', es. split; [|split; [|split]].
    - exists (T1 b k o), ((o, k), S k), K, 1. split; [done|]. intros [|n] Hn; [lia|]. rewrite (upd_part _ _ _ _ sE b sE) by done. apply H1; lia.
    - split; [done|by rewrite H3, <- Hes|]. rewrite <- Hes.
      intros b0 k0 o0 e2 E1 E2 E3 E4. destruct (HQ b0 k0 o0 e2 E1 E2 E3 E4) as [?|[Hi'|[Hi'|Hi']]]; [by left| | |]; apply elem_of_cons in Hi' as [Hi'|Hi'].
      + exfalso. ne.
      + right. left. apply elem_of_app. auto.
      + unfold T1 in Hi'. injection Hi'. intros. subst. right. left. apply elem_of_app. left. rewrite Hes. unfold round, es.
        destruct (v_mk' _ _ _ _ _ I _ _ E4) as (d & Hd & Hkd). apply elem_of_list_fmap. exists e2. split; [done|].
        apply elem_of_list_In. rewrite <- in_rev. apply elem_of_list_In, elem_of_list_fmap. exists d. by rewrite Hkd.
      + right. right. left. apply elem_of_app. auto.
      + exfalso. ne.
      + right. right. right. apply elem_of_app. auto.
    - intros q Hq. by rewrite H4.
    - apply Forall_forall. intros e2 He. unfold es in He. apply elem_of_list_In in He. rewrite <- in_rev in He. apply elem_of_list_In, elem_of_list_fmap in He as (d & -> & Hd).
      destruct (v_mk _ _ _ _ _ I _ _ Hd) as (e & -> & He). done.
  Qed.

  Lemma C_kids Pr Av V Pq s b k o e : Inv Pr Av V Pq s -> Pr b k -> Pr (S k) e -> kinds !! k = Some o -> o = s1 \/ o = s2 -> is_Some (memo s !! ((o, k), S k)) -> kids s (C b k o e).
  Proof.
    intros I H1 H2 Hk Ho Hm ck Hck. destruct (v_pr _ _ _ _ _ I _ _ H1) as (M1 & _ & S1). destruct (v_pr _ _ _ _ _ I _ _ H2) as (M2 & _ & S2).
    apply sq_lt in S1, S2. unfold C in *. cbn [td_key td_children] in *. unfold mu. cbn [fst snd].
    apply elem_of_cons in Hck as [->|Hck]; [|apply elem_of_cons in Hck as [->|Hck]; [|apply elem_of_list_singleton in Hck as ->]]; cbn [fst snd].
    - split; [|done]. rewrite decide_True by done. lia.
    - split; [|done]. destruct (decide (o = 0)); [lia|]. destruct (decide (o = 4)); [lia|]. rewrite decide_True by done. lia.
    - split; [|done]. rewrite decide_True by done. lia.
  Qed.
  Lemma T2_old Pr Av V Pq K s b k o e : St Pr Av V Pq ((T2 b k o, ekey (S k) e) :: K) s -> kinds !! k = Some o -> o = s1 \/ o = s2 ->
    Pr b k -> Pr (S k) e -> Pr b e -> is_Some (memo s !! ((o, k), S k)) -> At b k \/ Fr Pr k ->
    exists s', pop s s' /\ St Pr (withA Av b k e) V Pq K s' /\ mono s s'.
  Proof.
    intros [I HK HQ] Hk Ho H1 H2 H3 Hm Hf.
    destruct (candidate Pr Av V Pq (set_stack s K) b k o e) as (s' & F & A1 & A2 & A3 & A4); try done.
    { by apply inv_stack. }
    { by apply (C_kids Pr Av V Pq s). }
    exists s'. split; [|split; [|done]].
    - exists (T2 b k o), (ekey (S k) e), K, (S F). split; [done|]. intros [|n] Hn; [lia|]. rewrite upd_full by done. apply A1. lia.
    - split; [done|done|]. eapply qs_pop; [exact HQ|by left|]. intros b0 k0 o0 E1 E2. split; [ne|]. split; [ne|].
      intros e2 Hq. unfold T2, ekey in Hq. injection Hq. intros. subst. right. done.
  Qed.

  Definition waits (Pr : nat -> nat -> Prop) (s : pst) (b : nat) (X : list tpart) : Prop :=
    Wait b X /\ (forall b' k o, X = [T2 b' k o] -> Pr b' k) /\ Forall (here s) X.
  Lemma qs_arrive Pr Av (Av' : nat -> nat -> nat -> Prop) V Pq K s b e X : Inv Pr Av V Pq s -> QS Pr Av' K -> V b -> b < e -> Wait b X -> (forall b' k o, X = [T2 b' k o] -> Pr b' k) ->
    (forall b1 k, b = S k -> Pr b1 k -> isop k -> ~ At b1 k -> False) -> QS (withP Pr b e) Av' (woken b e X ++ K).
  Proof.
    intros I HQ Hv Hbe HX1 HX2 Hex b0 k o e2 E1 E2 E3 E4. assert (Hi : isop k) by (unfold LeftPos.isop; naive_solver).
    destruct E3 as [E3|[-> ->]].
    - destruct E4 as [E4|[<- ->]].
      + destruct (HQ b0 k o e2 E1 E2 E3 E4) as [?|Hd]; [by left|]. right. rewrite !elem_of_app. naive_solver.
      + right. left. assert (Ha : At b0 k).
        { destruct (v_pr _ _ _ _ _ I _ _ E3) as (_ & _ & Hs). destruct (sq_first _ _ _ Hs) as (f & Hf & Hle & _).
          destruct (decide (f = k)) as [<-|Hne]; [done|]. exfalso. apply (Hex b0 k); try done. by eapply at_not. }
        inversion HX1 as [|? Hso|b' k' o' Ha' Hk' Ho']; subst; [unfold LeftPos.isop in Hi; naive_solver|].
        assert (o' = o) as -> by congruence. assert (b' = b0) as ->.
        { specialize (HX2 b' k o eq_refl). destruct (v_pr _ _ _ _ _ I _ _ HX2) as (_ & Hv' & _). destruct (v_pr _ _ _ _ _ I _ _ E3) as (_ & Hv0 & _).
          eapply begin_unique; [| |exact Ha'|exact Ha]; by eapply v_fore. }
        apply elem_of_app. left. unfold woken. apply elem_of_app. right. cbn. by apply elem_of_list_singleton.
    - right. right. right. apply elem_of_app. left. unfold woken. apply elem_of_app. left. apply elem_of_cons.
      destruct E2 as [-> | ->]; [by left|right; by apply elem_of_list_singleton].
  Qed.
  Lemma pop_arrive Pr Av (Av' : nat -> nat -> nat -> Prop) V Pq base ext K s b e d : St Pr Av V Pq ((base, ext) :: K) s ->
    (S (length (td_children (tp_def base))) =? length (tp_prod base)) = true -> tp_def (extend base ext) = d ->
    V b -> ~ Pr b e -> Sq b e -> entry Av' b e d -> td_key d = ekey b e -> kids s d ->
    (forall x k y, Av x k y -> Av' x k y) ->
    (forall x k y, Av' x k y -> Av x k y \/ (x = b /\ y = e /\ isop k /\ Pr b k /\ Pr (S k) e)) ->
    (forall f, At b f -> f <> e -> Av' b f e) ->
    (forall b1 k, b = S k -> Pr b1 k -> isop k -> ~ At b1 k -> False) -> harmless Av' (base, ext) ->
    exists s' X, pop s s' /\ St (withP Pr b e) Av' V Pq (woken b e X ++ K) s' /\ mono s s' /\ waits Pr s' b X.
  Proof.
    intros [I HK HQ] Hl Hd Hv Hn Hs He Hkey Hkids A1 A2 A3 Hex Hh.
    destruct (arrive Pr Av V Pq (set_stack s K) b e d Av') as (s' & X & B1 & B2 & B3 & B4 & B5 & B6 & B7); try done.
    { by apply inv_stack. }
    assert (Hw : waits Pr s' b X) by done. exists s', X. split; [|split; [|split; [done|done]]].
    - exists base, ext, K, 1. split; [done|]. intros [|n] Hn'; [lia|]. rewrite upd_full, Hd by done. apply B1.
    - split; [done|done|]. assert (HQ' : QS Pr Av' K) by (by eapply qs_pop).
      apply (qs_arrive Pr Av Av' V Pq K s b e X); try done. by apply sq_lt in Hs.
  Qed.

  Lemma T2_new Pr Av V Pq K s b k o e : St Pr Av V Pq ((T2 b k o, ekey (S k) e) :: K) s -> kinds !! k = Some o -> o = s1 \/ o = s2 ->
    At b k -> Pr b k -> Pr (S k) e -> ~ Pr b e -> is_Some (memo s !! ((o, k), S k)) ->
    (forall b1 k, b = S k -> Pr b1 k -> isop k -> ~ At b1 k -> False) ->
    exists s' X, pop s s' /\ St (withP Pr b e) (withA Av b k e) V Pq (woken b e X ++ K) s' /\ mono s s' /\ waits Pr s' b X.
  Proof.
    intros HS Hk Ho Ha H1 H2 H3 Hm Hex. pose proof (st_I _ _ _ _ _ _ HS) as I. assert (Hi : isop k) by (unfold LeftPos.isop; naive_solver).
    destruct (v_pr _ _ _ _ _ I _ _ H1) as (_ & Hv & S1). destruct (v_pr _ _ _ _ _ I _ _ H2) as (_ & _ & S2). pose proof (sq_lt _ _ _ S2).
    apply (pop_arrive _ _ _ _ _ _ _ _ _ b e (C b k o e) HS); try done.
    - by eapply sq_app.
    - right. split; [eapply at_not; [exact Ha|lia]|]. exists k, o. split; [done|]. split; [done|]. split; [done|]. split; [by right|].
      intros k' [Hq|(_ & -> & _)]; [|by right]. exfalso. apply H3. by apply (v_av _ _ _ _ _ I) in Hq as (_ & _ & _ & ?).
    - by apply (C_kids Pr Av V Pq s).
    - by left.
    - intros x k' y [Hq|(-> & -> & ->)]; [by left|]. right. done.
    - intros f Hf Hne. right. rewrite (at_fun _ _ _ _ Hf Ha). done.
    - intros b0 k0 o0 E1 E2. split; [ne|]. split; [ne|].
      intros e2 Hq. unfold T2, ekey in Hq. injection Hq. intros. subst. right. done.
  Qed.

  Lemma term_kid t b n : tmn t -> 0 < n -> mu ((t, b), S b) < 3 * n + 2.
  Proof. unfold tmn, mu. cbn [fst snd]. intros. destruct (decide (t = 0)); [lia|]. destruct (decide (t = 4)); lia. Qed.
  Lemma np_pop Pr Av V Pq K s b : St Pr Av V Pq ((np b, ((sn, b), S b)) :: K) s -> kinds !! b = Some sn -> V b -> ~ Pr b (S b) ->
    is_Some (memo s !! ((sn, b), S b)) -> (forall b1 k, b = S k -> Pr b1 k -> isop k -> ~ At b1 k -> False) ->
    exists s' X, pop s s' /\ St (withP Pr b (S b)) Av V Pq (woken b (S b) X ++ K) s' /\ mono s s' /\ waits Pr s' b X.
  Proof.
    intros HS Hk Hv Hn Hm Hex. assert (Ha : At b (S b)) by by apply at_n.
    apply (pop_arrive _ _ _ _ _ _ _ _ _ b (S b) (TDef ((sE, b), S b) [((sn, b), S b)] 2) HS); try done.
    - by apply sq_a.
    - left. split; [done|]. apply atd_n.
    - intros ck Hck. cbn [td_children] in Hck. apply elem_of_list_singleton in Hck as ->. split; [|done].
      unfold mu at 2. cbn [td_key fst snd]. rewrite decide_True by done. apply term_kid; [unfold tmn; lia|lia].
    - by left.
    - intros f Hf Hne. destruct Hne. by eapply at_fun.
  Qed.
  Lemma sp_pop Pr Av V Pq K s b : St Pr Av V Pq ((sp0 b, ((s2, b), S b)) :: K) s -> kinds !! b = Some s2 -> kinds !! S b = Some sn -> V b -> ~ Pr b (S (S b)) ->
    is_Some (memo s !! ((s2, b), S b)) -> (forall b1 k, b = S k -> Pr b1 k -> isop k -> ~ At b1 k -> False) ->
    exists s' X, reach s s' /\ St (withP Pr b (S (S b))) Av V Pq (woken b (S (S b)) X ++ K) s' /\ mono s s' /\ waits Pr s' b X.
  Proof.
    intros HS Hk Hk1 Hv Hn Hm Hex. assert (Ha : At b (S (S b))) by by apply at_s. pose proof nt_E_not.
    destruct (pop_term _ _ _ _ _ _ _ _ sE b sn HS) as (s1 & P1 & HS1 & M1 & T1'); try done.
    - unfold tmn. lia.
    - cbn [snd]. unfold found. rewrite decide_True by done. eapply qs_weak; [|intros x Hx; apply elem_of_app; right; exact Hx].
      eapply qs_pop; [exact (st_Q _ _ _ _ _ _ HS)|done|]. intros b0 k0 o0 E1 E2. split; [ne|]. split; [ne|]. intros e2. ne.
    - cbn [snd] in HS1, T1'. unfold found in HS1. rewrite decide_True in HS1 by done. cbn [app] in HS1.
      change (extend (sp0 b) ((s2, b), S b)) with (sp1 b) in HS1.
      destruct (pop_arrive _ _ Av _ _ _ _ _ _ b (S (S b)) (TDef ((sE, b), S (S b)) [((s2, b), S b); ((sn, S b), S (S b))] 3) HS1) as (s2' & X & P2 & R); try done.
      + by apply sq_a.
      + left. split; [done|]. apply atd_s.
      + intros ck Hck. cbn [td_children] in Hck. unfold mu at 2. cbn [td_key fst snd]. rewrite decide_True by done.
        apply elem_of_cons in Hck as [->|Hck]; [|apply elem_of_list_singleton in Hck as ->].
        * split; [|by apply M1]. apply term_kid; [unfold tmn; lia|lia].
        * split; [|by apply T1']. apply term_kid; [unfold tmn; lia|lia].
      + by left.
      + intros f Hf Hne. destruct Hne. by eapply at_fun.
      + exists s2', X. destruct R as (R1 & R2 & R3). split; [eapply re_step; [exact P1|by apply re_one]|]. split; [done|]. split; [|done].
        intros q Hq. by apply R2, M1.
  Qed.
  (** The closing parenthesis. *)
  Lemma pp1_no Pr Av V Pq K s b e : St Pr Av V Pq ((pp1 b, ekey (S b) e) :: K) s -> kinds !! e <> Some sc ->
    exists s', pop s s' /\ St Pr Av V Pq K s' /\ mono s s'.
  Proof.
    intros HS Hk. pose proof nt_P_not. assert (Hf : found (pp2 b e) sc e = []) by (unfold found; by rewrite decide_False).
    destruct (pop_term _ _ _ _ _ _ _ _ sP b sc HS) as (s' & H1 & H2 & H3 & _); try done.
    - unfold tmn. lia.
    - change (extend (pp1 b) (ekey (S b) e)) with (pp2 b e). change (snd (ekey (S b) e)) with e. rewrite Hf. cbn [app].
      eapply qs_pop; [exact (st_Q _ _ _ _ _ _ HS)|done|]. intros b0 k0 o0 E1 E2. split; [ne|]. split; [ne|]. intros e2. ne.
    - change (extend (pp1 b) (ekey (S b) e)) with (pp2 b e) in H2. change (snd (ekey (S b) e)) with e in H2. rewrite Hf in H2. eauto.
  Qed.
  Lemma pp1_pop Pr Av V Pq K s b e : St Pr Av V Pq ((pp1 b, ekey (S b) e) :: K) s -> kinds !! b = Some so -> kinds !! e = Some sc -> V b ->
    Pr (S b) e -> ~ Pr b (S e) -> ~ Pq b (S e) -> here s (pp1 b) -> (forall b1 k, b = S k -> Pr b1 k -> isop k -> ~ At b1 k -> False) ->
    exists s' X, reach s s' /\ St (withP Pr b (S e)) Av V (withP Pq b (S e)) (woken b (S e) X ++ K) s' /\ mono s s' /\ waits Pr s' b X.
  Proof.
    intros HS Hk Hke Hv Hp Hn Hnq Hh Hex. pose proof nt_P_not. pose proof (st_I _ _ _ _ _ _ HS) as I.
    destruct (v_pr _ _ _ _ _ I _ _ Hp) as (Hpm & _ & Hs). pose proof (sq_lt _ _ _ Hs).
    assert (Ha : At b (S e)) by by apply at_p.
    assert (Hf : found (pp2 b e) sc e = [(pp2 b e, ((sc, e), S e))]) by (unfold found; by rewrite decide_True).
    assert (HQ : QS Pr Av K).
    { eapply qs_pop; [exact (st_Q _ _ _ _ _ _ HS)|done|]. intros b0 k0 o0 E1 E2. split; [ne|]. split; [ne|]. intros e2. ne. }
    destruct (pop_term _ _ _ _ _ _ _ _ sP b sc HS) as (s1 & P1 & HS1 & M1 & T1'); try done.
    - unfold tmn. lia.
    - eapply qs_weak; [exact HQ|intros x Hx; apply elem_of_app; right; exact Hx].
    - change (extend (pp1 b) (ekey (S b) e)) with (pp2 b e) in HS1. change (snd (ekey (S b) e)) with e in HS1, T1'. rewrite Hf in HS1. cbn [app] in HS1.
      destruct HS1 as [I1 K1 _].
      destruct (arrive_P Pr Av V Pq (set_stack s1 K) b e) as (s2' & A1 & A2 & A3 & A4 & A5); [by apply inv_stack|done|done| |].
      { intros ck Hck. unfold PD in Hck. cbn [td_children] in Hck. unfold mu at 2. cbn [td_key PD fst snd]. change (memo (set_stack s1 K)) with (memo s1).
        rewrite decide_False by lia. rewrite decide_True by done.
        apply elem_of_cons in Hck as [->|Hck]; [|apply elem_of_cons in Hck as [->|Hck]; [|apply elem_of_list_singleton in Hck as ->]].
        - split; [|apply M1, Hh; by apply elem_of_list_singleton]. unfold mu. cbn [fst snd]. rewrite decide_False by lia. rewrite decide_False by lia. lia.
        - split; [|by apply M1]. unfold mu. cbn [fst snd]. rewrite decide_True by done. lia.
        - split; [|by apply T1']. unfold mu. cbn [fst snd]. rewrite decide_False by lia. rewrite decide_False by lia. lia. }
      assert (P2 : pop s1 s2').
      { exists (pp2 b e), ((sc, e), S e), K, 1. split; [done|]. intros [|n] Hn'; [lia|]. rewrite upd_full by done. apply A1. }
      assert (HS2 : St Pr Av V (withP Pq b (S e)) ((qp b, ((sP, b), S e)) :: K) s2').
      { split; [done|done|]. eapply qs_weak; [exact HQ|intros x Hx; apply elem_of_cons; by right]. }
      destruct (pop_arrive _ _ Av _ _ _ _ _ _ b (S e) (TDef ((sE, b), S e) [((sP, b), S e)] 4) HS2) as (s3 & X & P3 & R1 & R2 & R3); try done.
      + by apply sq_a.
      + left. split; [done|]. apply atd_p.
      + intros ck Hck. cbn [td_children] in Hck. apply elem_of_list_singleton in Hck as ->. split; [|done]. unfold mu. cbn [td_key fst snd].
        rewrite decide_False by lia. rewrite decide_True by done. rewrite decide_True by done. lia.
      + by left.
      + intros f Hf' Hne. destruct Hne. by eapply at_fun.
      + exists s3, X. split; [eapply re_step; [exact P1|eapply re_step; [exact P2|by apply re_one]]|]. split; [done|]. split; [|done].
        intros q Hq. apply R2, A4. by apply M1.
  Qed.

  Definition wk (X : list tpart) (b e : nat) : list (tpart * key) := map (fun tp => (tp, ekey b e)) X.
  Lemma woken_dead Pr Av V Pq K s b e X : St Pr Av V Pq (woken b e X ++ K) s -> ~ isop e ->
    exists s', reach s s' /\ St Pr Av V Pq (wk X b e ++ K) s' /\ mono s s'.
  Proof.
    intros HS Hi. destruct (T0_no _ _ _ _ _ _ b s1 e HS) as (sa & P1 & S1 & M1); [by left|unfold LeftPos.isop in Hi; naive_solver|].
    destruct (T0_no _ _ _ _ _ _ b s2 e S1) as (sb & P2 & S2 & M2); [by right|unfold LeftPos.isop in Hi; naive_solver|].
    exists sb. split; [eapply re_step; [exact P1|by apply re_one]|]. split; [done|]. intros q Hq. by apply M2, M1.
  Qed.
  Lemma leap Pr Av V Pq K s b k o X : St Pr Av V Pq (woken b k X ++ K) s -> kinds !! k = Some o -> o = s1 \/ o = s2 -> At b k -> Pr b k -> ~ V (S k) ->
    exists s' Z, reach s s' /\ St Pr Av (fun x => V x \/ x = S k) Pq (begins (S k) ++ Z ++ wk X b k ++ K) s' /\ mono s s'
      /\ (forall t, kinds !! S k = Some t -> t = sn \/ t = s2 \/ t = so -> is_Some (memo s' !! ((t, S k), S (S k))))
      /\ (Z = [] \/ (Z = [(T0 b s2, ekey b k)] /\ kinds !! k = Some s1)).
  Proof.
    intros HS Hk Ho Ha Hp Hv. destruct (decide (o = s1)) as [->|Hne].
    - destruct (T0_op _ _ _ _ _ _ b s1 k HS) as (sa & P1 & S1 & M1 & T1'); [by left|done|].
      destruct (T1_new _ _ _ _ _ _ b k s1 S1) as (sb & P2 & S2 & M2 & T2'); try done.
      exists sb, [(T0 b s2, ekey b k)]. split; [eapply re_step; [exact P1|by apply re_one]|]. split; [done|]. split; [intros q Hq; by apply M2, M1|]. auto.
    - assert (o = s2) as -> by naive_solver. destruct (T0_no _ _ _ _ _ _ b s1 k HS) as (s0 & P0 & S0 & M0); [by left|congruence|].
      destruct (T0_op _ _ _ _ _ _ b s2 k S0) as (sa & P1 & S1 & M1 & T1'); [by right|done|].
      destruct (T1_new _ _ _ _ _ _ b k s2 S1) as (sb & P2 & S2 & M2 & T2'); try done.
      exists sb, []. split; [eapply re_step; [exact P0|eapply re_step; [exact P1|by apply re_one]]|]. split; [done|]. split; [intros q Hq; by apply M2, M1, M0|]. auto.
  Qed.

  (** * From left to right *)
  Inductive Pend (Pr : nat -> nat -> Prop) (s : pst) (lo : nat) : nat -> list (tpart * key) -> Prop :=
  | pd_nil hi : lo <= hi -> Pend Pr s lo hi []
  | pd_T0 b k hi K : kinds !! k = Some s1 -> Pend Pr s lo hi K -> Pend Pr s lo hi ((T0 b s2, ekey b k) :: K)
  | pd_X b k X hi K : At b k -> isop k -> Pr b k -> waits Pr s b X -> k < hi -> lo <= k -> Pend Pr s lo k K -> Pend Pr s lo hi (wk X b k ++ K).
  Lemma mono_refl s : mono s s. Proof. by intros k. Qed.
  Lemma waits_mono (Pr Pr' : nat -> nat -> Prop) s s' b X : (forall x y, Pr x y -> Pr' x y) -> mono s s' -> waits Pr s b X -> waits Pr' s' b X.
  Proof.
    intros HP HM (H1 & H2 & H3). split; [done|]. split; [intros; by eapply HP, H2|].
    eapply List.Forall_impl; [|exact H3]. intros tp. by apply here_mono.
  Qed.
  Lemma pend_mono (Pr Pr' : nat -> nat -> Prop) s s' lo hi K : (forall x y, Pr x y -> Pr' x y) -> mono s s' -> Pend Pr s lo hi K -> Pend Pr' s' lo hi K.
  Proof.
    intros HP HM H. induction H; [by apply pd_nil|by apply pd_T0|]. apply pd_X; auto. by eapply waits_mono.
  Qed.
  Lemma pend_le Pr s lo hi K : Pend Pr s lo hi K -> lo <= hi.
  Proof. induction 1; lia. Qed.
  Lemma pend_hi Pr s lo hi hi' K : Pend Pr s lo hi K -> hi <= hi' -> Pend Pr s lo hi' K.
  Proof. intros H. revert hi'. induction H; intros hi' Hle; [apply pd_nil; lia|apply pd_T0; auto|]. apply pd_X; auto. lia. Qed.
  Lemma pend_lo Pr s lo lo' hi K : Pend Pr s lo hi K -> lo' <= lo -> Pend Pr s lo' hi K.
  Proof. intros H Hle. induction H; [apply pd_nil; lia|by apply pd_T0|]. apply pd_X; auto. lia. Qed.
  Lemma pend_app Pr s lo mi hi K K' : Pend Pr s mi hi K -> Pend Pr s lo mi K' -> Pend Pr s lo hi (K ++ K').
  Proof.
    intros H H'. apply pend_le in H' as Hl. induction H; cbn [app].
    - by eapply pend_hi.
    - by apply pd_T0.
    - rewrite <- app_assoc. apply pd_X; auto. lia.
  Qed.

  Record before (b : nat) (Pr : nat -> nat -> Prop) (V : nat -> Prop) (Pq : nat -> nat -> Prop) (s : pst) : Prop := {
    bf_V : V b;
    bf_Pr : forall x y, Pr x y -> y <= b;
    bf_Vle : forall x, V x -> x <= b;
    bf_Pq : forall x y, Pq x y -> y <= b;
    bf_at : forall x y, Pr x y -> isop y -> At x y;
    bf_t : forall t, kinds !! b = Some t -> t = sn \/ t = s2 \/ t = so -> is_Some (memo s !! ((t, b), S b))
  }.
  Record after (b e : nat) (Pr : nat -> nat -> Prop) (V : nat -> Prop) (Pq Pr' : nat -> nat -> Prop) (V' : nat -> Prop) (Pq' : nat -> nat -> Prop) : Prop := {
    af_Pr : forall x y, Pr x y -> Pr' x y;
    af_Pr' : forall x y, Pr' x y -> Pr x y \/ b <= x;
    af_le : forall x y, Pr' x y -> y <= e;
    af_V : forall x, V x -> V' x;
    af_V' : forall x, V' x -> V x \/ b < x;
    af_Vlt : forall x, V' x -> x < e;
    af_Pq' : forall x y, Pq' x y -> Pq x y \/ b <= x;
    af_Pqle : forall x y, Pq' x y -> y <= e;
    af_at : forall x y, Pr' x y -> isop y -> At x y;
    af_here : Pr' b e
  }.
  Definition full (Pr : nat -> nat -> Prop) (V : nat -> Prop) (x : nat) : Prop := forall f, At x f -> Pr x f /\ (isop f -> V (S f)).

  Lemma begins_n b : kinds !! b = Some sn -> begins b = [(np b, ((sn, b), S b))].
  Proof. intros H. unfold begins, found. by rewrite H. Qed.
  Lemma begins_s b : kinds !! b = Some s2 -> begins b = [(sp0 b, ((s2, b), S b))].
  Proof. intros H. unfold begins, found. by rewrite H. Qed.
  Lemma begins_p b : kinds !! b = Some so -> begins b = [(pp0 b, ((so, b), S b))].
  Proof. intros H. unfold begins, found. by rewrite H. Qed.

  Definition AscAt (b f : nat) : Prop := forall Pr Av V Pq K s, St Pr Av V Pq (begins b ++ K) s -> before b Pr V Pq s ->
    exists s' X Pd Pr' Av' V' Pq', reach s s' /\ St Pr' Av' V' Pq' (woken b f X ++ Pd ++ K) s' /\ mono s s' /\ waits Pr' s' b X
      /\ Pend Pr' s' b f Pd /\ after b f Pr V Pq Pr' V' Pq' /\ forall x, V' x -> b < x -> full Pr' V' x.
  Definition AscSq (b e : nat) : Prop := ~ isop e -> forall Pr Av V Pq K s, St Pr Av V Pq (begins b ++ K) s -> before b Pr V Pq s ->
    exists s' X Pd Pr' Av' V' Pq', reach s s' /\ St Pr' Av' V' Pq' (wk X b e ++ Pd ++ K) s' /\ mono s s' /\ waits Pr' s' b X
      /\ Pend Pr' s' b e Pd /\ after b e Pr V Pq Pr' V' Pq' /\ forall x, V' x -> b <= x -> full Pr' V' x.
  Lemma mono_trans s s1 s' : mono s s1 -> mono s1 s' -> mono s s'.
  Proof. intros H1 H2 k Hk. auto. Qed.
  (** An atom that takes no recursion. *)
  Lemma after_at b e (Pr : nat -> nat -> Prop) (V : nat -> Prop) (Pq : nat -> nat -> Prop) : b < e -> At b e -> (forall x y, Pr x y -> y <= b) -> (forall x, V x -> x <= b) -> (forall x y, Pq x y -> y <= b) ->
    (forall x y, Pr x y -> isop y -> At x y) -> after b e Pr V Pq (withP Pr b e) V Pq.
  Proof.
    intros Hlt Ha B1 B2 B3 B4. split; try done.
    - by left.
    - intros x y [?|[-> ->]]; [by left|right; lia].
    - intros x y [Hp|[-> ->]]; [apply B1 in Hp; lia|lia].
    - by left.
    - intros x Hx. apply B2 in Hx. lia.
    - by left.
    - intros x y Hp. apply B3 in Hp. lia.
    - intros x y [?|[-> ->]]; [by apply B4|done].
    - by right.
  Qed.
  Lemma asc : (forall b f, At b f -> AscAt b f) /\ (forall b e, Sq b e -> AscSq b e).
  Proof.
    apply AtSq_ind.
    - intros b Hk Pr Av V Pq K s HS [B0 B1 B2 B3 B4 B5]. rewrite (begins_n _ Hk) in HS.
      destruct (np_pop _ _ _ _ _ _ b HS) as (s' & X & P1 & S1 & M1 & W1); try done.
      + intros Hp. apply B1 in Hp. lia.
      + by apply B5; [|left].
      + intros b1 k _ Hp Hi Hn. apply Hn. by apply B4.
      + exists s', X, [], (withP Pr b (S b)), Av, V, Pq. split; [by apply re_one|]. split; [done|]. split; [done|].
        split; [refine (waits_mono _ _ _ _ _ _ _ (mono_refl _) W1); by left|]. split; [apply pd_nil; lia|]. split; [apply after_at; try done; [lia|by apply at_n]|].
        intros x Hx Hlt. apply B2 in Hx. lia.
    - intros b Hk Hk1 Pr Av V Pq K s HS [B0 B1 B2 B3 B4 B5]. rewrite (begins_s _ Hk) in HS.
      destruct (sp_pop _ _ _ _ _ _ b HS) as (s' & X & P1 & S1 & M1 & W1); try done.
      + intros Hp. apply B1 in Hp. lia.
      + by apply B5; [|right; left].
      + intros b1 k _ Hp Hi Hn. apply Hn. by apply B4.
      + exists s', X, [], (withP Pr b (S (S b))), Av, V, Pq. split; [done|]. split; [done|]. split; [done|].
        split; [refine (waits_mono _ _ _ _ _ _ _ (mono_refl _) W1); by left|]. split; [apply pd_nil; lia|]. split; [apply after_at; try done; [lia|by apply at_s]|].
        intros x Hx Hlt. apply B2 in Hx. lia.
    - intros b e Hk Hs IH Hc Pr Av V Pq K s HS [B0 B1 B2 B3 B4 B5]. rewrite (begins_p _ Hk) in HS. apply sq_lt in Hs as Hlt.
      assert (Hie : ~ isop e) by (unfold LeftPos.isop; intros [?|?]; congruence).
      destruct (pp0_pop _ _ _ _ _ _ b HS) as (sa & P1 & S1 & M1 & T1'); try done.
      { intros Hv. apply B2 in Hv. lia. }
      { by apply B5; [|right; right]. }
      destruct (IH Hie _ _ _ _ _ _ S1) as (sb & X & Pd & Pr' & Av' & V' & Pq' & R2 & S2 & M2 & W2 & D2 & [A1 A2 A3 A4 A5 A6 A7 A8 A9 A10] & F2).
      { split; try done.
        - by right.
        - intros x y Hp. apply B1 in Hp. lia.
        - intros x [Hx| ->]; [|lia]. apply B2 in Hx. lia.
        - intros x y Hp. apply B3 in Hp. lia. }
      assert (X = [pp1 b]) as ->.
      { destruct W2 as (W2 & _). inversion W2; subst; [done|]. naive_solver. }
      destruct (pp1_pop _ _ _ _ _ _ b e S2) as (sc' & X3 & R3 & S3 & M3 & W3); try done.
      { apply A4. by left. }
      { intros Hp. apply A2 in Hp as [Hp|Hp]; [|lia]. apply B1 in Hp. lia. }
      { intros Hp. apply A7 in Hp as [Hp|Hp]; [|lia]. apply B3 in Hp. lia. }
      { destruct W2 as (_ & _ & W2). by inversion W2. }
      { intros b1 k _ Hp Hi Hn. apply Hn. by apply A9. }
      exists sc', X3, Pd, (withP Pr' b (S e)), Av', V', (withP Pq' b (S e)).
      split; [eapply re_step; [exact P1|eapply re_trans; [exact R2|exact R3]]|]. split; [done|].
      split; [eapply mono_trans; [exact M1|eapply mono_trans; [exact M2|exact M3]]|].
      split; [refine (waits_mono _ _ _ _ _ _ _ (mono_refl _) W3); by left|].
      split; [eapply pend_lo; [eapply pend_hi; [eapply pend_mono; [by left|exact M3|exact D2]|lia]|lia]|].
      split.
      + split.
        * intros x y Hp. left. by apply A1.
        * intros x y [Hp|[-> ->]]; [|right; lia]. apply A2 in Hp as [?|?]; [by left|right; lia].
        * intros x y [Hp|[-> ->]]; [|lia]. apply A3 in Hp. lia.
        * intros x Hx. apply A4. by left.
        * intros x Hx. apply A5 in Hx as [[?| ->]|?]; [by left|right; lia|right; lia].
        * intros x Hx. apply A6 in Hx. lia.
        * intros x y [Hp|[-> ->]]; [|right; lia]. apply A7 in Hp as [?|?]; [by left|right; lia].
        * intros x y [Hp|[-> ->]]; [|lia]. apply A8 in Hp. lia.
        * intros x y [Hp|[-> ->]]; [by apply A9|]. intros _. by apply at_p.
        * by right.
      + intros x Hx Hbx f Hf. destruct (F2 x Hx) with f as [? ?]; [lia|done|]. split; [by left|done].
    - intros b e Ha IH Hie Pr Av V Pq K s HS HB.
      destruct (IH _ _ _ _ _ _ HS HB) as (sb & X & Pd & Pr' & Av' & V' & Pq' & R2 & S2 & M2 & W2 & D2 & A & F2).
      destruct (woken_dead _ _ _ _ _ _ _ _ _ S2 Hie) as (s' & R3 & S3 & M3).
      exists s', X, Pd, Pr', Av', V', Pq'. split; [by eapply re_trans|]. split; [done|]. split; [by eapply mono_trans|].
      split; [by eapply waits_mono; [|exact M3|]|]. split; [by eapply pend_mono; [|exact M3|]|]. split; [done|].
      intros x Hx Hle. destruct (decide (x = b)) as [->|]; [|apply F2; [done|lia]].
      intros f Hf. rewrite (at_fun _ _ _ _ Hf Ha). split; [exact (af_here _ _ _ _ _ _ _ _ A)|done].
    - intros b k e Ha IHa Hik Hs IHs Hie Pr Av V Pq K s HS HB.
      destruct (IHa _ _ _ _ _ _ HS HB) as (sb & X & Pd & Pr' & Av' & V' & Pq' & R2 & S2 & M2 & W2 & D2 & A & F2).
      assert (exists o, kinds !! k = Some o /\ (o = s1 \/ o = s2)) as (o & Hk & Ho) by (unfold LeftPos.isop in Hik; naive_solver).
      pose proof (sq_lt _ _ _ Hs) as Hke. pose proof (at_lt _ _ _ Ha) as Hbk.
      assert (Hnv : ~ V' (S k)). { intros Hv. apply (af_Vlt _ _ _ _ _ _ _ _ A) in Hv. lia. }
      destruct (leap _ _ _ _ _ _ b k o X S2) as (sd & Z & R3 & S3 & M3 & T3 & HZ); try done; [exact (af_here _ _ _ _ _ _ _ _ A)|].
      destruct (IHs Hie _ _ _ _ _ _ S3) as (sf & X2 & Pd2 & Pr2 & Av2 & V2 & Pq2 & R4 & S4 & M4 & W4 & D4 & A4 & F4).
      { split; try done.
        - by right.
        - intros x y Hp. apply (af_le _ _ _ _ _ _ _ _ A) in Hp. lia.
        - intros x [Hx| ->]; [|lia]. apply (af_Vlt _ _ _ _ _ _ _ _ A) in Hx. lia.
        - intros x y Hp. apply (af_Pqle _ _ _ _ _ _ _ _ A) in Hp. lia.
        - exact (af_at _ _ _ _ _ _ _ _ A). }
      pose proof (st_I _ _ _ _ _ _ S4) as I4.
      assert (Hpk : Pr2 b k) by (exact (af_Pr _ _ _ _ _ _ _ _ A4 _ _ (af_here _ _ _ _ _ _ _ _ A))).
      assert (X2 = [T2 b k o]) as ->.
      { destruct W4 as (W4 & W4' & _). inversion W4 as [|? Hso|b' k' o' Ha' Hk' Ho']; subst; [unfold LeftPos.isop in Hik; naive_solver|].
        assert (o' = o) as -> by congruence. specialize (W4' b' k o eq_refl). assert (b' = b) as ->; [|done].
        destruct (v_pr _ _ _ _ _ I4 _ _ W4') as (_ & Hv' & _). destruct (v_pr _ _ _ _ _ I4 _ _ Hpk) as (_ & Hv0 & _).
        eapply begin_unique; [| |exact Ha'|exact Ha]; by eapply v_fore. }
      destruct (T2_new _ _ _ _ _ _ b k o e S4) as (sg & X3 & P5 & S5 & M5 & W5); try done.
      { exact (af_here _ _ _ _ _ _ _ _ A4). }
      { intros Hp. apply (af_Pr' _ _ _ _ _ _ _ _ A4) in Hp as [Hp|Hp]; [|lia]. apply (af_le _ _ _ _ _ _ _ _ A) in Hp. lia. }
      { destruct W4 as (_ & _ & W4). inversion W4 as [|? ? H1]; subst. apply H1. unfold T2. cbn [tp_def td_children]. right. left. }
      { intros b1 k1 _ Hp Hi Hn. apply Hn. by apply (af_at _ _ _ _ _ _ _ _ A4). }
      destruct (woken_dead _ _ _ _ _ _ _ _ _ S5 Hie) as (sh & R6 & S6 & M6).
      assert (Mh : mono sd sh) by (eapply mono_trans; [exact M4|eapply mono_trans; [exact M5|exact M6]]).
      exists sh, X3, (Pd2 ++ Z ++ wk X b k ++ Pd), (withP Pr2 b e), (withA Av2 b k e), V2, Pq2.
      split; [eapply re_trans; [exact R2|eapply re_trans; [exact R3|eapply re_trans; [exact R4|eapply re_step; [exact P5|exact R6]]]]|].
      split; [rewrite <- !app_assoc; exact S6|].
      split; [eapply mono_trans; [exact M2|eapply mono_trans; [exact M3|exact Mh]]|].
      split; [eapply waits_mono; [by left|exact M6|exact W5]|].
      split.
      { eapply pend_app; [eapply pend_mono; [by left|eapply mono_trans; [exact M5|exact M6]|exact D4]|].
        assert (Hup : Pend (withP Pr2 b e) sh b (S k) (wk X b k ++ Pd)).
        { apply pd_X; [done|done|by left| |lia|lia|].
          - eapply waits_mono; [|eapply mono_trans; [exact M3|exact Mh]|exact W2]. intros x y Hp. left. by apply (af_Pr _ _ _ _ _ _ _ _ A4).
          - eapply pend_mono; [|eapply mono_trans; [exact M3|exact Mh]|exact D2]. intros x y Hp. left. by apply (af_Pr _ _ _ _ _ _ _ _ A4). }
        destruct HZ as [->|[-> Hz]]; [done|]. by apply pd_T0. }
      split.
      + split.
        * intros x y Hp. left. apply (af_Pr _ _ _ _ _ _ _ _ A4). by apply (af_Pr _ _ _ _ _ _ _ _ A).
        * intros x y [Hp|[-> ->]]; [|right; lia]. apply (af_Pr' _ _ _ _ _ _ _ _ A4) in Hp as [Hp|Hp]; [|right; lia].
          by apply (af_Pr' _ _ _ _ _ _ _ _ A).
        * intros x y [Hp|[-> ->]]; [|lia]. by apply (af_le _ _ _ _ _ _ _ _ A4) in Hp.
        * intros x Hx. apply (af_V _ _ _ _ _ _ _ _ A4). left. by apply (af_V _ _ _ _ _ _ _ _ A).
        * intros x Hx. apply (af_V' _ _ _ _ _ _ _ _ A4) in Hx as [[Hx| ->]|Hx]; [by apply (af_V' _ _ _ _ _ _ _ _ A)|right; lia|right; lia].
        * exact (af_Vlt _ _ _ _ _ _ _ _ A4).
        * intros x y Hp. apply (af_Pq' _ _ _ _ _ _ _ _ A4) in Hp as [Hp|Hp]; [|right; lia]. by apply (af_Pq' _ _ _ _ _ _ _ _ A).
        * exact (af_Pqle _ _ _ _ _ _ _ _ A4).
        * intros x y [Hp|[-> ->]]; [by apply (af_at _ _ _ _ _ _ _ _ A4)|done].
        * by right.
      + intros x Hx Hle. destruct (decide (S k <= x)).
        * intros f Hf. destruct (F4 x Hx l f Hf) as [? ?]. split; [by left|done].
        * assert (Hx' : V' x). { apply (af_V' _ _ _ _ _ _ _ _ A4) in Hx as [[Hx| ->]|Hx]; [done|lia|lia]. }
          intros f Hf. destruct (decide (x = b)) as [->|].
          -- rewrite (at_fun _ _ _ _ Hf Ha). split; [by left|]. intros _. apply (af_V _ _ _ _ _ _ _ _ A4). by right.
          -- destruct (F2 x Hx') with f as [H1 H2]; [lia|done|]. split; [left; by apply (af_Pr _ _ _ _ _ _ _ _ A4)|].
             intros Hi. apply (af_V _ _ _ _ _ _ _ _ A4). left. by apply H2.
  Qed.

  (** * From right to left *)
  Lemma pend_in Pr s lo hi K it : Pend Pr s lo hi K -> it ∈ K -> (exists b k, it = (T0 b s2, ekey b k) /\ kinds !! k = Some s1)
    \/ (exists tp b k X, it = (tp, ekey b k) /\ Wait b X /\ tp ∈ X /\ k < hi).
  Proof.
    intros H. revert it. induction H as [hi Hl|b k hi K Hk H IH|b k X hi K Ha Hi Hp Hw Hlt Hle H IH]; intros it Hin.
    - by apply elem_of_nil in Hin.
    - apply elem_of_cons in Hin as [->|Hin]; [left; eauto|]. by apply IH.
    - apply elem_of_app in Hin as [Hin|Hin].
      + unfold wk in Hin. apply elem_of_list_fmap in Hin as (tp & -> & Hin). right. exists tp, b, k, X. destruct Hw as (Hw & _). done.
      + destruct (IH _ Hin) as [?|(tp & b' & k' & X' & E1 & E2 & E3 & E4)]; [by left|]. right. exists tp, b', k', X'. split; [done|]. split; [done|]. split; [done|]. lia.
  Qed.
  Lemma wait_in b X tp : Wait b X -> tp ∈ X -> (exists p, tp = pp1 p) \/ (exists b' k o, tp = T2 b' k o /\ b = S k).
  Proof.
    intros H Hin. inversion H; subst; [by apply elem_of_nil in Hin| |]; apply elem_of_list_singleton in Hin as ->; [left; eauto|right; eauto 10].
  Qed.
  (** What is not pending has been tried. *)
  Lemma settled Pr Av s lo hi K Y b k o e2 : QS Pr Av (Y ++ K) -> Pend Pr s lo hi K -> kinds !! k = Some o -> o = s1 \/ o = s2 -> Pr b k -> Pr (S k) e2 -> hi <= e2 ->
    (forall it, it ∈ Y -> it <> (T2 b k o, ekey (S k) e2) /\ it <> (T1 b k o, ((o, k), S k)) /\ it <> (T0 b o, ekey b k)) -> Av b k e2.
  Proof.
    intros HQ HP Hk Ho H1 H2 Hle HY. destruct (HQ b k o e2 Hk Ho H1 H2) as [?|[Hi|[Hi|Hi]]]; [done| | |]; exfalso; apply elem_of_app in Hi as [Hi|Hi];
      try (by destruct (HY _ Hi) as (? & ? & ?)); destruct (pend_in _ _ _ _ _ _ HP Hi) as [(b' & k' & E & E')|(tp & b' & k' & X & E & E1 & E2 & E3)].
    - ne.
    - injection E as _ _ <-. lia.
    - ne.
    - injection E. intros. subst. naive_solver.
    - unfold T0, ekey in E. injection E. intros. subst. congruence.
    - injection E as <- _ _. destruct (wait_in _ _ _ E1 E2) as [(p & E)|(b1 & k1 & o1 & E & _)]; ne.
  Qed.

  Definition same_but (Pr Pr' : nat -> nat -> Prop) (k : nat) : Prop := (forall x y, Pr x y -> Pr' x y) /\ (forall x y, Pr' x y -> Pr x y \/ (y = k /\ ~ At x k)).
  Lemma round_pop b k o : kinds !! k = Some o -> o = s1 \/ o = s2 -> forall es Pr Av V Pq K s, St Pr Av V Pq (round b k o es ++ K) s ->
    Pr b k -> Forall (fun e2 => Pr (S k) e2) es -> (forall e2, Pr (S k) e2 -> Pr b e2) -> is_Some (memo s !! ((o, k), S k)) -> Fr Pr k ->
    exists s' Av', reach s s' /\ St Pr Av' V Pq K s' /\ mono s s'.
  Proof.
    intros Hk Ho. induction es as [|e es IH]; intros Pr Av V Pq K s HS Hp Hes Hpe Hm Hf.
    { exists s, Av. split; [apply re_refl|]. split; [exact HS|apply mono_refl]. }
    inversion Hes as [|? ? He Hes']; subst. cbn in HS.
    destruct (T2_old _ _ _ _ _ _ b k o e HS) as (s1' & P1 & S1 & M1); auto.
    destruct (IH _ _ _ _ _ _ S1) as (s' & Av' & R & S2 & M2); auto.
    exists s', Av'. split; [by eapply re_step|]. split; [done|]. by eapply mono_trans.
  Qed.
  (** The operator after a chain that has just been found. *)
  Lemma extend_op Pr Av V Pq K s b k o X : St Pr Av V Pq (woken b k X ++ K) s -> kinds !! k = Some o -> o = s1 \/ o = s2 -> ~ At b k -> Pr b k -> V (S k) ->
    (forall e2, Pr (S k) e2 -> Pr b e2) -> Fr Pr k ->
    exists s' Av', reach s s' /\ St Pr Av' V Pq (wk X b k ++ K) s' /\ mono s s'.
  Proof.
    intros HS Hk Ho Ha Hp Hv He Hf. destruct (decide (o = s1)) as [->|Hne].
    - destruct (T0_op _ _ _ _ _ _ b s1 k HS) as (sa & P1 & S1 & M1 & T1'); [by left|done|].
      destruct (T1_seen _ _ _ _ _ _ b k s1 S1) as (sb & es & P2 & S2 & M2 & Hes); try done.
      destruct (round_pop b k s1 Hk Ho es _ _ _ _ _ _ S2) as (sd & Av' & R3 & S3 & M3); try done; [by apply M2|].
      destruct (T0_no _ _ _ _ _ _ b s2 k S3) as (sf & P4 & S4 & M4); [by right|congruence|].
      exists sf, Av'. split; [eapply re_step; [exact P1|eapply re_step; [exact P2|eapply re_trans; [exact R3|by apply re_one]]]|]. split; [done|].
      intros q Hq. by apply M4, M3, M2, M1.
    - assert (o = s2) as -> by naive_solver. destruct (T0_no _ _ _ _ _ _ b s1 k HS) as (s0 & P0 & S0 & M0); [by left|congruence|].
      destruct (T0_op _ _ _ _ _ _ b s2 k S0) as (sa & P1 & S1 & M1 & T1'); [by right|done|].
      destruct (T1_seen _ _ _ _ _ _ b k s2 S1) as (sb & es & P2 & S2 & M2 & Hes); try done.
      destruct (round_pop b k s2 Hk Ho es _ _ _ _ _ _ S2) as (sd & Av' & R3 & S3 & M3); try done; [by apply M2|].
      exists sd, Av'. split; [eapply re_step; [exact P0|eapply re_step; [exact P1|eapply re_step; [exact P2|exact R3]]]|]. split; [done|].
      intros q Hq. by apply M3, M2, M1, M0.
  Qed.

  Lemma cascade lo k : isop k -> forall n b, b <= n -> forall Pr Av V Pq K s X, St Pr Av V Pq (wk X b k ++ K) s -> waits Pr s b X -> Pend Pr s lo k K ->
    Pr b k -> V (S k) -> Fr Pr k -> (forall b1, Pr b1 k -> b <= b1) ->
    exists s' Pr' Av', reach s s' /\ St Pr' Av' V Pq K s' /\ mono s s' /\ same_but Pr Pr' k.
  Proof.
    intros Hi. assert (exists o, kinds !! k = Some o /\ (o = s1 \/ o = s2)) as (o & Hk & Ho) by (unfold LeftPos.isop in Hi; naive_solver).
    induction n as [|n IH]; intros b Hn Pr Av V Pq K s X HS HW HP Hp Hv HF H2; pose proof (st_I _ _ _ _ _ _ HS) as I.
    { destruct HW as (HW & _). assert (b = 0) as -> by lia. inversion HW; subst. exists s, Pr, Av. split; [apply re_refl|]. split; [exact HS|]. split; [apply mono_refl|]. split; [done|by left]. }
    destruct HW as (HW & HW2 & HW3). inversion HW as [|p Hso|b' j o' Ha Hj Ho']; subst.
    - exists s, Pr, Av. split; [apply re_refl|]. split; [exact HS|]. split; [apply mono_refl|]. split; [done|by left].
    - destruct (pp1_no _ _ _ _ _ _ p k HS) as (s' & P1 & S1 & M1); [naive_solver|].
      exists s', Pr, Av. split; [by apply re_one|]. split; [done|]. split; [done|]. split; [done|by left].
    - specialize (HW2 b' j o' eq_refl). destruct (v_pr _ _ _ _ _ I _ _ Hp) as (_ & _ & Hsq). pose proof (sq_lt _ _ _ Hsq) as Hjk. pose proof (at_lt _ _ _ Ha) as Hbj.
      assert (Hnew : ~ Pr b' k) by (intros Hq; apply H2 in Hq; lia).
      assert (Hex : forall b1 k1, b' = S k1 -> Pr b1 k1 -> isop k1 -> ~ At b1 k1 -> False).
      { intros b1 k1 -> Hq1 Hq2 Hq3. assert (k <= k1) by by apply (HF b1). lia. }
      assert (Hm : is_Some (memo s !! ((o', j), S j))).
      { inversion HW3 as [|? ? Hh]; subst. apply Hh. unfold T2. cbn [tp_def td_children]. right. left. }
      assert (Hall : forall e2, Pr (S k) e2 -> Pr b' e2).
      { intros e2 He. destruct (v_pr _ _ _ _ _ I _ _ He) as (_ & _ & Hs2). apply sq_lt in Hs2.
        assert (A1 : Av (S j) k e2).
        { apply (settled Pr Av s lo k K _ _ _ o _ (st_Q _ _ _ _ _ _ HS) HP); try done; [lia|]. intros it Hit. apply elem_of_list_singleton in Hit as ->.
          split; [|split; ne]. intros Hq. unfold ekey in Hq. injection Hq. intros. lia. }
        destruct (v_av _ _ _ _ _ I _ _ _ A1) as (_ & _ & _ & Hp2).
        assert (A2 : Av b' j e2).
        { apply (settled Pr Av s lo k K _ _ _ o' _ (st_Q _ _ _ _ _ _ HS) HP); try done; [lia|]. intros it Hit. apply elem_of_list_singleton in Hit as ->.
          split; [|split; ne]. intros Hq. unfold ekey in Hq. injection Hq. intros. lia. }
        by destruct (v_av _ _ _ _ _ I _ _ _ A2) as (_ & _ & _ & ?). }
      destruct (T2_new _ _ _ _ _ _ b' j o' k HS) as (s1' & X' & P1 & S1 & M1 & W1); try done.
      assert (HF' : Fr (withP Pr b' k) k). { intros b1 e1 [Hq|[-> ->]] Hna Hie; [by apply (HF b1)|done]. }
      assert (Hna : ~ At b' k) by (eapply at_not; [exact Ha|lia]).
      destruct (extend_op _ _ _ _ _ _ b' k o X' S1) as (s2' & Av2 & R2 & S2 & M2); try done.
      { by right. }
      { intros e2 [He|[He _]]; [left; by apply Hall|]. lia. }
      assert (M12 : mono s s2') by (by eapply mono_trans).
      destruct (IH b' ltac:(lia) _ _ _ _ _ _ X' S2) as (s' & Pr' & Av' & R3 & S3 & M3 & [B1 B2]); try done.
      { eapply waits_mono; [|exact M2|exact W1]. by left. }
      { eapply pend_mono; [|exact M12|exact HP]. by left. }
      { by right. }
      { intros b1 [Hq|[-> _]]; [|done]. apply H2 in Hq. lia. }
      exists s', Pr', Av'. split; [eapply re_step; [exact P1|by eapply re_trans]|]. split; [done|]. split; [by eapply mono_trans|]. split.
      + intros x y Hq. apply B1. by left.
      + intros x y Hq. destruct (B2 _ _ Hq) as [[?|[-> ->]]|?]; [by left|right; done|by right].
  Qed.

  Lemma desc lo hi K : forall s0 Pr0, Pend Pr0 s0 lo hi K -> forall Pr Av V Pq s, St Pr Av V Pq K s -> (forall x y, Pr0 x y -> Pr x y) -> mono s0 s ->
    (forall b1 e1, Pr b1 e1 -> ~ At b1 e1 -> isop e1 -> hi <= e1) -> (forall x f, V x -> At x f -> isop f -> V (S f)) ->
    exists s' Pr' Av', reach s s' /\ St Pr' Av' V Pq [] s' /\ mono s s' /\ forall x y, Pr x y -> Pr' x y.
  Proof.
    intros s0 Pr0 H. induction H as [hi Hl|b k hi K Hk H IH|b k X hi K Ha Hi Hp Hw Hlt Hle H IH]; intros Pr Av V Pq s HS HP HM H1 HV.
    - exists s, Pr, Av. split; [apply re_refl|]. split; [exact HS|]. split; [apply mono_refl|done].
    - destruct (T0_no _ _ _ _ _ _ b s2 k HS) as (s1' & P1 & S1 & M1); [by right|congruence|].
      destruct (IH _ _ _ _ _ S1) as (s' & Pr' & Av' & R2 & S2 & M2 & B); try done; [by eapply mono_trans|].
      exists s', Pr', Av'. split; [by eapply re_step|]. split; [done|]. split; [by eapply mono_trans|done].
    - pose proof (st_I _ _ _ _ _ _ HS) as I. assert (HF : Fr Pr k). { intros b1 e1 Q1 Q2 Q3. assert (hi <= e1) by by apply (H1 b1). lia. }
      assert (Hpk : Pr b k) by by apply HP.
      destruct (v_pr _ _ _ _ _ I _ _ Hpk) as (_ & Hv & _).
      destruct (cascade lo k Hi b b (le_n b) _ _ _ _ _ _ X HS) as (s1' & Pr1 & Av1 & R1 & S1 & M1 & [B1 B2]); try done.
      { by eapply waits_mono. }
      { by eapply pend_mono. }
      { by apply (HV b). }
      { intros b1 Hq. destruct (v_pr _ _ _ _ _ I _ _ Hq) as (_ & Hv1 & Hs1). destruct (sq_first _ _ _ Hs1) as (f & Hf & Hfle & _).
        destruct (decide (f = k)) as [->|Hne].
        - assert (b = b1) as ->; [|done]. eapply begin_unique; [| |exact Ha|exact Hf]; by eapply v_fore.
        - assert (hi <= k); [|lia]. apply (H1 b1); [done| |done]. by eapply at_not. }
      destruct (IH _ _ _ _ _ S1) as (s' & Pr' & Av' & R2 & S2 & M2 & B); try done.
      { intros x y Hq. by apply B1, HP. }
      { by eapply mono_trans. }
      { intros b1 e1 Q1 Q2 Q3. destruct (B2 _ _ Q1) as [Q|[-> _]]; [|done]. assert (hi <= e1) by by apply (H1 b1). lia. }
      exists s', Pr', Av'. split; [by eapply re_trans|]. split; [done|]. split; [by eapply mono_trans|]. intros x y Hq. by apply B, B1.
  Qed.

  (** * The whole run *)
  Lemma inv_init : Inv (fun _ _ => False) (fun _ _ _ => False) (fun _ => False) (fun _ _ => False) pst_init.
  Proof.
    split; unfold pst_init, lget, TI, tst; cbn [memo markers partials queued].
    1: intros b e d; by rewrite lookup_empty.
    1-3: done.
    1: intros b d; rewrite lookup_empty; by intros ?%elem_of_nil.
    1: done.
    1: done.
    1: intros b _; by rewrite lookup_empty.
    1-2: intros b; split; [by intros ?%not_elem_of_empty|done].
    1: done.
    1: intros b _; by rewrite lookup_empty.
    1: intros b e d; by rewrite lookup_empty.
    1: intros b d; rewrite lookup_empty; by intros ?%elem_of_nil.
    1: intros x b e d _; by rewrite lookup_empty.
    intros t p Ht. unfold lget. cbn [memo markers partials]. rewrite !lookup_empty. split; [by left|]. split; [done|].
    intros e d. by rewrite lookup_empty.
  Qed.
  Lemma reach_run s s' : reach s s' -> stack s' = [] -> exists F, forall n f, F <= n -> F <= f -> run n prods nonterms kinds f s = Ok s'.
  Proof.
    induction 1 as [s|s s1' s' (base & ext & rest & F & Hk & Hu) _ IH]; intros Hs.
    - exists 0. intros n f _ _. destruct f; cbn [run]; by rewrite Hs.
    - destruct (IH Hs) as [G HG]. exists (S (F + G)). intros n f Hn Hf. destruct f as [|f]; [lia|]. cbn [run]. rewrite Hk, Hu by lia.
      cbn [rbind]. apply HG; lia.
  Qed.

  (** The memo at the end: every chain is split at its last best operator. *)
  Record leftmemo (m : gmap key tdef) (V : nat -> Prop) : Prop := {
    lm_0 : V 0;
    lm_leaf : forall t p e d, tmn t -> m !! ((t, p), e) = Some d -> e = S p /\ d = leaf t p /\ kinds !! p = Some t;
    lm_kids : forall k d ck, m !! k = Some d -> ck ∈ td_children d -> is_Some (m !! ck);
    lm_at : forall b e, V b -> At b e -> exists d, m !! ekey b e = Some d /\ atd b e d;
    lm_bin : forall b e, V b -> Sq b e -> ~ At b e -> exists k o, m !! ekey b e = Some (C b k o e) /\ kinds !! k = Some o /\ (o = s1 \/ o = s2)
      /\ Sq b k /\ V (S k) /\ Sq (S k) e /\ forall k', isop k' -> Sq b k' -> Sq (S k') e -> beats k' k;
    lm_P : forall b e d, m !! ((sP, b), e) = Some d -> exists e0, e = S e0 /\ d = PD b e0;
    lm_E : forall b e, is_Some (m !! ekey b e) -> V b /\ Sq b e
  }.
  Lemma left_run M : Sq 0 M -> ~ isop M -> exists sa s' V F, (forall n, F <= n -> add_prods n prods nonterms kinds n (sE, 0) pst_init = Ok sa)
    /\ (forall n, F <= n -> run n prods nonterms kinds n sa = Ok s') /\ leftmemo (memo s') V.
  Proof.
    intros HM Hi. destruct (visit 0 pst_init) as (sa & A1 & A2 & A3 & A4).
    { exact (v_TI _ _ _ _ _ inv_init). }
    { unfold pst_init. cbn. apply not_elem_of_empty. }
    { unfold pst_init. cbn. apply not_elem_of_empty. }
    { unfold pst_init, lget. cbn. by rewrite lookup_empty. }
    { unfold pst_init, lget. cbn. by rewrite lookup_empty. }
    assert (I0 : Inv (fun _ _ => False) (fun _ _ _ => False) (fun x => False \/ x = 0) (fun _ _ => False) sa).
    { refine (inv_visit _ _ _ _ pst_init pst_init sa 0 [] inv_init _ eq_refl eq_refl eq_refl _ _ _ _ _ A2); [tauto| |done| |done|constructor].
      - unfold pst_init, lget. cbn. by rewrite lookup_empty.
      - constructor. }
    assert (S0 : St (fun _ _ => False) (fun _ _ _ => False) (fun x => False \/ x = 0) (fun _ _ => False) (begins 0 ++ []) sa).
    { split; [done|done|]. by intros b k o e2. }
    destruct (proj2 asc _ _ HM Hi _ _ _ _ _ _ S0) as (sb & X & Pd & Pr & Av & V & Pq & R1 & S1 & M1 & W1 & D1 & Af & F1).
    { split; try done; [by right|intros x [[]| ->]; lia]. }
    assert (X = []) as -> by (destruct W1 as (W1 & _); by inversion W1). cbn [wk map app] in S1. rewrite app_nil_r in S1.
    destruct (desc 0 M Pd sb Pr D1 _ _ _ _ _ S1) as (s' & Pr' & Av' & R2 & S2 & M2 & B); try done.
    { apply mono_refl. }
    { intros b1 e1 Q1 Q2 Q3. destruct Q2. by apply (af_at _ _ _ _ _ _ _ _ Af). }
    { intros x f Hx Hf Hif. by apply (F1 x Hx ltac:(lia) f Hf). }
    destruct S2 as [I2 K2 Q2].
    destruct (reach_run sa s' (re_trans _ _ _ R1 R2) K2) as [F HF].
    exists sa, s', V, (F + 4). split; [intros n Hn; apply A1; lia|]. split; [intros n Hn; apply HF; lia|].
    assert (Hcl : forall b k e2, isop k -> Pr' b k -> Pr' (S k) e2 -> Av' b k e2).
    { intros b k e2 Hik H1 H2. assert (exists o, kinds !! k = Some o /\ (o = s1 \/ o = s2)) as (o & Hk & Ho) by (unfold LeftPos.isop in Hik; naive_solver).
      destruct (Q2 b k o e2 Hk Ho H1 H2) as [?|[Hn|[Hn|Hn]]]; [done|by apply elem_of_nil in Hn..]. }
    assert (Hfull : forall x f, V x -> At x f -> Pr' x f /\ (isop f -> V (S f))).
    { intros x f Hx Hf. destruct (F1 x Hx ltac:(lia) f Hf). split; [by apply B|done]. }
    assert (Hall : (forall b e, At b e -> True) /\ (forall b e, Sq b e -> V b -> Pr' b e /\ (isop e -> V (S e)))).
    { apply AtSq_ind; try done.
      - intros b e Ha _ Hv. by apply Hfull.
      - intros b k e Ha _ Hk Hs IH Hv. destruct (Hfull b k Hv Ha) as [H1 H2]. destruct (IH (H2 Hk)) as [H3 H4]. split; [|done].
        pose proof (Hcl b k e Hk H1 H3) as Hav. by destruct (v_av _ _ _ _ _ I2 _ _ _ Hav) as (_ & _ & _ & ?). }
    split.
    - apply (af_V _ _ _ _ _ _ _ _ Af). by right.
    - intros t p e d Ht Hd. destruct (v_TI _ _ _ _ _ I2 t p Ht) as (H0 & _ & H3). pose proof (H3 _ _ Hd) as ->.
      destruct H0 as [[H1 _]|(H1 & H2 & _)]; [by rewrite H1 in Hd|]. rewrite H2 in Hd. by injection Hd as <-.
    - intros [[x b] e] d ck Hd Hck. destruct (all_kids _ _ _ _ _ _ _ I2 Hd x b e eq_refl) as [[_ Hk]|[_ Hn]]; [by apply Hk|].
      rewrite Hn in Hck. by apply elem_of_nil in Hck.
    - intros b e Hv Ha. destruct (Hfull b e Hv Ha) as [Hp _]. destruct (v_pr _ _ _ _ _ I2 _ _ Hp) as ([d Hd] & _).
      exists d. split; [done|]. destruct (v_memo _ _ _ _ _ I2 _ _ _ Hd) as [_ [[_ ?]|[? _]]]; done.
    - intros b e Hv Hs Hna. destruct (proj2 Hall b e Hs Hv) as [Hp _]. destruct (v_pr _ _ _ _ _ I2 _ _ Hp) as ([d Hd] & _).
      destruct (v_memo _ _ _ _ _ I2 _ _ _ Hd) as [_ [[? _]|(_ & k & o & -> & Hk & Ho & Hav & Hb)]]; [done|].
      destruct (v_av _ _ _ _ _ I2 _ _ _ Hav) as (_ & H1 & H2 & _). destruct (v_pr _ _ _ _ _ I2 _ _ H1) as (_ & _ & Hs1).
      destruct (v_pr _ _ _ _ _ I2 _ _ H2) as (_ & Hv2 & Hs2). exists k, o. split; [done|]. split; [done|]. split; [done|]. split; [done|]. split; [done|]. split; [done|].
      intros k' Hik Hs' Hs''. apply Hb. destruct (proj2 Hall b k' Hs' Hv) as [H3 H4]. apply Hcl; [done|done|]. apply (proj2 Hall); auto.
    - intros b e d Hd. by apply (v_pm _ _ _ _ _ I2) in Hd as [_ ?].
    - intros b e [d Hd]. destruct (v_memo _ _ _ _ _ I2 _ _ _ Hd) as [Hp _]. by destruct (v_pr _ _ _ _ _ I2 _ _ Hp) as (_ & ? & ?).
  Qed.
End M.
