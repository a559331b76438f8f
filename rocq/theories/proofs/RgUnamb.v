(** A sequence of tokens spells at most one grammar. *)
From Coq Require Import String.
From Verif.spec Require Import RegexGramText.
Local Open Scope nat_scope.
Local Open Scope list_scope.

Definition not_first (ks : list gostring) (r : list lexeme) : Prop :=
  match r with [] => True | x :: _ => lx_kind x ∉ ks end.
Definition quants := [L "optional"; L "repeats"].
Definition joints := [L "optional"; L "repeats"; L "or"].
Definition ends (r : list lexeme) : Prop :=
  match r with [] => True | x :: _ => lx_kind x = L ")" \/ lx_kind x = L "nl" end.

Ltac nk := apply (bool_decide_unpack _); vm_compute; exact I.
Lemma ends_joints r : ends r -> not_first joints r.
Proof. destruct r as [|x r]; [done|]. cbn. intros [->| ->]; nk. Qed.
Lemma joints_quants r : not_first joints r -> not_first quants r.
Proof. destruct r as [|x r]; [done|]. cbn. intros H H'. apply H. unfold joints, quants in *. set_solver. Qed.
Lemma or_quants b r : lx_kind b = L "or" -> not_first quants (b :: r).
Proof. cbn. intros ->. nk. Qed.
Lemma or_not_joints b r : lx_kind b = L "or" -> ~ not_first joints (b :: r).
Proof. cbn. intros -> H. apply H. nk. Qed.

Lemma spells_starts e u : spells_rx e u -> exists x v, u = x :: v /\ (lx_kind x = L "symbol" \/ lx_kind x = L "(").
Proof.
  revert e u. apply (spells_rx_mut
    (fun e u _ => exists x v, u = x :: v /\ (lx_kind x = L "symbol" \/ lx_kind x = L "("))
    (fun _ _ _ => True) (fun _ _ _ => True)); intros; try exact I.
  - eauto.
  - eauto.
  - destruct H as (x & v & -> & Hx). cbn [app]. eauto.
  - destruct H as (x & v & -> & Hx). cbn [app]. eauto.
  - destruct H as (x & w & -> & Hx). cbn [app]. eauto.
Qed.
Lemma seq_starts es u r : spells_seq es u -> ends r ->
  match es with [] => ends (u ++ r) | _ => ~ ends (u ++ r) /\ not_first joints (u ++ r) end.
Proof.
  intros H Hr. inversion H as [|e u1 es' v He Hes]; subst; [done|].
  apply spells_starts in He as (x & w & -> & Hx). cbn [app ends not_first].
  destruct Hx as [->| ->]; split; [by intros [|]|nk|by intros [|]|nk].
Qed.

Definition mk (es : list rx) : rx := match es with [e] => e | _ => XOr es end.
Lemma bar_ne es u : spells_bar es u -> es <> [].
Proof. by inversion 1. Qed.
Lemma bar_no_bar es u : spells_bar es u -> Forall no_bar es.
Proof. induction 1; by repeat constructor. Qed.
Lemma mk_inj es es' u u' : spells_bar es u -> spells_bar es' u' -> mk es = mk es' -> es = es'.
Proof.
  intros H H' E. apply bar_no_bar in H as Hn, H' as Hn'. apply bar_ne in H as H0, H' as H0'.
  destruct es as [|e [|e2 es]], es' as [|e' [|e2' es']]; cbn in E; try done; try congruence.
  - subst e. by inversion Hn as [|? ? Hb].
  - subst e'. by inversion Hn' as [|? ? Hb].
Qed.
Lemma rx_bar e u : spells_rx e u -> exists es, spells_bar es u /\ e = mk es.
Proof.
  intros H. destruct e as [s|e|e|l|l];
    try (match goal with H : spells_rx ?e _ |- _ => exists [e]; split; [apply spb_one; [exact I|exact H]|reflexivity] end).
  inversion H as [| | | |e u0 b l' w Hn He Hb Hl]; subst. exists (e :: l'). split; [by constructor|].
  by destruct Hl.
Qed.

(** What an expression without bar starts with. *)
Lemma simple_atom e u : no_bar e -> spells_rx e u -> exists a ua tail,
  atom a /\ spells_rx a ua /\ u = ua ++ tail
  /\ ((tail = [] /\ e = a) \/ (exists q, tail = [q] /\ lx_kind q = L "optional" /\ e = XOpt a)
      \/ exists q, tail = [q] /\ lx_kind q = L "repeats" /\ e = XRep a).
Proof.
  intros Hn H. inversion H; subst.
  - exists (XSym (lx_val x)), [x], []. rewrite app_nil_r. split; [exact I|]. by split; [|auto].
  - exists (XGroup l), (o :: u0 ++ [c]), []. rewrite app_nil_r. split; [exact I|]. by split; [|auto].
  - exists e0, u0, [q]. split_and!; [done|done|done|]. right; left. eauto.
  - exists e0, u0, [q]. split_and!; [done|done|done|]. right; right. eauto.
  - done.
Qed.

Section Step.
  Variable n : nat.
  Hypothesis HA : forall e u e' u' r r', length u <= n -> atom e -> atom e' -> spells_rx e u -> spells_rx e' u' ->
    u ++ r = u' ++ r' -> e = e' /\ u = u'.

  Lemma simple_unique e u e' u' r r' : length u <= n -> no_bar e -> no_bar e' -> spells_rx e u -> spells_rx e' u' ->
    not_first quants r -> not_first quants r' -> u ++ r = u' ++ r' -> e = e' /\ u = u'.
  Proof.
    intros Hl Hn Hn' H H' Hr Hr' E.
    apply simple_atom in H as (a & ua & tl & Ha & Hs & -> & HT); [|done].
    apply simple_atom in H' as (a' & ua' & tl' & Ha' & Hs' & -> & HT'); [|done].
    rewrite <- !app_assoc in E. rewrite app_length in Hl.
    destruct (HA a ua a' ua' (tl ++ r) (tl' ++ r')) as [<- <-]; [lia|done..|].
    apply app_inv_head in E.
    destruct HT as [[-> ->]|[(q & -> & Hq & ->)|(q & -> & Hq & ->)]],
      HT' as [[-> ->]|[(q' & -> & Hq' & ->)|(q' & -> & Hq' & ->)]]; cbn [app] in E; subst; try done.
    - exfalso. apply Hr. rewrite Hq'. nk.
    - exfalso. apply Hr. rewrite Hq'. nk.
    - exfalso. apply Hr'. rewrite Hq. nk.
    - by injection E as -> _.
    - injection E as -> _. by rewrite Hq in Hq'.
    - exfalso. apply Hr'. rewrite Hq. nk.
    - injection E as -> _. by rewrite Hq in Hq'.
    - by injection E as -> _.
  Qed.
  Lemma bar_unique es u : spells_bar es u -> forall es' u' r r', length u <= n -> spells_bar es' u' ->
    not_first joints r -> not_first joints r' -> u ++ r = u' ++ r' -> es = es' /\ u = u'.
  Proof.
    induction 1 as [e u Hn He|e u b l v Hn He Hb Hl IH]; intros es' u' r r' Hlen H' Hr Hr' E.
    - inversion H' as [e1 u1 Hn1 He1|e1 u1 b1 l1 v1 Hn1 He1 Hb1 Hl1]; subst.
      + destruct (simple_unique e u e1 u' r r') as [<- <-]; auto using joints_quants.
      + rewrite <-app_assoc in E. cbn [app] in E.
        destruct (simple_unique e u e1 u1 r (b1 :: v1 ++ r')) as [<- <-]; auto using joints_quants, or_quants.
        apply app_inv_head in E. subst r. by apply or_not_joints in Hr.
    - rewrite <-app_assoc in E. cbn [app] in E. rewrite app_length in Hlen. cbn [length] in Hlen.
      inversion H' as [e1 u1 Hn1 He1|e1 u1 b1 l1 v1 Hn1 He1 Hb1 Hl1]; subst.
      + destruct (simple_unique e u e1 u' (b :: v ++ r) r') as [<- <-]; auto using joints_quants, or_quants; [lia|].
        apply app_inv_head in E. subst r'. by apply or_not_joints in Hr'.
      + rewrite <-app_assoc in E. cbn [app] in E.
        destruct (simple_unique e u e1 u1 (b :: v ++ r) (b1 :: v1 ++ r')) as [<- <-]; auto using joints_quants, or_quants; [lia|].
        apply app_inv_head in E. injection E as <- E.
        destruct (IH l1 v1 r r') as [<- <-]; [lia|done..|]. done.
  Qed.
  Lemma rx_unique e u e' u' r r' : length u <= n -> spells_rx e u -> spells_rx e' u' ->
    not_first joints r -> not_first joints r' -> u ++ r = u' ++ r' -> e = e' /\ u = u'.
  Proof.
    intros Hl H H' Hr Hr' E. apply rx_bar in H as (es & H & ->). apply rx_bar in H' as (es' & H' & ->).
    destruct (bar_unique es u H es' u' r r') as [<- <-]; done.
  Qed.
  Lemma seq_unique es u : spells_seq es u -> forall es' u' r r', length u <= n -> spells_seq es' u' ->
    ends r -> ends r' -> u ++ r = u' ++ r' -> es = es' /\ u = u'.
  Proof.
    induction 1 as [|e u es v He Hes IH]; intros es' u' r r' Hlen H' Hr Hr' E.
    - pose proof (seq_starts _ _ _ H' Hr') as S. destruct es' as [|e' es']; [by inversion H'|].
      rewrite <-E in S. by destruct S.
    - rewrite app_length in Hlen. rewrite <-app_assoc in E.
      inversion H' as [|e1 u1 es1 v1 He1 Hes1]; subst.
      + exfalso. cbn [app] in E. destruct (seq_starts (e :: es) (u ++ v) r) as [S _]; [by constructor|done|].
        apply S. rewrite <-app_assoc, E. exact Hr'.
      + rewrite <-app_assoc in E.
        destruct (rx_unique e u e1 u1 (v ++ r) (v1 ++ r')) as [<- <-]; [lia|done|done| | |done|].
        * pose proof (seq_starts _ _ _ Hes Hr) as S. destruct es; [by apply ends_joints|by destruct S].
        * pose proof (seq_starts _ _ _ Hes1 Hr') as S. destruct es1; [by apply ends_joints|by destruct S].
        * apply app_inv_head in E. destruct (IH es1 v1 r r') as [<- <-]; [lia|done..|]. done.
  Qed.
End Step.

Lemma atom_unique n : forall e u e' u' r r', length u <= n -> atom e -> atom e' -> spells_rx e u -> spells_rx e' u' ->
  u ++ r = u' ++ r' -> e = e' /\ u = u'.
Proof.
  induction n as [|n IH]; intros e u e' u' r r' Hl Ha Ha' H H' E.
  { apply spells_starts in H as (x & v & -> & _). cbn in Hl. lia. }
  inversion H as [x Hx|o l w c Ho Hl1 Hc| | |]; subst; try done;
  inversion H' as [x' Hx'|o' l' w' c' Ho' Hl1' Hc'| | |]; subst; try done.
  - by injection E as <- _.
  - cbn [app] in E. injection E as -> _. by rewrite Hx in Ho'.
  - cbn [app] in E. injection E as -> _. by rewrite Ho in Hx'.
  - cbn [app] in E. injection E as <- E. cbn [length] in Hl. rewrite app_length in Hl.
    rewrite <- !app_assoc in E. cbn [app] in E.
    destruct (seq_unique n IH l w Hl1 l' w' (c :: r) (c' :: r')) as [<- <-]; [lia|done|by left|by left|done|].
    apply app_inv_head in E. by injection E as <- _.
Qed.
Lemma seq_det es u es' u' r r' : spells_seq es u -> spells_seq es' u' -> ends r -> ends r' -> u ++ r = u' ++ r' ->
  es = es' /\ u = u'.
Proof. intros H H1 H2 H3 E. exact (seq_unique (length u) (atom_unique (length u)) es u H es' u' r r' (le_n _) H1 H2 H3 E). Qed.

Lemma prods_ends cur R u post : spells_prods cur R u -> blank post -> ends (u ++ post).
Proof.
  intros H [->|(n & -> & Hn)]; inversion H; subst; cbn; auto.
Qed.
Lemma prods_starts_nl cur R u : spells_prods cur R u -> R <> [] -> exists n v, u = n :: v /\ lx_kind n = L "nl"
  /\ exists x v', v = x :: v' /\ lx_kind x <> L "nl".
Proof.
  intros H HR. inversion H; subst; [done|..].
  - eexists _, _. split; [done|]. split; [done|]. eexists _, _. split; [done|]. by rewrite H1.
  - eexists _, _. split; [done|]. split; [done|]. eexists _, _. split; [done|]. by rewrite H1.
Qed.
Lemma prods_unique cur R u : spells_prods cur R u -> forall R' u' post post', spells_prods cur R' u' ->
  blank post -> blank post' -> u ++ post = u' ++ post' -> R = R'.
Proof.
  induction 1 as [cur|cur n s a es u R v Hn Hs Ha Hes Hr IH|cur n a es u R v Hn Ha Hes Hr IH]; intros R' u' post post' H' HB HB' E.
  - destruct R' as [|[k es] R']; [done|]. exfalso.
    apply prods_starts_nl in H' as (n & v & -> & Hn & x & v' & -> & Hx); [|done]. cbn [app] in E.
    destruct HB as [->|(m & -> & Hm)]; inversion E.
  - inversion H' as [|cur' n' s' a' es' u1 R1 v1 Hn' Hs' Ha' Hes' Hr'|cur' n' a' es' u1 R1 v1 Hn' Ha' Hes' Hr']; subst.
    + exfalso. destruct HB' as [->|(m & -> & Hm)]; cbn [app] in E; inversion E.
    + cbn [app] in E. rewrite <- !app_assoc in E. injection E as <- <- <- E.
      destruct (seq_det es u es' u1 (v ++ post) (v1 ++ post')) as [<- <-]; [done..|by eapply prods_ends|by eapply prods_ends|done|].
      apply app_inv_head in E. f_equal. exact (IH R1 v1 post post' Hr' HB HB' E).
    + exfalso. cbn [app] in E. injection E as _ -> _. by rewrite Hs in Ha'.
  - inversion H' as [|cur' n' s' a' es' u1 R1 v1 Hn' Hs' Ha' Hes' Hr'|cur' n' a' es' u1 R1 v1 Hn' Ha' Hes' Hr']; subst.
    + exfalso. destruct HB' as [->|(m & -> & Hm)]; cbn [app] in E; inversion E.
    + exfalso. cbn [app] in E. injection E as _ -> _. by rewrite Ha in Hs'.
    + cbn [app] in E. rewrite <- !app_assoc in E. injection E as <- <- E.
      destruct (seq_det es u es' u1 (v ++ post) (v1 ++ post')) as [<- <-]; [done..|by eapply prods_ends|by eapply prods_ends|done|].
      apply app_inv_head in E. f_equal. exact (IH R1 v1 post post' Hr' HB HB' E).
Qed.
Theorem spells_unique R R' lxs : spells R lxs -> spells R' lxs -> R = R'.
Proof.
  intros (HR & pre & u & post & HB & HB1 & H & ->) (HR' & pre' & u' & post' & HB' & HB1' & H' & E).
  assert (pre = pre' -> R = R') as Hd.
  { intros <-. apply app_inv_head in E. exact (prods_unique None R u H R' u' post post' H' HB1 HB1' E). }
  apply Hd. clear Hd. pose proof (prods_starts_nl _ _ _ H HR) as (n & v & -> & Hn & x & w & -> & Hx).
  pose proof (prods_starts_nl _ _ _ H' HR') as (n' & v' & -> & Hn' & x' & w' & -> & Hx').
  destruct HB as [->|(m & -> & Hm)], HB' as [->|(m' & -> & Hm')]; cbn [app] in E; try done.
  - injection E as _ -> _. by rewrite Hn' in Hx.
  - injection E as _ <- _. by rewrite Hn in Hx'.
  - by injection E as <- _.
Qed.
