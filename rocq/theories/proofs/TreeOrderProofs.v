(** A packrat tree whose root splits its lexemes in the best way is not beaten. *)
From Coq Require Import Lia.
From Verif.spec Require Import Outcome CFG PackratSpec TreeOrder.
From Verif.model Require Import Packrat.
From Verif.proofs Require Import PackratThms.

Section S.
  Variable g : grammar.

  Lemma tree_root s t l : is_tree g s t l -> lx_kind (pn_lexeme t) = s.
  Proof. intros H. by destruct H. Qed.
  Lemma trees_kinds p cs l : are_trees g p cs l -> map (fun c => lx_kind (pn_lexeme c)) cs = p.
  Proof. intros H. induction H as [|s r c cs u v H _ IH]; [done|]. cbn [map]. by rewrite IH, (tree_root _ _ _ H). Qed.

  Lemma tree_facts s t l : is_tree g s t l -> width g t = length l /\ derives g s (map lx_kind l).
  Proof.
    intros H.
    refine (is_tree_mut g (fun s t l _ => width g t = length l /\ derives g s (map lx_kind l))
      (fun p cs l _ => sum_list_with (width g) cs = length l /\ derives_seq g p (map lx_kind l)) _ _ _ _ s t l H); clear.
    - intros lx E. cbn [width]. rewrite E. split; [done|by constructor].
    - intros lx ps p cs l E Hin _ [IH1 IH2]. cbn [width]. rewrite E. split; [done|]. by apply (der_nt g _ ps p).
    - split; [done|constructor].
    - intros s r c cs u v _ [H1 H2] _ [H3 H4]. cbn [sum_list_with]. rewrite app_length, map_app. split; [lia|by constructor].
  Qed.

  (** The lexemes under each child. *)
  Lemma trees_parts p cs l : are_trees g p cs l ->
    exists lss, concat lss = l /\ Forall2 (fun c ls => is_tree g (lx_kind (pn_lexeme c)) c ls) cs lss.
  Proof.
    intros H. induction H as [|s r c cs u v H _ (lss & IH1 & IH2)]; [by exists []|].
    exists (u :: lss). cbn [concat]. rewrite IH1. split; [done|]. constructor; [|done]. by rewrite (tree_root _ _ _ H).
  Qed.
  Lemma ranked_is : forall s t l, ranked_tree g s t l -> is_tree g s t l.
  Proof.
    fix IH 4. intros s t l H. destruct H as [lx E|lx ps k p cs lss E Ek Hc _ _].
    - by constructor.
    - apply (tree_node g lx ps p); [done|by apply elem_of_list_lookup_2 in Ek|].
      clear Ek E. revert p cs lss Hc. fix IH2 4. intros p cs lss Hc. destruct Hc as [|s r c cs u v Hc Hcs]; cbn [concat].
      + constructor.
      + constructor; [by apply IH|by apply IH2].
  Qed.

  Notation T := (fun c ls => is_tree g (lx_kind (pn_lexeme c)) c ls).
  Notation kn := (map lx_kind).
  Notation kindof := (fun c => lx_kind (pn_lexeme c)).

  Lemma trees_splits cs lss : Forall2 T cs lss -> splits g (map kindof cs) (kn (concat lss)) (map kn lss).
  Proof.
    intros H. split; [by rewrite concat_map|]. induction H as [|c ls cs lss H _ IH]; cbn [map]; constructor; [|done].
    by apply tree_facts in H as [_ ?].
  Qed.
  Lemma splits_seq p w parts : splits g p w parts -> derives_seq g p w.
  Proof. intros [<- H]. induction H as [|s u p parts H _ IH]; cbn [concat]; by constructor. Qed.

  (** Children that cover the same places all along are tied. *)
  Lemma same_parts cs : forall lss cs2 lss2 i v, Forall2 T cs lss -> Forall2 T cs2 lss2 -> map kn lss2 = map kn lss ->
    compare_seq g i cs2 i cs v -> v = Tied.
  Proof.
    induction cs as [|c cs IH]; intros lss cs2 lss2 i v H H2 E Hc.
    - by inversion Hc.
    - apply Forall2_cons_inv_l in H as (l & lss' & Hl & H & ->).
      destruct lss2 as [|l2 lss2']; [discriminate E|]. apply Forall2_cons_inv_r in H2 as (c2 & cs2' & Hl2 & H2 & ->).
      cbn [map] in E. injection E as E1 E2. apply tree_facts in Hl as [W _]. apply tree_facts in Hl2 as [W2 _].
      assert (EW : width g c2 = width g c) by (rewrite W, W2, <- (map_length lx_kind l), <- E1; by rewrite map_length).
      inversion Hc; subst; try (exfalso; naive_solver); [].
      match goal with h : compare_seq _ _ _ _ _ _ |- _ => rewrite EW in h; by apply (IH lss' cs2' lss2' _ _ H H2 E2) in h end.
  Qed.

  (** The production of a node derives what is below it. *)
  Lemma made_derives s t l lx cs ps k : is_tree g s t l -> t = PN lx cs -> g_prods g (lx_kind lx) = Some ps -> made ps k cs ->
    exists p, ps !! k = Some p /\ derives_seq g p (kn l).
  Proof.
    intros H -> E [Hk _]. inversion H as [lx' E'|lx' ps' p cs' l' E' Hin Hcs]; subst; [congruence|].
    exists p. rewrite Hk, (trees_kinds _ _ _ Hcs). split; [done|].
    apply trees_parts in Hcs as Hp. destruct Hp as (lss & <- & Hl). rewrite <- (trees_kinds _ _ _ Hcs).
    pose proof (trees_splits _ _ Hl) as Hs. by apply splits_seq in Hs.
  Qed.

  (** A child that comes before the other decides. *)
  Lemma before_worse i2 c2 i c l2 l v : T c2 l2 -> T c l -> lx_kind (pn_lexeme c2) = lx_kind (pn_lexeme c) ->
    before g (lx_kind (pn_lexeme c)) (kn l) (kn l2) -> compares g i2 c2 i c v -> v = Worse.
  Proof.
    intros H2 H Ek (ps & Eps & Hb) Hc.
    assert (Hq : forall lx cs lx2 cs2 k k2, c = PN lx cs -> c2 = PN lx2 cs2 -> made ps k cs -> made ps k2 cs2 -> k < k2).
    { intros lx cs lx2 cs2 k k2 E E2 M M2. rewrite E in Eps at 1. cbn [pn_lexeme] in Eps.
      destruct (made_derives _ _ _ lx cs ps k H E Eps M) as (p & Ep & D).
      assert (Eps2 : g_prods g (lx_kind lx2) = Some ps) by (rewrite E, E2 in Ek; cbn [pn_lexeme] in Ek; by rewrite Ek).
      destruct (made_derives _ _ _ lx2 cs2 ps k2 H2 E2 Eps2 M2) as (p2 & Ep2 & D2). by apply (Hb k k2 p p2). }
    inversion Hc as [i' lx cs i2' lx2 cs2 E E0|i' lx cs i2' lx2 cs2 ps' k k2 E E0 M M2 Hlt|i' lx cs i2' lx2 cs2 ps' k k2 E E0 M M2 Hlt|i' lx cs i2' lx2 cs2 ps' k v' E E0 M M2 Hs]; subst; cbn [pn_lexeme] in *; try done.
    - rewrite <- Ek in Eps. congruence.
    - rewrite <- Ek in Eps. assert (ps' = ps) as -> by congruence. pose proof (Hq _ _ _ _ _ _ eq_refl eq_refl M2 M). lia.
    - rewrite <- Ek in Eps. assert (ps' = ps) as -> by congruence. pose proof (Hq _ _ _ _ _ _ eq_refl eq_refl M2 M). lia.
  Qed.

  (** Children of which the first that differs comes before the other's are better. *)
  Lemma outranked cs : forall lss cs2 lss2 i v, Forall2 T cs lss -> Forall2 T cs2 lss2 ->
    map kindof cs2 = map kindof cs -> kn (concat lss2) = kn (concat lss) ->
    outranks g (map kindof cs) (map kn lss) (map kn lss2) -> compare_seq g i cs2 i cs v -> v = Worse.
  Proof.
    induction cs as [|c cs IH]; intros lss cs2 lss2 i v H H2 Ek Ec (a & y & b & pre & u & u2 & r & r2 & Ep & Ea & E & E2 & Hne & Hb) Hc.
    - by destruct a.
    - apply Forall2_cons_inv_l in H as (l & lss' & Hl & H & ->).
      destruct lss2 as [|l2 lss2']; [by destruct pre|]. apply Forall2_cons_inv_r in H2 as (c2 & cs2' & Hl2 & H2 & ->).
      cbn [map] in *. injection Ek as Ek1 Ek2.
      destruct pre as [|x pre]; destruct a as [|z a]; try discriminate Ea; cbn [app] in *.
      + injection Ep as <- <-. injection E as <- <-. injection E2 as <- <-.
        assert (Hw : width g c2 <> width g c).
        { destruct (tree_facts _ _ _ Hl) as [-> _]. destruct (tree_facts _ _ _ Hl2) as [-> _]. intros W.
          cbn [concat] in Ec. rewrite !map_app in Ec. apply app_inj_1 in Ec as [Ec _]; [congruence|]. by rewrite !map_length. }
        inversion Hc; subst; [congruence| |].
        * by apply (before_worse i c2 i c l2 l v Hl2 Hl Ek1 Hb).
        * match goal with h : compares _ _ _ _ _ _ |- _ => by pose proof (before_worse i c2 i c l2 l _ Hl2 Hl Ek1 Hb h) end.
      + injection Ep as <- Ep. injection E as <- E. injection E2 as E1 E2.
        assert (EW : width g c2 = width g c).
        { destruct (tree_facts _ _ _ Hl) as [-> _]. destruct (tree_facts _ _ _ Hl2) as [-> _].
          by rewrite <- (map_length lx_kind l), <- E1, map_length. }
        cbn [concat] in Ec. rewrite !map_app, E1 in Ec. apply app_inv_head in Ec.
        inversion Hc; subst; try (exfalso; naive_solver); [].
        match goal with h : compare_seq _ _ _ _ _ _ |- _ => rewrite EW in h; apply (IH lss' cs2' lss2' _ _ H H2 Ek2 Ec) in h; [done|] end.
        exists a, y, b, pre, u, u2, r, r2. cbn [length] in Ea. split_and!; try done. by injection Ea.
  Qed.

  Lemma ranked_parts p cs lss : ranked_trees g p cs lss -> map kindof cs = p /\ Forall2 T cs lss.
  Proof.
    intros H. induction H as [|s r c cs u v H _ [IH1 IH2]]; [done|]. apply ranked_is in H. pose proof (tree_root _ _ _ H) as E.
    cbn [map]. rewrite IH1, E. split; [done|]. constructor; [by rewrite E|done].
  Qed.

  Lemma ranked_unbeaten s t l : ranked_tree g s t l ->
    (forall ps p, g_prods g s = Some ps -> p ∈ ps -> derives_seq g p (kn l) -> exists parts, best_split g p (kn l) parts) ->
    forall t2, is_tree g s t2 l -> ~ better g t2 t.
  Proof.
    intros H Hbest t2 H2 Hc. destruct H as [lx E|lx ps k p cs lss E Ek Hcs Hfirst Hsplit].
    - unfold better in Hc. inversion Hc; subst; congruence.
    - destruct (ranked_parts _ _ _ Hcs) as [Ekn HT]. pose proof (trees_splits _ _ HT) as Hsp. rewrite Ekn in Hsp.
      assert (Hmade : forall k', made ps k' cs -> k' = k).
      { intros k' [M1 M2]. rewrite Ekn in M1, M2. destruct (lt_eq_lt_dec k' k) as [[Hlt|?]|Hlt]; [|done|].
        - exfalso. apply (Hfirst k' p Hlt M1). by apply splits_seq in Hsp.
        - exfalso. by apply (M2 k Hlt). }
      unfold better in Hc. inversion Hc as [|i' lx2 cs2 i2' lx' cs' ps' k2 k1 E1 E0 M2 M Hlt| |i' lx2 cs2 i2' lx' cs' ps' k2 v' E1 E0 M2 M Hs]; subst.
      + assert (ps' = ps) as -> by congruence. apply Hmade in M as ->.
        destruct (made_derives _ _ _ lx2 cs2 ps k2 H2 eq_refl E0 M2) as (p2 & Ep2 & D2). by apply (Hfirst k2 p2).
      + assert (ps' = ps) as -> by congruence. apply Hmade in M as ->.
        inversion H2 as [lx' E'|lx' ps2 p2 cs2' l' E' Hin Hcs2]; subst; [congruence|].
        pose proof (trees_kinds _ _ _ Hcs2) as Ekn2. apply trees_parts in Hcs2 as (lss2 & Ec & HT2).
        destruct M2 as [M2 _]. rewrite Ek in M2. injection M2 as M2.
        destruct (Hbest ps (map kindof cs) E) as (parts & Hp).
        { by apply elem_of_list_lookup_2 in Ek. }
        { by apply splits_seq in Hsp. }
        pose proof (Hsplit parts Hp) as <-. destruct Hp as [_ Hp].
        pose proof (trees_splits _ _ HT2) as Hsp2. rewrite Ec, <- M2 in Hsp2.
        destruct (Hp _ Hsp2) as [Eq|Hout].
        * by pose proof (same_parts _ _ _ _ _ _ HT HT2 Eq Hs).
        * assert (Eqc : kn (concat lss2) = kn (concat lss)) by (by rewrite Ec).
          by pose proof (outranked _ _ _ _ _ _ HT HT2 (eq_sym M2) Eqc Hout Hs).
  Qed.
End S.

Lemma packrat_unbeaten g lexemes s0 rest t :
  g_wf g -> terminal_kinds g lexemes -> acyclic_grammar g -> g_nts g = s0 :: rest -> derives g s0 (map lx_kind lexemes) ->
  (forall ps p, g_prods g s0 = Some ps -> p ∈ ps -> derives_seq g p (map lx_kind lexemes) ->
     exists parts, best_split g p (map lx_kind lexemes) parts) ->
  returns (fun n => packrat_parse n g lexemes) (Some t) ->
  forall t2, is_tree g s0 t2 lexemes -> ~ better g t2 t.
Proof.
  intros Hwf Htk Hac En Hd Hb Hr. apply (ranked_unbeaten g s0 t lexemes); [|exact Hb].
  by apply (packrat_ranked g lexemes Hwf Htk s0 rest t).
Qed.
