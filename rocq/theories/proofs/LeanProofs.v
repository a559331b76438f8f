(** Parse trees do not repeat a symbol over the same lexemes. *)
From Coq Require Import Lia.
From Verif.model Require Import Packrat Topdown.
From Verif.spec Require Import Outcome PackratSpec TopdownSpec TreeShape.
From Verif.proofs Require Import Fuel PackratCore PackratFuel PackratProofs TopdownThms TreeProofs SetProofs.
Local Open Scope nat_scope.

Section T.
  Variable g : grammar.

  Lemma trees_part p cs u : are_trees g p cs u -> forall c, c ∈ cs ->
    exists a s b v u1 u2, p = a ++ s :: b /\ is_tree g s c v /\ u = u1 ++ v ++ u2
      /\ derives_seq g a (map lx_kind u1) /\ derives_seq g b (map lx_kind u2).
  Proof.
    induction 1 as [|s r c0 cs u v Ht Hts IH]; intros c Hc; [inversion Hc|].
    apply elem_of_cons in Hc as [->|Hc].
    - exists [], s, r, u, [], v. split_and!; [done|done|done|constructor|]. by apply (proj2 (is_tree_derives g)) in Hts.
    - destruct (IH c Hc) as (a & s' & b & v' & u1 & u2 & -> & Ht' & -> & Ha & Hb).
      exists (s :: a), s', b, v', (u ++ u1), u2. split_and!; [done|done|by rewrite app_assoc| |done].
      rewrite map_app. constructor; [|done]. by apply (proj1 (is_tree_derives g)) in Ht.
  Qed.
  Lemma tree_part s t u c : is_tree g s t u -> part c t ->
    exists ps a s' b v u1 u2, g_prods g s = Some ps /\ a ++ s' :: b ∈ ps /\ is_tree g s' c v /\ u = u1 ++ v ++ u2
      /\ derives_seq g a (map lx_kind u1) /\ derives_seq g b (map lx_kind u2).
  Proof.
    intros Ht Hc. inversion Ht as [lx Hn|lx ps p cs lxs Hps Hp Hcs]; subst; unfold part in Hc; cbn [pn_children] in Hc; [inversion Hc|].
    destruct (trees_part _ _ _ Hcs c Hc) as (a & s' & b & v & u1 & u2 & -> & ? & ? & ? & ?). exists ps, a, s', b, v, u1, u2. done.
  Qed.
  Lemma tree_fun : forall s t u, is_tree g s t u -> forall s' u', is_tree g s' t u' -> s = s' /\ u = u'.
  Proof.
    apply (is_tree_mut g (fun s t u _ => forall s' u', is_tree g s' t u' -> s = s' /\ u = u')
                         (fun p cs u _ => forall p' u', are_trees g p' cs u' -> u = u')).
    - intros lx Hn s' u' H. inversion H; subst; [done|]. congruence.
    - intros lx ps p cs lxs Hps Hp Hcs IH s' u' H. inversion H; subst; [congruence|]. split; [done|]. by eapply IH.
    - intros p' u' H. by inversion H.
    - intros s r c cs u v Ht IH Hts IHs p' u' H. inversion H as [|s2 r2 ? ? u2 v2 H1 H2]; subst. f_equal; [by eapply IH|by eapply IHs].
  Qed.
  Lemma tree_below s t u d : is_tree g s t u -> below d t -> exists s' v, is_tree g s' d v /\ length v <= length u.
  Proof.
    intros Ht Hb. revert s u Ht. induction Hb as [x y Hxy|x y z Hxy Hyz IH]; intros s u Ht.
    - destruct (tree_part _ _ _ _ Ht Hxy) as (_ & _ & s' & _ & v & u1 & u2 & _ & _ & Hv & -> & _). exists s', v. split; [done|]. rewrite !app_length. lia.
    - destruct (IH s u Ht) as (sy & vy & Hy & Hl). destruct (tree_part _ _ _ _ Hy Hxy) as (_ & _ & s' & _ & v & u1 & u2 & _ & _ & Hv & -> & _).
      exists s', v. split; [done|]. rewrite !app_length in Hl. lia.
  Qed.

  (** Trees of a grammar without left recursion are lean. *)
  Lemma below_left s t u d s' v : is_tree g s t u -> below d t -> is_tree g s' d v -> length u <= length v -> tc (left_step g) s s'.
  Proof.
    intros Ht Hb. revert s u s' v Ht. induction Hb as [x y Hxy|x y z Hxy Hyz IH]; intros s u s' v Ht Hd Hl.
    all: assert (HS : forall s1 u1, is_tree g s1 y u1 -> length u1 <= length v -> left_step g s1 s').
    1,3: intros s1 u1 H1 L1; destruct (tree_part _ _ _ _ H1 Hxy) as (ps & a & s2 & b & v2 & w1 & w2 & Hps & Hin & H2 & -> & Ha & _);
      destruct (tree_fun _ _ _ H2 _ _ Hd) as [-> ->]; exists ps, (a ++ s' :: b), a, b; split_and!; try done;
      rewrite !app_length in L1; destruct w1; [done|cbn in L1; lia].
    - apply tc_once. by eapply HS.
    - destruct (tree_below _ _ _ _ Ht Hyz) as (sy & vy & Hy & Ly).
      assert (Lv : length v <= length vy). { destruct (tree_part _ _ _ _ Hy Hxy) as (_ & _ & s2 & _ & v2 & w1 & w2 & _ & _ & H2 & -> & _).
        destruct (tree_fun _ _ _ H2 _ _ Hd) as [-> ->]. rewrite !app_length. lia. }
      eapply tc_r; [eapply IH; [exact Ht|exact Hy|lia]|]. eapply HS; [exact Hy|lia].
  Qed.
  Lemma left_lean t : ~ left_recursive g -> lean g t.
  Proof.
    intros Hn a d s u v _ Hb Ha Hd. destruct (le_lt_dec (length u) (length v)) as [Hl|]; [|done].
    exfalso. apply Hn. exists s. by apply (below_left s a u d s v).
  Qed.

  (** Lean trees are not high. *)
  Lemma kind_nts s t u : g_wf g -> is_tree g s t u -> pn_children t <> [] -> s ∈ g_nts g.
  Proof. intros Hg Ht Hc. inversion Ht; subst; [done|]. apply Hg. eauto. Qed.
  Lemma lean_below t a : lean g t -> below a t -> lean g a.
  Proof.
    intros Hl Ha x d s u v [->|Hx] Hd; apply Hl; auto. right. by eapply tc_transitive.
  Qed.
  Lemma lean_height t : g_wf g -> forall s u F, is_tree g s t u -> lean g t -> NoDup F -> F ⊆ g_nts g ->
    (forall d s' v, d = t \/ below d t -> is_tree g s' d v -> length u <= length v -> s' ∉ F) ->
    height t + length F <= length (g_nts g) * S (length u) + 1.
  Proof.
    intros Hg. induction t as [lx cs IH] using TreeProofs.pn_ind_list. intros s u F Ht Hl Hnd HF Hno.
    assert (LF : length F <= length (g_nts g)) by by apply submseteq_length, NoDup_submseteq.
    assert (Hc : forall c, c ∈ cs -> height c + S (length F) <= length (g_nts g) * S (length u) + 1).
    { intros c Hin. assert (Hp : part c (PN lx cs)) by done. assert (Hb : below c (PN lx cs)) by by apply tc_once.
      assert (Hs : s ∈ g_nts g) by (eapply kind_nts; [done|exact Ht|]; intros E; cbn [pn_children] in E; subst; inversion Hin).
      assert (HsF : s ∉ F) by (eapply Hno; [left; done|exact Ht|lia]).
      assert (Hnd' : NoDup (s :: F)) by by constructor.
      assert (HF' : s :: F ⊆ g_nts g). { intros x Hx. apply elem_of_cons in Hx as [->|Hx]; [done|by apply HF]. }
      assert (LF' : length (s :: F) <= length (g_nts g)) by by apply submseteq_length, NoDup_submseteq. cbn [length] in LF'.
      destruct (tree_below _ _ _ _ Ht Hb) as (s' & v & Hv & Lv).
      assert (Hlc : lean g c) by by eapply lean_below.
      assert (HIH : forall F', NoDup F' -> F' ⊆ g_nts g -> (forall d s' v0, d = c \/ below d c -> is_tree g s' d v0 -> length v <= length v0 -> s' ∉ F') ->
        height c + length F' <= length (g_nts g) * S (length v) + 1).
      { rewrite List.Forall_forall in IH. intros F' H1 H2 H3. apply (IH c ltac:(by apply elem_of_list_In) s' v F'); done. }
      destruct (decide (length v = length u)) as [E|E].
      - specialize (HIH (s :: F) Hnd' HF'). cbn [length] in HIH. rewrite <- E. apply HIH. intros d s2 v0 Hd Hdt L0.
        assert (Hdb : below d (PN lx cs)) by (destruct Hd as [->|Hd]; [done|by eapply tc_transitive]).
        apply not_elem_of_cons. split.
        + intros ->. pose proof (Hl (PN lx cs) d s u v0 (or_introl eq_refl) Hdb Ht Hdt). lia.
        + eapply Hno; [right; exact Hdb|exact Hdt|lia].
      - specialize (HIH [] ltac:(constructor) ltac:(intros x Hx; inversion Hx) ltac:(intros ???????; by eapply not_elem_of_nil)).
        cbn [length] in HIH. nia. }
    cbn [height]. assert (Hmax : forall l, (forall c, c ∈ l -> height c + S (length F) <= length (g_nts g) * S (length u) + 1) ->
      fold_right (fun c h => Nat.max (height c) h) 0 l + S (length F) <= length (g_nts g) * S (length u) + 1).
    { induction l as [|c l IHl]; intros H; cbn [fold_right]; [nia|]. pose proof (H c ltac:(left)).
      specialize (IHl ltac:(intros x Hx; apply H; by right)). lia. }
    specialize (Hmax cs Hc). lia.
  Qed.
  Lemma lean_bound s t u : g_wf g -> is_tree g s t u -> lean g t -> height t <= length (g_nts g) * S (length u) + 1.
  Proof.
    intros Hg Ht Hl. pose proof (lean_height t Hg s u [] Ht Hl ltac:(constructor) ltac:(intros x Hx; inversion Hx) ltac:(intros ???????; by eapply not_elem_of_nil)) as H.
    cbn [length] in H. lia.
  Qed.
End T.

Lemma acc_irr {A : Type} (R : A -> A -> Prop) x : Acc R x -> ~ tc R x x.
Proof.
  induction 1 as [x _ IH]. intros Hc.
  assert (HI : forall y z, tc R y z -> R y z \/ exists w, tc R y w /\ R w z).
  { induction 1 as [y z H|y w z H _ IHc]; [by left|]. right. destruct IHc as [H1|(w' & H1 & H2)]; [exists w|exists w']; split; auto using tc_once. by eapply tc_l. }
  destruct (HI _ _ Hc) as [H|(y & H1 & H2)]; [by apply (IH x H)|]. apply (IH y H2). by eapply tc_l.
Qed.

(** Packrat: a descendant is the tree of a key below in the memo. *)
Lemma rmap_elem {A B : Type} (f : A -> res B) l : forall bs, rmap f l = Ok bs -> forall b, b ∈ bs -> exists a, a ∈ l /\ f a = Ok b.
Proof.
  induction l as [|a l IH]; intros bs; cbn [rmap].
  - intros [= <-] b Hb. inversion Hb.
  - destruct (f a) as [b0| |] eqn:E; cbn [rbind]; try done. destruct (rmap f l) as [bs0| |]; cbn [rbind]; try done.
    intros [= <-] b Hb. apply elem_of_cons in Hb as [->|Hb]; [exists a; split; [left|done]|].
    destruct (IH _ eq_refl b Hb) as (a' & ? & ?). exists a'. split; [by right|done].
Qed.
Lemma to_pn_part lxms m name td f t c : to_pn f lxms m name td = Ok t -> part c t ->
  exists k f', k ∈ td_children td /\ to_pn f' lxms m name (mget m k) = Ok c.
Proof.
  destruct f as [|f]; cbn [to_pn]; [done|]. destruct (td_key td) as [[idx start] e]. intros H Hc.
  destruct (rmap _ (td_children td)) as [cs| |] eqn:E; cbn [rbind] in H; try done.
  assert (Hcs : pn_children t = cs) by (destruct (match lxms !! start with Some (k, lx) => if k =? idx then Some lx else None | None => None end); by injection H as <-).
  unfold part in Hc. rewrite Hcs in Hc. destruct (rmap_elem _ _ _ E c Hc) as (k & Hk & Ht). by exists k, f.
Qed.
Lemma to_pn_below lxms m name : (forall k d c, m !! k = Some d -> c ∈ td_children d -> is_Some (m !! c)) -> forall x t, below x t -> forall f k d,
  m !! k = Some d -> to_pn f lxms m name d = Ok t ->
  exists k' d' f', tc (child m) k' k /\ m !! k' = Some d' /\ to_pn f' lxms m name d' = Ok x.
Proof.
  intros Hm x t Hb. induction Hb as [x y Hxy|x y z Hxy Hyz IH]; intros f k d Hd Ht.
  - destruct (to_pn_part _ _ _ _ _ _ _ Ht Hxy) as (k' & f' & Hk & Hx). destruct (Hm _ _ _ Hd Hk) as [d' Hd'].
    unfold mget in Hx. rewrite Hd' in Hx. exists k', d', f'. split_and!; [|done|done]. apply tc_once. by exists d.
  - destruct (IH f k d Hd Ht) as (ky & dy & fy & Hc & Hdy & Hy).
    destruct (to_pn_part _ _ _ _ _ _ _ Hy Hxy) as (k' & f' & Hk & Hx). destruct (Hm _ _ _ Hdy Hk) as [d' Hd'].
    unfold mget in Hx. rewrite Hd' in Hx. exists k', d', f'. split_and!; [|done|done]. eapply tc_l; [|exact Hc]. by exists dy.
Qed.

Section P.
  Variable g : grammar.
  Variable lexemes : list lexeme.
  Variable st : set.
  Variable lxms : list (nat * lexeme).
  Hypothesis Hg : g_wf g.
  Hypothesis Hterm : terminal_kinds g lexemes.
  Hypothesis Hst : set_wf st.
  Hypothesis Hknt : forall nt, nt ∈ g_nts g -> known st nt.
  Hypothesis Hkp : forall nt ps p x, g_prods g nt = Some ps -> p ∈ ps -> x ∈ p -> known st x.
  Hypothesis Hlx : map snd lxms = lexemes.
  Hypothesis Hlk : Forall (fun x => symb2str st !! fst x = Some (lx_kind (snd x))) lxms.
  Notation kinds := (map fst lxms).
  Notation nonterms := (mark_nonterms st (g_nts g) (replicate (sym_count st) false)).
  Notation prods := (prods_of g st).
  Variable m : gmap key tdef.
  Hypothesis Hm : memo_ok prods nonterms kinds m.
  Hypothesis Ha : acyc m.
  Notation nm k := (name_of st (fst (fst k))).

  Lemma spans_in p cs : forall i j, spans p cs i j -> (forall c, c ∈ cs -> snd (fst c) <= snd c) ->
    i <= j /\ forall c, c ∈ cs -> i <= snd (fst c) /\ snd c <= j.
  Proof.
    revert p. induction cs as [|c cs IH]; intros [|y p] i j; cbn [spans]; try done.
    - intros -> _. split; [lia|]. intros c Hc. inversion Hc.
    - intros [E Hs] Hk. destruct (IH p (snd c) j Hs ltac:(intros x Hx; apply Hk; by right)) as [Hij Hin].
      pose proof (Hk c ltac:(left)) as Hc. rewrite E in Hc. cbn [snd] in Hc. split; [lia|].
      intros x Hx. apply elem_of_cons in Hx as [->|Hx]; [rewrite E; cbn [snd]; lia|]. destruct (Hin x Hx). lia.
  Qed.
  Lemma child_in c k : child m c k -> is_Some (m !! c) /\ snd (fst k) <= snd (fst c) /\ snd c <= snd k.
  Proof using Hm.
    intros (d & Hd & Hc). destruct (Hm _ _ Hd) as (Kd & Od & Sd & Cd). split; [by apply Cd|].
    unfold def_ok in Od. rewrite Kd in Od. destruct Od as [(_ & E & _)|(ps & p & _ & _ & Hs)]; [rewrite E in Hc; inversion Hc|].
    apply (spans_in _ _ _ _ Hs) in Hc; [done|]. intros x Hx. destruct (Cd x Hx) as [dx Hdx]. destruct (Hm _ _ Hdx) as (_ & _ & [? _] & _). done.
  Qed.
  Lemma desc_in c k : tc (child m) c k -> is_Some (m !! c) /\ snd (fst k) <= snd (fst c) /\ snd c <= snd k.
  Proof using Hm.
    induction 1 as [x y H|x y z H _ IH]; [by apply child_in|]. destruct (child_in _ _ H) as (? & ? & ?). destruct IH as (_ & ? & ?). split; [done|lia].
  Qed.
  Lemma memo_tree k d f t : m !! k = Some d -> to_pn f lxms m (name_of st) d = Ok t ->
    is_tree g (nm k) t (sl lexemes (snd (fst k)) (snd k)) /\ symb2str st !! fst (fst k) = Some (nm k)
    /\ snd (fst k) <= snd k <= length lexemes.
  Proof using Hg Hterm Hst Hknt Hkp Hlx Hlk Hm Ha.
    intros Hd Ht. pose proof (inst_nt g st Hg Hst Hknt) as Hnt.
    pose proof (memo_hb prods nonterms kinds Hnt m k Hm Ha (ex_intro _ d Hd)) as Hh.
    destruct (to_pn_ok g lexemes st lxms Hg Hterm Hst Hknt Hkp Hlx Hlk m Hm Ha _ (f + S (KU nonterms kinds)) k d Hh ltac:(lia) Hd) as (t' & Ht' & Hr & _).
    pose proof (to_pn_mono f (f + S (KU nonterms kinds)) lxms m (name_of st) d ltac:(lia)) as Hmono. rewrite Ht, Ht' in Hmono.
    assert (t = t') as -> by (destruct Hmono as [E|E]; [done|by injection E]).
    split; [done|]. destruct (Hm _ _ Hd) as (Kd & Od & [S1 S2] & _). rewrite map_length in S2. rewrite <- (map_length snd lxms), Hlx in S2. split; [|done].
    unfold def_ok in Od. rewrite Kd in Od. destruct Od as [(_ & _ & _ & Hl & _)|(ps & p & Hp & _)].
    - rewrite list_lookup_fmap in Hl. destruct (lxms !! snd (fst k)) as [[i lx]|] eqn:E; [|done]. injection Hl as Hl. cbn [fst] in Hl. subst i.
      rewrite Forall_lookup in Hlk. specialize (Hlk _ _ E). cbn [fst snd] in Hlk. unfold name_of. by rewrite Hlk.
    - destruct (prods_inv g st _ _ Hp) as (x & qs & Hx & _). unfold name_of. by rewrite Hx.
  Qed.
  Lemma memo_lean k d f t : m !! k = Some d -> to_pn f lxms m (name_of st) d = Ok t -> lean g t.
  Proof using Hg Hterm Hst Hknt Hkp Hlx Hlk Hm Ha.
    intros Hd Ht a x s u v Ha1 Hb Hau Hxv.
    assert (Hm' : forall k d c, m !! k = Some d -> c ∈ td_children d -> is_Some (m !! c)) by (intros k0 d0 c0 H; by apply (Hm _ _ H)).
    assert (exists ka da fa, m !! ka = Some da /\ to_pn fa lxms m (name_of st) da = Ok a) as (ka & da & fa & Hda & Hta).
    { destruct Ha1 as [->|Hba]; [by exists k, d, f|]. destruct (to_pn_below _ _ _ Hm' _ _ Hba _ _ _ Hd Ht) as (ka & da & fa & _ & ? & ?). by exists ka, da, fa. }
    destruct (to_pn_below _ _ _ Hm' _ _ Hb _ _ _ Hda Hta) as (kx & dx & fx & Hc & Hdx & Htx).
    destruct (memo_tree _ _ _ _ Hda Hta) as (Ra & Na & La). destruct (memo_tree _ _ _ _ Hdx Htx) as (Rx & Nx & Lx').
    destruct (tree_fun g _ _ _ Hau _ _ Ra) as [Es ->]. destruct (tree_fun g _ _ _ Hxv _ _ Rx) as [Es2 ->].
    rewrite !sl_length by lia. destruct (desc_in _ _ Hc) as (_ & L1 & L2).
    destruct (decide (kx = ka)) as [->|Hne]; [exfalso; eapply acc_irr; [|exact Hc]; apply Ha; eauto|].
    assert (fst (fst kx) = fst (fst ka)) as Ei. { rewrite <- Es2, Es in Nx. eapply (str_idx st Hst) in Nx. eapply (str_idx st Hst) in Na. congruence. }
    destruct ka as [[i1 s1] e1], kx as [[i2 s2] e2]. cbn [fst snd] in *. subst i2.
    assert (s1 <> s2 \/ e1 <> e2) by (destruct (decide (s1 = s2)) as [->|]; [right; by intros ->|by left]). lia.
  Qed.
End P.

Lemma leaf_lean g t : (forall c, ~ part c t) -> lean g t.
Proof.
  intros Hn. assert (HB : forall x y, below x y -> y <> t) by (intros x y H; induction H as [x y H|x y z _ _ IH]; [intros ->; by eapply Hn|done]).
  intros a d s u v [->|Hb] Hd; exfalso; [by apply (HB d t)|by apply (HB a t)].
Qed.
Theorem packrat_lean g lexemes t : g_wf g -> not_mistaken g lexemes ->
  returns (fun n => packrat_parse n g lexemes) (Some t) ->
  lean g t /\ height t <= length (g_nts g) * S (length lexemes) + 1.
Proof.
  intros Hg Hnm Hr.
  assert (HD : terminal_kinds g lexemes \/ exists lx, lx ∈ lexemes /\ g_prods g (lx_kind lx) <> None).
  { clear. induction lexemes as [|lx l IH]; [left; intros x Hx; inversion Hx|]. destruct (g_prods g (lx_kind lx)) eqn:E.
    - right. exists lx. split; [left|by rewrite E].
    - destruct IH as [IH|(x & Hx & H)]; [|right; exists x; split; [by right|done]].
      left. intros x Hx. apply elem_of_cons in Hx as [->|Hx]; [done|by apply IH]. }
  destruct HD as [Hterm|(lx & Hlx0 & Hnt0)].
  2:{ pose proof (packrat_refuses g lexemes lx Hg Hnm Hlx0 Hnt0) as Hr2. by pose proof (returns_fun _ _ _ Hr Hr2). }
  destruct (packrat_main g lexemes Hg Hterm) as (r & Hr' & Hn0 & Hmain).
  assert (r = Some t) as -> by (exact (returns_fun _ _ _ Hr' Hr)).
  destruct (g_nts g) as [|s0 rest] eqn:Hn; [by specialize (Hn0 eq_refl)|].
  destruct (Hmain s0 rest eq_refl) as [(t' & [= <-] & Ht & _)|(_ & Hbog)].
  2:{ destruct lexemes; [|done]. injection Hbog as ->. split; [|cbn; lia].
      apply leaf_lean. intros c Hc. inversion Hc. }
  rewrite <- Hn. cut (lean g t); [intros Hlean; split; [done|by apply (lean_bound g s0)]|].
  destruct (load_grammar_ok g Hg) as (set1 & Hl & Hw1 & Hk1 & Hk1').
  destruct (load_lexemes set1 lexemes) as [lxms st] eqn:El.
  destruct (load_lexemes_spec _ _ _ _ Hw1 El) as (Hst & Hle & Hlx & Hlk).
  assert (Hknt : forall nt, nt ∈ g_nts g -> known st nt).
  { intros nt Hnt. apply (known_le set1 st); auto. }
  assert (Hkp : forall nt ps p x, g_prods g nt = Some ps -> p ∈ ps -> x ∈ p -> known st x).
  { intros. apply (known_le set1 st); eauto. }
  set (prods := prods_of g st).
  set (nonterms := mark_nonterms st (g_nts g) (replicate (sym_count st) false)).
  set (kinds := map fst lxms).
  pose proof (inst_nt g st Hg Hst Hknt) as Hnt.
  pose proof (inst_sz g st Hst Hkp) as Hsz.
  pose proof (inst_kd g lexemes st lxms Hg Hst Hknt Hkp Hlx Hlk s0 rest Hn Hnm) as Hkd.
  set (start := fst (set_str st s0)).
  assert (Hks0 : known st s0) by (apply Hknt; rewrite Hn; left).
  destruct Hr as [N0 HN].
  set (F := S (S (KU nonterms kinds)) + S (size (MU nonterms kinds)) + S (length (UL prods nonterms kinds)) + N0).
  assert (HF4 : N0 <= F) by (unfold F; lia).
  assert (HF1 : S (S (KU nonterms kinds)) <= F) by (unfold F; lia).
  assert (HF2 : size (MU nonterms kinds) < F) by (unfold F; lia).
  assert (HF3 : length (UL prods nonterms kinds) < F) by (unfold F; lia).
  clearbody F.
  destruct (core_run prods nonterms kinds start Hnt Hsz Hkd F HF1) as (s1 & s2 & Hs1 & Hs2 & Hw & HC & Hstk & Hq); auto.
  { destruct (known_lt g st Hst s0 Hks0) as [b Hb]. eapply lookup_lt_Some; exact Hb. }
  pose proof (HN F HF4) as HR.
  unfold packrat_parse in HR. rewrite Hn, Hl in HR. cbn [rbind] in HR. rewrite El, <- Hn in HR.
  fold prods in HR. fold nonterms in HR. fold kinds in HR. fold start in HR. rewrite Hs1 in HR. cbn [rbind] in HR. rewrite Hs2 in HR. cbn [rbind] in HR.
  pose proof (wf_memo _ _ _ _ _ Hw) as Hm. pose proof (wf_acyc _ _ _ _ _ Hw) as Ha.
  destruct (memo s2 !! ((start, 0), length lexemes)) as [d|] eqn:Ed.
  - unfold mget in HR. rewrite Ed in HR. cbn [default from_option id] in HR. destruct (_ =? _); [|done].
    destruct (to_pn F lxms (memo s2) (name_of st) d) as [t'| |] eqn:Et; cbn [rbind] in HR; try done. injection HR as ->.
    exact (memo_lean g lexemes st lxms Hg Hterm Hst Hknt Hkp Hlx Hlk (memo s2) Hm Ha _ d F t Ed Et).
  - unfold mget in HR. rewrite Ed in HR. cbn [default from_option id] in HR. destruct (_ =? _); [|done].
    destruct (to_pn F lxms (memo s2) (name_of st) tdef_zero) as [t'| |] eqn:Et; cbn [rbind] in HR; try done. injection HR as ->.
    apply leaf_lean. intros c Hc. destruct (to_pn_part _ _ _ _ _ _ _ Et Hc) as (k & _ & Hk & _). inversion Hk.
Qed.

Theorem topdown_lean g lexemes t : g_wf g -> ~ left_recursive g ->
  returns (fun n => td_parse n g lexemes) (Some t) ->
  lean g t /\ height t <= length (g_nts g) * S (length lexemes) + 1.
Proof.
  intros Hg Hl Hr. destruct (topdown_sound g lexemes t Hg Hr) as (s0 & rest & _ & Ht).
  pose proof (left_lean g t Hl) as H. split; [done|by apply (lean_bound g s0)].
Qed.
