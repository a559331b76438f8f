(** Topdown looks up the productions of a symbol at most once for each position. *)
From Coq Require Import Lia.
From Verif.model Require Import Threads.
From Verif.spec Require Import GrammarSpec ThreadSpec CostSpec TopdownSpec.

From Verif.proofs Require Import GrammarProofs GrammarThms ThreadProofs LookupProofs LrLang SetProofs.
Local Open Scope nat_scope.

Section S.
  Variable g : gr.
  Hypothesis Hb : built g.
  Notation V := (gr_view g).
  Hypothesis Hlr : ~ left_recursive V.
  Variable s : set.
  Variable lxs : list (nat * lexeme).
  Hypothesis Hw : set_wf s.
  Hypothesis Hknown : forall A ps p x, g_prods V A = Some ps -> p ∈ ps -> x ∈ p -> known s x.
  Notation n := (length lxs).

  (** [m] may be tried while [k] is. *)
  Definition below (k m : tdkey) : Prop :=
    snd k < snd m \/ snd k = snd m /\ exists a b, symb2str s !! fst k = Some a /\ symb2str s !! fst m = Some b /\ tc (left_step V) a b.
  Lemma below_trans k m q : below k m -> below m q -> below k q.
  Proof using.
    intros [H1|(H1 & a & b & Ha & Hb' & H)] [H2|(H2 & b' & c & Hb2 & Hc & H3)]; [left; lia|left; lia|left; lia|].
    right. split; [lia|]. exists a, c. split_and!; [done|done|]. assert (b' = b) as -> by congruence. by etransitivity.
  Qed.
  Lemma below_irrefl k : ~ below k k.
  Proof using Hlr. intros [H|(_ & a & b & Ha & Hb' & H)]; [lia|]. assert (b = a) as -> by congruence. apply Hlr. by exists a. Qed.

  (** The answer for [nm] at [pos] is in the input, and nothing was read only where [nm]
      derives nothing. *)
  Definition sane (nm : gostring) (pos : nat) (a : aresp) : Prop :=
    forall t e, a = Some (t, e) -> pos <= e /\ e <= n /\ (e = pos -> derives V nm []).
  Definition sane_seq (p : list gostring) (pos : nat) (a : option (list pn * nat)) : Prop :=
    forall t e, a = Some (t, e) -> pos <= e /\ e <= n /\ (e = pos -> derives_seq V p []).
  Definition okst (st : tdst) : Prop :=
    td_set st = s /\ forall v pos nm a, td_memo st !! (v, pos) = Some a -> symb2str s !! v = Some nm -> sane nm pos a.
  Definition tcov {A} (P : tdkey -> Prop) (Q : A -> Prop) (st : tdst) (l : list call) (r : res (A * tdst)) : Prop :=
    exists ms, l = omap (look s) ms /\ NoDup ms /\ (forall m, m ∈ ms -> td_memo st !! m = None /\ snd m <= n /\ P m)
      /\ forall a st', r = Ok (a, st') ->
           (forall m, is_Some (td_memo st' !! m) <-> m ∈ ms \/ is_Some (td_memo st !! m)) /\ okst st' /\ Q a.
  Lemma tcov_fail {A} P (Q : A -> Prop) st r : (forall x, r <> Ok x) -> tcov P Q st [] r.
  Proof using. intros H. exists []. split_and!; [done|constructor|intros m Hm; inversion Hm|]. intros a st' E. by apply H in E. Qed.
  Lemma tcov_ret {A} P (Q : A -> Prop) st a : okst st -> Q a -> tcov P Q st [] (Ok (a, st)).
  Proof using.
    intros Hs Hq. exists []. split_and!; [done|constructor|intros m Hm; inversion Hm|]. intros a' st' [= <- <-].
    split_and!; [|done|done]. intros m. split; [auto|]. intros [H|H]; [inversion H|done].
  Qed.
  Lemma tcov_bind {A B} P (Q : A -> Prop) (Q2 : B -> Prop) st l1 r1 l2 h : tcov P Q st l1 r1 ->
    (forall a st1, r1 = Ok (a, st1) -> okst st1 -> Q a -> tcov P Q2 st1 (l2 (a, st1)) (h (a, st1))) ->
    tcov P Q2 st (l1 ++ match r1 with Ok x => l2 x | _ => [] end) (rbind r1 h).
  Proof using.
    intros (ms & -> & Hn & Hm & Hr) H2. destruct r1 as [[a st1]| |]; cbn [rbind].
    2,3: exists ms; rewrite app_nil_r; done.
    destruct (Hr a st1 eq_refl) as (Hd & Hs1 & Hq). destruct (H2 a st1 eq_refl Hs1 Hq) as (ms2 & -> & Hnd2 & Hm2 & Hr2).
    exists (ms ++ ms2). split_and!.
    - by rewrite omap_app.
    - apply NoDup_app. split_and!; [done| |done]. intros m H1 H3. apply Hm2 in H3 as [H3 _].
      assert (is_Some (td_memo st1 !! m)) as [x Hx] by (apply Hd; by left). congruence.
    - intros m Hin. apply elem_of_app in Hin as [Hin|Hin]; [by apply Hm|]. destruct (Hm2 m Hin) as (H3 & H4 & H5). split_and!; [|done|done].
      destruct (td_memo st !! m) as [x|] eqn:E; [|done]. assert (is_Some (td_memo st1 !! m)) as [y Hy] by (apply Hd; right; eauto). congruence.
    - intros b st' E. destruct (Hr2 b st' E) as (Hd2 & Hs2 & Hq2). split_and!; [|done|done]. intros m. rewrite Hd2, Hd, elem_of_app. tauto.
  Qed.
  Lemma tcov_seq {A B} P (Q : A -> Prop) (Q2 : B -> Prop) st (p : prog (res (A * tdst))) r1 (f : A * tdst -> prog (res (B * tdst))) (h : A * tdst -> res (B * tdst)) : calm g p r1 -> tcov P Q st (asked g p) r1 ->
    (forall a st1, r1 = Ok (a, st1) -> okst st1 -> Q a -> tcov P Q2 st1 (asked g (f (a, st1))) (h (a, st1))) ->
    tcov P Q2 st (asked g (mbind' p f)) (rbind r1 h).
  Proof using. intros C H1 H2. rewrite (asked_bind g _ _ _ C). by apply (tcov_bind P Q Q2 st _ r1 (fun x => asked g (f x)) h). Qed.
  Lemma tcov_weak {A} (P P' : tdkey -> Prop) (Q Q' : A -> Prop) st l r : (forall m, P m -> P' m) -> (forall a, Q a -> Q' a) ->
    tcov P Q st l r -> tcov P' Q' st l r.
  Proof using.
    intros HP HQ (ms & H1 & H2 & H3 & H4). exists ms. split_and!; [done|done| |].
    - intros m Hm. destruct (H3 m Hm) as (? & ? & ?). auto.
    - intros a st' E. destruct (H4 a st' E) as (? & ? & ?). auto.
  Qed.

  Section Acc.
    Variable acc_p : tdst -> tdkey -> bool -> prog (res (aresp * tdst)).
    Variable acc : tdst -> tdkey -> bool -> res (aresp * tdst).
    Hypothesis Hfine : forall st k all, set_wf (td_set st) -> named g st k -> fine g (acc_p st k all) (acc st k all).
    Hypothesis Hacc : forall st k all nm, okst st -> symb2str s !! fst k = Some nm -> mentions V nm -> snd k <= n ->
      tcov (fun m => m = k \/ below k m) (sane nm (snd k)) st (asked g (acc_p st k all)) (acc st k all).

    Variable k : tdkey.
    Variable nm : gostring.
    Variable ps : list (list gostring).
    Hypothesis Hk : symb2str s !! fst k = Some nm.
    Hypothesis Hps : g_prods V nm = Some ps.
    Hypothesis Hpos : snd k <= n.

    Lemma seq_tcov p : forall pre pos st, okst st -> pre ++ p ∈ ps -> pos <= n -> (snd k < pos \/ snd k = pos /\ derives_seq V pre []) ->
      tcov (below k) (sane_seq p pos) st (asked g (accept_seq_p acc_p p pos st)) (accept_seq acc p pos st).
    Proof using Hacc Hfine Hk Hknown Hps Hw Hpos.
      induction p as [|x p IH]; intros pre pos st Hs Hin Hle Hpre; cbn [accept_seq accept_seq_p].
      - apply tcov_ret; [done|]. intros t e [= <- <-]. split_and!; [lia|done|]. intros _. constructor.
      - cbn [set_symbol]. destruct (Hknown nm ps (pre ++ x :: p) x Hps Hin ltac:(apply elem_of_app; right; left)) as [v Hv].
        assert (E : set_str (td_set st) x = (v, s)).
        { destruct Hs as [-> _]. by apply set_str_known. }
        rewrite E. cbn iota beta. assert (Hvx : symb2str s !! v = Some x) by by apply Hw.
        assert (Hmx : mentions V x) by (right; exists nm, ps, (pre ++ x :: p); split_and!; [done|done|apply elem_of_app; right; left]).
        assert (Hs' : okst (TdSt (td_memo st) s)) by (split; [done|apply Hs]).
        assert (Hbelow : below k (v, pos)).
        { destruct Hpre as [H|[H1 H2]]; [by left|]. right. split; [done|]. exists nm, x. split_and!; [done|done|]. apply tc_once.
          exists ps, (pre ++ x :: p), pre, p. split_and!; done. }
        destruct (Hfine (TdSt (td_memo st) s) (v, pos) false) as [C _]; [done|intros y Hy; cbn [td_set fst] in Hy; congruence|].
        apply (tcov_seq (below k) (sane x pos)); [exact C| |].
        + pose proof (Hacc (TdSt (td_memo st) s) (v, pos) false x Hs' Hvx Hmx Hle) as H.
          destruct H as (ms & H1 & H2 & H3 & H4). exists ms. split_and!; [done|done| |done].
          intros m Hm. destruct (H3 m Hm) as (M1 & M2 & M3). split_and!; [done|done|].
          destruct M3 as [->|M3]; [done|]. eapply below_trans; eauto.
        + intros [[c e]|] st1 _ Hs1 Hq; [|by apply tcov_ret].
          destruct (Hq c e eq_refl) as (Q1 & Q2 & Q3).
          assert (Hpre2 : snd k < e \/ snd k = e /\ derives_seq V (pre ++ [x]) []).
          { destruct Hpre as [H|[H1 H2]]; [left; lia|]. destruct (decide (e = pos)) as [->|Hne]; [|left; lia].
            right. split; [done|]. apply (derives_seq_app _ pre [x] [] []); [done|]. apply (der_cons _ x [] [] []); [by apply Q3|constructor]. }
          assert (Hin2 : (pre ++ [x]) ++ p ∈ ps) by by rewrite <- app_assoc.
          destruct (accept_seq_fine g acc_p acc Hfine p e st1) as [C2 _].
          { destruct Hs1 as [-> _]. done. }
          { intros y Hy. right. exists nm, ps, (pre ++ x :: p). split_and!; [done|done|]. apply elem_of_app. right. by right. }
          apply (tcov_seq (below k) (sane_seq p e)); [exact C2| |].
          * by apply (IH (pre ++ [x])).
          * intros [[cs e2]|] st2 _ Hs2 Hq2; [|by apply tcov_ret]. apply tcov_ret; [done|]. intros t e3 [= <- <-].
            destruct (Hq2 cs e2 eq_refl) as (R1 & R2 & R3). split_and!; [lia|done|]. intros ->. assert (e = pos) as -> by lia.
            apply (der_cons _ x p [] []); auto.
    Qed.

    Lemma prod_tcov p st : okst st -> p ∈ ps ->
      tcov (below k) (sane nm (snd k)) st (asked g (accept_prod_p acc_p k p st)) (accept_prod acc k p st).
    Proof using Hacc Hfine Hk Hknown Hps Hw Hpos.
      intros Hs Hin. unfold accept_prod_p, accept_prod.
      destruct (accept_seq_fine g acc_p acc Hfine p (snd k) st) as [C _].
      { destruct Hs as [-> _]. done. }
      { intros y Hy. right. exists nm, ps, p. split_and!; done. }
      apply (tcov_seq (below k) (sane_seq p (snd k))); [exact C| |].
      - apply (seq_tcov p []); [done|done|done|]. right. split; [done|constructor].
      - intros [[cs e]|] st1 _ Hs1 Hq; [|by apply tcov_ret].
        destruct (sym_string (td_set st1) (Z.of_nat (fst k))) as [name| |]; cbn [rbind]; [|by apply tcov_fail|by apply tcov_fail].
        apply tcov_ret; [done|]. intros t e' [= <- <-]. destruct (Hq cs e eq_refl) as (Q1 & Q2 & Q3). split_and!; [done|done|].
        intros E. apply (der_nt _ nm ps p []); auto.
    Qed.
    Lemma prods_tcov all qs : forall st, okst st -> (forall p, p ∈ qs -> p ∈ ps) ->
      tcov (below k) (sane nm (snd k)) st (asked g (accept_prods_p lxs acc_p k all qs st)) (accept_prods lxs acc k all qs st).
    Proof using Hacc Hfine Hk Hknown Hps Hw Hpos.
      induction qs as [|p qs IH]; intros st Hs Hin; cbn [accept_prods accept_prods_p]; [by apply tcov_ret|].
      assert (Hin' : forall q, q ∈ qs -> q ∈ ps) by (intros q Hq; apply Hin; by right).
      destruct (accept_prod_fine g acc_p acc Hfine k p st) as [C _].
      { destruct Hs as [-> _]. done. }
      { intros y Hy. right. exists nm, ps, p. split_and!; [done| |done]. apply Hin. left. }
      apply (tcov_seq (below k) (sane nm (snd k))); [exact C|apply prod_tcov; [done|apply Hin; left]|].
      intros [[t e]|] st1 _ Hs1 Hq; [|by apply IH]. destruct (_ || _); [by apply tcov_ret|by apply IH].
    Qed.
  End Acc.

  (** tryAccept looks up its own symbol first. *)
  Lemma try_tcov acc_p acc k all nm st :
    (forall st k all, set_wf (td_set st) -> named g st k -> fine g (acc_p st k all) (acc st k all)) ->
    (forall st k all nm, okst st -> symb2str s !! fst k = Some nm -> mentions V nm -> snd k <= n ->
      tcov (fun m => m = k \/ below k m) (sane nm (snd k)) st (asked g (acc_p st k all)) (acc st k all)) ->
    okst st -> symb2str s !! fst k = Some nm -> mentions V nm -> snd k <= n ->
    exists l, asked g (try_accept_p lxs acc_p k all st) = omap (look s) [k] ++ l
      /\ tcov (below k) (sane nm (snd k)) st l (try_accept V lxs acc k all st).
  Proof using Hb Hknown Hw.
    intros Hfine Hacc Hs Hk Hm Hpos. unfold try_accept_p, try_accept.
    assert (En : sym_string (td_set st) (Z.of_nat (fst k)) = Ok nm).
    { unfold sym_string. destruct Hs as [-> _]. destruct (Z.ltb_spec (Z.of_nat (fst k)) 0) as [?|_]; [lia|]. rewrite Nat2Z.id, Hk. done. }
    rewrite En. cbn [rbind].
    assert (Hl : omap (look s) [k] = [CProductions (nm, false)]) by (cbn [omap list_omap]; unfold look; by rewrite Hk).
    rewrite Hl. eexists. split.
    { change (mbind' (Done (Ok nm)) ?f) with (f nm). cbn beta.
      rewrite (asked_bind g _ (Ok (g_prods V nm))) by by apply ask_prods_calm.
      change (asked g (ask_prods nm false)) with [CProductions (nm, false)]. reflexivity. }
    destruct (g_prods V nm) as [ps|] eqn:Ep.
    - apply (prods_tcov acc_p acc Hfine Hacc k nm ps); auto.
    - destruct (lxs !! snd k) as [[v lx]|] eqn:El; [|by apply tcov_ret]. apply lookup_lt_Some in El.
      destruct (fst k =? v); [|by apply tcov_ret]. apply tcov_ret; [done|]. intros t e [= <- <-]. lia.
  Qed.

  Lemma accept_tcov f : forall st k all nm, okst st -> symb2str s !! fst k = Some nm -> mentions V nm -> snd k <= n ->
    tcov (fun m => m = k \/ below k m) (sane nm (snd k)) st (asked g (td_accept_p f lxs st k all)) (td_accept f V lxs st k all).
  Proof using Hb Hknown Hw Hlr.
    induction f as [|f IH]; intros st k all nm Hs Hk Hm Hpos; cbn [td_accept td_accept_p]; [by apply tcov_fail|].
    destruct (td_memo st !! k) as [a|] eqn:Ek.
    { apply tcov_ret; [done|]. destruct k as [v pos]. by apply (proj2 Hs v pos nm a). }
    pose proof (fun st k all => td_accept_fine g Hb f lxs st k all) as Hfine.
    destruct (try_tcov (td_accept_p f lxs) (td_accept f V lxs) k all nm st Hfine IH Hs Hk Hm Hpos) as (l & El & Hl).
    assert (Hn : named g st k). { intros x Hx. destruct Hs as [Hs _]. rewrite Hs in Hx. assert (x = nm) as -> by congruence. done. }
    assert (Hws : set_wf (td_set st)) by (destruct Hs as [-> _]; done).
    destruct (try_accept_fine g Hb lxs (td_accept_p f lxs) (td_accept f V lxs) Hfine k all st Hws Hn) as [C _].
    rewrite (asked_bind g _ _ _ C), El. destruct Hl as (ms & -> & Hnd & Hms & Hr).
    exists (k :: ms). split_and!.
    - rewrite <- app_assoc. change (k :: ms) with ([k] ++ ms). rewrite omap_app. f_equal.
      destruct (try_accept _ _ _ _ _ _) as [[a st1]| |]; by rewrite app_nil_r.
    - constructor; [|done]. intros H. destruct (Hms k H) as (_ & _ & H2). by apply below_irrefl in H2.
    - intros m H. apply elem_of_cons in H as [->|H]; [by split_and!; [| |left]|]. destruct (Hms m H) as (? & ? & ?). split_and!; auto.
    - intros a st'. destruct (try_accept _ _ _ _ _ _) as [[a1 st1]| |] eqn:Et; cbn [rbind]; try done. intros [= <- <-].
      destruct (Hr a1 st1 eq_refl) as (Hd & [Hs1 Hs2] & Hq). split_and!; [|split; [exact Hs1|]|exact Hq].
      + intros m. cbn [td_memo]. destruct (decide (m = k)) as [->|Hne].
        * rewrite lookup_insert. split; [left; left|eauto].
        * rewrite lookup_insert_ne by done. rewrite Hd, elem_of_cons. naive_solver.
      + intros v pos nm' a. cbn [td_memo]. destruct (decide ((v, pos) = k)) as [<-|Hne].
        * rewrite lookup_insert. intros [= <-] Hv. cbn [fst snd] in *. assert (nm' = nm) as -> by congruence. exact Hq.
        * rewrite lookup_insert_ne by done. apply Hs2.
  Qed.
End S.

Theorem topdown_lookups g (Hb : built g) fuel lexemes x : ~ left_recursive (gr_view g) ->
  lookups x (asked g (td_parse_p fuel lexemes)) <= length lexemes + 2 /\ others (asked g (td_parse_p fuel lexemes)) <= 2.
Proof.
  intros Hlr. unfold td_parse_p. rewrite (asked_bind g _ _ _ (ask_nts_calm g)). rewrite lookups_app, others_app.
  change (lookups x (asked g ask_nts)) with 0. change (others (asked g ask_nts)) with 1.
  destruct (g_nts (gr_view g)) as [|s0 rest] eqn:En; [cbn; lia|].
  rewrite (asked_bind g _ _ _ (load_grammar_calm g Hb set_new)). rewrite lookups_app, others_app.
  destruct (load_asked g Hb x set_new) as [L1 L2]. rewrite L2.
  pose proof (built_wf g Hb) as Hg. destruct (load_grammar_ok (gr_view g) Hg) as (s1 & H1 & Hw1 & Hk1 & Hk1').
  rewrite H1. destruct (load_lexemes s1 lexemes) as [lxs s2] eqn:E2.
  destruct (load_lexemes_spec _ _ _ _ Hw1 E2) as (Hw2 & Hl2 & Hm & HF).
  assert (Hlen : length lxs = length lexemes) by (rewrite <- Hm, map_length; done).
  assert (Hs0 : s0 ∈ g_nts (gr_view g)) by (rewrite En; left).
  pose proof (known_le _ _ _ Hw1 Hw2 Hl2 (Hk1 _ Hs0)) as [v Hv]. cbn [set_symbol]. rewrite (set_str_known _ _ _ Hv).
  assert (Hv2 : symb2str s2 !! v = Some s0) by by apply Hw2.
  assert (Hmen : mentions (gr_view g) s0) by by left.
  destruct (td_accept_fine g Hb fuel lxs (TdSt ∅ s2) (v, 0) true) as [C _]; [done|intros y Hy; cbn [td_set fst] in Hy; assert (y = s0) as -> by congruence; done|].
  rewrite (asked_bind g _ _ _ C).
  destruct (accept_tcov g Hb Hlr s2 lxs Hw2) with (f := fuel) (st := TdSt ∅ s2) (k := (v, 0)) (all := true) (nm := s0) as (ms & E & Hnd & Hms & _); auto.
  - intros A qs p y HA Hp Hy. eapply known_le; [exact Hw1|exact Hw2|done|]. eauto.
  - split; [done|]. intros v' pos nm a Ha. cbn [td_memo] in Ha. rewrite lookup_empty in Ha. done.
  - cbn [snd]. lia.
  - destruct (omap_look_bound s2 (length lxs) ms x Hw2 Hnd) as [B1 B2]; [intros m Hin; apply Hms in Hin; tauto|].
    rewrite <- E in B1, B2. rewrite lookups_app, others_app, B2.
    match goal with |- context[match td_accept ?a ?b ?c ?d ?e ?f0 with _ => _ end] => destruct (td_accept a b c d e f0) as [[a1 st1]| |] end;
      cbn [asked]; change (lookups x []) with 0; change (others []) with 0; lia.
Qed.
