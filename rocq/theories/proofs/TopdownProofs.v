From Verif.model Require Import Topdown.
From Verif.spec Require Import TopdownSpec Outcome.
From Verif.proofs Require Import Fuel SetProofs.
From Coq Require Import Lia.

(** ** The ordered-choice relation is a partial function *)
Lemma oc_det g lxs :
  (forall s pos r, oc_sym g lxs s pos r -> forall r', oc_sym g lxs s pos r' -> r = r')
  /\ (forall s pos ps r, oc_prods g lxs s pos ps r -> forall r', oc_prods g lxs s pos ps r' -> r = r')
  /\ (forall p pos r, oc_seq g lxs p pos r -> forall r', oc_seq g lxs p pos r' -> r = r').
Proof.
  apply oc_mut.
  - intros s pos lx Hn Hl Hk r' H. inversion H; congruence.
  - intros s pos lx Hn Hl Hk r' H. inversion H; congruence.
  - intros s pos Hn Hl r' H. inversion H; congruence.
  - intros s pos ps r Hp _ IH r' H. inversion H; subst; try congruence. apply IH.
    assert (ps0 = ps) as -> by congruence. done.
  - intros s pos r' H. inversion H; done.
  - intros s pos p ps cs e _ IH r' H. inversion H; subst.
    + match goal with Hs : oc_seq _ _ _ _ _ |- _ => apply IH in Hs end. congruence.
    + match goal with Hs : oc_seq _ _ _ _ _ |- _ => apply IH in Hs end. congruence.
  - intros s pos p ps r _ IH _ IH2 r' H. inversion H; subst.
    + match goal with Hs : oc_seq _ _ _ _ _ |- _ => apply IH in Hs end. congruence.
    + auto.
  - intros pos r' H. inversion H; done.
  - intros x r pos _ IH r' H. inversion H; subst; try done;
      match goal with Hs : oc_sym _ _ _ _ _ |- _ => apply IH in Hs end; congruence.
  - intros x r pos c e _ IH _ IH2 r' H. inversion H; subst; try done;
      match goal with Hs : oc_sym _ _ _ _ _ |- _ => apply IH in Hs end; simplify_eq;
      match goal with Hs : oc_seq _ _ _ _ _ |- _ => apply IH2 in Hs end; congruence.
  - intros x r pos c e cs e' _ IH _ IH2 r' H. inversion H; subst;
      match goal with Hs : oc_sym _ _ _ _ _ |- _ => apply IH in Hs end; simplify_eq;
      match goal with Hs : oc_seq _ _ _ _ _ |- _ => apply IH2 in Hs end; congruence.
Qed.
Lemma oc_seq_det g lxs p pos r r' : oc_seq g lxs p pos r -> oc_seq g lxs p pos r' -> r = r'.
Proof. intros. eapply (proj2 (proj2 (oc_det g lxs))); eauto. Qed.
Lemma oc_sym_det g lxs p pos r r' : oc_sym g lxs p pos r -> oc_sym g lxs p pos r' -> r = r'.
Proof. intros. eapply (proj1 (oc_det g lxs)); eauto. Qed.
Lemma oc_top_det g lxs s ps r : oc_top g lxs s ps r -> forall r', oc_top g lxs s ps r' -> r = r'.
Proof.
  induction 1; intros r' H'; inversion H'; subst; try done; auto;
    match goal with H1 : oc_seq _ _ _ _ _, H2 : oc_seq _ _ _ _ _ |- _ =>
      pose proof (oc_seq_det _ _ _ _ _ _ H1 H2) end; simplify_eq; try done; auto.
Qed.
Lemma oc_parse_det g lxs r r' : oc_parse g lxs r -> oc_parse g lxs r' -> r = r'.
Proof.
  intros H H'. inversion H; inversion H'; subst; try congruence.
  simplify_eq. assert (ps0 = ps) as -> by congruence. assert (s1 = s0) as -> by congruence.
  eapply oc_top_det; eauto.
Qed.

(** ** More fuel changes nothing *)
Section Mono.
  Variable g : grammar.
  Variable lxs : list (nat * lexeme).
  Definition acc_le (f f' : tdst -> tdkey -> bool -> res (aresp * tdst)) :=
    forall st k all, rle (f st k all) (f' st k all).
  Lemma accept_seq_mono f f' p : acc_le f f' -> forall pos st, rle (accept_seq f p pos st) (accept_seq f' p pos st).
  Proof.
    intros H. induction p as [|x r IH]; intros pos st; simpl; [apply rle_refl|].
    destruct (set_str (td_set st) x) as [v s1]. apply rle_bind; [apply H|]. intros [[[c e]|] st1]; [|apply rle_refl].
    apply rle_bind; [apply IH|]. intros [[[cs e2]|] st2]; apply rle_refl.
  Qed.
  Lemma accept_prod_mono f f' k p st : acc_le f f' -> rle (accept_prod f k p st) (accept_prod f' k p st).
  Proof.
    intros H. unfold accept_prod. apply rle_bind; [apply accept_seq_mono; done|]. intros [b st1]. apply rle_refl.
  Qed.
  Lemma accept_prods_mono f f' k all ps : acc_le f f' -> forall st,
    rle (accept_prods lxs f k all ps st) (accept_prods lxs f' k all ps st).
  Proof.
    intros H. induction ps as [|p r IH]; intros st; simpl; [apply rle_refl|].
    apply rle_bind; [apply accept_prod_mono; done|]. intros [[[t e]|] st1]; [|apply IH].
    destruct (_ || _); [apply rle_refl|apply IH].
  Qed.
  Lemma try_accept_mono f f' k all st : acc_le f f' -> rle (try_accept g lxs f k all st) (try_accept g lxs f' k all st).
  Proof.
    intros H. unfold try_accept. apply rle_bind; [apply rle_refl|]. intros name.
    destruct (g_prods g name); [|apply rle_refl]. apply accept_prods_mono; done.
  Qed.
  Lemma td_accept_S n : acc_le (td_accept n g lxs) (td_accept (S n) g lxs).
  Proof.
    induction n as [|n IH]; intros st k all; [apply rle_oof|].
    cbn [td_accept]. destruct (td_memo st !! k); [apply rle_refl|].
    apply rle_bind; [|intros [a st1]; apply rle_refl]. apply (try_accept_mono _ _ _ _ _ IH).
  Qed.
  Lemma td_accept_mono n m : n <= m -> acc_le (td_accept n g lxs) (td_accept m g lxs).
  Proof.
    induction 1 as [|m Hle IH]; intros st k all; [apply rle_refl|].
    eapply rle_trans; [apply IH|apply td_accept_S].
  Qed.
End Mono.
Lemma td_parse_mono g lexemes : fuel_mono (fun n => td_parse n g lexemes).
Proof.
  intros n m Hle. unfold td_parse. destruct (g_nts g) as [|s0 r]; [apply rle_refl|].
  apply rle_bind; [apply rle_refl|]. intros s1. destruct (load_lexemes s1 lexemes) as [lxs s2].
  simpl. destruct (set_str s2 s0) as [v s3]. apply rle_bind; [apply td_accept_mono; done|]. intros [a st]. apply rle_refl.
Qed.

(** ** Simulation *)
Section Sim.
  Variable g : grammar.
  Variable lexemes : list lexeme.
  Variable lxs : list (nat * lexeme).
  Variable s : set.
  Hypothesis Hw : set_wf s.
  Hypothesis Hknown : forall A ps p x, g_prods g A = Some ps -> p ∈ ps -> x ∈ p -> known s x.
  Hypothesis Hlx : map snd lxs = lexemes.
  Hypothesis Hlxk : Forall (fun x => symb2str s !! fst x = Some (lx_kind (snd x))) lxs.

  Notation osym := (oc_sym g lexemes).
  Notation oprods := (oc_prods g lexemes).
  Notation oseq := (oc_seq g lexemes).
  Notation acc n := (td_accept n g lxs).

  Definition consistent (st : tdst) : Prop :=
    td_set st = s /\
    forall v pos name a, symb2str s !! v = Some name -> td_memo st !! (v, pos) = Some a -> osym name pos a.

  Lemma lx_at pos : lexemes !! pos = snd <$> lxs !! pos.
  Proof. rewrite <- Hlx. rewrite <- list_lookup_fmap. done. Qed.
  Lemma len_lxs : length lxs = length lexemes.
  Proof. rewrite <- Hlx. rewrite map_length. done. Qed.

  Definition acc_ok (f : tdst -> tdkey -> bool -> res (aresp * tdst)) : Prop :=
    forall st v pos name, consistent st -> symb2str s !! v = Some name ->
    match f st (v, pos) false with
    | Ok (a, st') => osym name pos a /\ consistent st'
    | Panic => False
    | OutOfFuel => True
    end.

  Lemma accept_seq_ok f p : acc_ok f -> (forall x, x ∈ p -> known s x) -> forall pos st, consistent st ->
    match accept_seq f p pos st with
    | Ok (r, st') => oseq p pos r /\ consistent st'
    | Panic => False
    | OutOfFuel => True
    end.
  Proof.
    intros Hf. induction p as [|x p IH]; intros Hk pos st Hc.
    - simpl. split; [constructor|done].
    - cbn [accept_seq set_symbol]. destruct (Hk x) as [v Hv]; [left|]. destruct (Hc) as [Hs Hm].
      rewrite Hs. rewrite (set_str_known _ _ _ Hv).
      assert (Hst : TdSt (td_memo st) s = st) by (rewrite <- Hs; destruct st; done). rewrite Hst.
      assert (Hv' : symb2str s !! v = Some x) by (apply Hw; done).
      pose proof (Hf st v pos x Hc Hv') as H1. destruct (f st (v, pos) false) as [[[[c e]|] st1]| |]; simpl; [| |done|done].
      + destruct H1 as [H1 Hc1]. specialize (IH ltac:(intros y Hy; apply Hk; right; done) e st1 Hc1).
        destruct (accept_seq f p e st1) as [[[[cs e2]|] st2]| |]; simpl; [| |done|done].
        * destruct IH. split; [|done]. econstructor; eauto.
        * destruct IH. split; [|done]. eapply oc_fail_later; eauto.
      + destruct H1. split; [|done]. eapply oc_fail; eauto.
  Qed.

  Lemma accept_prod_ok f p v pos name st : acc_ok f -> (forall x, x ∈ p -> known s x) -> consistent st ->
    symb2str s !! v = Some name ->
    match accept_prod f (v, pos) p st with
    | Ok (Some (t, e), st') => exists cs, t = PN (lexeme_new name) cs /\ oseq p pos (Some (cs, e)) /\ consistent st'
    | Ok (None, st') => oseq p pos None /\ consistent st'
    | Panic => False
    | OutOfFuel => True
    end.
  Proof.
    intros Hf Hk Hc Hv. unfold accept_prod. simpl.
    pose proof (accept_seq_ok f p Hf Hk pos st Hc) as H1.
    destruct (accept_seq f p pos st) as [[[[cs e]|] st1]| |]; simpl; [| |done|done].
    - destruct H1 as [H1 Hc1]. destruct Hc1 as [Hs1 Hm1]. rewrite Hs1.
      rewrite (proj2 (sym_string_nat s v name) Hv). simpl. exists cs. split; [done|]. split; [done|]. split; done.
    - done.
  Qed.

  Lemma accept_prods_ok f ps v pos name : acc_ok f -> (forall p x, p ∈ ps -> x ∈ p -> known s x) ->
    symb2str s !! v = Some name -> forall st, consistent st ->
    match accept_prods lxs f (v, pos) false ps st with
    | Ok (a, st') => oprods name pos ps a /\ consistent st'
    | Panic => False
    | OutOfFuel => True
    end.
  Proof.
    intros Hf Hk Hv. induction ps as [|p ps IH]; intros st Hc; cbn [accept_prods].
    - split; [constructor|done].
    - pose proof (accept_prod_ok f p v pos name st Hf ltac:(intros x; apply Hk; left) Hc Hv) as H1.
      destruct (accept_prod f (v, pos) p st) as [[[[t e]|] st1]| |]; simpl; [| |done|done].
      + destruct H1 as (cs & -> & H1 & Hc1). split; [|done]. constructor. done.
      + destruct H1 as [H1 Hc1]. specialize (IH ltac:(intros q x Hq; apply Hk; right; done) st1 Hc1).
        destruct (accept_prods lxs f (v, pos) false ps st1) as [[a st2]| |]; [|done|done].
        destruct IH. split; [|done]. apply oc_miss; done.
  Qed.

  Lemma term_cases v name pos : g_prods g name = None -> symb2str s !! v = Some name ->
    osym name pos (match lxs !! pos with
                   | Some (w, lx) => if v =? w then Some (PN lx [], S pos) else None
                   | None => None end).
  Proof.
    intros Hg Hv. pose proof (lx_at pos) as Hp. destruct (lxs !! pos) as [[w lx]|] eqn:E; simpl in Hp.
    - rewrite Forall_lookup in Hlxk. specialize (Hlxk _ _ E). simpl in Hlxk.
      destruct (Nat.eqb_spec v w) as [<-|Hne].
      + apply oc_term; [done|done|congruence].
      + eapply oc_term_other; [done|done|]. intros Heq. apply Hne.
        assert (str2sym s !! name = Some v) by (apply Hw; done).
        assert (str2sym s !! name = Some w) by (apply Hw; congruence). congruence.
    - apply oc_term_end; done.
  Qed.

  Lemma try_accept_ok f v pos name : acc_ok f -> symb2str s !! v = Some name -> forall st, consistent st ->
    match try_accept g lxs f (v, pos) false st with
    | Ok (a, st') => osym name pos a /\ consistent st'
    | Panic => False
    | OutOfFuel => True
    end.
  Proof.
    intros Hf Hv st Hc. unfold try_accept. destruct (Hc) as [Hs _]. rewrite Hs. cbn [fst snd].
    rewrite (proj2 (sym_string_nat s v name) Hv). cbn [rbind].
    destruct (g_prods g name) as [ps|] eqn:Hg.
    - pose proof (accept_prods_ok f ps v pos name Hf ltac:(intros p x; eapply Hknown; eauto) Hv st Hc) as H1.
      destruct (accept_prods lxs f (v, pos) false ps st) as [[a st']| |]; [|done|done].
      destruct H1. split; [|done]. eapply oc_nt; eauto.
    - pose proof (term_cases v name pos Hg Hv) as Ht.
      destruct (lxs !! pos) as [[w lx]|]; [|done]. destruct (v =? w); done.
  Qed.

  Lemma consistent_insert st v pos name a : consistent st -> symb2str s !! v = Some name -> osym name pos a ->
    consistent (TdSt (<[(v, pos) := a]> (td_memo st)) (td_set st)).
  Proof.
    intros [Hs Hm] Hv Ha. split; [done|]. intros v' pos' name' a' Hv' H. cbn [td_memo] in H.
    destruct (decide ((v, pos) = (v', pos'))) as [[= <- <-]|Hne].
    - rewrite lookup_insert in H. simplify_eq. done.
    - rewrite lookup_insert_ne in H by done. eauto.
  Qed.

  Lemma td_accept_ok n : acc_ok (acc n).
  Proof.
    induction n as [|n IH]; intros st v pos name Hc Hv; [done|]. cbn [td_accept].
    destruct (td_memo st !! (v, pos)) as [a|] eqn:E.
    - split; [|done]. destruct Hc as [_ Hm]. eauto.
    - pose proof (try_accept_ok _ v pos name IH Hv st Hc) as H1.
      destruct (try_accept g lxs (acc n) (v, pos) false st) as [[a st1]| |]; simpl; [|done|done].
      destruct H1 as [H1 H2]. split; [done|]. eapply consistent_insert; eauto.
  Qed.

  (** The other direction: a result of the relation is reached with enough fuel. *)
  Definition gets_sym name pos a := forall st v, consistent st -> symb2str s !! v = Some name ->
    exists n st', acc n st (v, pos) false = Ok (a, st').
  Definition gets_prods name pos ps a := forall st v, (forall p x, p ∈ ps -> x ∈ p -> known s x) ->
    consistent st -> symb2str s !! v = Some name ->
    exists n st', accept_prods lxs (acc n) (v, pos) false ps st = Ok (a, st').
  Definition gets_seq p pos r := forall st, (forall x, x ∈ p -> known s x) -> consistent st ->
    exists n st', accept_seq (acc n) p pos st = Ok (r, st').

  Lemma acc_up n m st k all x : n <= m -> acc n st k all = Ok x -> acc m st k all = Ok x.
  Proof. intros Hle H. eapply rle_Ok; [apply (td_accept_mono g lxs n m Hle)|done]. Qed.
  Lemma seq_up n m p pos st x : n <= m -> accept_seq (acc n) p pos st = Ok x -> accept_seq (acc m) p pos st = Ok x.
  Proof. intros Hle H. eapply rle_Ok; [apply accept_seq_mono, (td_accept_mono g lxs n m Hle)|done]. Qed.
  Lemma prods_up n m k all p st x : n <= m -> accept_prods lxs (acc n) k all p st = Ok x -> accept_prods lxs (acc m) k all p st = Ok x.
  Proof. intros Hle H. eapply rle_Ok; [apply accept_prods_mono, (td_accept_mono g lxs n m Hle)|done]. Qed.

  Lemma accept_seq_cons n x p pos st v : consistent st -> str2sym s !! x = Some v ->
    accept_seq (acc n) (x :: p) pos st =
      (' (a, st1) <-! acc n st (v, pos) false;
        match a with
        | None => Ok (None, st1)
        | Some (c, e) =>
            ' (b, st2) <-! accept_seq (acc n) p e st1;
            match b with
            | None => Ok (None, st2)
            | Some (cs, e2) => Ok (Some (c :: cs, e2), st2)
            end
        end).
  Proof.
    intros [Hs _] Hv. cbn [accept_seq set_symbol]. rewrite Hs, (set_str_known _ _ _ Hv).
    assert (Hst : TdSt (td_memo st) s = st) by (rewrite <- Hs; destruct st; done). rewrite Hst. done.
  Qed.

  Lemma gets_memo name pos a st v : osym name pos a -> consistent st -> symb2str s !! v = Some name ->
    (td_memo st !! (v, pos) = None -> exists n st', try_accept g lxs (acc n) (v, pos) false st = Ok (a, st')) ->
    exists n st', acc n st (v, pos) false = Ok (a, st').
  Proof.
    intros Ha Hc Hv H. destruct (td_memo st !! (v, pos)) as [a'|] eqn:E.
    - exists 1, st. cbn [td_accept]. rewrite E. destruct Hc as [_ Hm]. specialize (Hm _ _ _ _ Hv E).
      rewrite (oc_sym_det _ _ _ _ _ _ Ha Hm). done.
    - destruct H as (n & st' & H); [done|]. exists (S n). eexists. cbn [td_accept]. rewrite E, H. simpl. reflexivity.
  Qed.

  Lemma gets_term name pos a : g_prods g name = None -> osym name pos a -> gets_sym name pos a.
  Proof.
    intros Hg Ha st v Hc Hv. eapply gets_memo; eauto. intros _. exists 0, st. unfold try_accept.
    destruct Hc as [Hs _]. rewrite Hs. cbn [fst snd]. rewrite (proj2 (sym_string_nat s v name) Hv). cbn [rbind]. rewrite Hg.
    pose proof (term_cases v name pos Hg Hv) as Ht. rewrite <- (oc_sym_det _ _ _ _ _ _ Ht Ha).
    destruct (lxs !! pos) as [[w lx]|]; [|done]. destruct (v =? w); done.
  Qed.

  Lemma gets :
    (forall name pos r, osym name pos r -> gets_sym name pos r)
    /\ (forall name pos ps r, oprods name pos ps r -> gets_prods name pos ps r)
    /\ (forall p pos r, oseq p pos r -> gets_seq p pos r).
  Proof.
    apply oc_mut.
    - intros. apply gets_term; [done|]. apply oc_term; done.
    - intros. apply gets_term; [done|]. eapply oc_term_other; done.
    - intros. apply gets_term; [done|]. apply oc_term_end; done.
    - intros name pos ps r Hg Hp IH st v Hc Hv. eapply gets_memo; eauto; [eapply oc_nt; eauto|]. intros _.
      destruct (IH st v) as (n & st' & H); [intros p x; eapply Hknown; eauto|done|done|].
      exists n, st'. unfold try_accept. destruct Hc as [Hs _]. rewrite Hs. cbn [fst snd].
      rewrite (proj2 (sym_string_nat s v name) Hv). cbn [rbind]. rewrite Hg. done.
    - intros name pos st v Hk Hc Hv. exists 0, st. done.
    - intros name pos p ps cs e Hp IH st v Hk Hc Hv.
      destruct (IH st) as (n & st' & H); [intros x; apply Hk; left|done|].
      exists n, st'. cbn [accept_prods]. unfold accept_prod. cbn [fst snd]. rewrite H. cbn [rbind].
      pose proof (accept_seq_ok (acc n) p (td_accept_ok n) ltac:(intros x; apply Hk; left) pos st Hc) as Hok. rewrite H in Hok.
      destruct Hok as [_ [Hs' _]]. rewrite Hs'. rewrite (proj2 (sym_string_nat s v name) Hv). cbn [rbind]. done.
    - intros name pos p ps r Hp IH Hps IH2 st v Hk Hc Hv.
      destruct (IH st) as (n & st1 & H); [intros x; apply Hk; left|done|].
      pose proof (accept_seq_ok (acc n) p (td_accept_ok n) ltac:(intros x; apply Hk; left) pos st Hc) as Hok. rewrite H in Hok.
      destruct Hok as [_ Hc1]. destruct (IH2 st1 v) as (m & st2 & H2); [intros q x Hq; apply Hk; right; done|done|done|].
      exists (n `max` m), st2. cbn [accept_prods]. unfold accept_prod. cbn [fst snd].
      rewrite (seq_up n (n `max` m) _ _ _ _ ltac:(lia) H). cbn [rbind].
      apply (prods_up m); [lia|done].
    - intros pos st Hk Hc. exists 0, st. done.
    - intros x r pos Hx IH st Hk Hc. destruct (Hk x) as [v Hv]; [left|].
      destruct (IH st v Hc) as (n & st1 & H); [apply Hw; done|]. exists n, st1.
      rewrite (accept_seq_cons n x r pos st v Hc Hv), H. done.
    - intros x r pos c e Hx IH Hr IH2 st Hk Hc. destruct (Hk x) as [v Hv]; [left|].
      destruct (IH st v Hc) as (n & st1 & H); [apply Hw; done|].
      pose proof (td_accept_ok n st v pos x Hc ltac:(apply Hw; done)) as Hok. rewrite H in Hok. destruct Hok as [_ Hc1].
      destruct (IH2 st1) as (m & st2 & H2); [intros y Hy; apply Hk; right; done|done|].
      exists (n `max` m), st2. rewrite (accept_seq_cons _ x r pos st v Hc Hv).
      rewrite (acc_up n (n `max` m) _ _ _ _ ltac:(lia) H). cbn [rbind].
      rewrite (seq_up m (n `max` m) _ _ _ _ ltac:(lia) H2). done.
    - intros x r pos c e cs e' Hx IH Hr IH2 st Hk Hc. destruct (Hk x) as [v Hv]; [left|].
      destruct (IH st v Hc) as (n & st1 & H); [apply Hw; done|].
      pose proof (td_accept_ok n st v pos x Hc ltac:(apply Hw; done)) as Hok. rewrite H in Hok. destruct Hok as [_ Hc1].
      destruct (IH2 st1) as (m & st2 & H2); [intros y Hy; apply Hk; right; done|done|].
      exists (n `max` m), st2. rewrite (accept_seq_cons _ x r pos st v Hc Hv).
      rewrite (acc_up n (n `max` m) _ _ _ _ ltac:(lia) H). cbn [rbind].
      rewrite (seq_up m (n `max` m) _ _ _ _ ltac:(lia) H2). done.
  Qed.

  (** The outermost call *)
  Lemma top_ok n ps v name : (forall p x, p ∈ ps -> x ∈ p -> known s x) -> symb2str s !! v = Some name ->
    forall st, consistent st ->
    match accept_prods lxs (acc n) (v, 0) true ps st with
    | Ok (a, st') => oc_top g lexemes name ps (option_map fst a)
    | Panic => False
    | OutOfFuel => True
    end.
  Proof.
    intros Hk Hv. induction ps as [|p ps IH]; intros st Hc; cbn [accept_prods].
    - constructor.
    - pose proof (accept_prod_ok (acc n) p v 0 name st (td_accept_ok n) ltac:(intros x; apply Hk; left) Hc Hv) as H1.
      destruct (accept_prod (acc n) (v, 0) p st) as [[[[t e]|] st1]| |]; simpl; [| |done|done].
      + destruct H1 as (cs & -> & H1 & Hc1). destruct (Nat.eqb_spec e (length lxs)) as [->|Hne].
        * simpl. apply ot_hit. rewrite <- len_lxs. done.
        * specialize (IH ltac:(intros q x Hq; apply Hk; right; done) st1 Hc1).
          destruct (accept_prods lxs (acc n) (v, 0) true ps st1) as [[a st2]| |]; [|done|done].
          eapply ot_short; eauto. rewrite <- len_lxs. done.
      + destruct H1 as [H1 Hc1]. specialize (IH ltac:(intros q x Hq; apply Hk; right; done) st1 Hc1).
        destruct (accept_prods lxs (acc n) (v, 0) true ps st1) as [[a st2]| |]; [|done|done].
        eapply ot_miss; eauto.
  Qed.
  Lemma top_gets v name ps r : oc_top g lexemes name ps r -> symb2str s !! v = Some name ->
    (forall p x, p ∈ ps -> x ∈ p -> known s x) -> forall st, consistent st ->
    exists n a st', accept_prods lxs (acc n) (v, 0) true ps st = Ok (a, st') /\ option_map fst a = r.
  Proof.
    induction 1 as [name|name p ps cs Hp|name p ps cs e r Hp Hne Ht IH|name p ps r Hp Ht IH]; intros Hv Hk st Hc.
    - exists 0, None, st. done.
    - destruct (proj2 (proj2 gets) _ _ _ Hp st) as (n & st1 & H); [intros x; apply Hk; left|done|].
      pose proof (accept_seq_ok (acc n) p (td_accept_ok n) ltac:(intros x; apply Hk; left) 0 st Hc) as Hok. rewrite H in Hok.
      destruct Hok as [_ [Hs' _]].
      eexists n, _, st1. cbn [accept_prods]. unfold accept_prod. cbn [fst snd]. rewrite H. cbn [rbind].
      rewrite Hs'. rewrite (proj2 (sym_string_nat s v name) Hv). cbn [rbind]. rewrite len_lxs, Nat.eqb_refl. simpl. split; [reflexivity|]. done.
    - destruct (proj2 (proj2 gets) _ _ _ Hp st) as (n & st1 & H); [intros x; apply Hk; left|done|].
      pose proof (accept_seq_ok (acc n) p (td_accept_ok n) ltac:(intros x; apply Hk; left) 0 st Hc) as Hok. rewrite H in Hok.
      destruct Hok as [_ Hc1]. destruct (IH Hv ltac:(intros q x Hq; apply Hk; right; done) st1 Hc1) as (m & a & st2 & H2 & Ha).
      exists (n `max` m), a, st2. split; [|done]. cbn [accept_prods]. unfold accept_prod. cbn [fst snd].
      rewrite (seq_up n (n `max` m) _ _ _ _ ltac:(lia) H). cbn [rbind]. destruct Hc1 as [Hs' _].
      rewrite Hs'. rewrite (proj2 (sym_string_nat s v name) Hv). cbn [rbind]. rewrite len_lxs.
      destruct (Nat.eqb_spec e (length lexemes)); [done|]. simpl. apply (prods_up m); [lia|done].
    - destruct (proj2 (proj2 gets) _ _ _ Hp st) as (n & st1 & H); [intros x; apply Hk; left|done|].
      pose proof (accept_seq_ok (acc n) p (td_accept_ok n) ltac:(intros x; apply Hk; left) 0 st Hc) as Hok. rewrite H in Hok.
      destruct Hok as [_ Hc1]. destruct (IH Hv ltac:(intros q x Hq; apply Hk; right; done) st1 Hc1) as (m & a & st2 & H2 & Ha).
      exists (n `max` m), a, st2. split; [|done]. cbn [accept_prods]. unfold accept_prod. cbn [fst snd].
      rewrite (seq_up n (n `max` m) _ _ _ _ ltac:(lia) H). cbn [rbind]. apply (prods_up m); [lia|done].
  Qed.
End Sim.

(** ** Parse *)
Lemma td_setup g lexemes s0 rest : g_wf g -> g_nts g = s0 :: rest ->
  exists s lxs v ps, set_wf s
  /\ (forall A ps p x, g_prods g A = Some ps -> p ∈ ps -> x ∈ p -> known s x)
  /\ map snd lxs = lexemes /\ Forall (fun x => symb2str s !! fst x = Some (lx_kind (snd x))) lxs
  /\ symb2str s !! v = Some s0 /\ g_prods g s0 = Some ps
  /\ forall n, td_parse n g lexemes =
       (' (a, _) <-! td_accept n g lxs (TdSt ∅ s) (v, 0) true; Ok (option_map fst a)).
Proof.
  intros Hg Hn. destruct (load_grammar_ok g Hg) as (s1 & H1 & Hw1 & Hk1 & Hk1').
  destruct (load_lexemes s1 lexemes) as [lxs s2] eqn:E2.
  destruct (load_lexemes_spec _ _ _ _ Hw1 E2) as (Hw2 & Hl2 & Hm & HF).
  assert (Hs0 : s0 ∈ g_nts g) by (rewrite Hn; left).
  pose proof (known_le _ _ _ Hw1 Hw2 Hl2 (Hk1 _ Hs0)) as [v Hv].
  destruct (proj1 (Hg s0) Hs0) as [ps Hps].
  exists s2, lxs, v, ps. split_and!; try done.
  - intros A qs p x HA Hp Hx. eapply known_le; [exact Hw1|exact Hw2|done|]. eauto.
  - apply Hw2; done.
  - intros n. unfold td_parse. rewrite Hn, H1. cbn [rbind]. rewrite E2. cbn [set_symbol].
    rewrite (set_str_known _ _ _ Hv). done.
Qed.

Lemma td_parse_sim g lexemes n : g_wf g ->
  match td_parse n g lexemes with
  | Ok r => oc_parse g lexemes r
  | Panic => False
  | OutOfFuel => True
  end.
Proof.
  intros Hg. destruct (g_nts g) as [|s0 rest] eqn:Hn.
  - unfold td_parse. rewrite Hn. apply op_no_start; done.
  - destruct (td_setup g lexemes s0 rest Hg Hn) as (s & lxs & v & ps & Hw & Hk & Hm & HF & Hv & Hps & ->).
    destruct n as [|n]; [done|]. cbn [td_accept td_memo]. rewrite lookup_empty.
    unfold try_accept. cbn [fst snd td_set]. rewrite (proj2 (sym_string_nat s v s0) Hv). cbn [rbind]. rewrite Hps.
    assert (Hc : consistent g lexemes s (TdSt ∅ s)).
    { split; [done|]. intros v' pos name a _ H. cbn [td_memo] in H. rewrite lookup_empty in H. done. }
    pose proof (top_ok g lexemes lxs s Hw Hk Hm HF n ps v s0 ltac:(intros p x; eapply Hk; eauto) Hv _ Hc) as H.
    destruct (accept_prods lxs (td_accept n g lxs) (v, 0) true ps (TdSt ∅ s)) as [[a st']| |]; simpl; [|done|done].
    eapply op_start; eauto.
Qed.

Lemma td_parse_gets g lexemes r : g_wf g -> oc_parse g lexemes r -> returns (fun n => td_parse n g lexemes) r.
Proof.
  intros Hg H. destruct H as [Hn|s0 rest ps r Hn Hps Ht].
  - exists 0. intros n _. unfold td_parse. rewrite Hn. done.
  - destruct (td_setup g lexemes s0 rest Hg Hn) as (s & lxs & v & ps' & Hw & Hk & Hm & HF & Hv & Hps' & Heq).
    assert (ps' = ps) as -> by congruence.
    assert (Hc : consistent g lexemes s (TdSt ∅ s)).
    { split; [done|]. intros v' pos name a _ H. cbn [td_memo] in H. rewrite lookup_empty in H. done. }
    destruct (top_gets g lexemes lxs s Hw Hk Hm HF v s0 ps r Ht Hv ltac:(intros p x; eapply Hk; eauto) _ Hc) as (n & a & st' & H & Ha).
    apply (returns_at _ (S n)); [apply td_parse_mono|]. rewrite Heq. cbn [td_accept td_memo]. rewrite lookup_empty.
    unfold try_accept. cbn [fst snd td_set]. rewrite (proj2 (sym_string_nat s v s0) Hv). cbn [rbind]. rewrite Hps, H.
    simpl. congruence.
Qed.

(** Parse returns what ordered choice gives, and does not terminate otherwise. *)
Lemma td_parse_oc g lexemes r : g_wf g -> returns (fun n => td_parse n g lexemes) r <-> oc_parse g lexemes r.
Proof.
  intros Hg. split; [|apply td_parse_gets; done]. intros [F HF].
  pose proof (td_parse_sim g lexemes F Hg) as H. rewrite (HF F ltac:(lia)) in H. done.
Qed.
Lemma td_parse_diverges g lexemes : g_wf g -> diverges (fun n => td_parse n g lexemes) <-> ~ exists r, oc_parse g lexemes r.
Proof.
  intros Hg. split.
  - intros Hd [r H]. apply (td_parse_gets _ _ _ Hg) in H as [F HF]. specialize (HF F ltac:(lia)). simpl in HF.
    rewrite (Hd F) in HF. done.
  - intros H n. pose proof (td_parse_sim g lexemes n Hg) as Hs. simpl.
    destruct (td_parse n g lexemes); [exfalso; eauto|done|done].
Qed.
