From Verif.model Require Import SetSym.
From Coq Require Import Lia.

(** str2sym and symb2str are inverse *)
Definition set_wf (s : set) : Prop :=
  forall x i, str2sym s !! x = Some i <-> symb2str s !! i = Some x.

Definition set_le (s s' : set) : Prop := symb2str s `prefix_of` symb2str s'.

Lemma set_new_wf : set_wf set_new.
Proof. intros x i. simpl. rewrite lookup_empty. destruct i; done. Qed.

Lemma set_le_refl s : set_le s s.
Proof. unfold set_le. done. Qed.
Lemma set_le_trans a b c : set_le a b -> set_le b c -> set_le a c.
Proof. unfold set_le. intros. etransitivity; eauto. Qed.

Lemma set_str_spec s x v s' : set_wf s -> set_str s x = (v, s') ->
  set_wf s' /\ set_le s s' /\ symb2str s' !! v = Some x /\ str2sym s' !! x = Some v /\
  (forall y i, str2sym s !! y = Some i -> str2sym s' !! y = Some i).
Proof.
  intros Hw. unfold set_str. destruct (str2sym s !! x) as [i|] eqn:E; intros [= <- <-].
  - split_and!; auto using set_le_refl. by apply Hw.
  - assert (Hx : forall i, symb2str s !! i <> Some x).
    { intros i Hi. apply Hw in Hi. congruence. }
    split_and!; simpl.
    + intros y i; simpl. destruct (decide (x = y)) as [<-|Hne].
      * rewrite lookup_insert. split.
        -- intros [= <-]. rewrite lookup_app_r by lia. rewrite Nat.sub_diag. done.
        -- intros Hi. apply lookup_app_Some in Hi as [Hi|[Hle Hi]]; [by apply Hx in Hi|].
           destruct (i - length (symb2str s)) eqn:Ei; [|done]. f_equal; lia.
      * rewrite lookup_insert_ne by done. rewrite (Hw y i). split.
        -- intros Hi. by apply lookup_app_l_Some.
        -- intros Hi. apply lookup_app_Some in Hi as [Hi|[Hle Hi]]; [done|].
           destruct (i - length (symb2str s)) eqn:Ei; simpl in Hi; [congruence|done].
    + unfold set_le; simpl. by apply prefix_app_r.
    + rewrite lookup_app_r by lia. rewrite Nat.sub_diag. done.
    + apply lookup_insert.
    + intros y i Hy. rewrite lookup_insert_ne; [done|]. congruence.
Qed.

Lemma set_str_known s x i : str2sym s !! x = Some i -> set_str s x = (i, s).
Proof. unfold set_str. intros ->. done. Qed.

Definition known (s : set) (x : gostring) : Prop := is_Some (str2sym s !! x).

Lemma known_le s s' x : set_wf s -> set_wf s' -> set_le s s' -> known s x -> known s' x.
Proof.
  intros Hw Hw' [l Hl] [i Hi]. exists i. apply Hw'. rewrite Hl. apply lookup_app_l_Some. by apply Hw.
Qed.

Lemma set_syms_spec xs : forall s vs s', set_wf s -> set_syms s (map Foreign xs) = (vs, s') ->
  set_wf s' /\ set_le s s' /\ Forall2 (fun x v => symb2str s' !! v = Some x) xs vs /\
  (forall x, x ∈ xs -> known s' x).
Proof.
  induction xs as [|x xs IH]; simpl; intros s vs s' Hw.
  - intros [= <- <-]. split_and!; auto using set_le_refl. intros x Hx; inversion Hx.
  - destruct (set_str s x) as [v s1] eqn:E1. destruct (set_syms s1 (map Foreign xs)) as [vs' s2] eqn:E2.
    intros [= <- <-]. destruct (set_str_spec _ _ _ _ Hw E1) as (Hw1 & Hl1 & Hv & Hs & _).
    destruct (IH _ _ _ Hw1 E2) as (Hw2 & Hl2 & HF & Hk).
    split_and!; auto.
    + eapply set_le_trans; eauto.
    + constructor; [|done]. destruct Hl2 as [l Hl2]. rewrite Hl2. by apply lookup_app_l_Some.
    + intros y Hy. apply elem_of_cons in Hy as [->|Hy]; [|auto].
      eapply known_le; [exact Hw1| |exact Hl2|]; auto. exists v; done.
Qed.

Lemma load_prod_spec s p : set_wf s ->
  set_wf (load_prod s p) /\ set_le s (load_prod s p) /\ (forall x, x ∈ p -> known (load_prod s p) x).
Proof.
  intros Hw. unfold load_prod. destruct (set_syms s (map Foreign p)) as [vs s'] eqn:E.
  destruct (set_syms_spec _ _ _ _ Hw E) as (? & ? & _ & ?). auto.
Qed.

Lemma load_prods_spec ps : forall s, set_wf s ->
  set_wf (fold_left load_prod ps s) /\ set_le s (fold_left load_prod ps s) /\
  (forall p x, p ∈ ps -> x ∈ p -> known (fold_left load_prod ps s) x).
Proof.
  induction ps as [|p ps IH]; simpl; intros s Hw.
  - split_and!; auto using set_le_refl. intros p x Hp; inversion Hp.
  - destruct (load_prod_spec s p Hw) as (Hw1 & Hl1 & Hk1).
    destruct (IH _ Hw1) as (Hw2 & Hl2 & Hk2). split_and!; auto.
    + eapply set_le_trans; eauto.
    + intros q x Hq Hx. apply elem_of_cons in Hq as [->|Hq]; [|eauto].
      eapply known_le; [exact Hw1|exact Hw2|exact Hl2|]. auto.
Qed.

Lemma load_nts_spec g nts : forall s, set_wf s -> (forall nt, nt ∈ nts -> is_Some (g_prods g nt)) ->
  exists s', load_nts g nts s = Ok s' /\ set_wf s' /\ set_le s s' /\
   (forall nt, nt ∈ nts -> known s' nt) /\
   (forall nt ps p x, nt ∈ nts -> g_prods g nt = Some ps -> p ∈ ps -> x ∈ p -> known s' x).
Proof.
  induction nts as [|nt nts IH]; simpl; intros s Hw Hps.
  - exists s. split_and!; auto using set_le_refl.
    + intros nt H; inversion H.
    + intros nt ps p x H; inversion H.
  - destruct (set_str s nt) as [v s1] eqn:E1.
    destruct (set_str_spec _ _ _ _ Hw E1) as (Hw1 & Hl1 & Hv & Hs & _). simpl.
    destruct (Hps nt) as [ps Hp]; [left|]. rewrite Hp.
    destruct (load_prods_spec ps s1 Hw1) as (Hw2 & Hl2 & Hk2).
    destruct (IH _ Hw2) as (s3 & Hs3 & Hw3 & Hl3 & Hk3 & Hk3').
    { intros x Hx. apply Hps. right; done. }
    exists s3. split_and!; auto.
    + eapply set_le_trans; [exact Hl1|]. eapply set_le_trans; eauto.
    + intros x Hx. apply elem_of_cons in Hx as [->|Hx]; [|auto].
      eapply known_le; [exact Hw1|exact Hw3| |exists v; done]. eapply set_le_trans; eauto.
    + intros x ps' p y Hx Hp' Hin Hy. apply elem_of_cons in Hx as [->|Hx]; [|eauto].
      assert (ps' = ps) as -> by congruence.
      eapply known_le; [exact Hw2|exact Hw3|exact Hl3|]. eauto.
Qed.

Lemma load_grammar_ok g : g_wf g ->
  exists s', load_grammar g set_new = Ok s' /\ set_wf s' /\
   (forall nt, nt ∈ g_nts g -> known s' nt) /\
   (forall nt ps p x, g_prods g nt = Some ps -> p ∈ ps -> x ∈ p -> known s' x).
Proof.
  intros Hg. destruct (load_nts_spec g (g_nts g) set_new set_new_wf) as (s' & H1 & H2 & H3 & H4 & H5).
  { intros nt Hnt. by apply Hg. }
  exists s'. split_and!; auto. intros nt ps p x Hp. apply (H5 nt); [|done]. apply Hg. eauto.
Qed.

Lemma load_lexemes_spec lxs : forall s o s', set_wf s -> load_lexemes s lxs = (o, s') ->
  set_wf s' /\ set_le s s' /\ map snd o = lxs /\
  Forall (fun x => symb2str s' !! fst x = Some (lx_kind (snd x))) o.
Proof.
  induction lxs as [|lx lxs IH]; simpl; intros s o s' Hw.
  - intros [= <- <-]. split_and!; auto using set_le_refl.
  - destruct (set_str s (lx_kind lx)) as [v s1] eqn:E1.
    destruct (load_lexemes s1 lxs) as [o' s2] eqn:E2. intros [= <- <-].
    destruct (set_str_spec _ _ _ _ Hw E1) as (Hw1 & Hl1 & Hv & Hs & _).
    destruct (IH _ _ _ Hw1 E2) as (Hw2 & Hl2 & Hm & HF).
    split_and!; auto.
    + eapply set_le_trans; eauto.
    + simpl. congruence.
    + constructor; [|done]. simpl. destruct Hl2 as [l Hl2]. rewrite Hl2. by apply lookup_app_l_Some.
Qed.

(** ** Histories *)
Lemma set_symbol_le s x : set_wf s -> set_wf (snd (set_symbol s x)) /\ set_le s (snd (set_symbol s x)).
Proof.
  intros Hw. destruct x as [v|n]; simpl; [auto using set_le_refl|].
  destruct (set_str s n) as [v s1] eqn:E. destruct (set_str_spec _ _ _ _ Hw E) as (? & ? & _). done.
Qed.
Lemma set_syms_le xs : forall s, set_wf s -> set_wf (snd (set_syms s xs)) /\ set_le s (snd (set_syms s xs)).
Proof.
  induction xs as [|x xs IH]; intros s Hw; simpl; [auto using set_le_refl|].
  destruct (set_symbol_le s x Hw) as [Hw1 Hl1]. destruct (set_symbol s x) as [v s1]. simpl in *.
  destruct (IH s1 Hw1) as [Hw2 Hl2]. destruct (set_syms s1 xs) as [vs s2]. simpl in *.
  split; [done|]. eapply set_le_trans; eauto.
Qed.
Lemma load_nts_le g nts : forall s s', set_wf s -> load_nts g nts s = Ok s' -> set_wf s' /\ set_le s s'.
Proof.
  induction nts as [|nt nts IH]; intros s s' Hw; simpl.
  - intros [= <-]. auto using set_le_refl.
  - destruct (set_str s nt) as [v s1] eqn:E. destruct (set_str_spec _ _ _ _ Hw E) as (Hw1 & Hl1 & _). simpl.
    destruct (g_prods g nt) as [ps|]; [|discriminate]. destruct (load_prods_spec ps s1 Hw1) as (Hw2 & Hl2 & _).
    intros H. destruct (IH _ _ Hw2 H) as [? ?]. split; [done|].
    eapply set_le_trans; [exact Hl1|]. eapply set_le_trans; eauto.
Qed.
Lemma set_step_le s o s' : set_wf s -> set_step s o = Ok s' -> set_wf s' /\ set_le s s'.
Proof.
  intros Hw. destruct o as [x|x|xs|g|lxs]; simpl.
  - intros [= <-]. apply (set_symbol_le s (Foreign x)); done.
  - intros [= <-]. apply set_symbol_le; done.
  - intros [= <-]. apply set_syms_le; done.
  - apply load_nts_le; done.
  - intros [= <-]. destruct (load_lexemes s lxs) as [o s1] eqn:E.
    destruct (load_lexemes_spec _ _ _ _ Hw E) as (? & ? & _). done.
Qed.
Lemma set_after_le ops : forall s s', set_wf s -> set_after s ops = Ok s' -> set_wf s' /\ set_le s s'.
Proof.
  unfold set_after. induction ops as [|o ops IH]; intros s s' Hw; simpl.
  - intros [= <-]. auto using set_le_refl.
  - destruct (set_step s o) as [s1| |] eqn:E; simpl; try discriminate.
    destruct (set_step_le _ _ _ Hw E) as [Hw1 Hl1]. intros H. destruct (IH _ _ Hw1 H) as [? ?].
    split; [done|]. eapply set_le_trans; eauto.
Qed.

Lemma sym_string_nat s i x : sym_string s (Z.of_nat i) = Ok x <-> symb2str s !! i = Some x.
Proof.
  unfold sym_string. destruct (Z.ltb_spec (Z.of_nat i) 0); [lia|]. rewrite Nat2Z.id.
  destruct (symb2str s !! i); split; congruence.
Qed.

Lemma set_history ops s x i s1 : set_after set_new ops = Ok s -> set_str s x = (i, s1) ->
  sym_string s1 (Z.of_nat i) = Ok x
  /\ (set_has s x = true -> s1 = s /\ i < sym_count s)
  /\ (set_has s x = false -> i = sym_count s /\ sym_count s1 = S (sym_count s))
  /\ (forall j, j < sym_count s -> exists y, set_has s y = true /\ set_str s y = (j, s))
  /\ (forall ops2 s2, set_after s1 ops2 = Ok s2 ->
        sym_string s2 (Z.of_nat i) = Ok x /\ forall y, fst (set_str s2 y) = i <-> y = x).
Proof.
  intros Hops Hx. destruct (set_after_le _ _ _ set_new_wf Hops) as [Hw _].
  destruct (set_str_spec _ _ _ _ Hw Hx) as (Hw1 & Hl1 & Hi & Hi' & _). split_and!.
  - apply sym_string_nat; done.
  - unfold set_has. destruct (str2sym s !! x) as [j|] eqn:E; [|done]. intros _.
    rewrite (set_str_known _ _ _ E) in Hx. injection Hx as <- <-. split; [done|].
    apply Hw in E. apply lookup_lt_Some in E. done.
  - unfold set_has. destruct (str2sym s !! x) as [j|] eqn:E; [done|]. intros _.
    unfold set_str in Hx. rewrite E in Hx. injection Hx as <- <-. split; [done|]. unfold sym_count. simpl.
    rewrite app_length. simpl. lia.
  - intros j Hj. destruct (lookup_lt_is_Some_2 (symb2str s) j Hj) as [y Hy]. exists y. apply Hw in Hy.
    unfold set_has. rewrite Hy. split; [done|]. apply set_str_known; done.
  - intros ops2 s2 H2. destruct (set_after_le _ _ _ Hw1 H2) as [Hw2 [l Hl2]].
    assert (Hi2 : symb2str s2 !! i = Some x) by (rewrite Hl2; apply lookup_app_l_Some; done).
    split; [apply sym_string_nat; done|]. intros y.
    destruct (set_str s2 y) as [j s3] eqn:Ey. destruct (set_str_spec _ _ _ _ Hw2 Ey) as (Hw3 & [l3 Hl3] & Hj & _). simpl. split.
    + intros ->. assert (symb2str s3 !! i = Some x) by (rewrite Hl3; apply lookup_app_l_Some; done). congruence.
    + intros ->. apply Hw2 in Hi2. rewrite (set_str_known _ _ _ Hi2) in Ey. congruence.
Qed.

Lemma load_grammar_wf ops s g : set_after set_new ops = Ok s -> g_wf g ->
  exists s', load_grammar g s = Ok s' /\ forall x, (x ∈ g_nts g \/ exists nt ps p, g_prods g nt = Some ps /\ p ∈ ps /\ x ∈ p) -> set_has s' x = true.
Proof.
  intros Hops Hg. destruct (set_after_le _ _ _ set_new_wf Hops) as [Hw _].
  destruct (load_nts_spec g (g_nts g) s Hw) as (s'' & H1 & H2 & H3 & H4 & H5).
  { intros nt Hnt. by apply Hg. }
  exists s''. split; [done|]. intros x Hx.
  assert (Hk : known s'' x).
  { destruct Hx as [Hx|(nt & ps & p & Hp & Hin & Hx)]; [auto|]. eapply H5; eauto. apply Hg. eauto. }
  destruct Hk as [i Hi]. unfold set_has. rewrite Hi. done.
Qed.
