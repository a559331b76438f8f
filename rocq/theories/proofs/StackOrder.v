(** What New makes of definitions, when that does not depend on iteration order. *)
From Coq Require Import String Lia.
From Verif.spec Require Import StackSpec.
From Verif.proofs Require Import Fuel SetProofs LexProofs StackProofs StackProofs2 StackLoop StackCuts StackLex StackNew StackBuilt StackMain.
Local Open Scope nat_scope.
Local Open Scope list_scope.

(** * Lists of definitions *)
Notation kd := (map sd_kind).
Lemma add_def_kinds D d : kd (add_def D d) = if decide (sd_kind d ∈ kd D) then kd D else kd D ++ [sd_kind d].
Proof. unfold add_def. destruct (decide _); [done|]. by rewrite map_app. Qed.
Lemma add_def_nodup D d : NoDup (kd D) -> NoDup (kd (add_def D d)).
Proof.
  intros H. rewrite add_def_kinds. destruct (decide _) as [|Hn]; [done|]. apply NoDup_app. split; [done|]. split; [|apply NoDup_singleton].
  intros x Hx ->%elem_of_list_singleton. done.
Qed.
Lemma add_defs_nodup E : forall D, NoDup (kd D) -> NoDup (kd (fold_left add_def E D)).
Proof. induction E as [|d E IH]; intros D H; [done|]. cbn. apply IH. by apply add_def_nodup. Qed.
Lemma add_defs_prefix E : forall D, exists F, fold_left add_def E D = D ++ F.
Proof.
  induction E as [|d E IH]; intros D; [exists []; by rewrite app_nil_r|]. cbn. destruct (IH (add_def D d)) as [F ->].
  unfold add_def. destruct (decide _); [by exists F|]. exists (d :: F). by rewrite <- app_assoc.
Qed.
Lemma add_defs_kinds x E : forall D, x ∈ kd (fold_left add_def E D) <-> x ∈ kd D \/ x ∈ kd E.
Proof.
  induction E as [|d E IH]; intros D; cbn; [set_solver|]. rewrite IH, add_def_kinds. destruct (decide _); set_solver.
Qed.
Lemma firsts_nodup E : NoDup (kd (firsts E)).
Proof. apply add_defs_nodup. constructor. Qed.
Lemma firsts_kinds x E : x ∈ kd (firsts E) <-> x ∈ kd E.
Proof. unfold firsts. rewrite add_defs_kinds. set_solver. Qed.
Lemma firsts_same E : NoDup (kd E) -> firsts E = E.
Proof.
  unfold firsts. assert (H : forall D, NoDup (kd (D ++ E)) -> fold_left add_def E D = D ++ E).
  { induction E as [|d E IH]; intros D H; [by rewrite app_nil_r|]. cbn. unfold add_def. destruct (decide _) as [Hi|Hi].
    - exfalso. rewrite map_app in H. apply NoDup_app in H as (_ & H & _). apply (H _ Hi). cbn. left.
    - rewrite IH; [by rewrite <- app_assoc|]. by rewrite <- app_assoc. }
  intros Hn. by apply H.
Qed.

(** * put, seen through its definitions *)
Lemma kinds_in st sl : sane st sl -> forall x, x ∈ kd (defs_in st sl) -> x ∈ symb2str st.
Proof.
  intros H x Hx. apply elem_of_list_fmap in Hx as (d & -> & Hd). apply elem_of_list_lookup in Hd as [p Hp].
  destruct (defs_rule _ _ _ _ H Hp) as (k & r & n & _ & _ & _ & _ & Hn & ->). by eapply elem_of_list_lookup_2.
Qed.
Lemma kind_there st sl k n : set_wf st -> sane st sl -> symb2str st !! k = Some n ->
  n ∈ kd (defs_in st sl) <-> exists q, su_rules sl !! k = Some (Some q).
Proof.
  intros Hw H Hk. split.
  - intros Hx. apply elem_of_list_fmap in Hx as (d & -> & Hd). apply elem_of_list_lookup in Hd as [p Hp].
    destruct (defs_rule _ _ _ _ H Hp) as (k' & r & n & _ & Hr & _ & _ & Hn & ->). cbn in Hk. apply Hw in Hk, Hn.
    assert (k' = k) as -> by congruence. eauto.
  - intros [q Hq]. destruct (rule_defs _ _ _ _ H Hq) as (n' & Hn' & Hd). assert (n' = n) as -> by congruence.
    apply elem_of_list_fmap. exists (def_of n q). split; [done|]. by eapply elem_of_list_lookup_2.
Qed.
Lemma def_of_priority n r p : def_of n (with_priority r p) = def_of n r.
Proof. done. Qed.
Lemma defs_in_put st sl r n : set_wf st -> sane st sl -> symb2str st !! sr_kind r = Some n ->
  defs_in st (put r sl) = add_def (defs_in st sl) (def_of n r).
Proof.
  intros Hw H Hk. pose proof (kind_there st sl _ _ Hw H Hk) as Ht. unfold add_def. cbn [def_of sd_kind].
  destruct (rule_there sl (sr_kind r)) as [[q Hq]|Hn].
  - rewrite decide_True by (apply Ht; eauto). destruct (put_old r sl q Hq) as [E _]. unfold defs_in. rewrite E.
    assert (Ho : forall k, k ∈ su_order sl -> exists r, su_rules sl !! k = Some (Some r)).
    { intros k Hin. apply elem_of_list_lookup in Hin as [p Hp]. destruct (sn_order _ _ H _ _ Hp) as (r' & Hr' & _). eauto. }
    clear -Ho. induction (su_order sl) as [|k ks IH]; [done|]. cbn. rewrite IH by (intros; apply Ho; by right).
    destruct (Ho k ltac:(left)) as [r' Hr']. rewrite Hr', (put_keeps r sl _ _ Hr'). done.
  - rewrite decide_False by (intros [q Hq]%Ht; by apply (Hn q)). destruct (put_new r sl Hn) as (E0 & E1 & _). unfold defs_in. rewrite E1.
    rewrite omap_app. cbn. rewrite E0, Hk. f_equal.
    assert (Ho : forall k, k ∈ su_order sl -> exists r, su_rules sl !! k = Some (Some r)).
    { intros k Hin. apply elem_of_list_lookup in Hin as [p Hp]. destruct (sn_order _ _ H _ _ Hp) as (r' & Hr' & _). eauto. }
    clear -Ho. induction (su_order sl) as [|k ks IH]; [done|]. cbn. rewrite IH by (intros; apply Ho; by right).
    destruct (Ho k ltac:(left)) as [r' Hr']. rewrite Hr', (put_keeps r sl _ _ Hr'). done.
Qed.

(** * Rules copied by index *)
Definition copied (st : set) (rs : list (option srule)) : list sdef :=
  omap (fun o => match o with
                 | Some r => match symb2str st !! sr_kind r with Some n => Some (def_of n r) | None => None end
                 | None => None
                 end) rs.
Lemma copied_kinds st (K : list gostring) rs : forall ns,
  (forall k r, rs !! k = Some (Some r) -> exists n, ns !! k = Some n /\ n ∈ K /\ symb2str st !! sr_kind r = Some n) ->
  (forall k n, ns !! k = Some n -> n ∈ K -> exists r, rs !! k = Some (Some r)) ->
  kd (copied st rs) = filter (.∈ K) ns.
Proof.
  induction rs as [|o rs IH]; intros ns H1 H2.
  - symmetry. change (copied st []) with (@nil sdef). cbn [map]. induction ns as [|n ns IHn]; [done|]. rewrite filter_cons_False.
    + apply IHn; [done|]. intros k x Hk Hx. by apply (H2 (S k) x).
    + intros Hn. by destruct (H2 0 n eq_refl Hn).
  - destruct ns as [|n ns].
    + assert (o = None) as ->. { destruct o as [r|]; [|done]. destruct (H1 0 r eq_refl) as (? & [=] & _). }
      change (copied st (None :: rs)) with (copied st rs). apply IH; [|done]. intros k r Hk. destruct (H1 (S k) r Hk) as (? & [=] & _).
    + assert (Hr : kd (copied st rs) = filter (.∈ K) ns).
      { apply IH; [intros k r Hk; by apply (H1 (S k) r)|intros k x Hk; by apply (H2 (S k) x)]. }
      destruct o as [r|].
      * destruct (H1 0 r eq_refl) as (x & [= <-] & Hx & Hs). rewrite filter_cons_True by done. rewrite <- Hr. unfold copied at 1. cbn. rewrite Hs. done.
      * rewrite filter_cons_False; [done|]. intros Hx. by destruct (H2 0 n eq_refl Hx).
Qed.
Lemma same_defs (E D : list sdef) : kd E = kd D -> (forall e d, e ∈ E -> d ∈ D -> sd_kind e = sd_kind d -> e = d) -> E = D.
Proof.
  revert D. induction E as [|e E IH]; intros [|d D] Hk H; try done. cbn in Hk. injection Hk as Hk1 Hk2. f_equal.
  - apply H; [left|left|done].
  - apply IH; [done|]. intros x y Hx Hy. apply H; by right.
Qed.
Lemma by_index st sl : set_wf st -> sane st sl -> filter (.∈ kd (defs_in st sl)) (symb2str st) = kd (defs_in st sl) ->
  copied st (su_rules sl) = defs_in st sl.
Proof.
  intros Hw H Hf. apply same_defs.
  - transitivity (filter (.∈ kd (defs_in st sl)) (symb2str st)); [|exact Hf]. apply copied_kinds.
    + intros k r Hk. destruct (rule_defs _ _ _ _ H Hk) as (n & Hn & Hd). exists n. split; [done|].
      split; [apply elem_of_list_fmap; exists (def_of n r); split; [done|by eapply elem_of_list_lookup_2]|].
      destruct (sn_rule _ _ H _ _ Hk) as [-> _]. done.
    + intros k n Hk Hn. by apply (kind_there st sl k n).
  - intros e d He Hd Hed. unfold copied in He. apply elem_of_list_omap in He as (o & Ho & He). destruct o as [r|]; [|done].
    apply elem_of_list_lookup in Ho as [k Hk]. destruct (sn_rule _ _ H _ _ Hk) as [Hkd _]. rewrite Hkd in He.
    destruct (symb2str st !! k) as [n|] eqn:En; [|done]. injection He as <-.
    apply elem_of_list_lookup in Hd as [p Hp]. destruct (defs_rule _ _ _ _ H Hp) as (k' & r' & n' & _ & Hr' & _ & _ & Hn' & ->).
    cbn in Hed. subst n'. apply Hw in En, Hn'. assert (k' = k) as -> by congruence. by assert (r' = r) as -> by congruence.
Qed.

(** * The state while parsing *)
Lemma lookup_take_inv {A} (l : list A) n i x : take n l !! i = Some x -> l !! i = Some x.
Proof.
  intros H. destruct (decide (i < n)) as [Hi|Hi]; [by rewrite lookup_take in H|]. rewrite lookup_take_ge in H by lia. done.
Qed.
Section Order.
Context (compile : scompiler) (definitions : list gostring).
Hypothesis Hp : plain compile definitions.
Notation h := (shell_of definitions).
Notation lexers := (sh_lexers (shell_of definitions)).
Notation names := (names_of definitions).
Notation K := (kinds compile definitions).
Notation own := (rules_said compile definitions).
Definition inherited (b : gostring) : Prop := exists a, inherits definitions a b.

Record content (st : pst) : Prop := {
  ct_inv : inv (fun _ => True) (sh_subs h) st;
  ct_prefix : forall b, inherited b -> exists k, filter (.∈ K b) (symb2str (ps_set st)) = take k (K b);
  ct_done : forall n id sl, lexers !! n = Some id -> ps_subs st !! id = Some sl -> n ∉ ps_stack st -> n ∈ ps_done st ->
    defs_in (ps_set st) sl = listing compile definitions n;
  ct_new : forall n id sl, lexers !! n = Some id -> ps_subs st !! id = Some sl -> n ∉ ps_stack st -> n ∉ ps_done st -> su_order sl = []
}.
Lemma names_lexers n : n ∈ names <-> is_Some (lexers !! n).
Proof. unfold names_of. by rewrite elem_of_dom. Qed.
Lemma lexer_name st n id sl : content st -> lexers !! n = Some id -> ps_subs st !! id = Some sl -> su_name sl = n.
Proof.
  intros H Hn Hs. destruct (sk_lexers _ (shell_of_ok definitions) _ _ Hn) as (sl0 & Hs0 & <-).
  destruct (inv_name _ _ _ _ _ (ct_inv _ H) Hs) as (sl1 & Hs1 & ->). congruence.
Qed.
Lemma lexer_inj n n' id : lexers !! n = Some id -> lexers !! n' = Some id -> n = n'.
Proof.
  intros H1 H2. destruct (sk_lexers _ (shell_of_ok definitions) _ _ H1) as (sl1 & Hs1 & <-).
  destruct (sk_lexers _ (shell_of_ok definitions) _ _ H2) as (sl2 & Hs2 & <-). congruence.
Qed.
Lemma defs_le st st' sl : sane st sl -> set_le st st' -> defs_in st' sl = defs_in st sl.
Proof. intros H [more E]. by eapply defs_in_more. Qed.

(** Interning the kind of a sub-lexer's next rule. *)
Lemma prefix_grows s n cs1 c cs2 d b : n ∈ names -> inherited b -> said definitions n = cs1 ++ c :: cs2 ->
  group 1 c ∉ names -> rule_said compile c = Some d ->
  (forall x, x ∈ kd (own cs1) -> x ∈ s) -> sd_kind d ∉ s ->
  (exists k, filter (.∈ K b) s = take k (K b)) -> exists k, filter (.∈ K b) (s ++ [sd_kind d]) = take k (K b).
Proof.
  intros Hn Hb Hsaid Hc Hd Hin Hnot [k Hk]. rewrite filter_app.
  destruct (decide (sd_kind d ∈ K b)) as [Hd2|Hd2].
  2: { rewrite (filter_cons_False _ (sd_kind d)) by done. rewrite app_nil_r. by exists k. }
  rewrite filter_cons_True by done. change (filter (.∈ K b) []) with (@nil gostring). set (x := sd_kind d) in *.
  destruct Hb as [a Ha]. destruct (pn_order _ _ Hp a b n Ha Hn) as [k' Hk'].
  assert (HKn : exists F, K n = kd (firsts (own cs1)) ++ x :: F).
  { unfold kinds. rewrite Hsaid. unfold rules_said. rewrite omap_app. cbn. rewrite decide_False by done. rewrite Hd. fold (own cs1).
    unfold firsts. rewrite fold_left_app. cbn [fold_left]. destruct (add_defs_prefix (own cs2) (add_def (fold_left add_def (own cs1) []) d)) as [F HF].
    change (omap _ cs2) with (own cs2). rewrite HF. unfold add_def at 1. rewrite decide_False.
    - exists (kd F). rewrite !map_app, <- app_assoc. done.
    - fold (firsts (own cs1)). rewrite firsts_kinds. intros Hx. by apply Hnot, Hin. }
  destruct HKn as [F HF]. rewrite HF, filter_app, filter_cons_True in Hk' by done. set (A := filter (.∈ K b) (kd (firsts (own cs1)))) in *.
  assert (HNb : NoDup (K b)) by apply firsts_nodup.
  assert (Hj : K b !! length A = Some x).
  { apply (lookup_take_inv _ k'). rewrite <- Hk', lookup_app_r, Nat.sub_diag by lia. done. }
  assert (HA : A = take (length A) (K b)).
  { apply list_eq. intros i. destruct (decide (i < length A)) as [Hi|Hi].
    - rewrite lookup_take by done. destruct (lookup_lt_is_Some_2 A i Hi) as [y Hy]. rewrite Hy. symmetry.
      apply (lookup_take_inv _ k'). rewrite <- Hk'. by apply lookup_app_l_Some.
    - rewrite lookup_take_ge by lia. by apply lookup_ge_None_2; lia. }
  assert (HAs : forall y, y ∈ A -> y ∈ take k (K b)).
  { intros y Hy. rewrite <- Hk. apply elem_of_list_filter in Hy as [Hy1 Hy2]. apply elem_of_list_filter. split; [done|]. apply Hin. by apply firsts_kinds. }
  assert (Hle1 : k <= length A).
  { destruct (decide (k <= length A)) as [?|Hgt]; [done|]. exfalso. apply Hnot.
    assert (Hx : x ∈ take k (K b)) by (apply (elem_of_list_lookup_2 _ (length A)); rewrite lookup_take by lia; exact Hj).
    rewrite <- Hk in Hx. by apply elem_of_list_filter in Hx as [_ ?]. }
  assert (Hle2 : length A <= k).
  { destruct (decide (length A <= k)) as [?|Hgt]; [done|]. exfalso.
    destruct (lookup_lt_is_Some_2 A k) as [y Hy]; [lia|]. assert (Hyb : K b !! k = Some y).
    { rewrite HA in Hy. rewrite lookup_take in Hy by lia; exact Hy. }
    assert (Hx : y ∈ take k (K b)) by (apply HAs; by eapply elem_of_list_lookup_2).
    apply elem_of_list_lookup in Hx as [i Hi]. assert (i < k). { apply lookup_lt_Some in Hi. rewrite take_length in Hi. lia. }
    rewrite lookup_take in Hi by lia. pose proof (NoDup_lookup _ _ _ _ HNb Hi Hyb). lia. }
  assert (k = length A) as Ek by lia. rewrite Hk, Ek. exists (S (length A)). symmetry. by apply take_S_r.
Qed.

Lemma content_open st st' n id : content st -> inv (fun _ => True) (sh_subs h) st' ->
  ps_stack st' = ps_stack st -> ps_done st' = ps_done st -> n ∈ ps_stack st -> lexers !! n = Some id ->
  (forall i sl', i <> id -> ps_subs st' !! i = Some sl' ->
     exists sl, ps_subs st !! i = Some sl /\ su_order sl' = su_order sl /\ su_rules sl' = su_rules sl) ->
  set_le (ps_set st) (ps_set st') ->
  (forall b, inherited b -> exists k, filter (.∈ K b) (symb2str (ps_set st')) = take k (K b)) -> content st'.
Proof.
  intros H Hi Es Ed Hn Hid Hsub Hle Hpre. split; try done.
  - rewrite Es, Ed. intros n' id' sl' Hn' Hs' Hst Hd. assert (Hne : id' <> id). { intros ->. rewrite (lexer_inj _ _ _ Hn' Hid) in Hst. done. }
    destruct (Hsub _ _ Hne Hs') as (sl & Hsl & Eo & Er). rewrite <- (ct_done _ H _ _ _ Hn' Hsl Hst Hd).
    rewrite <- (defs_le _ _ sl (iv_sane _ _ _ (ct_inv _ H) _ _ Hsl) Hle). unfold defs_in. by rewrite Eo, Er.
  - rewrite Es, Ed. intros n' id' sl' Hn' Hs' Hst Hd. assert (Hne : id' <> id). { intros ->. rewrite (lexer_inj _ _ _ Hn' Hid) in Hst. done. }
    destruct (Hsub _ _ Hne Hs') as (sl & Hsl & -> & _). by eapply (ct_new _ H).
Qed.
Lemma open_by st n id sl : content st -> n ∈ ps_stack st -> lexers !! n = Some id -> ps_subs st !! id = Some sl -> su_by sl = [].
Proof.
  intros H Hn Hid Hs. destruct (su_by sl) eqn:Eb; [done|]. exfalso. destruct (iv_by _ _ _ (ct_inv _ H) _ _ Hs) as [_ Hx]; [by rewrite Eb|].
  by rewrite (lexer_name _ _ _ _ H Hid Hs) in Hx.
Qed.
Lemma set_str_cases s x v s' : set_wf s -> set_str s x = (v, s') ->
  symb2str s' = symb2str s \/ (x ∉ symb2str s /\ symb2str s' = symb2str s ++ [x]).
Proof.
  intros Hw. unfold set_str. destruct (str2sym s !! x) as [i|] eqn:E; intros [= <- <-]; [by left|right]. split; [|done].
  intros [i Hi]%elem_of_list_lookup. apply Hw in Hi. congruence.
Qed.

Lemma rule_step f n id sl cs1 c cs2 D d st : content st -> n ∈ names -> said definitions n = cs1 ++ c :: cs2 ->
  n ∈ ps_stack st -> lexers !! n = Some id -> ps_subs st !! id = Some sl -> defs_in (ps_set st) sl = D ->
  (forall x, x ∈ kd (own cs1) -> x ∈ kd D) -> group 1 c ∉ names -> rule_said compile c = Some d ->
  exists st' sl', add_match compile (S f) id c st = Ok (st', None) /\ content st' /\ ps_stack st' = ps_stack st /\ ps_done st' = ps_done st
    /\ ps_subs st' !! id = Some sl' /\ (forall i, i <> id -> ps_subs st' !! i = ps_subs st !! i) /\ set_le (ps_set st) (ps_set st')
    /\ defs_in (ps_set st') sl' = add_def D d.
Proof.
  intros H Hn Hsaid Hst Hid Hs HD Hown Hc Hd. unfold add_match. unfold rule_said in Hd. destruct (compile _) as [re|] eqn:Ec; [|done].
  injection Hd as Hd. destruct (set_str (ps_set st) (group 1 c)) as [k s'] eqn:Es.
  pose proof (ct_inv _ H) as Hi. pose proof (iv_sane _ _ _ Hi _ _ Hs) as Hsane.
  destruct (set_str_spec _ _ _ _ (iv_set _ _ _ Hi) Es) as (Hw & Hl & Hk & _).
  rewrite (add_rule_put f id _ _ sl Hs) by (by eapply open_by). cbn [rbind].
  set (r := SRule k re _ 0 _ _ _). exists (PSt (<[id := put r sl]> (ps_subs st)) s' (ps_done st) (ps_stack st)), (put r sl).
  assert (Hlt : id < length (ps_subs st)) by (by eapply lookup_lt_Some).
  assert (Hsane' : sane s' sl). { eapply sane_more; [exact Hsane|]. destruct Hl as [more ->]. rewrite app_length. lia. }
  assert (Hi' : inv (fun _ => True) (sh_subs h) (PSt (<[id := put r sl]> (ps_subs st)) s' (ps_done st) (ps_stack st))).
  { pose proof (inv_le _ _ st s' Hi Hw Hl) as Ha.
    apply (put_inv _ _ (PSt (ps_subs st) s' (ps_done st) (ps_stack st)) id r sl); [apply Ha|done|by eapply lookup_lt_Some|done]. }
  split; [done|]. cbn [ps_subs ps_set ps_done ps_stack].
  split. { eapply (content_open st); [done|exact Hi'|done|done|exact Hst|exact Hid| |done|].
    - cbn [ps_subs]. intros i sl' Hne Hi2. rewrite list_lookup_insert_ne in Hi2 by done. eauto.
    - cbn [ps_set]. intros b Hb. destruct (set_str_cases _ _ _ _ (iv_set _ _ _ Hi) Es) as [->|[Hnot ->]]; [by apply (ct_prefix _ H)|].
      assert (Ek : group 1 c = sd_kind d) by (by rewrite <- Hd). rewrite Ek in Hnot |- *.
      eapply prefix_grows; try done; [unfold rule_said; rewrite Ec; by f_equal| |by apply (ct_prefix _ H)].
      intros x Hx. eapply kinds_in; [exact Hsane|]. rewrite HD. by apply Hown. }
  do 2 (split; [done|]). split; [by rewrite list_lookup_insert|]. split; [intros; by rewrite list_lookup_insert_ne|]. split; [done|].
  rewrite (defs_in_put s' sl r (group 1 c)) by done. rewrite (defs_le _ s' sl Hsane Hl), HD. f_equal. by rewrite <- Hd.
Qed.

(** Inheriting *)
Lemma copy_step f heir rs : forall st sl, inv (fun _ => True) (sh_subs h) st -> ps_subs st !! heir = Some sl -> su_by sl = [] ->
  (forall r, Some r ∈ rs -> sr_kind r < length (symb2str (ps_set st))) ->
  exists subs sl', rfold (fun subs r => match r with Some r => st_add_rule (S f) heir r subs | None => Ok subs end) rs (ps_subs st) = Ok subs
    /\ inv (fun _ => True) (sh_subs h) (with_subs st subs) /\ subs !! heir = Some sl' /\ (forall i, i <> heir -> subs !! i = ps_subs st !! i)
    /\ defs_in (ps_set st) sl' = fold_left add_def (copied (ps_set st) rs) (defs_in (ps_set st) sl).
Proof.
  induction rs as [|r rs IH]; intros st sl H Hs Hb Hr.
  - exists (ps_subs st), sl. split; [done|]. split; [by destruct st|]. done.
  - cbn [rfold]. destruct r as [r|].
    + rewrite (add_rule_put f heir r _ sl Hs Hb). cbn [rbind]. pose proof (Hr r ltac:(left)) as Hk.
      assert (Hlt : heir < length (ps_subs st)) by (by eapply lookup_lt_Some).
      pose proof (put_inv _ _ st heir r sl H Hs Hk I) as Ha.
      destruct (IH (with_subs st (<[heir := put r sl]> (ps_subs st))) (put r sl)) as (subs & sl' & E & Hi & Hh & Ho & Hd).
      * apply Ha.
      * cbn. by rewrite list_lookup_insert.
      * by rewrite put_by.
      * intros q Hq. apply Hr. by right.
      * exists subs, sl'. split; [exact E|]. split; [exact Hi|]. split; [done|]. split.
        -- intros i Hne. rewrite Ho by done. cbn. by rewrite list_lookup_insert_ne.
        -- destruct (lookup_lt_is_Some_2 _ _ Hk) as [n Hn]. cbn [with_subs ps_set] in Hd. rewrite Hd, (defs_in_put (ps_set st) sl r n).
           ++ unfold copied. cbn. by rewrite Hn.
           ++ apply H.
           ++ by eapply (iv_sane _ _ _ H).
           ++ done.
    + cbn [rbind]. change (copied (ps_set st) (None :: rs)) with (copied (ps_set st) rs). apply IH; try done. intros q Hq. apply Hr. by right.
Qed.
Lemma inherited_flat b c : inherited b -> c ∈ said definitions b -> group 1 c ∉ names.
Proof. intros [a Ha]. by eapply (pn_flat _ _ Hp). Qed.
Lemma grow_flat cs : forall D, (forall c, c ∈ cs -> group 1 c ∉ names) -> fold_left (grow compile definitions) cs D = fold_left add_def (own cs) D.
Proof.
  induction cs as [|c cs IH]; intros D H; [done|]. cbn [fold_left]. unfold grow at 2. rewrite decide_False by (apply H; left).
  unfold rules_said. cbn. rewrite decide_False by (apply H; left). rewrite IH by (intros; apply H; by right).
  destruct (rule_said compile c); done.
Qed.
Lemma listing_flat b : inherited b -> listing compile definitions b = firsts (own (said definitions b)).
Proof. intros Hb. unfold listing. rewrite grow_flat; [done|]. intros c Hc. by apply (inherited_flat b). Qed.

Definition inner_ok (f : nat) (b : gostring) : Prop := forall idb st, lexers !! b = Some idb -> content st -> b ∉ ps_stack st ->
  exists st1, st_parse f compile lexers (sh_defs h) idb st = Ok (st1, None) /\ content st1 /\ ps_stack st1 = ps_stack st
    /\ ps_done st ⊆ ps_done st1 /\ b ∈ ps_done st1 /\ (forall i, i <> idb -> ps_subs st1 !! i = ps_subs st !! i)
    /\ set_le (ps_set st) (ps_set st1).

Lemma heir_step f n id sl D b idb st : content st -> n ∈ ps_stack st -> lexers !! n = Some id -> ps_subs st !! id = Some sl ->
  defs_in (ps_set st) sl = D -> inherited b -> lexers !! b = Some idb -> b ∉ ps_stack st -> inner_ok (S f) b ->
  exists st' sl', add_heir (st_parse (S f) compile lexers (sh_defs h)) (S f) idb id st = Ok (st', None) /\ content st'
    /\ ps_stack st' = ps_stack st /\ ps_done st ⊆ ps_done st' /\ ps_subs st' !! id = Some sl' /\ set_le (ps_set st) (ps_set st')
    /\ defs_in (ps_set st') sl' = fold_left add_def (firsts (own (said definitions b))) D.
Proof.
  intros H Hn Hid Hs HD Hb Hidb Hbs Hin. unfold add_heir.
  destruct (Hin idb st Hidb H Hbs) as (st1 & E & H1 & Est & Hdn & Hbd & Hoth & Hle). rewrite E. cbn [rbind].
  assert (Hne : id <> idb). { intros ->. rewrite (lexer_inj _ _ _ Hid Hidb) in Hn. done. }
  destruct (sk_lexers _ (shell_of_ok definitions) _ _ Hidb) as (slb0 & Hslb0 & Hnb).
  destruct (inv_sub _ _ _ _ _ (ct_inv _ H1) Hslb0) as (slb & Hslb & Hnmb). rewrite Hslb.
  pose proof (ct_inv _ H1) as Hi1. pose proof (iv_sane _ _ _ Hi1 _ _ Hslb) as Hsb.
  set (slb' := Sub (su_name slb) (su_order slb) (su_rules slb) (su_counter slb) (su_by slb ++ [id])).
  assert (Hltb : idb < length (ps_subs st1)) by (by eapply lookup_lt_Some).
  assert (Hi2 : inv (fun _ => True) (sh_subs h) (with_subs st1 (<[idb := slb']> (ps_subs st1)))).
  { split; cbn [with_subs ps_subs ps_set ps_done ps_stack].
    - rewrite <- (iv_names _ _ _ Hi1). apply list_eq. intros i. rewrite !list_lookup_fmap.
      destruct (decide (i = idb)) as [->|Hi]; [|by rewrite list_lookup_insert_ne].
      rewrite list_lookup_insert by done. by rewrite Hslb.
    - apply Hi1.
    - intros i s Hi. apply list_lookup_insert_Some in Hi as [(<- & <- & _)|[_ Hi]]; [|by eapply (iv_sane _ _ _ Hi1)]. split; apply Hsb.
    - done.
    - intros i s Hi. apply list_lookup_insert_Some in Hi as [(<- & <- & _)|[_ Hi]]; [|by eapply (iv_by _ _ _ Hi1)].
      intros _. cbn. rewrite Hnmb, Hnb, Est. done. }
  assert (Hs1 : ps_subs st1 !! id = Some sl) by (rewrite Hoth; done).
  assert (Hs2 : ps_subs (with_subs st1 (<[idb := slb']> (ps_subs st1))) !! id = Some sl) by (cbn; by rewrite list_lookup_insert_ne).
  assert (Hn1 : n ∈ ps_stack st1) by (by rewrite Est).
  destruct (copy_step f id (su_rules slb) _ sl Hi2 Hs2 (open_by _ _ _ _ H1 Hn1 Hid Hs1)) as (subs & sl' & Er & Hi3 & Hh & Ho & Hd).
  { intros r Hr. apply elem_of_list_lookup in Hr as [k Hk]. cbn. destruct (sn_rule _ _ Hsb _ _ Hk) as [-> _]. by eapply sn_set. }
  cbn [with_subs ps_subs ps_set] in Er, Ho, Hd. rewrite Er. cbn [rbind].
  exists (with_subs st1 subs), sl'. split; [done|]. cbn [with_subs ps_subs ps_set ps_done ps_stack].
  split. { eapply (content_open st1); [done|exact Hi3|done|done|exact Hn1|exact Hid| |apply set_le_refl|apply (ct_prefix _ H1)].
    cbn [with_subs ps_subs]. intros i s Hi Hx. rewrite Ho in Hx by done. apply list_lookup_insert_Some in Hx as [(<- & <- & _)|[_ Hx]]; eauto. }
  split; [done|]. split; [done|]. split; [done|]. split; [done|].
  rewrite Hd. rewrite (defs_le _ _ sl (iv_sane _ _ _ (ct_inv _ H) _ _ Hs) Hle), HD. f_equal.
  assert (Hlb : defs_in (ps_set st1) slb = firsts (own (said definitions b))).
  { rewrite <- listing_flat by done. eapply (ct_done _ H1); [done|done|by rewrite Est|done]. }
  rewrite <- Hlb. apply by_index; [apply Hi1|done|]. rewrite Hlb. fold (K b).
  destruct (ct_prefix _ H1 b Hb) as [k Hk]. rewrite Hk. apply take_ge.
  destruct (decide (length (K b) <= k)) as [?|Hgt]; [done|]. exfalso.
  destruct (lookup_lt_is_Some_2 (K b) k) as [x Hx]; [lia|].
  assert (Hxs : x ∈ take k (K b)).
  { rewrite <- Hk. apply elem_of_list_filter. split; [by eapply elem_of_list_lookup_2|]. eapply kinds_in; [exact Hsb|]. rewrite Hlb.
    fold (K b). by eapply elem_of_list_lookup_2. }
  apply elem_of_list_lookup in Hxs as [i Hix]. assert (i < k). { apply lookup_lt_Some in Hix. rewrite take_length in Hix. lia. }
  rewrite lookup_take in Hix by done. pose proof (NoDup_lookup (K b) i k x (firsts_nodup _) Hix Hx). lia.
Qed.

(** The lines of a sub-lexer *)
Notation caps_of := (fun line => match find_sub re_sub_line line with Some (_, _, c) => Some c | None => None end).
Lemma said_says n c : c ∈ said definitions n -> says definitions n c.
Proof.
  unfold said, says. intros (line & Hl & Hc)%elem_of_list_omap. destruct (find_sub re_sub_line line) as [[[i m] c']|] eqn:E; [|done]. injection Hc as ->.
  destruct (sections definitions !! n) as [text|]; [eauto 10|]. exfalso.
  apply elem_of_list_singleton in Hl as ->. vm_compute in E. done.
Qed.
Lemma own_grow cs x : (forall c, c ∈ cs -> group 1 c ∉ names -> rule_said compile c <> None) ->
  x ∈ kd (own cs) -> x ∈ kd (fold_left (grow compile definitions) cs []).
Proof.
  intros Hc. assert (H : forall D, x ∈ kd D \/ x ∈ kd (own cs) -> x ∈ kd (fold_left (grow compile definitions) cs D)); [|intros; apply H; by right].
  clear Hc. induction cs as [|c cs IH]; intros D H; [cbn in *; destruct H as [H|H]; [done|by apply elem_of_nil in H]|].
  cbn [fold_left]. apply IH. unfold rules_said in H. cbn in H. unfold grow. destruct (decide (group 1 c ∈ names)).
  - destruct H as [H|H]; [|by right]. left. apply add_defs_kinds. by left.
  - destruct (rule_said compile c) as [d|]; [|done]. rewrite add_def_kinds. cbn in H. rewrite elem_of_cons in H.
    destruct (decide _); set_solver.
Qed.
Lemma lines_step f n id lines : forall st sl cs1, content st -> n ∈ names -> said definitions n = cs1 ++ omap caps_of lines ->
  n ∈ ps_stack st -> lexers !! n = Some id -> ps_subs st !! id = Some sl -> defs_in (ps_set st) sl = fold_left (grow compile definitions) cs1 [] ->
  (forall b, inherits definitions n b -> b ∉ ps_stack st /\ inner_ok (S f) b) ->
  exists st' sl', parse_lines (st_parse (S f) compile lexers (sh_defs h)) compile lexers (S f) id lines st = Ok (st', None) /\ content st'
    /\ ps_stack st' = ps_stack st /\ ps_done st ⊆ ps_done st' /\ ps_subs st' !! id = Some sl' /\ set_le (ps_set st) (ps_set st')
    /\ defs_in (ps_set st') sl' = listing compile definitions n
    /\ ((forall b, ~ inherits definitions n b) -> forall i, i <> id -> ps_subs st' !! i = ps_subs st !! i).
Proof.
  induction lines as [|line lines IH]; intros st sl cs1 H Hn Hsaid Hst Hid Hs Hd Hin.
  - exists st, sl. split; [done|]. do 5 (split; [done || apply set_le_refl|]). split; [|done].
    rewrite Hd. unfold listing. rewrite Hsaid. cbn. by rewrite app_nil_r.
  - cbn [parse_lines]. cbn in Hsaid. destruct (find_sub re_sub_line line) as [[[i m] c]|] eqn:Ef; [|by eapply IH].
    change (said definitions n = cs1 ++ c :: omap caps_of lines) in Hsaid.
    assert (Hcs : c ∈ said definitions n) by (rewrite Hsaid; set_solver).
    assert (Hnext : forall st1 sl1, content st1 -> ps_stack st1 = ps_stack st -> ps_done st ⊆ ps_done st1 -> ps_subs st1 !! id = Some sl1 ->
      set_le (ps_set st) (ps_set st1) -> defs_in (ps_set st1) sl1 = grow compile definitions (fold_left (grow compile definitions) cs1 []) c ->
      ((forall b, ~ inherits definitions n b) -> forall i, i <> id -> ps_subs st1 !! i = ps_subs st !! i) ->
      exists st' sl', parse_lines (st_parse (S f) compile lexers (sh_defs h)) compile lexers (S f) id lines st1 = Ok (st', None) /\ content st'
        /\ ps_stack st' = ps_stack st /\ ps_done st ⊆ ps_done st' /\ ps_subs st' !! id = Some sl' /\ set_le (ps_set st) (ps_set st')
        /\ defs_in (ps_set st') sl' = listing compile definitions n
        /\ ((forall b, ~ inherits definitions n b) -> forall i, i <> id -> ps_subs st' !! i = ps_subs st !! i)).
    { intros st1 sl1 H1 E1 Hdn Hs1 Hle Hd1 Hflat.
      destruct (IH st1 sl1 (cs1 ++ [c]) H1 Hn) as (st' & sl' & E & H' & Es & Hdn' & Hs' & Hle' & Hd' & Hf').
      - by rewrite <- app_assoc.
      - by rewrite E1.
      - done.
      - done.
      - by rewrite fold_left_app.
      - rewrite E1. done.
      - exists st', sl'. split; [done|]. split; [done|]. split; [congruence|]. split; [set_solver|]. split; [done|].
        split; [by eapply set_le_trans|]. split; [done|]. intros Hx j Hj. rewrite Hf', Hflat; done. }
    destruct (lexers !! group 1 c) as [idb|] eqn:El.
    + assert (Hb : inherits definitions n (group 1 c)).
      { split; [by apply names_lexers; rewrite El|]. exists c. split; [by apply said_says|done]. }
      destruct (Hin _ Hb) as [Hbs Hok].
      destruct (heir_step f n id sl _ (group 1 c) idb st H Hst Hid Hs Hd ltac:(by exists n) El Hbs Hok) as (st1 & sl1 & E & H1 & Es & Hdn & Hs1 & Hle & Hd1).
      rewrite E. cbn [rbind]. eapply Hnext; try done.
      * rewrite Hd1. unfold grow at 2. rewrite decide_True by (by apply names_lexers; rewrite El). done.
      * intros Hx. by destruct (Hx (group 1 c)).
    + assert (Hc : group 1 c ∉ names) by (rewrite names_lexers, El; by intros [? ?]).
      destruct (rule_said compile c) as [d|] eqn:Er; [|by destruct (pn_compiles _ _ Hp n c Hn Hcs Hc)].
      destruct (rule_step f n id sl cs1 c (omap caps_of lines) _ d st H Hn Hsaid Hst Hid Hs Hd) as (st1 & sl1 & E & H1 & Es & Hdn & Hs1 & Ho & Hle & Hd1); [|done|done|].
      { intros x Hx. apply own_grow; [|done]. intros c' Hc'. apply (pn_compiles _ _ Hp n); [done|]. rewrite Hsaid. set_solver. }
      rewrite E. cbn [rbind]. eapply Hnext; try done; [by rewrite Hdn|].
      rewrite Hd1. unfold grow. rewrite decide_False by done. by rewrite Er.
Qed.
Lemma said_lines n : said definitions n = [] ++ omap caps_of (split1 c_nl (default [] (sh_defs h !! n))).
Proof. done. Qed.
Lemma parse_step f n id st : content st -> n ∈ names -> lexers !! n = Some id -> n ∉ ps_stack st ->
  (forall b, inherits definitions n b -> b <> n /\ b ∉ ps_stack st /\ inner_ok (S f) b) ->
  exists st1, st_parse (S (S f)) compile lexers (sh_defs h) id st = Ok (st1, None) /\ content st1 /\ ps_stack st1 = ps_stack st
    /\ ps_done st ⊆ ps_done st1 /\ n ∈ ps_done st1 /\ ((forall b, ~ inherits definitions n b) -> forall i, i <> id -> ps_subs st1 !! i = ps_subs st !! i)
    /\ set_le (ps_set st) (ps_set st1).
Proof.
  intros H Hn Hid Hst Hin. remember (S f) as f1 eqn:Ef. cbn [st_parse]. subst f1. destruct (sk_lexers _ (shell_of_ok definitions) _ _ Hid) as (sl0 & Hsl0 & Hnm0).
  destruct (inv_sub _ _ _ _ _ (ct_inv _ H) Hsl0) as (sl & Hs & Hnm). rewrite Hs.
  assert (Enm : su_name sl = n) by congruence. rewrite Enm. rewrite decide_False by done.
  destruct (decide (n ∈ ps_done st)) as [Hdn|Hdn]. { exists st. do 5 (split; [done|]). split; [done|apply set_le_refl]. }
  set (st0 := PSt (ps_subs st) (ps_set st) ({[n]} ∪ ps_done st) ({[n]} ∪ ps_stack st)).
  assert (H0 : content st0).
  { pose proof (ct_inv _ H) as Hi. split; cbn [st0 ps_subs ps_set ps_done ps_stack].
    - split; cbn; try apply Hi. intros i s Hx Hb. destruct (iv_by _ _ _ Hi _ _ Hx Hb) as [H1 H2]. split; [set_solver|].
      intros [Hy|Hy]%elem_of_union; [|done]. apply elem_of_singleton in Hy. rewrite Hy in H1. done.
    - apply (ct_prefix _ H).
    - intros n' id' sl' H1 H2 H3 H4. eapply (ct_done _ H); [done|done|set_solver|set_solver].
    - intros n' id' sl' H1 H2 H3 H4. eapply (ct_new _ H); [done|done|set_solver|set_solver]. }
  destruct (lines_step f n id (split1 c_nl (default [] (sh_defs h !! n))) st0 sl [] H0 Hn (said_lines n)) as (st1 & sl1 & E & H1 & Es & Hdn1 & Hs1 & Hle & Hd1 & Hf).
  - cbn. set_solver.
  - done.
  - done.
  - cbn [st0 ps_set fold_left]. pose proof (ct_new _ H _ _ _ Hid Hs Hst Hdn) as Eo. unfold defs_in. by rewrite Eo.
  - cbn [st0 ps_stack]. intros b Hb. destruct (Hin b Hb) as (? & ? & ?). split; [set_solver|done].
  - rewrite E. cbn [rbind]. eexists. split; [done|]. cbn [ps_subs ps_set ps_done ps_stack]. cbn in Es, Hdn1, Hle, Hf.
    assert (Es' : ps_stack st1 ∖ {[n]} = ps_stack st) by (rewrite Es; apply leibniz_equiv; set_solver).
    pose proof (ct_inv _ H1) as Hi. split.
    + split; cbn [ps_subs ps_set ps_done ps_stack].
      * split; cbn; try apply Hi. intros i s Hx Hb. destruct (iv_by _ _ _ Hi _ _ Hx Hb) as [H5 H6]. split; [done|set_solver].
      * apply (ct_prefix _ H1).
      * intros n' id' sl' H2 H3 H4 H5. destruct (decide (n' = n)) as [->|Hne].
        -- assert (id' = id) as -> by congruence. assert (sl' = sl1) as -> by congruence. done.
        -- eapply (ct_done _ H1); [done|done|set_solver|done].
      * intros n' id' sl' H2 H3 H4 H5. destruct (decide (n' = n)) as [->|Hne]; [set_solver|]. eapply (ct_new _ H1); [done|done|set_solver|done].
    + split; [done|]. split; [set_solver|]. split; [set_solver|]. done.
Qed.
Lemma inherited_none b : inherited b -> forall c, ~ inherits definitions b c.
Proof.
  intros Hb c (Hc & cs & Hs & <-). apply (inherited_flat b cs Hb); [|done].
  destruct Hs as (text & line & i & m & Ht & Hl & Hf). unfold said. rewrite Ht. cbn. apply elem_of_list_omap. exists line. split; [done|]. by rewrite Hf.
Qed.
Lemma inner_all f b : inherited b -> inner_ok (S (S f)) b.
Proof.
  intros Hb idb st Hidb H Hst. pose proof (inherited_none b Hb) as Hno.
  destruct (parse_step f b idb st H) as (st1 & E & H1 & H2 & H3 & H4 & H5 & H6).
  - by apply names_lexers; rewrite Hidb.
  - done.
  - done.
  - intros c Hc. by destruct (Hno c).
  - exists st1. split; [done|]. split; [done|]. split; [done|]. split; [done|]. split; [done|]. split; [by apply H5|done].
Qed.
Lemma parse_all_step f order : forall st, (forall n, n ∈ order -> n ∈ names) -> content st -> ps_stack st = ∅ ->
  exists st', parse_all (S (S (S f))) compile lexers (sh_defs h) order st = Ok st' /\ content st' /\ ps_stack st' = ∅
    /\ ps_done st ⊆ ps_done st' /\ forall n, n ∈ order -> n ∈ ps_done st'.
Proof.
  induction order as [|n order IH]; intros st Ho H Hst.
  - exists st. do 4 (split; [done|]). intros n Hn. by apply elem_of_nil in Hn.
  - cbn [parse_all]. pose proof (Ho n ltac:(left)) as Hn. destruct (proj1 (names_lexers n) Hn) as [id Hid]. rewrite Hid.
    destruct (parse_step (S f) n id st H Hn Hid) as (st1 & E & H1 & H2 & H3 & H4 & _ & _).
    + rewrite Hst. set_solver.
    + intros b Hb. split; [|split; [rewrite Hst; set_solver|apply inner_all; by exists n]].
      intros ->. by apply (inherited_none n ltac:(by exists n) n).
    + rewrite E. cbn [rbind fst]. destruct (IH st1) as (st' & E' & H' & Hs' & Hd' & Hall).
      * intros m Hm. apply Ho. by right.
      * done.
      * congruence.
      * exists st'. split; [done|]. split; [done|]. split; [done|]. split; [set_solver|].
        intros m [->|Hm]%elem_of_cons; [set_solver|by apply Hall].
Qed.

Lemma new_listing order : order ≡ₚ elements names ->
  exists l, returns (st_new compile order definitions) (l, None) /\ forall n, n ∈ names -> env_of l n = Some (listing compile definitions n).
Proof.
  intros Ho. pose proof (shell_of_ok definitions) as Hh. set (st0 := PSt (sh_subs h) set_new ∅ ∅).
  assert (H0 : content st0).
  { split; cbn [ps_subs ps_set ps_done ps_stack st0].
    - split; cbn [ps_subs ps_set ps_done ps_stack st0].
      + done.
      + apply set_new_wf.
      + intros id sl Hs. destruct (sk_empty _ Hh sl) as [-> _]; [by eapply elem_of_list_lookup_2|]. apply empty_sane.
      + done.
      + intros id sl Hs Hb. destruct (sk_empty _ Hh sl) as [E _]; [by eapply elem_of_list_lookup_2|]. rewrite E in Hb. done.
    - intros b _. exists 0. done.
    - set_solver.
    - intros n id sl _ Hs _ _. destruct (sk_empty _ Hh sl) as [E _]; [by eapply elem_of_list_lookup_2|]. by rewrite E. }
  destruct (parse_all_step 0 order st0) as (st & E & H & Hst & _ & Hall).
  - intros n Hn. rewrite Ho in Hn. by apply elem_of_elements in Hn.
  - done.
  - done.
  - eexists. split. { eapply returns_at; [apply st_new_mono|]. unfold st_new. fold st0. rewrite E. cbn [rbind]. done. }
    intros n Hn. unfold env_of, frame. cbn [stl_lexers stl_subs stl_set]. destruct (proj1 (names_lexers n) Hn) as [id Hid]. rewrite Hid.
    destruct (sk_lexers _ Hh _ _ Hid) as (sl0 & Hsl0 & _). destruct (inv_sub _ _ _ _ _ (ct_inv _ H) Hsl0) as (sl & Hs & _). rewrite Hs.
    f_equal. eapply (ct_done _ H); [done|done|rewrite Hst; set_solver|]. apply Hall. rewrite Ho. by apply elem_of_elements.
Qed.
Lemma built_listing cs l : built compile definitions cs l -> forall n, n ∈ names -> env_of l n = Some (listing compile definitions n).
Proof.
  intros Hb n Hn. destruct (built_like (fun _ => True) _ _ _ _ ltac:(done) Hb) as (order & l0 & Ho & Hr & _ & _ & _ & Ht & Hl).
  rewrite (grown_env l0) by (done || apply Hl). destruct (new_listing order Ho) as (l1 & Hr1 & Hx).
  pose proof (returns_fun _ _ _ Hr Hr1) as [= ->]. by apply Hx.
Qed.
End Order.

(** * Lexing does not depend on the order *)
Lemma column_fun s c c' : column s c -> column s c' -> c = c'.
Proof. intros (a & Ha & ->) (b & Hb & ->). by rewrite (last_line_fun _ _ _ Ha Hb). Qed.
Lemma semits_fun err before ps out : semits code_places err before ps out -> forall out', semits code_places err before ps out' -> out = out'.
Proof.
  induction 1 as [|before x ps out rest Hx _ IH]; intros out' H'; inversion H' as [|before1 x1 ps1 out1 rest1 Hx1 Hr1]; subst; [done|].
  f_equal; [|by apply IH]. destruct x as [d v val|v]; cbn [sshows] in *.
  - destruct (sd_discard d); [congruence|]. destruct Hx as (c & Hc & ->), Hx1 as (c1 & Hc1 & ->). by rewrite (column_fun _ _ _ Hc Hc1).
  - destruct Hx as (c & Hc & ->), Hx1 as (c1 & Hc1 & ->). cbn in Hc, Hc1. pose proof (column_fun _ _ _ Hc Hc1). by assert (c = c1) as -> by lia.
Qed.
Lemma order_alike compile definitions cs l1 l2 n names s : plain compile definitions -> engine s_well_formed compile ->
  built compile definitions cs l1 -> built compile definitions cs l2 -> all_groups_ok l1 -> all_groups_ok l2 ->
  heading_names definitions = n :: names -> n ∉ names ->
  (panics (st_lex l1 s) /\ panics (st_lex l2 s))
  \/ exists xs l1' l2', returns (st_lex l1 s) (xs, l1') /\ returns (st_lex l2 s) (xs, l2').
Proof.
  intros Hp He Hb1 Hb2 Hg1 Hg2 Hh Hnot.
  assert (Hin : n ∈ names_of definitions) by (apply names_headings; rewrite Hh; left).
  pose proof (built_listing compile definitions Hp cs l1 Hb1) as H1. pose proof (built_listing compile definitions Hp cs l2 Hb2) as H2.
  assert (F1 : first_frame l1 = Some (listing compile definitions n)).
  { rewrite (built_starts compile definitions cs l1 n names ltac:(done) Hb1 Hh Hnot). by apply H1. }
  assert (F2 : first_frame l2 = Some (listing compile definitions n)).
  { rewrite (built_starts compile definitions cs l2 n names ltac:(done) Hb2 Hh Hnot). by apply H2. }
  destruct (built_ok _ _ _ _ Hb1 Hg1 He) as (Hok1 & Ht1 & Hl1). destruct (built_ok _ _ _ _ Hb2 Hg2 He) as (Hok2 & Ht2 & Hl2).
  destruct (lex_cuts l1 s _ _ Hok1 Ht1 (lk_compare _ _ _ _ Hl1) F1) as (ps & ok & Hc & Hx).
  destruct (lex_cuts l2 s _ _ Hok2 Ht2 (lk_compare _ _ _ _ Hl2) F2) as (ps2 & ok2 & Hc2 & Hx2).
  assert (Henv : forall m, env_of l1 m = env_of l2 m).
  { intros m. destruct (decide (m ∈ names_of definitions)) as [Hm|Hm]; [by rewrite H1, H2|].
    transitivity (@None (list sdef)); [|symmetry]; by apply (built_env (fun _ => True) compile definitions cs). }
  eapply gcuts_env in Hc; [|exact Henv]. destruct (gcuts_fun _ _ _ _ _ _ _ _ _ _ Hc _ _ Hc2) as [<- <-].
  destruct ok; [|by left]. right. destruct Hx as (out & Hr & Hs), Hx2 as (out2 & Hr2 & Hs2).
  rewrite (lk_error _ _ _ _ Hl1) in Hs. rewrite (lk_error _ _ _ _ Hl2) in Hs2. rewrite (semits_fun _ _ _ _ Hs _ Hs2) in Hr.
  rewrite (lk_start _ _ _ _ Hl1), (lk_end _ _ _ _ Hl1) in Hr. rewrite (lk_start _ _ _ _ Hl2), (lk_end _ _ _ _ Hl2) in Hr2.
  eexists _, _, _. split; [exact Hr|exact Hr2].
Qed.
