(** New: it always returns, and what it builds is in order. *)
From Coq Require Import Lia.
From Verif.spec Require Import StackSpec.
From Verif.proofs Require Import Fuel SetProofs LexProofs StackProofs StackProofs2 StackLex.

(** * addRule when nobody has inherited yet *)
Definition padded (r : srule) (rs : list (option srule)) : list (option srule) :=
  rs ++ replicate (S (sr_kind r) - length rs) None.
Definition with_priority (r : srule) (p : nat) : srule :=
  SRule (sr_kind r) (sr_re r) (sr_discard r) p (sr_push r) (sr_pop r) (sr_subs r).
Definition put (r : srule) (sl : sublexer) : sublexer :=
  match su_rules sl !! sr_kind r with
  | Some (Some _) => Sub (su_name sl) (su_order sl) (padded r (su_rules sl)) (su_counter sl) (su_by sl)
  | _ => Sub (su_name sl) (su_order sl ++ [sr_kind r])
             (<[sr_kind r := Some (with_priority r (su_counter sl))]> (padded r (su_rules sl)))
             (S (su_counter sl)) (su_by sl)
  end.
Lemma padded_lookup r rs k q : padded r rs !! k = Some (Some q) <-> rs !! k = Some (Some q).
Proof.
  unfold padded. split; intros H.
  - apply lookup_app_Some in H as [H|[_ H]]; [done|]. by apply lookup_replicate in H as [? _].
  - by apply lookup_app_l_Some.
Qed.
Lemma padded_length r rs : sr_kind r < length (padded r rs).
Proof. unfold padded. rewrite app_length, replicate_length. lia. Qed.
Lemma add_rule_put f id r subs sl : subs !! id = Some sl -> su_by sl = [] ->
  st_add_rule (S f) id r subs = Ok (<[id := put r sl]> subs).
Proof.
  intros Hs Hb. cbn [st_add_rule]. rewrite Hs. fold (padded r (su_rules sl)). unfold put.
  assert (Hx : forall q, padded r (su_rules sl) !! sr_kind r = Some (Some q) <-> su_rules sl !! sr_kind r = Some (Some q)).
  { intros q. apply padded_lookup. }
  destruct (su_rules sl !! sr_kind r) as [[q|]|] eqn:E.
  - rewrite (proj2 (Hx q) eq_refl). done.
  - destruct (padded _ _ !! _) as [[q|]|] eqn:E'; [discriminate (proj1 (Hx q) eq_refl)| |]; rewrite Hb; done.
  - destruct (padded _ _ !! _) as [[q|]|] eqn:E'; [discriminate (proj1 (Hx q) eq_refl)| |]; rewrite Hb; done.
Qed.
Lemma put_name r sl : su_name (put r sl) = su_name sl.
Proof. unfold put. destruct (_ !! _) as [[]|]; done. Qed.
Lemma put_by r sl : su_by (put r sl) = su_by sl.
Proof. unfold put. destruct (_ !! _) as [[]|]; done. Qed.
Lemma put_rule r sl k q : su_rules (put r sl) !! k = Some (Some q) ->
  su_rules sl !! k = Some (Some q) \/ (k = sr_kind r /\ q = with_priority r (su_counter sl)
     /\ forall q', su_rules sl !! k <> Some (Some q')).
Proof.
  unfold put. destruct (su_rules sl !! sr_kind r) as [[q'|]|] eqn:E; cbn [su_rules].
  - intros H. left. by apply padded_lookup in H.
  - intros H. apply list_lookup_insert_Some in H as [(<- & [= <-] & _)|[_ H]]; [right|left; by apply padded_lookup in H].
    split; [done|]. split; [done|]. intros q'. by rewrite E.
  - intros H. apply list_lookup_insert_Some in H as [(<- & [= <-] & _)|[_ H]]; [right|left; by apply padded_lookup in H].
    split; [done|]. split; [done|]. intros q'. by rewrite E.
Qed.
Lemma put_keeps r sl k q : su_rules sl !! k = Some (Some q) -> su_rules (put r sl) !! k = Some (Some q).
Proof.
  intros H. unfold put. destruct (su_rules sl !! sr_kind r) as [[q'|]|] eqn:E; cbn [su_rules]; [by apply padded_lookup| |];
    (rewrite list_lookup_insert_ne; [by apply padded_lookup|]; intros <-; congruence).
Qed.
Lemma put_new r sl : (forall q, su_rules sl !! sr_kind r <> Some (Some q)) ->
  su_rules (put r sl) !! sr_kind r = Some (Some (with_priority r (su_counter sl)))
  /\ su_order (put r sl) = su_order sl ++ [sr_kind r] /\ su_counter (put r sl) = S (su_counter sl).
Proof.
  intros H. unfold put. destruct (su_rules sl !! sr_kind r) as [[q'|]|] eqn:E; [by destruct (H q')| |]; cbn;
  (split; [rewrite list_lookup_insert by apply padded_length; done|done]).
Qed.
Lemma put_old r sl q : su_rules sl !! sr_kind r = Some (Some q) ->
  su_order (put r sl) = su_order sl /\ su_counter (put r sl) = su_counter sl.
Proof. intros H. unfold put. by rewrite H. Qed.
Lemma rule_there sl k : (exists q, su_rules sl !! k = Some (Some q)) \/ forall q, su_rules sl !! k <> Some (Some q).
Proof. destruct (su_rules sl !! k) as [[q|]|]; [left; eauto|right|right]; intros q'; done. Qed.
Lemma put_sane st r sl : sane st sl -> sr_kind r < length (symb2str st) -> sane st (put r sl).
Proof.
  intros H Hk. destruct (rule_there sl (sr_kind r)) as [[q Hq]|Hn].
  - destruct (put_old r sl q Hq) as [E1 E2]. split.
    + intros k q' Hq'. rewrite E1. apply put_rule in Hq' as [Hq'|(-> & _ & Hn)]; [by apply (sn_rule _ _ H)|by destruct (Hn q)].
    + intros p k. rewrite E1. intros Hp. destruct (sn_order _ _ H _ _ Hp) as (q' & H1 & H2). exists q'. split; [by apply put_keeps|done].
    + intros k q' Hq'. apply put_rule in Hq' as [Hq'|(-> & _ & Hn)]; [by eapply (sn_set _ _ H)|by destruct (Hn q)].
    + rewrite E1, E2. apply H.
  - destruct (put_new r sl Hn) as (E0 & E1 & E2). split.
    + intros k q' Hq'. rewrite E1. apply put_rule in Hq' as [Hq'|(-> & -> & _)].
      * destruct (sn_rule _ _ H _ _ Hq') as [H1 H2]. split; [done|]. by apply lookup_app_l_Some.
      * cbn. split; [done|]. rewrite (sn_counter _ _ H). rewrite lookup_app_r by lia. by rewrite Nat.sub_diag.
    + intros p k. rewrite E1. intros Hp. apply lookup_app_Some in Hp as [Hp|[Hp1 Hp2]].
      * destruct (sn_order _ _ H _ _ Hp) as (q' & H1 & H2). exists q'. split; [by apply put_keeps|done].
      * apply list_lookup_singleton_Some in Hp2 as [Hp2 <-]. exists (with_priority r (su_counter sl)). split; [done|].
        cbn. rewrite (sn_counter _ _ H). lia.
    + intros k q' Hq'. apply put_rule in Hq' as [Hq'|(-> & _ & _)]; [by eapply (sn_set _ _ H)|done].
    + rewrite E1, E2, app_length, (sn_counter _ _ H). cbn. lia.
Qed.
Lemma empty_sane st n : sane st (Sub n [] [] 0 []).
Proof. split; cbn; try done. all: intros; by rewrite lookup_nil in *. Qed.

(** * The state while parsing *)
Section New.
Context (compile : scompiler) (P : sregexp -> Prop) (lexers : gmap gostring nat) (defs : gmap gostring gostring) (names : gset gostring) (subs0 : list sublexer).
Hypothesis Hcomp : engine P compile.
Hypothesis Hnames : forall sl, sl ∈ subs0 -> su_name sl ∈ names.
Hypothesis Hlexers : forall n id, lexers !! n = Some id -> exists sl, subs0 !! id = Some sl /\ su_name sl = n.

Record inv (st : pst) : Prop := {
  iv_names : map su_name (ps_subs st) = map su_name subs0;
  iv_set : set_wf (ps_set st);
  iv_sane : forall id sl, ps_subs st !! id = Some sl -> sane (ps_set st) sl;
  iv_good : forall id sl k r, ps_subs st !! id = Some sl -> su_rules sl !! k = Some (Some r) -> P (sr_re r);
  iv_by : forall id sl, ps_subs st !! id = Some sl -> su_by sl <> [] -> su_name sl ∈ ps_done st /\ su_name sl ∉ ps_stack st
}.
Definition after (st st' : pst) : Prop :=
  inv st' /\ ps_stack st' = ps_stack st /\ ps_done st ⊆ ps_done st' /\ set_le (ps_set st) (ps_set st').
Lemma after_trans a b c : after a b -> after b c -> after a c.
Proof.
  intros (_ & H1 & H2 & H3) (H4 & H5 & H6 & H7). split; [done|]. split; [congruence|]. split; [set_solver|]. by eapply set_le_trans.
Qed.
Lemma inv_sub st id sl0 : inv st -> subs0 !! id = Some sl0 -> exists sl, ps_subs st !! id = Some sl /\ su_name sl = su_name sl0.
Proof.
  intros H Hs. pose proof (f_equal (fun x => x !! id) (iv_names _ H)) as E. rewrite !list_lookup_fmap, Hs in E. cbn in E.
  destruct (ps_subs st !! id) as [sl|]; [|done]. exists sl. injection E as E. done.
Qed.
Lemma inv_name st id sl : inv st -> ps_subs st !! id = Some sl -> exists sl0, subs0 !! id = Some sl0 /\ su_name sl = su_name sl0.
Proof.
  intros H Hs. pose proof (f_equal (fun x => x !! id) (iv_names _ H)) as E. rewrite !list_lookup_fmap, Hs in E. cbn in E.
  destruct (subs0 !! id) as [sl0|]; [|done]. exists sl0. injection E as E. done.
Qed.

Lemma put_inv st id r sl : inv st -> ps_subs st !! id = Some sl -> sr_kind r < length (symb2str (ps_set st)) -> P (sr_re r) ->
  after st (with_subs st (<[id := put r sl]> (ps_subs st))).
Proof.
  intros H Hs Hk Hr. split; [|split; [done|split; [done|apply set_le_refl]]]. split; cbn [with_subs ps_subs ps_set ps_done ps_stack].
  - rewrite <- (iv_names _ H). apply list_eq. intros i. rewrite !list_lookup_fmap.
    destruct (decide (i = id)) as [->|Hne]; [|by rewrite list_lookup_insert_ne].
    rewrite list_lookup_insert by (by eapply lookup_lt_Some). rewrite Hs. cbn. by rewrite put_name.
  - apply H.
  - intros i sl'. intros Hi. apply list_lookup_insert_Some in Hi as [(<- & <- & _)|[_ Hi]]; [|by eapply (iv_sane _ H)].
    apply put_sane; [by eapply (iv_sane _ H)|done].
  - intros i sl' k q Hi Hq. apply list_lookup_insert_Some in Hi as [(<- & <- & _)|[_ Hi]]; [|by eapply (iv_good _ H)].
    apply put_rule in Hq as [Hq|(_ & -> & _)]; [by eapply (iv_good _ H)|done].
  - intros i sl' Hi. apply list_lookup_insert_Some in Hi as [(<- & <- & _)|[_ Hi]]; [|by eapply (iv_by _ H)].
    rewrite put_by, put_name. by eapply (iv_by _ H).
Qed.
Lemma inv_le st s' : inv st -> set_wf s' -> set_le (ps_set st) s' -> after st (PSt (ps_subs st) s' (ps_done st) (ps_stack st)).
Proof.
  intros H Hw Hl. split; [|done]. split; cbn; try apply H; [done|]. intros id sl Hs. eapply sane_more; [by eapply (iv_sane _ H)|].
  destruct Hl as [more ->]. rewrite app_length. lia.
Qed.

Lemma add_match_ok f id m st sl : inv st -> ps_subs st !! id = Some sl -> su_by sl = [] ->
  exists st' e, add_match compile (S f) id m st = Ok (st', e) /\ after st st'.
Proof.
  intros H Hs Hb. unfold add_match. destruct (compile _) as [re|] eqn:Ec.
  - destruct (set_str (ps_set st) (group 1 m)) as [k s'] eqn:Es.
    destruct (set_str_spec _ _ _ _ (iv_set _ H) Es) as (Hw & Hl & Hk & _).
    rewrite (add_rule_put f id _ _ sl Hs Hb). cbn [rbind]. eexists _, _. split; [done|].
    pose proof (inv_le st s' H Hw Hl) as Ha. eapply after_trans; [exact Ha|].
    apply (put_inv (PSt (ps_subs st) s' (ps_done st) (ps_stack st)) id); [apply Ha|done|by eapply lookup_lt_Some|by eapply Hcomp].
  - eexists _, _. split; [done|]. split; [done|]. split; [done|]. split; [done|apply set_le_refl].
Qed.

Lemma add_rules_ok f heir rs : forall st sl, inv st -> ps_subs st !! heir = Some sl -> su_by sl = [] ->
  (forall r, Some r ∈ rs -> sr_kind r < length (symb2str (ps_set st)) /\ P (sr_re r)) ->
  exists subs, rfold (fun subs r => match r with Some r => st_add_rule (S f) heir r subs | None => Ok subs end) rs (ps_subs st) = Ok subs
    /\ after st (with_subs st subs).
Proof.
  induction rs as [|r rs IH]; intros st sl H Hs Hb Hr.
  - exists (ps_subs st). split; [done|]. destruct st. split; [done|]. split; [done|]. split; [done|apply set_le_refl].
  - cbn [rfold]. destruct r as [r|].
    + rewrite (add_rule_put f heir r _ sl Hs Hb). cbn [rbind].
      destruct (Hr r ltac:(left)) as [Hk Hp]. pose proof (put_inv st heir r sl H Hs Hk Hp) as Ha.
      destruct (IH (with_subs st (<[heir := put r sl]> (ps_subs st))) (put r sl)) as (subs & E & Ha').
      * apply Ha.
      * cbn. rewrite list_lookup_insert; [done|by eapply lookup_lt_Some].
      * by rewrite put_by.
      * intros q Hq. apply Hr. by right.
      * exists subs. split; [exact E|]. eapply after_trans; [exact Ha|]. exact Ha'.
    + cbn [rbind]. apply (IH st sl); try done. intros q Hq. apply Hr. by right.
Qed.

Definition enough (fuel : nat) (st : pst) : Prop := 2 + size (names ∖ ps_done st) <= fuel.
Lemma enough_after fuel st st' : enough fuel st -> after st st' -> enough fuel st'.
Proof.
  unfold enough. intros H (_ & _ & Hd & _). assert (size (names ∖ ps_done st') <= size (names ∖ ps_done st)).
  { apply subseteq_size. set_solver. }
  lia.
Qed.

Section Parse.
Context (f : nat).
Hypothesis IH : forall id sl0 st, subs0 !! id = Some sl0 -> inv st -> enough f st ->
  exists st' e, st_parse f compile lexers defs id st = Ok (st', e) /\ after st st'
    /\ (e = None -> su_name sl0 ∈ ps_done st' /\ su_name sl0 ∉ ps_stack st).

Lemma add_heir_ok n id heir sl0 slh st : lexers !! n = Some id -> subs0 !! id = Some sl0 -> subs0 !! heir = Some slh ->
  su_name slh ∈ ps_stack st -> inv st -> enough f st ->
  exists st' e, add_heir (st_parse f compile lexers defs) f id heir st = Ok (st', e) /\ after st st'.
Proof.
  intros Hn Hid Hheir Hstk H Hf. unfold add_heir.
  destruct (IH id sl0 st Hid H Hf) as (st1 & e & E & Ha & He). rewrite E. cbn [rbind].
  destruct e as [e|]; [eexists _, _; split; [done|done]|]. destruct (He eq_refl) as [Hd Hns].
  assert (H1 : inv st1) by apply Ha. destruct (inv_sub _ _ _ H1 Hid) as (sl & Hs & Hnm). rewrite Hs.
  assert (Hne : id <> heir). { intros ->. assert (slh = sl0) as -> by congruence. done. }
  set (sl' := Sub (su_name sl) (su_order sl) (su_rules sl) (su_counter sl) (su_by sl ++ [heir])).
  assert (Ha2 : after st1 (with_subs st1 (<[id := sl']> (ps_subs st1)))).
  { split; [|split; [done|split; [done|apply set_le_refl]]]. split; cbn [with_subs ps_subs ps_set ps_done ps_stack].
    - rewrite <- (iv_names _ H1). apply list_eq. intros i. rewrite !list_lookup_fmap.
      destruct (decide (i = id)) as [->|Hi]; [|by rewrite list_lookup_insert_ne].
      rewrite list_lookup_insert by (by eapply lookup_lt_Some). by rewrite Hs.
    - apply H1.
    - intros i s. intros Hi. apply list_lookup_insert_Some in Hi as [(<- & <- & _)|[_ Hi]]; [|by eapply (iv_sane _ H1)].
      pose proof (iv_sane _ H1 _ _ Hs) as Hsn. split; apply Hsn.
    - intros i s k q Hi Hq. apply list_lookup_insert_Some in Hi as [(<- & <- & _)|[_ Hi]]; by eapply (iv_good _ H1).
    - intros i s Hi. apply list_lookup_insert_Some in Hi as [(<- & <- & _)|[_ Hi]]; [|by eapply (iv_by _ H1)].
      intros _. cbn. rewrite Hnm. destruct Ha as (_ & -> & _). done. }
  assert (H2 : inv (with_subs st1 (<[id := sl']> (ps_subs st1)))) by apply Ha2.
  destruct (inv_sub _ _ _ H2 Hheir) as (sh & Hsh & Hnh).
  destruct f as [|f'] eqn:Ef; [unfold enough in Hf; lia|].
  destruct (add_rules_ok f' heir (su_rules sl) (with_subs st1 (<[id := sl']> (ps_subs st1))) sh H2 Hsh) as (subs & Er & Ha3).
  - destruct (su_by sh) eqn:Eb; [done|]. exfalso. destruct (iv_by _ H2 _ _ Hsh) as [_ Hx]; [by rewrite Eb|].
    apply Hx. cbn. destruct Ha as (_ & -> & _). by rewrite Hnh.
  - intros r Hr. apply elem_of_list_lookup in Hr as [k Hk]. cbn. split; [|by eapply (iv_good _ H1)].
    pose proof (iv_sane _ H1 _ _ Hs) as Hsn. destruct (sn_rule _ _ Hsn _ _ Hk) as [-> _]. by eapply sn_set.
  - cbn [with_subs ps_subs] in Er. rewrite Er. cbn [rbind]. eexists _, _. split; [done|].
    eapply after_trans; [exact Ha|]. eapply after_trans; [exact Ha2|]. exact Ha3.
Qed.

Lemma parse_lines_ok id sl0 lines : forall st, subs0 !! id = Some sl0 -> su_name sl0 ∈ ps_stack st -> inv st -> enough f st ->
  exists st' e, parse_lines (st_parse f compile lexers defs) compile lexers f id lines st = Ok (st', e) /\ after st st'.
Proof.
  induction lines as [|line lines IHl]; intros st Hid Hstk H Hf.
  - eexists _, _. split; [done|]. split; [done|]. split; [done|]. split; [done|apply set_le_refl].
  - cbn [parse_lines]. destruct (find_sub re_sub_line line) as [[[i mm] m]|]; [|by apply IHl].
    assert (Hstep : exists st1 e, match lexers !! group 1 m with
                  | Some from => add_heir (st_parse f compile lexers defs) f from id st
                  | None => add_match compile f id m st
                  end = Ok (st1, e) /\ after st st1).
    { destruct (lexers !! group 1 m) as [from|] eqn:El.
      - destruct (Hlexers _ _ El) as (slf & Hslf & _). by eapply add_heir_ok.
      - destruct (inv_sub _ _ _ H Hid) as (sl & Hs & Hnm). destruct f as [|f'] eqn:Ef; [unfold enough in Hf; lia|].
        apply (add_match_ok f' id m st sl); try done.
        destruct (su_by sl) eqn:Eb; [done|]. exfalso. destruct (iv_by _ H _ _ Hs) as [_ Hx]; [by rewrite Eb|]. by rewrite Hnm in Hx. }
    destruct Hstep as (st1 & e & E & Ha). rewrite E. cbn [rbind]. destruct e as [e|]; [eexists _, _; split; [done|done]|].
    destruct (IHl st1 Hid) as (st' & e & E' & Ha').
    + destruct Ha as (_ & -> & _). done.
    + apply Ha.
    + by eapply enough_after.
    + exists st', e. split; [done|]. by eapply after_trans.
Qed.
End Parse.

Lemma parse_ok fuel : forall id sl0 st, subs0 !! id = Some sl0 -> inv st -> enough fuel st ->
  exists st' e, st_parse fuel compile lexers defs id st = Ok (st', e) /\ after st st'
    /\ (e = None -> su_name sl0 ∈ ps_done st' /\ su_name sl0 ∉ ps_stack st).
Proof.
  induction fuel as [|fuel IH]; intros id sl0 st Hid H Hf; [unfold enough in Hf; lia|].
  cbn [st_parse]. destruct (inv_sub _ _ _ H Hid) as (sl & Hs & Hnm). rewrite Hs, Hnm. set (n := su_name sl0) in *.
  destruct (decide (n ∈ ps_stack st)) as [Hst|Hst].
  { eexists _, _. split; [done|]. split; [|done]. split; [done|]. split; [done|]. split; [done|apply set_le_refl]. }
  destruct (decide (n ∈ ps_done st)) as [Hdn|Hdn].
  { eexists _, _. split; [done|]. split; [|done]. split; [done|]. split; [done|]. split; [done|apply set_le_refl]. }
  set (st0 := PSt (ps_subs st) (ps_set st) ({[n]} ∪ ps_done st) ({[n]} ∪ ps_stack st)).
  assert (H0 : inv st0).
  { split; cbn; try apply H. intros i s Hi Hb. destruct (iv_by _ H _ _ Hi Hb) as [H1 H2]. split; [set_solver|].
    intros [Hx|Hx]%elem_of_union; [|done]. apply elem_of_singleton in Hx. rewrite Hx in H1. done. }
  destruct (parse_lines_ok fuel IH id sl0 (split1 c_nl (default [] (defs !! n))) st0 Hid) as (st1 & e & E & Ha).
  - cbn. set_solver.
  - done.
  - unfold enough in *. cbn [ps_done st0].
    assert (Hin : n ∈ names) by (apply Hnames; by eapply elem_of_list_lookup_2).
    assert (S (size (names ∖ ({[n]} ∪ ps_done st))) <= size (names ∖ ps_done st)); [|lia].
    apply (subset_size (C := gset gostring)). split; [set_solver|]. intros Hsub.
    assert (Hx : n ∈ names ∖ ({[n]} ∪ ps_done st)) by (apply Hsub; set_solver). set_solver.
  - rewrite E. cbn [rbind]. eexists _, _. split; [done|]. destruct Ha as (H1 & H2 & H3 & H4). cbn in H2, H3.
    split.
    + split; [|split; [cbn; rewrite H2; apply leibniz_equiv; set_solver|split; [cbn; set_solver|done]]].
      split; cbn; try apply H1. intros i s Hi Hb. destruct (iv_by _ H1 _ _ Hi Hb) as [H5 H6]. split; [done|set_solver].
    + intros _. split; [|done]. cbn. set_solver.
Qed.
Lemma parse_all_ok fuel order : forall st, (forall n, n ∈ order -> is_Some (lexers !! n)) -> inv st -> enough fuel st ->
  exists st', parse_all fuel compile lexers defs order st = Ok st' /\ inv st'.
Proof.
  induction order as [|n order IH]; intros st Ho H Hf; [by exists st|].
  cbn [parse_all]. destruct (Ho n ltac:(left)) as [id Hid]. rewrite Hid. destruct (Hlexers _ _ Hid) as (sl0 & Hsl & _).
  destruct (parse_ok fuel id sl0 st Hsl H Hf) as (st1 & e & E & Ha & _). rewrite E. cbn [rbind fst].
  apply IH; [intros m Hm; apply Ho; by right|apply Ha|by eapply enough_after].
Qed.
End New.

(** * Headings *)
Record shell_ok (h : shell) : Prop := {
  sk_lexers : forall n id, sh_lexers h !! n = Some id -> exists sl, sh_subs h !! id = Some sl /\ su_name sl = n;
  sk_empty : forall sl, sl ∈ sh_subs h -> sl = Sub (su_name sl) [] [] 0 [] /\ su_name sl ∈ dom (sh_lexers h);
  sk_first : forall id, sh_first h = Some id -> id < length (sh_subs h);
  sk_none : sh_first h = None -> sh_subs h = []
}.
Lemma read_headings_ok hs : forall rest cur h, shell_ok h -> shell_ok (read_headings hs rest cur h).
Proof.
  induction hs as [|[[i len] n] hs IH]; intros rest cur h H; cbn [read_headings].
  - destruct cur; [|done]. split; cbn; apply H.
  - apply IH. split; cbn [sh_lexers sh_subs sh_first sh_defs].
    + intros m id Hm. apply lookup_insert_Some in Hm as [[<- <-]|[Hne Hm]].
      * exists (Sub n [] [] 0 []). rewrite lookup_app_r by lia. rewrite Nat.sub_diag. done.
      * destruct (sk_lexers _ H _ _ Hm) as (sl & Hs & Hsn). exists sl. split; [by apply lookup_app_l_Some|done].
    + intros sl Hs. apply elem_of_app in Hs as [Hs|Hs].
      * destruct (sk_empty _ H _ Hs). split; [done|]. rewrite dom_insert_L. set_solver.
      * apply elem_of_list_singleton in Hs as ->. split; [done|]. cbn. rewrite dom_insert_L. set_solver.
    + intros id. rewrite app_length. cbn. destruct (sh_first h) as [x|] eqn:E; intros [= <-]; [|lia].
      pose proof (sk_first _ H _ E). lia.
    + destruct (sh_first h); done.
Qed.
Lemma shell_of_ok definitions : shell_ok (shell_of definitions).
Proof.
  unfold shell_of. assert (H : shell_ok (Shell [] ∅ None ∅)).
  { split; cbn; try done. all: intros; set_solver. }
  revert H. generalize (Shell [] ∅ None ∅). induction definitions as [|d ds IH]; intros h H; [done|].
  cbn [fold_left]. apply IH. by apply read_headings_ok.
Qed.
