(** The main loop of the simple lexer. *)
From Verif.spec Require Import LexSpec.
From Verif.proofs Require Import Fuel SetProofs.

(** * Newlines *)
Lemma count_newlines_occ v : count_newlines v = count_occ N.eq_dec v 10%N.
Proof.
  induction v as [|x v IH]; [done|]. cbn [count_newlines count_occ].
  destruct (N.eqb_spec x 10); destruct (N.eq_dec x 10); try congruence. 
Qed.
Lemma last_newline_none s : 10%N ∉ s -> last_newline s = (-1)%Z.
Proof.
  induction s as [|x s IH]; [done|]. rewrite not_elem_of_cons. intros [H1 H2].
  cbn [last_newline]. rewrite IH by done. cbn. destruct (N.eqb_spec x 10); congruence.
Qed.
Lemma last_newline_app pre s : 10%N ∉ s -> last_newline (pre ++ 10%N :: s) = Z.of_nat (length pre).
Proof.
  intros Hs. induction pre as [|x pre IH]; cbn [app last_newline length].
  - rewrite last_newline_none by done. done.
  - rewrite IH. destruct (Z.ltb_spec (Z.of_nat (length pre)) 0); lia.
Qed.
Lemma last_line_ex s : exists last, is_last_line s last /\
  (Z.of_nat (length s) - last_newline s)%Z = Z.of_nat (1 + length last).
Proof.
  assert (H : 10%N ∉ s \/ exists pre l, s = pre ++ 10%N :: l /\ 10%N ∉ l).
  { induction s as [|x s IH]; [left; apply not_elem_of_nil|]. destruct IH as [IH | (pre & l & -> & Hl)].
    - destruct (decide (x = 10%N)) as [->|Hx].
      + right. exists [], s. done.
      + left. rewrite not_elem_of_cons. done.
    - right. exists (x :: pre), l. done. }
  destruct H as [H | (pre & l & -> & Hl)].
  - exists s. split; [split; auto|]. rewrite last_newline_none by done. lia.
  - exists l. split; [split; [done|right; eauto]|]. rewrite last_newline_app by done.
    rewrite app_length. cbn [length]. lia.
Qed.
Lemma last_line_fun s a b : is_last_line s a -> is_last_line s b -> a = b.
Proof.
  intros [Ha Ha'] [Hb Hb'].
  destruct Ha' as [Ea | [p Ea]], Hb' as [Eb | [q Eb]]; rewrite Ea in Eb.
  - done.
  - exfalso. rewrite Eb in Ha. set_solver.
  - exfalso. rewrite <- Eb in Hb. set_solver.
  - clear Ea. revert q Eb. induction p as [|x p IH]; intros [|y q] Hq; cbn in Hq.
    + congruence.
    + injection Hq as _ Hq. rewrite Hq in Ha. set_solver.
    + injection Hq as _ Hq. rewrite <- Hq in Hb. set_solver.
    + injection Hq as _ Hq. eauto.
Qed.

(** * Tidy lexers: the rules are those of [D], in listing order *)
Definition rule_of (p : nat) (d : rdef) : option lrule := Some (LRule p (rd_re d) (rd_discard d) p).
Record tidy (l : slexer) (D : list rdef) (extn : list gostring) : Prop := {
  td_rules : sl_rules l = imap rule_of D;
  td_order : sl_order l = seq 0 (length D);
  td_counter : sl_counter l = length D;
  td_wf : set_wf (sl_set l);
  td_names : symb2str (sl_set l) = map rd_kind D ++ extn
}.

Lemma tidy_rule l D x p d : tidy l D x -> D !! p = Some d ->
  rule_at (sl_rules l) p = Ok (LRule p (rd_re d) (rd_discard d) p).
Proof.
  intros Ht Hp. unfold rule_at. rewrite (td_rules _ _ _ Ht), list_lookup_imap, Hp. done.
Qed.
Lemma rmap_ok {A B} (f : A -> res B) (g : A -> B) l : (forall x, x ∈ l -> f x = Ok (g x)) -> rmap f l = Ok (map g l).
Proof.
  induction l as [|x l IH]; intros H; cbn [rmap map]; [done|].
  rewrite H by left. cbn [rbind]. rewrite IH; [done|]. intros; apply H; by right.
Qed.
Lemma populate_ok l D x b : tidy l D x ->
  populate_next (sl_rules l) b = Ok (map (fun d => rx_find (rd_re d) b) D).
Proof.
  intros Ht. unfold populate_next. rewrite (td_rules _ _ _ Ht).
  erewrite (rmap_ok _ (fun r => match r with Some r => rx_find (lr_re r) b | None => None end)).
  - f_equal. apply list_eq. intros i. rewrite !list_lookup_fmap, list_lookup_imap.
    destruct (D !! i); done.
  - intros r. rewrite elem_of_lookup_imap. intros (p & d & -> & _). done.
Qed.

(** * The table of next matches *)
Definition shift (c : nat) (o : option (nat * nat)) : option (nat * nat) :=
  match o with Some (i, j) => Some (i + c, j + c) | None => None end.
(** Entry p was found by rule p in the text from some position up to [cur] on. *)
Definition seen (D : list rdef) (b : gostring) (cur : nat) (next : list (option (nat * nat))) : Prop :=
  length next = length D /\
  forall p d, D !! p = Some d -> exists c, c <= cur /\ c <= length b /\
    next !! p = Some (shift c (rx_find (rd_re d) (drop c b))).
(** Entry p is what rule p finds in the text from [cur] on. *)
Definition fresh (D : list rdef) (b : gostring) (cur : nat) (next : list (option (nat * nat))) : Prop :=
  next = map (fun d => shift cur (rx_find (rd_re d) (drop cur b))) D.

Definition updated (b : gostring) (cur : nat) (d : rdef) (o : option (nat * nat)) : option (nat * nat) :=
  match o with
  | Some (i, j) => if i <=? cur then shift cur (rx_find (rd_re d) (drop cur b)) else o
  | None => None
  end.
Lemma update_ok l D x b cur next : tidy l D x -> length next = length D ->
  update_next (sl_rules l) b cur next = Ok (zip_with (updated b cur) D next).
Proof.
  intros Ht Hl. unfold update_next.
  assert (H : forall D1 D2 n1, D = D1 ++ D2 -> length n1 = length D2 ->
    rmap (update_one (sl_rules l) b cur) (imap (fun i o => (length D1 + i, o)) n1)
    = Ok (zip_with (updated b cur) D2 n1)).
  { intros D1 D2. revert D1. induction D2 as [|d D2 IH]; intros D1 [|o n1] HD Hn; try done.
    cbn [imap rmap zip_with].
    assert (Ho : update_one (sl_rules l) b cur (length D1 + 0, o) = Ok (updated b cur d o)).
    { unfold update_one. cbn [fst snd]. destruct o as [[i j]|]; [|done]. cbn [updated].
      destruct (i <=? cur); [|done]. erewrite tidy_rule; [|done|].
      2:{ rewrite Nat.add_0_r, HD. rewrite lookup_app_r by lia. rewrite Nat.sub_diag. done. }
      cbn [rbind lr_re]. unfold shift. destruct (rx_find _ _) as [[??]|]; done. }
    rewrite Ho. cbn [rbind].
    specialize (IH (D1 ++ [d]) n1).
    replace (imap _ n1) with (imap (fun i o0 => (length (D1 ++ [d]) + i, o0)) n1).
    2:{ apply imap_ext. intros i y _. cbn. rewrite app_length. cbn [length]. f_equal. lia. }
    rewrite IH; [done| by rewrite <- app_assoc | cbn in Hn; lia]. }
  apply (H [] D next); done.
Qed.

Lemma seen_start D b : seen D b 0 (map (fun d => rx_find (rd_re d) b) D).
Proof.
  split; [apply map_length|]. intros p d Hp. exists 0. split; [lia|]. split; [lia|].
  rewrite list_lookup_fmap, Hp, drop_0. cbn. f_equal. destruct (rx_find (rd_re d) b) as [[i j]|]; [|done].
  cbn. by rewrite !Nat.add_0_r.
Qed.
Lemma fresh_start D b : fresh D b 0 (map (fun d => rx_find (rd_re d) b) D).
Proof.
  unfold fresh. apply map_ext. intros d. rewrite drop_0. destruct (rx_find (rd_re d) b) as [[i j]|]; [|done].
  cbn. by rewrite !Nat.add_0_r.
Qed.
Lemma zip_with_length_eq {A B C} (f : A -> B -> C) l k : length k = length l -> length (zip_with f l k) = length l.
Proof. intros H. rewrite zip_with_length. lia. Qed.
Lemma seen_update D b cur cur' next : cur <= cur' -> cur' <= length b -> seen D b cur next ->
  seen D b cur' (zip_with (updated b cur') D next).
Proof.
  intros Hc Hb [Hl Hs]. split; [by apply zip_with_length_eq|].
  intros p d Hp. destruct (Hs p d Hp) as (c & Hc1 & Hcb & Hn).
  rewrite lookup_zip_with, Hp. cbn. rewrite Hn. cbn.
  destruct (rx_find (rd_re d) (drop c b)) as [[i j]|] eqn:E; cbn.
  - destruct (Nat.leb_spec (i + c) cur').
    + exists cur'. split; [lia|]. split; [lia|]. done.
    + exists c. rewrite E. split; [lia|]. done.
  - exists c. rewrite E. split; [lia|]. done.
Qed.
(** The cache is transparent for rules without look-behind. *)
Lemma find_later r s c : no_lookbehind r -> c <= length s ->
  (forall i j, rx_find r s = Some (i, j) -> c <= i) -> shift c (rx_find r (drop c s)) = rx_find r s.
Proof.
  intros Hr Hc Hi. pose proof (Hr s) as H. pose proof (Hr (drop c s)) as H'.
  destruct (rx_find r s) as [[i j]|] eqn:E.
  - destruct H as (Hij & Hm & Hbefore). specialize (Hi i j eq_refl).
    destruct (rx_find r (drop c s)) as [[i' j']|] eqn:E'.
    + destruct H' as (Hij' & Hm' & Hbefore'). rewrite drop_length in Hij'.
      assert (i' + c = i) as Hii.
      { destruct (Nat.lt_trichotomy (i' + c) i) as [Hlt | [Heq | Hgt]]; [|done|].
        - specialize (Hbefore _ Hlt). rewrite drop_drop in Hm'. rewrite Nat.add_comm in Hbefore. congruence.
        - specialize (Hbefore' (i - c)). rewrite drop_drop in Hbefore'.
          replace (c + (i - c)) with i in Hbefore' by lia. rewrite Hbefore' in Hm by lia. done. }
      rewrite drop_drop in Hm'. replace (c + i') with i in Hm' by lia. cbn. f_equal. f_equal; [lia|].
      rewrite Hm in Hm'. injection Hm' as Hm'. lia.
    + specialize (H' (i - c)). rewrite drop_length, drop_drop in H'.
      replace (c + (i - c)) with i in H' by lia. rewrite H' in Hm by lia. done.
  - destruct (rx_find r (drop c s)) as [[i' j']|] eqn:E'; [|done].
    destruct H' as (Hij' & Hm' & _). rewrite drop_drop in Hm'. rewrite drop_length in Hij'.
    rewrite H in Hm' by lia. done.
Qed.
Lemma fresh_update D b cur cur' next : Forall (fun d => no_lookbehind (rd_re d)) D ->
  cur <= cur' -> cur' <= length b -> fresh D b cur next ->
  fresh D b cur' (zip_with (updated b cur') D next).
Proof.
  intros HD Hc Hb ->. unfold fresh. apply list_eq. intros p.
  rewrite lookup_zip_with, !list_lookup_fmap. destruct (D !! p) as [d|] eqn:Hp; [|done]. cbn. f_equal.
  rewrite Forall_lookup in HD. specialize (HD _ _ Hp).
  destruct (shift cur (rx_find (rd_re d) (drop cur b))) as [[i j]|] eqn:E; cbn [updated].
  - destruct (Nat.leb_spec i cur'); [done|].
    pose proof (find_later (rd_re d) (drop cur b) (cur' - cur) HD) as H1.
    rewrite drop_length, drop_drop in H1. replace (cur + (cur' - cur)) with cur' in H1 by lia.
    rewrite <- E, <- H1; [| lia |].
    + destruct (rx_find (rd_re d) (drop cur' b)) as [[i' j']|]; [|done]. cbn. f_equal. f_equal; lia.
    + intros i' j' E'. rewrite E' in E. cbn in E. simplify_eq. lia.
  - pose proof (find_later (rd_re d) (drop cur b) (cur' - cur) HD) as H1.
    rewrite drop_length, drop_drop in H1. replace (cur + (cur' - cur)) with cur' in H1 by lia.
    destruct (rx_find (rd_re d) (drop cur b)) as [[? ?]|]; [done|].
    specialize (H1 ltac:(lia) ltac:(done)).
    destruct (rx_find (rd_re d) (drop cur' b)) as [[i' j']|]; done.
Qed.

(** * Choosing the match *)
Definition in_text (b : gostring) (cur : nat) (next : list (option (nat * nat))) : Prop :=
  forall p i j, next !! p = Some (Some (i, j)) -> i <= j <= length b.
Lemma seen_in_text D b cur next : Forall (fun d => well_formed (rd_re d)) D -> seen D b cur next ->
  in_text b cur next.
Proof.
  intros HD [Hl Hs] p i j Hp. destruct (lookup_lt_is_Some_2 D p) as [d Hd].
  { rewrite <- Hl. by eapply lookup_lt_Some. }
  destruct (Hs p d Hd) as (c & Hc & Hcb & Hn). rewrite Hn in Hp. injection Hp as Hp.
  rewrite Forall_lookup in HD. specialize (HD _ _ Hd).
  destruct (rx_find (rd_re d) (drop c b)) as [[i' j']|] eqn:E; [|done]. cbn in Hp. injection Hp as <- <-.
  apply HD in E. rewrite drop_length in E. lia.
Qed.

Definition nothing_here (cur : nat) (next : list (option (nat * nat))) : Prop :=
  forall q m, next !! q = Some (Some (cur, m)) -> m = cur.
Definition longest_here (cur : nat) (next : list (option (nat * nat))) (p e : nat) : Prop :=
  cur < e /\ next !! p = Some (Some (cur, e)) /\
  forall q m, next !! q = Some (Some (cur, m)) -> m < e \/ (m = e /\ p <= q).

Lemma imap_pair_snoc {A} (l : list A) x : imap pair (l ++ [x]) = imap pair l ++ [(length l, x)].
Proof. rewrite imap_app. cbn. by rewrite Nat.add_0_r. Qed.
Lemma rfold_snoc {A S} (f : S -> A -> res S) l x s : rfold f (l ++ [x]) s = (s' <-! rfold f l s; f s' x).
Proof.
  revert s. induction l as [|y l IH]; intros s; cbn [app rfold].
  - cbn [rbind]. destruct (f s x); done.
  - destruct (f s y); cbn [rbind]; [apply IH|done..].
Qed.
Lemma slice_ok b i j : i <= j -> j <= length b -> go_slice b i j = Ok (take (j - i) (drop i b)).
Proof.
  intros. unfold go_slice. destruct (Nat.leb_spec i j), (Nat.leb_spec j (length b)); try lia. done.
Qed.

Lemma find_by_length l D x b cur next : tidy l D x -> sl_compare l = length_then_priority ->
  length next <= length D -> in_text b cur next ->
  (find_next_match l b next cur = Ok (None, [], cur, (-1)%Z) /\ nothing_here cur next)
  \/ (exists p e, find_next_match l b next cur = Ok (Some p, take (e - cur) (drop cur b), e, Z.of_nat p)
                  /\ longest_here cur next p e).
Proof.
  intros Ht Hcmp Hl Hin. unfold find_next_match.
  induction next as [|o next IH] using rev_ind.
  - left. split; [done|]. intros q m Hq. done.
  - rewrite app_length in Hl. cbn [length] in Hl. destruct IH as [[IH1 IH2] | (p & e & IH1 & IH2 & IH3 & IH4)].
    { lia. }
    { intros p i j Hp. apply (Hin p). by apply lookup_app_l_Some. }
    + (* nothing so far *)
      rewrite imap_pair_snoc, rfold_snoc, IH1. cbn [rbind]. unfold find_step. cbn [fst snd].
      assert (Hstay : (forall m, o = Some (cur, m) -> m = cur) -> nothing_here cur (next ++ [o])).
      { intros Ho q m Hq. apply lookup_app_Some in Hq as [Hq | [_ Hq]]; [by eapply IH2|].
        apply list_lookup_singleton_Some in Hq as [_ Hq]. by apply Ho. }
      destruct o as [[i j]|]; [|left; split; [done|apply Hstay; done]].
      destruct (Nat.eqb_spec i cur) as [->|Hi]; [|left; split; [done|apply Hstay; congruence]].
      destruct (lookup_lt_is_Some_2 D (length next)) as [d Hd]; [lia|].
      rewrite (tidy_rule _ _ _ _ _ Ht Hd). cbn [rbind lr_priority].
      assert (Hj : cur <= j <= length b).
      { apply (Hin (length next)). rewrite lookup_app_r, Nat.sub_diag by lia. done. }
      rewrite Hcmp. unfold length_then_priority.
      destruct (Z.ltb_spec (Z.of_nat cur) (Z.of_nat j)) as [Hlt|Hge]; cbn [orb].
      * rewrite slice_ok by lia. cbn [rbind]. right. exists (length next), j. split; [done|].
        split; [lia|]. split; [by rewrite lookup_app_r, Nat.sub_diag by lia|].
        intros q m Hq. apply lookup_app_Some in Hq as [Hq | [Hq1 Hq]].
        -- apply IH2 in Hq. lia.
        -- apply list_lookup_singleton_Some in Hq as [Hq2 [= ->]]. right. split; [done|lia].
      * destruct (Z.ltb_spec (Z.of_nat (length next)) (-1)); [lia|]. rewrite andb_false_r.
        left. split; [done|]. apply Hstay. intros m [= ->]. lia.
    + rewrite imap_pair_snoc, rfold_snoc, IH1. cbn [rbind]. unfold find_step. cbn [fst snd].
      assert (Hp : p < length next) by (by eapply lookup_lt_Some).
      assert (Hstay : (forall m, o = Some (cur, m) -> m <= e) -> longest_here cur (next ++ [o]) p e).
      { intros Ho. split; [done|]. split; [by apply lookup_app_l_Some|].
        intros q m Hq. apply lookup_app_Some in Hq as [Hq | [Hq1 Hq]]; [by apply IH4|].
        apply list_lookup_singleton_Some in Hq as [Hq2 Hq]. apply Ho in Hq. lia. }
      destruct o as [[i j]|]; [|right; exists p, e; split; [done|apply Hstay; done]].
      destruct (Nat.eqb_spec i cur) as [->|Hi]; [|right; exists p, e; split; [done|apply Hstay; congruence]].
      destruct (lookup_lt_is_Some_2 D (length next)) as [d Hd]; [lia|].
      rewrite (tidy_rule _ _ _ _ _ Ht Hd). cbn [rbind lr_priority].
      assert (Hj : cur <= j <= length b).
      { apply (Hin (length next)). rewrite lookup_app_r, Nat.sub_diag by lia. done. }
      rewrite Hcmp. unfold length_then_priority.
      destruct (Z.ltb_spec (Z.of_nat e) (Z.of_nat j)) as [Hlt|Hge]; cbn [orb].
      * rewrite slice_ok by lia. cbn [rbind]. right. exists (length next), j. split; [done|].
        split; [lia|]. split; [by rewrite lookup_app_r, Nat.sub_diag by lia|].
        intros q m Hq. apply lookup_app_Some in Hq as [Hq | [Hq1 Hq]].
        -- apply IH4 in Hq. lia.
        -- apply list_lookup_singleton_Some in Hq as [Hq2 [= ->]]. right. split; [done|lia].
      * destruct (Z.ltb_spec (Z.of_nat (length next)) (Z.of_nat p)); [lia|]. rewrite andb_false_r.
        right. exists p, e. split; [done|]. apply Hstay. intros m [= ->]. lia.
Qed.
Lemma find_by_priority l D x b cur next : tidy l D x -> sl_compare l = priority_then_length ->
  length next <= length D ->
  find_next_match l b next cur = Ok (None, [], cur, (-1)%Z).
Proof.
  intros Ht Hcmp Hl. unfold find_next_match. induction next as [|o next IH] using rev_ind; [done|].
  rewrite app_length in Hl. cbn [length] in Hl.
  rewrite imap_pair_snoc, rfold_snoc, IH by lia. cbn [rbind]. unfold find_step. cbn [fst snd].
  destruct o as [[i j]|]; [|done]. destruct (Nat.eqb_spec i cur) as [->|Hi]; [|done].
  destruct (lookup_lt_is_Some_2 D (length next)) as [d Hd]; [lia|].
  rewrite (tidy_rule _ _ _ _ _ Ht Hd). cbn [rbind lr_priority]. rewrite Hcmp. unfold priority_then_length.
  destruct (Z.ltb_spec (Z.of_nat (length next)) (-1)); [lia|].
  destruct (Z.eqb_spec (Z.of_nat (length next)) (-1)); [lia|]. done.
Qed.
