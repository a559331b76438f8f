(** The stack lexer's loop against the same lexer with matches kept by rule, not by kind. *)
From Coq Require Import Lia.
From Verif.spec Require Import StackSpec.
From Verif.proofs Require Import Fuel SetProofs LexProofs.

(** * Sub-lexers as New makes them *)
Record sane (st : set) (sl : sublexer) : Prop := {
  sn_rule : forall k r, su_rules sl !! k = Some (Some r) -> sr_kind r = k /\ su_order sl !! sr_priority r = Some k;
  sn_order : forall p k, su_order sl !! p = Some k -> exists r, su_rules sl !! k = Some (Some r) /\ sr_priority r = p;
  sn_set : forall k r, su_rules sl !! k = Some (Some r) -> k < length (symb2str st);
  sn_counter : su_counter sl = length (su_order sl)
}.
Lemma sane_more st st' sl : sane st sl -> length (symb2str st) <= length (symb2str st') -> sane st' sl.
Proof. intros H Hl. split; [apply H|apply H| |apply H]. intros k r Hk. pose proof (sn_set _ _ H _ _ Hk). lia. Qed.

Lemma omap_all {A B} (f : A -> option B) l : (forall x, x ∈ l -> is_Some (f x)) -> Forall2 (fun x y => f x = Some y) l (omap f l).
Proof.
  induction l as [|x l IH]; intros H; [constructor|]. cbn.
  destruct (H x) as [y Hy]; [left|]. rewrite Hy. constructor; [done|]. apply IH. intros; apply H; by right.
Qed.
Definition def_of (n : gostring) (r : srule) : sdef := SDef n (sr_re r) (sr_discard r) (sr_push r) (sr_pop r) (sr_subs r).
Lemma defs_all st sl : sane st sl ->
  Forall2 (fun k d => exists r n, su_rules sl !! k = Some (Some r) /\ symb2str st !! k = Some n /\ d = def_of n r)
          (su_order sl) (defs_in st sl).
Proof.
  intros H. unfold defs_in. eapply Forall2_impl; [apply omap_all|].
  - intros k Hk. apply elem_of_list_lookup in Hk as [p Hp]. destruct (sn_order _ _ H _ _ Hp) as (r & Hr & _).
    rewrite Hr. destruct (lookup_lt_is_Some_2 (symb2str st) k) as [n Hn]; [eapply sn_set; eauto|].
    rewrite Hn. eauto.
  - intros k d. cbn. destruct (su_rules sl !! k) as [[r|]|]; [|done|done].
    destruct (symb2str st !! k) as [n|]; [|done]. intros [= <-]. exists r, n. done.
Qed.
Lemma defs_length st sl : sane st sl -> length (defs_in st sl) = length (su_order sl).
Proof. intros H. symmetry. eapply Forall2_length, defs_all, H. Qed.
Lemma defs_rule st sl p d : sane st sl -> defs_in st sl !! p = Some d ->
  exists k r n, su_order sl !! p = Some k /\ su_rules sl !! k = Some (Some r) /\ sr_priority r = p /\ sr_kind r = k
    /\ symb2str st !! k = Some n /\ d = def_of n r.
Proof.
  intros H Hp. destruct (Forall2_lookup_r _ _ _ _ _ (defs_all _ _ H) Hp) as (k & Hk & r & n & Hr & Hn & ->).
  destruct (sn_order _ _ H _ _ Hk) as (r' & Hr' & Hp'). assert (r' = r) as -> by congruence.
  destruct (sn_rule _ _ H _ _ Hr) as [Hkd _]. exists k, r, n. done.
Qed.
Lemma rule_defs st sl k r : sane st sl -> su_rules sl !! k = Some (Some r) ->
  exists n, symb2str st !! k = Some n /\ defs_in st sl !! sr_priority r = Some (def_of n r).
Proof.
  intros H Hk. destruct (sn_rule _ _ H _ _ Hk) as [Hkd Hp].
  destruct (Forall2_lookup_l _ _ _ _ _ (defs_all _ _ H) Hp) as (d & Hd & r' & n & Hr & Hn & ->).
  assert (r' = r) as -> by congruence. eauto.
Qed.

(** * Matches kept by rule *)
Notation cache := (list (option sloc)).
Definition gsearch (b : gostring) (cur : nat) (d : sdef) : option sloc :=
  match sx_find (sd_re d) (drop cur b) with Some m => Some (m, cur) | None => None end.
Definition gfresh (b : gostring) (cur : nat) (D : list sdef) : cache := map (gsearch b cur) D.
Definition gupdate1 (b : gostring) (cur : nat) (d : sdef) (x : option sloc) : option sloc :=
  match x with
  | Some (m, off) => if sm_i m + off <=? cur then gsearch b cur d else Some (m, off)
  | None => None
  end.
Definition gupdate (b : gostring) (cur : nat) (D : list sdef) (C : cache) : cache := zip_with (gupdate1 b cur) D C.
Definition gbetter (bl : bool) (x : sloc) (p : nat) (y : sloc) (q : nat) : Prop :=
  if bl then sm_j (fst y) < sm_j (fst x) \/ (sm_j (fst y) = sm_j (fst x) /\ p <= q) else p <= q.
Definition gat (C : cache) (cur p : nat) (x : sloc) : Prop := C !! p = Some (Some x) /\ sm_i (fst x) + snd x = cur.
Definition gpick (bl : bool) (C : cache) (cur p : nat) (x : sloc) : Prop :=
  gat C cur p x /\ forall q y, gat C cur q y -> gbetter bl x p y q.
Definition gend (x : sloc) : nat := snd x + sm_j (fst x).
Definition gidle (bl : bool) (C : cache) (cur : nat) : Prop := forall p x, gpick bl C cur p x -> gend x = cur.

Lemma gpick_fun bl C cur p x q y : gpick bl C cur p x -> gpick bl C cur q y -> p = q /\ x = y.
Proof.
  intros [H1 H2] [H3 H4]. pose proof (H2 _ _ H3) as H5. pose proof (H4 _ _ H1) as H6.
  assert (p = q) as -> by (unfold gbetter in *; destruct bl; lia).
  split; [done|]. destruct H1, H3. congruence.
Qed.

Definition gval (b : gostring) (d : sdef) (x : sloc) : gostring := value_of d (drop (snd x) b) (fst x).
Definition run_text (b : gostring) (run : option nat) (cur : nat) : gostring :=
  match run with Some e => cut b e cur | None => [] end.

Inductive gcuts (env : gostring -> option (list sdef)) (bl : bool) (b : gostring)
  : list sdef -> list (list sdef) -> cache -> option nat -> nat -> list spiece -> bool -> Prop :=
| g_junk_end D C run cur :
    gidle bl C cur -> length b <= S cur ->
    gcuts env bl b D [] C run cur (junk (cut b (default cur run) (length b))) true
| g_junk D C run cur ps ok :
    gidle bl C cur -> S cur < length b ->
    gcuts env bl b D [] C (Some (default cur run)) (S cur) ps ok -> gcuts env bl b D [] C run cur ps ok
| g_leave D D' S' C run cur ps ok :
    gidle bl C cur -> gcuts env bl b D' S' (gfresh b cur D') run cur ps ok ->
    gcuts env bl b D (D' :: S') C run cur ps ok
| g_last D S C run cur p x d :
    gpick bl C cur p x -> D !! p = Some d -> gend x <> cur -> length b <= gend x ->
    gcuts env bl b D S C run cur (junk (run_text b run cur) ++ [STok d (cut b cur (gend x)) (gval b d x)]) true
| g_fall D S C run cur p x d :
    gpick bl C cur p x -> D !! p = Some d -> gend x <> cur -> gend x < length b -> falls env d S ->
    gcuts env bl b D S C run cur (junk (run_text b run cur) ++ [STok d (cut b cur (gend x)) (gval b d x)]) false
| g_stay D S C run cur p x d ps ok :
    gpick bl C cur p x -> D !! p = Some d -> gend x <> cur -> gend x < length b ->
    sd_pop d = 0 -> sd_push d = [] ->
    gcuts env bl b D S (gupdate b (gend x) D C) None (gend x) ps ok ->
    gcuts env bl b D S C run cur (junk (run_text b run cur) ++ STok d (cut b cur (gend x)) (gval b d x) :: ps) ok
| g_move D S C run cur p x d D' S' ps ok :
    gpick bl C cur p x -> D !! p = Some d -> gend x <> cur -> gend x < length b ->
    (0 < sd_pop d \/ sd_push d <> []) -> moves env d D S D' S' ->
    gcuts env bl b D' S' (gfresh b (gend x) D') None (gend x) ps ok ->
    gcuts env bl b D S C run cur (junk (run_text b run cur) ++ STok d (cut b cur (gend x)) (gval b d x) :: ps) ok.

(** * The table by kind and by rule *)
Definition table (sl : sublexer) (C : cache) (n : nat) : cache :=
  map (fun k => match su_rules sl !! k with Some (Some r) => default None (C !! sr_priority r) | _ => None end) (seq 0 n).
Lemma table_lookup sl C n k : k < n ->
  table sl C n !! k = Some (match su_rules sl !! k with Some (Some r) => default None (C !! sr_priority r) | _ => None end).
Proof.
  intros Hk. unfold table. rewrite list_lookup_fmap, lookup_seq_lt by done. done.
Qed.
Lemma table_length sl C n : length (table sl C n) = n.
Proof. unfold table. rewrite map_length, seq_length. done. Qed.

Lemma populate_table l sl b cur : sane (stl_set l) sl ->
  st_populate l sl b cur
  = Ok (table sl (gfresh b cur (defs_in (stl_set l) sl)) (sym_count (stl_set l))).
Proof.
  intros H. unfold st_populate.
  set (n := sym_count (stl_set l)). set (C := gfresh b cur (defs_in (stl_set l) sl)).
  assert (Hsearch : forall k r, su_rules sl !! k = Some (Some r) -> k < n /\ default None (C !! sr_priority r) = search r b cur).
  { intros k r Hk. split; [eapply (sn_set _ _ H); eauto|]. destruct (rule_defs _ _ _ _ H Hk) as (nm & _ & Hd).
    unfold C, gfresh. rewrite list_lookup_fmap, Hd. done. }
  set (g := fun k => match su_rules sl !! k with Some (Some r) => default None (C !! sr_priority r) | _ => None end).
  assert (Hgen : forall rs j t, (forall i r, rs !! i = Some r -> su_rules sl !! (j + i) = Some r) ->
     length t = n ->
     exists t', rfold (fun next kr => match snd kr with
                        | None => Ok next
                        | Some r => if fst kr <? length next then Ok (<[fst kr := search r b cur]> next) else Panic
                        end) (imap (fun i => pair (j + i)) rs) t = Ok t' /\ length t' = n
       /\ (forall k, k < n -> t' !! k = if decide (j <= k < j + length rs) then
             (match su_rules sl !! k with Some (Some r) => Some (search r b cur) | _ => t !! k end) else t !! k)).
  { induction rs as [|r rs IH]; intros j t Hrs Ht.
    - exists t. split; [done|]. split; [done|]. intros k Hk. rewrite decide_False by (cbn; lia). done.
    - cbn [imap rfold]. replace (j + 0) with j by lia.
      assert (H0 : su_rules sl !! j = Some r). { specialize (Hrs 0 r eq_refl). rewrite Nat.add_0_r in Hrs. done. }
      assert (Hrs' : forall i r0, rs !! i = Some r0 -> su_rules sl !! (S j + i) = Some r0).
      { intros i r0 Hi. specialize (Hrs (S i) r0 Hi). replace (S j + i) with (j + S i) by lia. done. }
      assert (Him : imap ((fun i => pair (j + i)) ∘ S) rs = imap (fun i => pair (S j + i)) rs).
      { apply imap_ext. intros. cbn. f_equal. lia. }
      cbn [snd fst]. rewrite Him. destruct r as [r|].
      + destruct (Hsearch _ _ H0) as [Hj _]. rewrite Ht. replace (j <? n) with true by (symmetry; apply Nat.ltb_lt; lia).
        cbn [rbind]. destruct (IH (S j) (<[j := search r b cur]> t) Hrs') as (t' & E & Hl & Hk); [by rewrite insert_length|].
        exists t'. split; [exact E|]. split; [done|]. intros k Hkn. rewrite Hk by done. cbn [length].
        destruct (decide (k = j)) as [->|Hne].
        * rewrite decide_False by lia. rewrite decide_True by lia. rewrite H0, list_lookup_insert by lia. done.
        * rewrite list_lookup_insert_ne by done. destruct (decide (S j <= k < S j + length rs)).
          -- rewrite decide_True by lia. done.
          -- rewrite decide_False by lia. done.
      + cbn [rbind]. destruct (IH (S j) t Hrs' Ht) as (t' & E & Hl & Hk). exists t'. split; [exact E|]. split; [done|].
        intros k Hkn. rewrite Hk by done. cbn [length].
        destruct (decide (k = j)) as [->|Hne].
        * rewrite decide_False by lia. rewrite decide_True by lia. rewrite H0. done.
        * destruct (decide (S j <= k < S j + length rs)).
          -- rewrite decide_True by lia. done.
          -- rewrite decide_False by lia. done. }
  destruct (Hgen (su_rules sl) 0 (replicate n None)) as (t' & E & Hl & Hk).
  - intros i r Hi. exact Hi.
  - apply replicate_length.
  - cbn in E. etrans; [exact E|]. f_equal. apply list_eq. intros k.
    destruct (decide (k < n)) as [Hkn|Hkn].
    + rewrite Hk, table_lookup by done. rewrite lookup_replicate_2 by done.
      destruct (su_rules sl !! k) as [[r|]|] eqn:Ek.
      * rewrite decide_True by (apply lookup_lt_Some in Ek; lia). destruct (Hsearch _ _ Ek) as [_ ->]. done.
      * destruct (decide _); done.
      * destruct (decide _); done.
    + rewrite !lookup_ge_None_2; rewrite ?table_length; [done|lia|lia].
Qed.

Lemma rmap_lookup {A B} (f : A -> res B) l l' : length l = length l' ->
  (forall i x y, l !! i = Some x -> l' !! i = Some y -> f x = Ok y) -> rmap f l = Ok l'.
Proof.
  revert l'. induction l as [|x l IH]; intros [|y l'] Hl H; try done. cbn [rmap].
  rewrite (H 0 x y) by done. cbn [rbind]. rewrite (IH l'); [done|cbn in Hl; lia|]. intros i; apply (H (S i)).
Qed.
Lemma update_table l sl b cur C : sane (stl_set l) sl -> length C = length (defs_in (stl_set l) sl) ->
  let n := sym_count (stl_set l) in
  st_update sl b cur (table sl C n) = Ok (table sl (gupdate b cur (defs_in (stl_set l) sl) C) n).
Proof.
  intros H HC n. unfold st_update. apply rmap_lookup.
  { rewrite imap_length, !table_length. done. }
  intros k x y. rewrite list_lookup_imap. destruct (decide (k < n)) as [Hk|Hk].
  2: { rewrite lookup_ge_None_2; [done|]. rewrite table_length. lia. }
  rewrite !table_lookup by done. cbn [fmap option_fmap option_map]. intros [= <-] [= <-].
  unfold st_update_one. cbn [snd fst]. destruct (su_rules sl !! k) as [[r|]|] eqn:Ek; [|done|done].
  destruct (rule_defs _ _ _ _ H Ek) as (nm & _ & Hd).
  assert (Hz : gupdate b cur (defs_in (stl_set l) sl) C !! sr_priority r
     = match C !! sr_priority r with Some x => Some (gupdate1 b cur (def_of nm r) x) | None => None end).
  { unfold gupdate. rewrite lookup_zip_with, Hd. cbn. destruct (C !! sr_priority r); done. }
  rewrite Hz. destruct (C !! sr_priority r) as [x|] eqn:EC; [|done]. cbn [default from_option id].
  destruct x as [[m off]|]; [|done]. cbn [gupdate1].
  destruct (sm_i m + off <=? cur); [|done]. unfold srule_at. rewrite Ek. cbn [rbind]. done.
Qed.

(** * findNextMatch *)
Lemma rfold_app {A S} (f : S -> A -> res S) l k s : rfold f (l ++ k) s = (x <-! rfold f l s; rfold f k x).
Proof. revert s. induction l as [|x l IH]; intros s; [done|]. cbn [app rfold]. destruct (f s x); cbn [rbind]; [apply IH|done|done]. Qed.
Definition by_flag (bl : bool) : Z -> Z -> Z -> Z -> bool := if bl then st_length_then_priority else st_priority_then_length.
Lemma find_table l sl bl cur C : sane (stl_set l) sl -> length C = length (defs_in (stl_set l) sl) ->
  stl_compare l = by_flag bl ->
  (st_find l sl cur (table sl C (sym_count (stl_set l))) = Ok None /\ forall p x, ~ gat C cur p x)
  \/ exists p x r, gpick bl C cur p x /\ su_rules sl !! sr_kind r = Some (Some r) /\ sr_priority r = p
       /\ st_find l sl cur (table sl C (sym_count (stl_set l))) = Ok (Some (r, x)).
Proof.
  intros H HC Hcmp. unfold st_find. set (n := sym_count (stl_set l)).
  assert (Hin : forall p x, gat C cur p x -> exists k r, k < n /\ su_rules sl !! k = Some (Some r) /\ sr_priority r = p).
  { intros p x [Hp _]. apply lookup_lt_Some in Hp. rewrite HC in Hp.
    destruct (lookup_lt_is_Some_2 _ _ Hp) as [d Hd]. destruct (defs_rule _ _ _ _ H Hd) as (k & r & nm & H1 & H2 & H3 & H4 & H5 & _).
    exists k, r. split; [|done]. apply lookup_lt_Some in H5. done. }
  assert (Hgen : forall m, m <= n ->
    let pre := imap pair (take m (table sl C n)) in
    (rfold (st_find_step l sl cur) pre None = Ok None
       /\ forall k r x, k < m -> su_rules sl !! k = Some (Some r) -> ~ gat C cur (sr_priority r) x)
    \/ exists x r, gat C cur (sr_priority r) x /\ su_rules sl !! sr_kind r = Some (Some r) /\ sr_kind r < m
        /\ rfold (st_find_step l sl cur) pre None = Ok (Some (r, x))
        /\ forall k r' y, k < m -> su_rules sl !! k = Some (Some r') -> gat C cur (sr_priority r') y ->
             gbetter bl x (sr_priority r) y (sr_priority r')).
  { induction m as [|m IH]; intros Hm; cbn zeta.
    - left. split; [done|]. intros; lia.
    - specialize (IH ltac:(lia)). cbn zeta in IH.
      erewrite take_S_r by (apply table_lookup; lia). rewrite imap_app. cbn [imap].
      rewrite take_length, table_length, Nat.add_0_r, Nat.min_l by lia.
      rewrite rfold_app.
      assert (Hstep : forall st,
        st_find_step l sl cur st (m, match su_rules sl !! m with Some (Some r) => default None (C !! sr_priority r) | _ => None end)
        = match su_rules sl !! m with
          | Some (Some r) =>
              match C !! sr_priority r with
              | Some (Some x) => if sm_i (fst x) + snd x =? cur then
                  match st with
                  | None => Ok (Some (r, x))
                  | Some (r0, x0) => if stl_compare l (Z.of_nat (sm_j (fst x))) (Z.of_nat (sr_priority r))
                                       (Z.of_nat (sm_j (fst x0))) (Z.of_nat (sr_priority r0))
                                     then Ok (Some (r, x)) else Ok st
                  end else Ok st
              | _ => Ok st
              end
          | _ => Ok st end).
      { intros st. unfold st_find_step. cbn [snd fst]. destruct (su_rules sl !! m) as [[r|]|] eqn:Em; [|done|done].
        destruct (C !! sr_priority r) as [[[mm off]|]|]; cbn [default from_option id fst snd]; [|done|done].
        destruct (sm_i mm + off =? cur); [|done]. unfold srule_at. rewrite Em. cbn [rbind].
        destruct st as [[r0 [m0 off0]]|]; done. }
      destruct IH as [[E Hno] | (x & r & Hx & Hr & Hk & E & Hb)].
      + rewrite E. cbn [rfold rbind]. 
        rewrite Hstep. destruct (su_rules sl !! m) as [[r|]|] eqn:Em.
        2: { left. split; [done|]. intros k r x Hk Hkr. assert (k <> m) by congruence. apply Hno with k; [lia|done]. }
        2: { left. split; [done|]. intros k r x Hk Hkr. assert (k <> m) by congruence. apply Hno with k; [lia|done]. }
        destruct (C !! sr_priority r) as [[x|]|] eqn:EC.
        2: { left. split; [done|]. intros k r' y Hk Hkr. destruct (decide (k = m)) as [->|]; [|apply Hno with k; [lia|done]].
             assert (r' = r) as -> by congruence. intros [Hg _]. congruence. }
        2: { left. split; [done|]. intros k r' y Hk Hkr. destruct (decide (k = m)) as [->|]; [|apply Hno with k; [lia|done]].
             assert (r' = r) as -> by congruence. intros [Hg _]. congruence. }
        destruct (Nat.eqb_spec (sm_i (fst x) + snd x) cur) as [Hc|Hc].
        * right. exists x, r. destruct (sn_rule _ _ H _ _ Em) as [Hkd _]. rewrite Hkd.
          split; [done|]. split; [done|]. split; [lia|]. split; [done|].
          intros k r' y Hk Hkr Hg. destruct (decide (k = m)) as [->|]; [|exfalso; eapply Hno; [|exact Hkr|exact Hg]; lia].
          assert (r' = r) as -> by congruence. destruct Hg as [Hg _]. assert (y = x) as -> by congruence.
          unfold gbetter. destruct bl; lia.
        * left. split; [done|]. intros k r' y Hk Hkr. destruct (decide (k = m)) as [->|]; [|apply Hno with k; [lia|done]].
          assert (r' = r) as -> by congruence. intros [Hg Hg']. congruence.
      + rewrite E. cbn [rfold rbind]. 
        rewrite Hstep.
        assert (Hkeep : forall q, (forall r' y, su_rules sl !! m = Some (Some r') -> gat C cur (sr_priority r') y ->
                                     gbetter bl x (sr_priority r) y (sr_priority r')) ->
           q = Ok (Some (r, x)) ->
           (q = Ok None /\ forall k r x, k < S m -> su_rules sl !! k = Some (Some r) -> ~ gat C cur (sr_priority r) x)
           \/ exists x r, gat C cur (sr_priority r) x /\ su_rules sl !! sr_kind r = Some (Some r) /\ sr_kind r < S m
              /\ q = Ok (Some (r, x))
              /\ forall k r' y, k < S m -> su_rules sl !! k = Some (Some r') -> gat C cur (sr_priority r') y ->
                   gbetter bl x (sr_priority r) y (sr_priority r')).
        { intros q Hm' ->. right. exists x, r. split; [done|]. split; [done|]. split; [lia|]. split; [done|].
          intros k r' y Hk' Hkr Hg. destruct (decide (k = m)) as [->|]; [by apply Hm'|]. eapply Hb; [|exact Hkr|exact Hg]. lia. }
        destruct (su_rules sl !! m) as [[r1|]|] eqn:Em; [|apply Hkeep; [congruence|done]|apply Hkeep; [congruence|done]].
        destruct (C !! sr_priority r1) as [[x1|]|] eqn:EC.
        2: { apply Hkeep; [|done]. intros r' y [= <-] [Hg _]. congruence. }
        2: { apply Hkeep; [|done]. intros r' y [= <-] [Hg _]. congruence. }
        destruct (Nat.eqb_spec (sm_i (fst x1) + snd x1) cur) as [Hc|Hc].
        2: { apply Hkeep; [|done]. intros r' y [= <-] [Hg Hg']. congruence. }
        assert (Hcm : (if stl_compare l (Z.of_nat (sm_j (fst x1))) (Z.of_nat (sr_priority r1)) (Z.of_nat (sm_j (fst x))) (Z.of_nat (sr_priority r)) then
                 gbetter bl x1 (sr_priority r1) x (sr_priority r) else gbetter bl x (sr_priority r) x1 (sr_priority r1))).
        { rewrite Hcmp. unfold by_flag, gbetter. destruct bl; unfold st_length_then_priority, st_priority_then_length.
          - destruct (Z.ltb_spec (Z.of_nat (sm_j (fst x))) (Z.of_nat (sm_j (fst x1)))); cbn [orb]; [lia|].
            destruct (Z.eqb_spec (Z.of_nat (sm_j (fst x1))) (Z.of_nat (sm_j (fst x)))); cbn [andb]; [|lia].
            destruct (Z.eqb_spec (Z.of_nat (sr_priority r)) (-1)); [lia|]. cbn [orb].
            destruct (Z.ltb_spec (Z.of_nat (sr_priority r1)) (Z.of_nat (sr_priority r))); lia.
          - destruct (Z.eqb_spec (Z.of_nat (sr_priority r)) (-1)); [lia|]. cbn [orb].
            destruct (Z.ltb_spec (Z.of_nat (sr_priority r1)) (Z.of_nat (sr_priority r))); cbn [orb]; [lia|].
            destruct (Z.eqb_spec (Z.of_nat (sr_priority r1)) (Z.of_nat (sr_priority r))); cbn [andb]; [|lia].
            destruct (Z.ltb_spec (Z.of_nat (sm_j (fst x))) (Z.of_nat (sm_j (fst x1)))); lia. }
        destruct (stl_compare l _ _ _ _).
        * right. exists x1, r1. destruct (sn_rule _ _ H _ _ Em) as [Hkd _]. rewrite Hkd.
          split; [done|]. split; [done|]. split; [lia|]. split; [done|].
          intros k r' y Hk' Hkr Hg. destruct (decide (k = m)) as [->|].
          -- assert (r' = r1) as -> by congruence. destruct Hg as [Hg _]. assert (y = x1) as -> by congruence.
             unfold gbetter. destruct bl; lia.
          -- assert (Hxy := Hb k r' y ltac:(lia) Hkr Hg). unfold gbetter in *. destruct bl; lia.
        * apply Hkeep; [|done]. intros r' y [= <-] [Hg _]. assert (y = x1) as -> by congruence. done. }
  specialize (Hgen n ltac:(lia)). cbn zeta in Hgen. rewrite take_ge in Hgen by (rewrite table_length; lia).
  destruct Hgen as [[E Hno] | (x & r & Hx & Hr & Hk & E & Hb)].
  - left. split; [exact E|]. intros p x Hg. destruct (Hin _ _ Hg) as (k & r & Hk & Hr & <-). eapply Hno; eauto.
  - right. exists (sr_priority r), x, r. split; [|split; [done|split; [done|exact E]]].
    split; [done|]. intros q y Hg. destruct (Hin _ _ Hg) as (k & r' & Hk' & Hr' & <-). eapply Hb; eauto.
Qed.
