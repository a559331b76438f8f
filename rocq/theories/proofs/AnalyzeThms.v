From Verif.spec Require Import AnalyzeSpec.
From Verif.proofs Require Import Fuel SetProofs AnalyzeProofs AnalyzeMain.
From Coq Require Import Lia.
Local Open Scope nat_scope.
Local Open Scope list_scope.

(** ** first2nonterms *)
Definition rows (n : nat) (Q : nat -> nat -> Prop) (f2n : list (option (list bool))) : Prop :=
  length f2n = n /\ forall j, j < n -> exists o, f2n !! j = Some o /\
    match o with
    | None => forall i, ~ Q i j
    | Some row => length row = n /\ (exists i, Q i j) /\ forall i, row !! i = Some true <-> Q i j
    end.
Lemma mark_rows n Q f2n i j : rows n Q f2n -> i < n -> j < n ->
  exists f2n', an_mark n i f2n j = Ok f2n' /\ rows n (fun a b => Q a b \/ (a = i /\ b = j)) f2n'.
Proof.
  intros [Hl H] Hi Hj. unfold an_mark, lget, lput. destruct (H j Hj) as (o & Ho & Hm). rewrite Ho. cbn [rbind].
  set (row := match o with Some r => r | None => replicate n false end).
  assert (Hrow : length row = n /\ forall a, row !! a = Some true <-> Q a j).
  { subst row. destruct o as [r|]; [destruct Hm as (? & _ & ?); done|]. split; [apply replicate_length|].
    intros a. split; [|intros Q1; by apply Hm in Q1]. intros E. apply lookup_replicate in E as [E _]. done. }
  destruct Hrow as [Hrl Hr].
  destruct (lookup_lt_is_Some_2 row i) as [b Hb]; [lia|]. rewrite Hb. cbn [rbind].
  eexists. split; [done|]. split; [by rewrite insert_length|]. intros k Hk.
  destruct (decide (k = j)) as [->|Hne].
  - rewrite list_lookup_insert by lia. eexists. split; [done|]. cbn [id]. split; [by rewrite insert_length|].
    split; [exists i; by right|]. intros a. destruct (decide (a = i)) as [->|Hai].
    + rewrite list_lookup_insert by lia. split; [by right|done].
    + rewrite list_lookup_insert_ne by done. rewrite Hr. split; [by left|]. intros [?|[? _]]; done.
  - rewrite list_lookup_insert_ne by done. destruct (H k Hk) as (o' & Ho' & Hm'). exists o'. split; [done|].
    destruct o' as [r|].
    + destruct Hm' as (A & [i' B] & C). split; [done|]. split; [exists i'; by left|]. intros a. rewrite C.
      split; [by left|]. intros [?|[_ ?]]; done.
    + intros a [Q1|[_ ?]]; [|done]. by apply Hm' in Q1.
Qed.
Lemma rows_iff n Q Q' f2n : (forall i j, Q i j <-> Q' i j) -> rows n Q f2n -> rows n Q' f2n.
Proof.
  intros He [Hl H]. split; [done|]. intros j Hj. destruct (H j Hj) as (o & Ho & Hm). exists o. split; [done|].
  destruct o as [r|].
  - destruct Hm as (A & [i B] & C). split; [done|]. split; [exists i; by apply He|]. intros a. by rewrite C, He.
  - intros i Q1. apply He in Q1. by apply Hm in Q1.
Qed.
Lemma marks_rows n i fs : forall Q f2n, rows n Q f2n -> i < n -> (forall j, j ∈ fs -> j < n) ->
  exists f2n', rfold (an_mark n i) fs f2n = Ok f2n' /\ rows n (fun a b => Q a b \/ (a = i /\ b ∈ fs)) f2n'.
Proof.
  induction fs as [|j fs IH]; intros Q f2n Hr Hi Hfs; cbn [rfold].
  - exists f2n. split; [done|]. eapply rows_iff; [|exact Hr]. intros a b. split; [by left|].
    intros [?|[_ Hb]]; [done|]. by apply elem_of_nil in Hb.
  - destruct (mark_rows n Q f2n i j Hr Hi) as (f1 & -> & Hr1); [apply Hfs; left|]. cbn [rbind].
    destruct (IH _ f1 Hr1 Hi) as (f2 & -> & Hr2); [intros k Hk; apply Hfs; by right|].
    exists f2. split; [done|]. eapply rows_iff; [|exact Hr2]. intros a b. cbn beta. rewrite elem_of_cons. tauto.
Qed.
Lemma all_rows n l : forall k Q f2n, rows n Q f2n -> k + length l <= n -> (forall fs j, fs ∈ l -> j ∈ fs -> j < n) ->
  exists f2n', rfold (an_marks n) (imap (fun i x => (k + i, x)) l) f2n = Ok f2n'
    /\ rows n (fun a b => Q a b \/ (exists fs, k <= a /\ l !! (a - k) = Some fs /\ b ∈ fs)) f2n'.
Proof.
  induction l as [|fs l IH]; intros k Q f2n Hr Hk Hl.
  - exists f2n. split; [done|]. eapply rows_iff; [|exact Hr]. intros a b. split; [by left|].
    intros [?|(fs & _ & Hb & _)]; done.
  - cbn [imap rfold]. unfold an_marks at 1. cbn [fst snd]. rewrite Nat.add_0_r.
    cbn [length] in Hk.
    destruct (marks_rows n k fs Q f2n Hr) as (f1 & -> & Hr1); [lia|intros j Hj; apply (Hl fs); [left|done]|].
    cbn [rbind]. destruct (IH (S k) _ f1 Hr1) as (f2 & Hf2 & Hr2); [lia|intros fs' j H1; apply Hl; by right|].
    exists f2. split.
    + rewrite <- Hf2. f_equal. apply imap_ext. intros i x _. cbn. f_equal. lia.
    + eapply rows_iff; [|exact Hr2]. intros a b. cbn beta. split.
      * intros [[?|[-> Hb]]|(f & Ha & Hf & Hb)]; [by left| |].
        -- right. exists fs. split; [lia|]. by rewrite Nat.sub_diag.
        -- right. exists f. split; [lia|]. replace (a - k) with (S (a - S k)) by lia. done.
      * intros [?|(f & Ha & Hf & Hb)]; [by left; left|]. destruct (a - k) as [|m] eqn:E.
        -- injection Hf as ->. left; right. split; [lia|done].
        -- right. exists f. split; [lia|]. cbn in Hf. replace (a - S k) with m by lia. done.
Qed.

Record facts (g : grammar) (a : analytics) (S0 : set) (st : astate) : Prop := {
  fa_set : an_set a = S0;
  fa_wf : set_wf S0;
  fa_known : forall x, occurs g x -> known S0 x;
  fa_n2f : an_n2f a = as_firsts st;
  fa_nil : an_nil a = as_nil st;
  fa_terms : an_terms a = as_terms st;
  fa_ok : ok g S0 st;
  fa_rows : rows (ln S0) (fun i j => exists fs, as_firsts st !! i = Some fs /\ j ∈ fs) (an_f2n a);
  fa_fin : left_acyclic g -> forall x i, is_Some (g_prods g x) -> nm S0 i x -> fin g S0 i x st
}.

Lemma analyze_facts g : g_wf g -> exists a S0 st, returns (fun n => analyze n g) a /\ facts g a S0 st.
Proof.
  intros Hg. destruct (load_grammar_ok g Hg) as (S0 & HS & Hw & Hk1 & Hk2).
  set (n := length (symb2str S0)).
  set (st0 := AState S0 (replicate n false) (replicate n []) (replicate n false) (replicate n false)).
  assert (Ho0 : ok g S0 st0).
  { split; cbn [st0 as_set as_done as_firsts as_nil as_terms]; try done; try apply replicate_length.
    - intros i x fs _ Hi. apply lookup_replicate in Hi as [-> _]. intros j Hj. by apply elem_of_nil in Hj.
    - intros i x _ Hi. by apply lookup_replicate in Hi as [? _].
    - intros i x _ Hi. by apply lookup_replicate in Hi as [? _]. }
  assert (Hloop : forall nts st, (forall x, x ∈ nts -> x ∈ g_nts g) -> ok g S0 st ->
    exists st', rfold (an_nonterm (S n) g) nts st = Ok st' /\ ok g S0 st' /\ ext st st'
      /\ (forall x i, x ∈ nts -> nm S0 i x -> as_done st' !! i = Some true)
      /\ (left_acyclic g -> tidy g S0 [] st -> tidy g S0 [] st')).
  { induction nts as [|x nts IH]; intros st Hin Ho; cbn [rfold].
    { exists st. split; [done|]. split; [done|]. split; [apply ext_refl|]. split; [|done].
      intros x i Hx. by apply elem_of_nil in Hx. }
    destruct (Hk1 x) as [i Hi]; [apply Hin; left|]. assert (nm S0 i x) as Hix by by apply Hw.
    assert (Hst : AState S0 (as_done st) (as_firsts st) (as_nil st) (as_terms st) = st).
    { rewrite <- (ok_set _ _ _ Ho). by destruct st. }
    unfold an_nonterm at 1. rewrite (ok_set _ _ _ Ho), (set_str_known _ _ _ Hi), Hst.
    destruct (firsts_good g Hg S0 Hw Hk2 (S n) i x st Ho Hix) as (fs & nf & st1 & -> & Ho1 & He1 & Hd1 & _ & _ & Hc1).
    { apply Hg, Hin. left. }
    { unfold undone. assert (falses (as_done st) <= length (as_done st)) as Hle by apply filter_length.
      rewrite (ok_done _ _ _ Ho) in Hle. unfold ln in Hle. fold n in Hle. lia. }
    cbn [rbind]. destruct (IH st1) as (st2 & -> & Ho2 & He2 & Hd2 & Ht2); [intros y Hy; apply Hin; by right|done|].
    exists st2. split; [done|]. split; [done|]. split; [by eapply ext_trans|]. split.
    - intros y k Hy Hk. apply elem_of_cons in Hy as [->|Hy]; [|eauto].
      rewrite (nm_inj S0 Hw _ _ _ Hk Hix). by apply (ext_done _ _ He2).
    - intros Hac Ht. apply Ht2; [done|]. apply (Hc1 [] Hac Ht). intros k Hk. by apply elem_of_nil in Hk. }
  destruct (Hloop (g_nts g) st0 (fun x H => H) Ho0) as (st & Hst & Ho & He & Hd & Ht).
  assert (Hr0 : rows n (fun _ _ => False) (replicate n None)).
  { split; [apply replicate_length|]. intros j Hj. exists None. split; [by apply lookup_replicate|]. auto. }
  destruct (all_rows n (as_firsts st) 0 _ _ Hr0) as (f2n & Hf & Hrows).
  { rewrite (ok_firsts _ _ _ Ho). done. }
  { intros fs j Hfs Hj. apply elem_of_list_lookup in Hfs as [i Hi].
    assert (i < n) as Hlt. { apply lookup_lt_Some in Hi. rewrite (ok_firsts _ _ _ Ho) in Hi. done. }
    destruct (lookup_lt_is_Some_2 (symb2str S0) i Hlt) as [x Hx].
    destruct (ok_sound _ _ _ Ho i x fs Hx Hi j Hj) as (t & Hjt & _). by apply nm_lt in Hjt. }
  exists (Analytics (as_set st) f2n (as_firsts st) (as_nil st) (as_terms st)), S0, st. split.
  - apply (returns_at _ (S n)); [apply analyze_mono|]. unfold analyze. rewrite HS. cbn [rbind].
    change (sym_count S0) with n. fold st0. rewrite Hst. cbn [rbind].
    change (imap pair (as_firsts st)) with (imap (fun i x => (0 + i, x)) (as_firsts st)). rewrite Hf. done.
  - split; cbn [an_set an_f2n an_n2f an_nil an_terms]; auto.
    + by apply (ok_set _ _ _ Ho).
    + intros x [Hx|(nt & ps & p & H1 & H2 & H3)]; eauto.
    + eapply rows_iff; [|exact Hrows]. intros i j. cbn beta. rewrite Nat.sub_0_r. split.
      * intros [[]|(fs & _ & H1 & H2)]. by exists fs.
      * intros (fs & H1 & H2). right. exists fs. split; [lia|done].
    + intros Hac x i Hx Hi. destruct (Ht Hac) with (k := i) (y := x) as [Hf'|Hf']; auto.
      * intros k y Hk _. cbn [st0 as_done] in Hk. by apply lookup_replicate in Hk as [? _].
      * apply (Hd x i); [by apply Hg|done].
      * by apply elem_of_nil in Hf'.
Qed.

Lemma analyze_total g : g_wf g -> exists a, returns (fun n => analyze n g) a.
Proof. intros Hg. destruct (analyze_facts g Hg) as (a & S0 & st & Hr & _). eauto. Qed.

Section T.
  Variables (g : grammar) (a : analytics).
  Hypothesis Hg : g_wf g.
  Hypothesis Ha : returns (fun n => analyze n g) a.

  Lemma have : exists S0 st, facts g a S0 st.
  Proof using Hg Ha.
    destruct (analyze_facts g Hg) as (a' & S0 & st & Hr & Hf). rewrite (returns_fun _ _ _ Ha Hr). eauto.
  Qed.
  Lemma idx_of S0 st x : facts g a S0 st ->
    (exists i, set_has_symbol (an_set a) (Foreign x) = Some i /\ nm S0 i x) \/
    (set_has_symbol (an_set a) (Foreign x) = None /\ ~ occurs g x).
  Proof using Type.
    intros F. rewrite (fa_set _ _ _ _ F). cbn [set_has_symbol]. destruct (str2sym S0 !! x) as [i|] eqn:E.
    - left. exists i. split; [done|]. by apply (fa_wf _ _ _ _ F).
    - right. split; [done|]. intros H. apply (fa_known _ _ _ _ F) in H as [i Hi]. congruence.
  Qed.
  Lemma nt_occurs x : is_Some (g_prods g x) -> occurs g x.
  Proof using Hg. intros H. left. by apply Hg. Qed.

  (** HasFirst for a non-terminal and a terminal. *)
  Lemma has_first x t : is_Some (g_prods g x) -> terminal g t ->
    exists b, an_has_first a x t = Ok b /\ (b = true -> leftmost g x t) /\ (left_acyclic g -> leftmost g x t -> b = true).
  Proof using Hg Ha.
    intros Hx Ht. destruct have as (S0 & st & F). unfold an_has_first.
    destruct (idx_of S0 st t F) as [(j & -> & Hj)|[-> Hn]].
    2:{ exists false. split; [done|]. split; [done|]. intros _ H. apply first_occurs in H. done. }
    destruct (idx_of S0 st x F) as [(i & -> & Hi)|[-> Hn]].
    2:{ exfalso. by apply Hn, nt_occurs. }
    assert (Hne : i <> j).
    { intros ->. rewrite (nm_fun S0 _ _ _ Hi Hj) in Hx. unfold terminal in Ht. rewrite Ht in Hx. by destruct Hx. }
    pose proof (fa_ok _ _ _ _ F) as Ho. pose proof (nm_lt S0 _ _ Hi) as Hil. pose proof (nm_lt S0 _ _ Hj) as Hjl.
    destruct (fa_rows _ _ _ _ F) as [Hl Hrow]. destruct (Hrow j Hjl) as (o & Ho' & Hm). unfold lget at 1. rewrite Ho'. cbn [rbind].
    assert (Hq : (exists fs, as_firsts st !! i = Some fs /\ j ∈ fs) -> leftmost g x t).
    { intros (fs & H1 & H2). destruct (ok_sound _ _ _ Ho i x fs Hi H1 j H2) as (t' & Hj' & _ & Hlm).
      by rewrite (nm_fun S0 _ _ _ Hj Hj'). }
    assert (Hq' : left_acyclic g -> leftmost g x t -> exists fs, as_firsts st !! i = Some fs /\ j ∈ fs).
    { intros Hac Hlm. destruct (fa_fin _ _ _ _ F Hac x i Hx Hi) as [(fs & H1 & H2) _]. exists fs. split; [done|].
      destruct (H2 t Ht Hlm) as (j' & H3 & H4 & _). by rewrite (nm_inj S0 (fa_wf _ _ _ _ F) _ _ _ Hj H4). }
    destruct o as [row|].
    - destruct Hm as (Hrl & _ & Hr). unfold lget. destruct (lookup_lt_is_Some_2 row i) as [b Hb]; [lia|].
      rewrite Hb. exists b. split; [done|]. split.
      + intros ->. by apply Hq, Hr.
      + intros Hac Hlm. apply Hq', Hr in Hlm; [|done]. congruence.
    - exists false. split; [f_equal; by apply Nat.eqb_neq|]. split; [done|]. intros Hac Hlm.
      apply Hq' in Hlm; [|done]. by apply Hm in Hlm.
  Qed.

  Lemma has_nil x : exists b, an_has_nil a x = Ok b /\ (b = true -> left_empty g x) /\ (left_acyclic g -> left_empty g x -> b = true).
  Proof using Hg Ha.
    destruct have as (S0 & st & F). unfold an_has_nil. destruct (idx_of S0 st x F) as [(i & -> & Hi)|[-> Hn]].
    2:{ exists false. split; [done|]. split; [done|]. intros _ H. exfalso. apply Hn, nt_occurs. by apply left_empty_nt. }
    pose proof (fa_ok _ _ _ _ F) as Ho. pose proof (nm_lt S0 _ _ Hi) as Hil.
    rewrite (fa_nil _ _ _ _ F). unfold lget. destruct (lookup_lt_is_Some_2 (as_nil st) i) as [b Hb]; [by rewrite (ok_nil _ _ _ Ho)|].
    rewrite Hb. exists b. split; [done|]. split.
    - intros ->. by eapply ok_empty.
    - intros Hac He. pose proof (left_empty_nt _ _ He) as Hx.
      destruct (fa_fin _ _ _ _ F Hac x i Hx Hi) as [_ H]. specialize (H He). congruence.
  Qed.

  (** The list of firsts of [x] is not empty. *)
  Lemma firsts_nonempty S0 st i x fs : facts g a S0 st -> nm S0 i x -> as_firsts st !! i = Some fs ->
    (fs <> [] -> exists t, terminal g t /\ leftmost g x t)
    /\ (left_acyclic g -> (exists t, terminal g t /\ leftmost g x t) -> fs <> []).
  Proof using Hg Ha.
    intros F Hi Hfs. split.
    - intros Hne. destruct fs as [|j fs]; [done|].
      destruct (ok_sound _ _ _ (fa_ok _ _ _ _ F) i x _ Hi Hfs j) as (t & _ & H1 & H2); [left|]. eauto.
    - intros Hac (t & Ht & Hlm) ->. pose proof (leftmost_nt _ _ _ Hlm) as Hx.
      destruct (fa_fin _ _ _ _ F Hac x i Hx Hi) as [(fs & H1 & H2) _]. assert (fs = []) as -> by congruence.
      destruct (H2 t Ht Hlm) as (j & Hj & _). by apply elem_of_nil in Hj.
  Qed.

  Lemma nonterminal x : exists b, an_nonterminal a x = Ok b
    /\ (b = true -> exists t, terminal g t /\ leftmost g x t)
    /\ (left_acyclic g -> (exists t, terminal g t /\ leftmost g x t) -> b = true).
  Proof using Hg Ha.
    destruct have as (S0 & st & F). unfold an_nonterminal. destruct (idx_of S0 st x F) as [(i & -> & Hi)|[-> Hn]].
    2:{ exists false. split; [done|]. split; [done|]. intros _ (t & _ & H). exfalso. apply Hn, nt_occurs. by eapply leftmost_nt. }
    pose proof (fa_ok _ _ _ _ F) as Ho. pose proof (nm_lt S0 _ _ Hi) as Hil.
    rewrite (fa_n2f _ _ _ _ F). rewrite (proj2 (Nat.leb_gt _ _)) by by rewrite (ok_firsts _ _ _ Ho).
    unfold lget. destruct (lookup_lt_is_Some_2 (as_firsts st) i) as [fs Hfs]; [by rewrite (ok_firsts _ _ _ Ho)|].
    rewrite Hfs. cbn [rbind]. destruct (firsts_nonempty S0 st i x fs F Hi Hfs) as [H1 H2].
    eexists. split; [done|]. split.
    - intros E. apply H1. intros ->. done.
    - intros Hac Ht. specialize (H2 Hac Ht). by destruct fs.
  Qed.

  Lemma contains x : exists b, an_contains a x = Ok b
    /\ (b = true -> occurs g x /\ ((exists t, terminal g t /\ leftmost g x t) \/ (terminal g x /\ exists z, leftmost g z x)))
    /\ (left_acyclic g -> ((exists t, terminal g t /\ leftmost g x t) \/ (terminal g x /\ exists z, leftmost g z x)) -> b = true).
  Proof using Hg Ha.
    destruct have as (S0 & st & F). unfold an_contains. destruct (idx_of S0 st x F) as [(i & -> & Hi)|[-> Hn]].
    2:{ exists false. split; [done|]. split; [done|]. intros _ [(t & _ & H)|(_ & z & H)]; exfalso; apply Hn.
        - apply nt_occurs. by eapply leftmost_nt.
        - by eapply first_occurs. }
    pose proof (fa_ok _ _ _ _ F) as Ho. pose proof (nm_lt S0 _ _ Hi) as Hil.
    rewrite (fa_n2f _ _ _ _ F), (fa_terms _ _ _ _ F).
    unfold lget. destruct (lookup_lt_is_Some_2 (as_firsts st) i) as [fs Hfs]; [by rewrite (ok_firsts _ _ _ Ho)|].
    destruct (lookup_lt_is_Some_2 (as_terms st) i) as [b Hb]; [by rewrite (ok_terms _ _ _ Ho)|].
    rewrite Hfs. cbn [rbind]. destruct (firsts_nonempty S0 st i x fs F Hi Hfs) as [H1 H2].
    destruct fs as [|f0 fs].
    - rewrite Hb. exists b. split; [done|]. split.
      + intros ->. destruct (ok_term _ _ _ Ho i x Hi Hb) as [H3 [z Hz]]. split; [by eapply first_occurs|]. right. eauto.
      + intros Hac [Ht|(Ht & z & Hz)]; [by apply H2 in Ht|]. pose proof (leftmost_nt _ _ _ Hz) as Hzn.
        destruct (idx_of S0 st z F) as [(k & _ & Hk)|[_ Hn]]; [|by apply nt_occurs in Hzn].
        destruct (fa_fin _ _ _ _ F Hac z k Hzn Hk) as [(fs & H3 & H4) _].
        destruct (H4 x Ht Hz) as (j & _ & Hj & Hj'). rewrite (nm_inj S0 (fa_wf _ _ _ _ F) _ _ _ Hj Hi) in Hj'. congruence.
    - exists true. split; [done|]. split; [|done]. intros _. destruct H1 as (t & Ht & Hlm); [done|].
      split; [apply nt_occurs; by eapply leftmost_nt|]. left. eauto.
  Qed.
End T.
