(** Parsers look up the productions of a symbol at most once for each position. *)
From Coq Require Import Lia.
From Verif.model Require Import Threads.
From Verif.spec Require Import GrammarSpec ThreadSpec CostSpec.
From Verif.proofs Require PackratCore.
From Verif.proofs Require Import GrammarProofs GrammarThms ThreadProofs SetProofs.
Local Open Scope nat_scope.

Lemma asked_pbind {A B} g (p : prog A) a (f : A -> prog B) : calm g p a -> asked g (pbind p f) = asked g p ++ asked g (f a).
Proof. intros H. induction H as [r|c k r _ Hs _ IH]; [done|]. cbn [pbind asked app]. rewrite Hs, IH. done. Qed.
Lemma asked_bind {A B} g (p : prog (res A)) r (f : A -> prog (res B)) : calm g p r ->
  asked g (mbind' p f) = asked g p ++ match r with Ok a => asked g (f a) | _ => [] end.
Proof. intros H. unfold mbind'. rewrite (asked_pbind g p r) by done. f_equal. by destruct r. Qed.

(** [ms] are positions of symbols; [look] is the call for one. *)
Definition look (st : set) (m : marker) : option call :=
  match symb2str st !! fst m with Some nm => Some (CProductions (nm, false)) | None => None end.

Section S.
  Variable g : gr.
  Hypothesis Hb : built g.
  Notation V := (gr_view g).

  Section Op.
    Variable fuel0 : nat.
    Variable st : set.
    Variable nonterms : list bool.
    Variable kinds : list nat.
    Hypothesis Hst : set_wf st.
    Notation n := (length kinds).
    Notation prods := (prods_of V st).
    Notation inv := (inv g st).
    Notation good := (good g st).
    Notation okp := (okp g st).

    Definition near (s : pst) : Prop :=
      (forall m d, d ∈ lget (markers s) m -> snd (td_key d) <= n) /\ (forall tp k, (tp, k) ∈ stack s -> snd k <= n).
    Definition covers (s : pst) (l : list call) (r : res pst) : Prop :=
      exists ms, l = omap (look st) ms /\ NoDup ms /\ (forall m, m ∈ ms -> m ∉ queued s /\ snd m <= n)
        /\ forall s', r = Ok s' -> (forall m, m ∈ queued s' <-> m ∈ ms \/ m ∈ queued s) /\ near s'.
    Lemma covers_fail s r : (forall s', r <> Ok s') -> covers s [] r.
    Proof. intros H. exists []. split_and!; [done|constructor|intros m Hm; inversion Hm|]. intros s' E. by apply H in E. Qed.
    Lemma covers_ok s s' : queued s' = queued s -> near s' -> covers s [] (Ok s').
    Proof.
      intros Hq Hn. exists []. split_and!; [done|constructor|intros m Hm; inversion Hm|]. intros s2 [= <-]. rewrite Hq.
      split; [|done]. intros m. split; [auto|]. intros [H|H]; [inversion H|done].
    Qed.
    Lemma covers_pre s s1 l r : queued s1 = queued s -> covers s1 l r -> covers s l r.
    Proof. intros Hq (ms & H). rewrite Hq in H. by exists ms. Qed.
    Lemma covers_app s l1 r1 l2 h : covers s l1 r1 -> (forall s1, r1 = Ok s1 -> near s1 -> covers s1 (l2 s1) (h s1)) ->
      covers s (l1 ++ match r1 with Ok s1 => l2 s1 | _ => [] end) (rbind r1 h).
    Proof.
      intros (ms & -> & Hn & Hm & Hr) H2. destruct r1 as [s1| |]; cbn [rbind].
      2,3: exists ms; rewrite app_nil_r; done.
      destruct (Hr s1 eq_refl) as [Hq Hn1]. destruct (H2 s1 eq_refl Hn1) as (ms2 & -> & Hnd2 & Hm2 & Hr2).
      exists (ms ++ ms2). split_and!.
      - rewrite omap_app. done.
      - apply NoDup_app. split_and!; [done| |done]. intros m H1 H3. apply Hm2 in H3 as [H3 _]. apply H3, Hq. by left.
      - intros m Hin. apply elem_of_app in Hin as [Hin|Hin]; [by apply Hm|]. destruct (Hm2 m Hin) as [H3 H4]. split; [|done].
        intros H5. apply H3, Hq. by right.
      - intros s' E. destruct (Hr2 s' E) as [Hq2 Hn2]. split; [|done]. intros m. rewrite Hq2, Hq, elem_of_app. tauto.
    Qed.

    Lemma near_push s tp k : near s -> snd k <= n -> near (push s tp k).
    Proof.
      intros [H1 H2] Hk. split; cbn [push markers stack]; [exact H1|].
      intros tp' k' Hin. apply elem_of_cons in Hin as [[= -> ->]|Hin]; [done|]. by apply (H2 tp').
    Qed.
    Lemma near_pushes {X} (l : list X) (f : X -> tpart) (h : X -> key) : forall s, near s -> (forall x, x ∈ l -> snd (h x) <= n) ->
      near (fold_left (fun s x => push s (f x) (h x)) l s).
    Proof.
      induction l as [|x l IH]; intros s Hs Hl; cbn [fold_left]; [done|]. apply IH.
      - apply near_push; [done|]. apply Hl. left.
      - intros y Hy. apply Hl. by right.
    Qed.
    Lemma queued_pushes {X} (l : list X) (f : X -> tpart) (h : X -> key) : forall s,
      queued (fold_left (fun s x => push s (f x) (h x)) l s) = queued s.
    Proof. induction l as [|x l IH]; intros s; cbn [fold_left]; [done|]. rewrite IH. done. Qed.

    Lemma memo_near s td s' : near s -> snd (td_key td) <= n -> add_to_memo fuel0 s td = Ok s' -> queued s' = queued s /\ near s'.
    Proof.
      intros Hs Hd. unfold add_to_memo. destruct (memo s !! td_key td) as [old|].
      - destruct (compare_priority fuel0 (memo s) td old) as [c| |]; try done. cbn [rbind].
        destruct (c =? 1)%Z; [|by intros [= <-]]. destruct (circular _ _ _ _) as [b| |]; try done. cbn [rbind].
        intros [= <-]. by destruct b.
      - intros [= <-]. split.
        + rewrite (queued_pushes _ (fun tp => tp) (fun _ => td_key td)). done.
        + apply (near_pushes _ (fun tp => tp) (fun _ => td_key td)); [|done].
          destruct Hs as [H1 H2]. split; [|exact H2].
          intros m d. cbn [set_memo set_markers markers]. unfold lget. destruct (decide (m = td_marker td)) as [->|Hne].
          * rewrite lookup_insert. cbn [default]. intros Hin. apply elem_of_app in Hin as [Hin|Hin]; [by apply (H1 (td_marker td))|].
            apply elem_of_list_singleton in Hin as ->. done.
          * rewrite lookup_insert_ne by done. apply H1.
    Qed.
    Lemma check_near s m s' o : near s -> check_non_terminal fuel0 kinds s m = Ok (s', o) ->
      queued s' = queued s /\ near s' /\ forall td, o = Some td -> snd (td_key td) <= n.
    Proof.
      intros Hs. unfold check_non_terminal. destruct (kinds !! snd m) as [k|] eqn:Ek; [|by intros [= <- <-]].
      destruct (fst m =? k); [|by intros [= <- <-]]. apply lookup_lt_Some in Ek.
      destruct (add_to_memo _ _ _) as [s1| |] eqn:E; cbn [rbind]; try done. intros [= <- <-].
      apply memo_near in E as [? ?]; [|done|cbn [td_key snd]; lia]. split_and!; [done|done|]. intros td [= <-]. cbn [td_key snd]. lia.
    Qed.
    Lemma wait_near (s : pst) (tp : tpart) (requires : marker) (isnt : bool) s1 : near s ->
      (if isnt then Ok (set_partials s (<[requires := lget (partials s) requires ++ [tp]]> (partials s)))
       else '(s', _) <-! check_non_terminal fuel0 kinds s requires; Ok s') = Ok s1 -> queued s1 = queued s /\ near s1.
    Proof.
      intros Hs. destruct isnt.
      - by intros [= <-].
      - destruct (check_non_terminal _ _ _ _) as [[s' o]| |] eqn:E; cbn [rbind]; try done. intros [= <-]. apply check_near in E; tauto.
    Qed.
    Lemma push_markers_near s tp requires : near s ->
      let s2 := fold_left (fun s td => push s tp (td_key td)) (lget (markers s) requires) s in queued s2 = queued s /\ near s2.
    Proof.
      intros Hs. split; [apply (queued_pushes _ (fun _ => tp) td_key)|].
      apply (near_pushes _ (fun _ => tp) td_key); [done|]. intros d Hd. by apply (proj1 Hs requires).
    Qed.

    Lemma asked_prods nm own : mentions V nm -> asked g (ask_prods nm own) = [CProductions (nm, own)].
    Proof. done. Qed.
    Lemma asked_idx idx : good idx -> forall i, asked g (ask_idx st idx) = omap (look st) [(idx, i)].
    Proof using Hb.
      intros Hg i. unfold ask_idx. cbn [omap list_omap]. unfold look. cbn [fst]. destruct (symb2str st !! idx) as [nm|] eqn:E; [|done].
      rewrite (asked_bind g _ (Ok (g_prods V nm))) by (apply ask_prods_calm; auto). done.
    Qed.

    Lemma add_prods_asked f : forall root s, inv s -> near s -> good (fst root) -> snd root <= n ->
      covers s (asked g (add_prods_p fuel0 st nonterms kinds f root s)) (add_prods fuel0 prods nonterms kinds f root s).
    Proof using Hb Hst.
      induction f as [|f IH]; intros root s Hi Hs Hroot Hpos; cbn [add_prods add_prods_p]; [by apply covers_fail|].
      destruct (bool_decide_reflect (root ∈ queued s)) as [Hin|Hin]; [by apply covers_ok|].
      assert (Hi1 : inv (set_queued s ({[root]} ∪ queued s))) by exact Hi.
      assert (Hs1 : near (set_queued s ({[root]} ∪ queued s))) by exact Hs.
      rewrite (asked_bind g _ (Ok (prods (fst root)))) by by apply ask_idx_calm.
      rewrite (asked_idx (fst root) Hroot (snd root)).
      assert (HC : forall l r, covers (set_queued s ({[root]} ∪ queued s)) l r -> covers s (omap (look st) [(fst root, snd root)] ++ l) r).
      { intros l r (ms & -> & Hnd & Hm & Hr). exists (root :: ms). split_and!.
        - destruct root as [a i]. cbn [fst snd]. by rewrite <- omap_app.
        - constructor; [|done]. intros H. apply Hm in H as [H _]. apply H. cbn [set_queued queued]. set_solver.
        - intros m H. apply elem_of_cons in H as [->|H]; [done|]. apply Hm in H as [H H2]. split; [|done].
          intros H3. apply H. cbn [set_queued queued]. set_solver.
        - intros s' E. destruct (Hr s' E) as [Hq Hn]. split; [|done]. intros m. rewrite Hq. cbn [set_queued queued]. rewrite elem_of_cons. set_solver. }
      apply HC. clear HC.
      destruct (prods (fst root)) as [ps|] eqn:Ep; [|by apply covers_ok].
      match goal with |- covers _ (asked g (?F 0 ps ?x)) (?G 0 ps ?x) =>
          assert (H : forall i s1, inv s1 -> near s1 -> (forall p j, p ∈ ps -> j ∈ p -> good j) ->
            covers s1 (asked g (F i ps s1)) (G i ps s1)) end.
      { clear Ep Hs1 Hi1. induction ps as [|p ps IHps]; intros i s1 Hi1 Hs1 Hg; [by apply covers_ok|].
        assert (Hg' : forall p' j, p' ∈ ps -> j ∈ p' -> good j) by (intros p' j Hp Hj; apply (Hg p' j); [by right|done]).
        destruct p as [|sym p].
        - destruct (add_to_memo fuel0 s1 (TDef (root, snd root) [] i)) as [s2| |] eqn:E; cbn [rbind]; [|by apply covers_fail|by apply covers_fail].
          destruct (memo_near _ (TDef (root, snd root) [] i) _ Hs1 Hpos E) as [Hq Hn2]. apply (covers_pre s1 s2 _ _ Hq).
          apply (IHps (S i) s2); [exact (inv_memo g fuel0 st _ _ _ Hi1 E)|done|done].
        - assert (Hok : okp (TPart (TDef (root, 0) [] i) (sym :: p))) by (intros j Hj; apply (Hg (sym :: p)); [left|done]).
          assert (Hsym : good sym) by (apply (Hg (sym :: p)); left).
          match goal with |- context[nonterms !! ?k] => destruct (nonterms !! k) as [isnt|] end.
          2:{ by apply covers_fail. }
          match goal with |- context[if isnt then ?a else ?b] => destruct (if isnt then a else b) as [s2| |] eqn:E; cbn [rbind] end.
          2:{ by apply covers_fail. }
          2:{ by apply covers_fail. }
          pose proof (inv_wait g fuel0 st kinds s1 _ (sym, snd root) isnt s2 Hi1 Hok E) as Hi2.
          destruct (wait_near s1 _ (sym, snd root) isnt s2 Hs1 E) as [Hq2 Hs2].
          destruct (push_markers_near s2 (TPart (TDef (root, 0) [] i) (sym :: p)) (sym, snd root) Hs2) as [Hq3 Hs3].
          assert (Hi3 : inv (fold_left (fun s td => push s (TPart (TDef (root, 0) [] i) (sym :: p)) (td_key td)) (lget (markers s2) (sym, snd root)) s2)).
          { apply (inv_pushes g st _ (fun _ => TPart (TDef (root, 0) [] i) (sym :: p)) td_key); [exact Hi2|done]. }
          destruct (add_prods_calm g Hb fuel0 st nonterms kinds Hst f (sym, snd root) _ Hi3 Hsym) as [C1 C2].
          pose proof (IH (sym, snd root) _ Hi3 Hs3 Hsym Hpos) as HI.
          apply (covers_pre s1 s2 _ _ Hq2). apply (covers_pre s2 _ _ _ Hq3).
          match goal with |- covers ?a (asked g (mbind' _ ?k)) ?r => change (covers a (asked g (mbind' (add_prods_p fuel0 st nonterms kinds f (sym, snd root)
            (fold_left (fun s td => push s (TPart (TDef (root, 0) [] i) (sym :: p)) (td_key td)) (lget (markers s2) (sym, snd root)) s2)) k)) r) end.
          rewrite (asked_bind g _ _ _ C1). apply covers_app; [exact HI|]. intros s3 E3 Hs4. apply IHps; [by apply C2|done|done]. }
      apply H; [done|done|]. intros p j. by apply (prods_good g st Hst (fst root)).
    Qed.

    Lemma add_partial_asked f tp requires s : inv s -> near s -> okp tp -> good (fst requires) -> snd requires <= n ->
      covers s (asked g (add_partial_p fuel0 st nonterms kinds f tp requires s)) (add_partial fuel0 prods nonterms kinds f tp requires s).
    Proof using Hb Hst.
      intros Hi Hs Hok Hr Hpos. unfold add_partial_p, add_partial. destruct (nonterms !! fst requires) as [isnt|]; [|by apply covers_fail].
      match goal with |- context[if isnt then ?a else ?b] => destruct (if isnt then a else b) as [s2| |] eqn:E; cbn [rbind] end.
      2:{ by apply covers_fail. }
      2:{ by apply covers_fail. }
      destruct (wait_near s tp requires isnt s2 Hs E) as [Hq2 Hs2]. destruct (push_markers_near s2 tp requires Hs2) as [Hq3 Hs3].
      apply (covers_pre s s2 _ _ Hq2). apply (covers_pre s2 _ _ _ Hq3). apply add_prods_asked; [|done|done|done].
      apply (inv_pushes g st _ (fun _ => tp) td_key); [exact (inv_wait g fuel0 st kinds s tp requires isnt s2 Hi Hok E)|done].
    Qed.
    Lemma update_asked f : forall base ext s, inv s -> near s -> okp base -> snd ext <= n ->
      covers s (asked g (update_p fuel0 st nonterms kinds f base ext s)) (update fuel0 prods nonterms kinds f base ext s).
    Proof using Hb Hst.
      induction f as [|f IH]; intros base ext s Hi Hs Hok Hpos; cbn [update update_p]; [by apply covers_fail|].
      destruct (_ =? _).
      - cbn [asked]. destruct (add_to_memo _ _ _) as [s'| |] eqn:E; [|by apply covers_fail|by apply covers_fail].
        apply memo_near in E as [? ?]; [by apply covers_ok|done|exact Hpos].
      - destruct (tp_prod (extend base ext) !! _) as [sym|] eqn:E; [|by apply covers_fail].
        assert (Hsym : good sym) by (apply Hok; apply elem_of_list_lookup_2 in E; exact E).
        destruct (check_non_terminal _ _ _ _) as [[s2 o]| |] eqn:E2; cbn [rbind]; [|by apply covers_fail|by apply covers_fail].
        pose proof (inv_check g fuel0 st kinds _ _ _ _ Hi E2) as Hi2. destruct (check_near _ _ _ _ Hs E2) as (Hq & Hs2 & Ho).
        apply (covers_pre s s2 _ _ Hq). destruct o as [td|].
        + apply IH; [done|done|done|by apply Ho].
        + by apply add_partial_asked.
    Qed.
    Lemma run_asked f : forall s, inv s -> near s ->
      covers s (asked g (run_p fuel0 st nonterms kinds f s)) (run fuel0 prods nonterms kinds f s).
    Proof using Hb Hst.
      induction f as [|f IH]; intros s Hi Hs; cbn [run run_p]; destruct (stack s) as [|[base ext] rest] eqn:E; try (by apply covers_ok).
      { by apply covers_fail. }
      assert (Hi1 : inv (set_stack s rest)).
      { destruct Hi as [H1 H2]. split; cbn [set_stack partials stack]; [exact H1|]. intros tp k Hin. apply (H2 tp k). rewrite E. by right. }
      assert (Hs1 : near (set_stack s rest)).
      { destruct Hs as [H1 H2]. split; cbn [set_stack markers stack]; [exact H1|]. intros tp k Hin. apply (H2 tp k). rewrite E. by right. }
      assert (Hok : okp base) by (apply (proj2 Hi base ext); rewrite E; left).
      assert (Hpos : snd ext <= n) by (apply (proj2 Hs base ext); rewrite E; left).
      destruct (update_calm g Hb fuel0 st nonterms kinds Hst fuel0 base ext _ Hi1 Hok) as [C1 C2].
      rewrite (asked_bind g _ _ _ C1). apply covers_app.
      - apply (covers_pre s (set_stack s rest)); [done|]. by apply update_asked.
      - intros s2 E2 Hs2. apply IH; [by apply C2|done].
    Qed.
  End Op.

  Lemma lookups_app x l k : lookups x (l ++ k) = lookups x l + lookups x k.
  Proof. unfold lookups. rewrite List.filter_app, app_length. done. Qed.
  Lemma others_app l k : others (l ++ k) = others l + others k.
  Proof. unfold others. rewrite List.filter_app, app_length. done. Qed.

  Lemma omap_look_bound st n ms x : set_wf st -> NoDup ms -> (forall m, m ∈ ms -> snd m <= n) ->
    lookups x (omap (look st) ms) <= S n /\ others (omap (look st) ms) = 0.
  Proof.
    intros Hst Hnd Hm. split.
    2:{ clear Hnd Hm. induction ms as [|m ms IH]; [done|]. cbn [omap list_omap]. unfold look at 1. destruct (symb2str st !! fst m); exact IH. }
    assert (E : lookups x (omap (look st) ms) = length (map snd (filter (fun m => symb2str st !! fst m = Some x) ms))).
    { clear Hnd Hm. induction ms as [|m ms IH]; [done|]. rewrite filter_cons. cbn [omap list_omap]. unfold look at 1.
      destruct (symb2str st !! fst m) as [nm|]; [|by rewrite decide_False].
      unfold lookups in *. cbn [List.filter]. destruct (decide (nm = x)) as [->|Hne].
      - rewrite bool_decide_eq_true_2, decide_True by done. cbn [map length]. by rewrite IH.
      - rewrite bool_decide_eq_false_2, decide_False by congruence. exact IH. }
    rewrite E. rewrite <- (seq_length (S n) 0). apply PackratCore.NoDup_subset_length.
    - apply (NoDup_fmap_2_strong snd); [|by apply NoDup_filter].
      intros [a i] [b j] Ha Hb' [= ->]. apply elem_of_list_filter in Ha as [Ha _], Hb' as [Hb' _]. cbn [fst] in *.
      apply Hst in Ha, Hb'. congruence.
    - intros i Hi. apply elem_of_list_fmap in Hi as (m & -> & Hi). apply elem_of_list_filter in Hi as [_ Hi]. apply Hm in Hi.
      apply elem_of_list_In, in_seq. lia.
  Qed.

  Lemma load_nts_asked nts x : forall s, (forall nt, nt ∈ nts -> mentions V nt) -> NoDup nts ->
    lookups x (asked g (load_nts_p nts s)) <= (if bool_decide (x ∈ nts) then 1 else 0) /\ others (asked g (load_nts_p nts s)) = 0.
  Proof using Hb.
    induction nts as [|nt nts IH]; intros s Hm Hnd; [cbn; split; [lia|done]|]. cbn [load_nts_p].
    rewrite (asked_bind g _ (Ok (g_prods V nt))) by (apply ask_prods_calm; [done|]; apply Hm; left).
    change (asked g (ask_prods nt true)) with [CProductions (nt, true)].
    apply NoDup_cons in Hnd as [Hni Hnd].
    rewrite lookups_app, others_app.
    assert (H : forall s', lookups x (asked g (load_nts_p nts s')) <= (if bool_decide (x ∈ nts) then 1 else 0) /\ others (asked g (load_nts_p nts s')) = 0).
    { intros s'. apply IH; [|done]. intros y Hy. apply Hm. by right. }
    assert (Hx : lookups x [CProductions (nt, true)] = if bool_decide (nt = x) then 1 else 0).
    { unfold lookups. cbn [List.filter]. by destruct (bool_decide (nt = x)). }
    rewrite Hx. change (others [CProductions (nt, true)]) with 0.
    assert (Hle : forall l, lookups x l <= (if bool_decide (x ∈ nts) then 1 else 0) ->
      (if bool_decide (nt = x) then 1 else 0) + lookups x l <= (if bool_decide (x ∈ nt :: nts) then 1 else 0)).
    { intros l Hl. destruct (decide (nt = x)) as [->|Hne].
      - rewrite (bool_decide_eq_true_2 (x = x)), (bool_decide_eq_true_2 (x ∈ x :: nts)) by (done || left).
        rewrite bool_decide_eq_false_2 in Hl by done. lia.
      - rewrite (bool_decide_eq_false_2 (nt = x)) by done. rewrite (bool_decide_ext (x ∈ nt :: nts) (x ∈ nts)); [lia|].
        rewrite elem_of_cons. naive_solver. }
    destruct (g_prods V nt) as [ps|].
    - destruct (H (fold_left load_prod ps (snd (set_str s nt)))) as [H1 H2]. split; [by apply Hle|lia].
    - split; [apply Hle; cbn; lia|done].
  Qed.

  Lemma view_nodup : NoDup (g_nts V).
  Proof using Hb. destruct (built_RO _ Hb) as (A & HR & Hok). rewrite (proj1 (gr_view_R g A HR)). apply Hok. Qed.
  Lemma load_asked x s : lookups x (asked g (load_grammar_p s)) <= 1 /\ others (asked g (load_grammar_p s)) = 1.
  Proof using Hb.
    unfold load_grammar_p. rewrite (asked_bind g _ _ _ (ask_nts_calm g)). rewrite lookups_app, others_app.
    change (lookups x (asked g ask_nts)) with 0. change (others (asked g ask_nts)) with 1.
    destruct (load_nts_asked (g_nts V) x s) as [H1 H2]; [by left|apply view_nodup|]. rewrite H2. split; [|done].
    destruct (bool_decide _); lia.
  Qed.

  Theorem packrat_lookups fuel lexemes x :
    lookups x (asked g (packrat_p fuel lexemes)) <= length lexemes + 2 /\ others (asked g (packrat_p fuel lexemes)) <= 3.
  Proof using Hb.
    unfold packrat_p. rewrite (asked_bind g _ _ _ (ask_nts_calm g)). rewrite lookups_app, others_app.
    change (lookups x (asked g ask_nts)) with 0. change (others (asked g ask_nts)) with 1.
    destruct (g_nts V) as [|nt0 nts] eqn:En; [cbn; lia|].
    rewrite (asked_bind g _ _ _ (load_grammar_calm g Hb set_new)). rewrite lookups_app, others_app.
    destruct (load_asked x set_new) as [L1 L2]. rewrite L2.
    destruct (load_grammar V set_new) as [set1| |] eqn:E1; [|change (lookups x []) with 0; change (others []) with 0; lia|change (lookups x []) with 0; change (others []) with 0; lia]. apply loaded_wf in E1.
    destruct (load_lexemes set1 lexemes) as [lxms st] eqn:El.
    assert (Hlen : length (map fst lxms) = length lexemes).
    { destruct (load_lexemes_spec _ _ _ _ E1 El) as (_ & _ & H & _). rewrite <- H, !map_length. done. }
    apply load_lexemes_spec in El as (Hst & _); [|done].
    rewrite (asked_bind g _ _ _ (ask_nts_calm g)). rewrite lookups_app, others_app.
    change (lookups x (asked g ask_nts)) with 0. change (others (asked g ask_nts)) with 1. rewrite En.
    set (nonterms := mark_nonterms st (nt0 :: nts) (replicate (sym_count st) false)). set (kinds := map fst lxms) in *.
    assert (Hg : good g st (fst (set_str st nt0))) by (apply good_sym; [done|]; left; rewrite En; left).
    assert (Hi : inv g st pst_init).
    { split; [|intros tp k Hin; inversion Hin]. intros m tp Hin. unfold lget in Hin. cbn [pst_init partials] in Hin. rewrite lookup_empty in Hin. inversion Hin. }
    assert (Hs : near kinds pst_init).
    { split; [|intros tp k Hin; inversion Hin]. intros m tp Hin. unfold lget in Hin. cbn [pst_init markers] in Hin. rewrite lookup_empty in Hin. inversion Hin. }
    destruct (add_prods_calm g Hb fuel st nonterms kinds Hst fuel (fst (set_str st nt0), 0) pst_init Hi Hg) as [C1 C2].
    pose proof (add_prods_asked fuel st nonterms kinds Hst fuel (fst (set_str st nt0), 0) pst_init Hi Hs Hg ltac:(cbn [snd]; lia)) as H1.
    rewrite (asked_bind g _ _ _ C1).
    assert (HC : exists ms, NoDup ms /\ (forall m, m ∈ ms -> snd m <= length kinds) /\
      asked g (add_prods_p fuel st nonterms kinds fuel (fst (set_str st nt0), 0) pst_init) ++
        match add_prods fuel (prods_of V st) nonterms kinds fuel (fst (set_str st nt0), 0) pst_init with
        | Ok s1 => asked g (run_p fuel st nonterms kinds fuel s1) | _ => [] end = omap (look st) ms).
    { assert (H2 : covers st kinds pst_init (asked g (add_prods_p fuel st nonterms kinds fuel (fst (set_str st nt0), 0) pst_init) ++
        match add_prods fuel (prods_of V st) nonterms kinds fuel (fst (set_str st nt0), 0) pst_init with
        | Ok s1 => asked g (run_p fuel st nonterms kinds fuel s1) | _ => [] end)
        (rbind (add_prods fuel (prods_of V st) nonterms kinds fuel (fst (set_str st nt0), 0) pst_init) (run fuel (prods_of V st) nonterms kinds fuel))).
      { apply covers_app; [exact H1|]. intros s1 E Hs1. apply run_asked; [done|by apply C2|done]. }
      destruct H2 as (ms & -> & Hnd & Hm & _). exists ms. split_and!; [done| |done]. intros m Hin. by apply Hm. }
    destruct HC as (ms & Hnd & Hm & HC).
    destruct (omap_look_bound st (length kinds) ms x Hst Hnd Hm) as [B1 B2].
    rewrite <- HC in B1, B2. rewrite Hlen in B1. clear HC H1.
    destruct (add_prods fuel (prods_of V st) nonterms kinds fuel (fst (set_str st nt0), 0) pst_init) as [s1| |] eqn:Es; [|rewrite B2; lia|rewrite B2; lia].
    rewrite (asked_bind g _ _ _ (run_calm g Hb fuel st nonterms kinds Hst fuel s1 (C2 s1 eq_refl))). rewrite app_assoc.
    assert (HR : forall l, l = [] -> lookups x ((asked g (add_prods_p fuel st nonterms kinds fuel (fst (set_str st nt0), 0) pst_init) ++ asked g (run_p fuel st nonterms kinds fuel s1)) ++ l) <= S (length lexemes)
      /\ others ((asked g (add_prods_p fuel st nonterms kinds fuel (fst (set_str st nt0), 0) pst_init) ++ asked g (run_p fuel st nonterms kinds fuel s1)) ++ l) = 0).
    { intros l ->. rewrite app_nil_r. done. }
    match goal with |- context[(asked g (add_prods_p _ _ _ _ _ _ _) ++ asked g _) ++ ?l] => destruct (HR l) as [R1 R2] end.
    - destruct (run _ _ _ _ _ _) as [s2| |]; try done. destruct (_ =? _); [|done]. destruct (to_pn _ _ _ _ _); done.
    - rewrite R2. lia.
  Qed.
End S.
