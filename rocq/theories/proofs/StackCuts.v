(** From cuttings with a table of matches to the specification. *)
From Coq Require Import Lia.
From Verif.spec Require Import StackSpec.
From Verif.proofs Require Import Fuel SetProofs LexProofs StackProofs StackProofs2.

(** * A cutting is determined by the rules *)
Lemma moves_fun env d D S D1 S1 D2 S2 : moves env d D S D1 S1 -> moves env d D S D2 S2 -> D1 = D2 /\ S1 = S2.
Proof.
  unfold moves. destruct (decide (0 < sd_pop d)).
  - intros (_ & H1 & ->) (_ & H2 & ->). split; congruence.
  - destruct (decide (sd_push d = [])); intros [H1 H2] [H3 H4]; split; congruence.
Qed.
Lemma moves_falls env d D S D1 S1 : moves env d D S D1 S1 -> falls env d S -> False.
Proof.
  unfold moves. intros H [[Hp ->] | (Hp & Hq & He)].
  - rewrite decide_True in H by done. destruct H as [H _]. done.
  - rewrite decide_False in H by lia. rewrite decide_False in H by done. destruct H. congruence.
Qed.
Lemma gcuts_fun env bl b D S C run cur ps ok : gcuts env bl b D S C run cur ps ok ->
  forall ps' ok', gcuts env bl b D S C run cur ps' ok' -> ps = ps' /\ ok = ok'.
Proof.
  assert (Hx : forall C cur p x, gidle bl C cur -> gpick bl C cur p x -> gend x <> cur -> False).
  { intros C0 c p x H1 H2 H3. apply H3. eapply H1; eauto. }
  induction 1 as [D C run cur Hi He | D C run cur ps ok Hi He _ IH | D D' S' C run cur ps ok Hi _ IH
    | D S C run cur p x d Hp Hd He Hb | D S C run cur p x d Hp Hd He Hb Hf
    | D S C run cur p x d ps ok Hp Hd He Hb Hpo Hpu _ IH | D S C run cur p x d D' S' ps ok Hp Hd He Hb Hpu Hm _ IH];
    intros ps' ok' H;
    inversion H as [D1 C1 run1 cur1 Hi1 He1 | D1 C1 run1 cur1 ps1 ok1 Hi1 He1 H1 | D1 D1' S1' C1 run1 cur1 ps1 ok1 Hi1 H1
    | D1 S1 C1 run1 cur1 p1 x1 d1 Hp1 Hd1 He1 Hb1 | D1 S1 C1 run1 cur1 p1 x1 d1 Hp1 Hd1 He1 Hb1 Hf1
    | D1 S1 C1 run1 cur1 p1 x1 d1 ps1 ok1 Hp1 Hd1 He1 Hb1 Hpo1 Hpu1 H1 | D1 S1 C1 run1 cur1 p1 x1 d1 D1' S1' ps1 ok1 Hp1 Hd1 He1 Hb1 Hpu1 Hm1 H1];
    subst; try (exfalso; eauto; fail); try (exfalso; lia);
    try (assert (Hpx := gpick_fun _ _ _ _ _ _ _ Hp Hp1); destruct Hpx as [<- <-]; assert (d1 = d) as -> by congruence);
    try (exfalso; lia).
  - done.
  - eauto.
  - eauto.
  - done.
  - done.
  - exfalso. destruct Hf as [[? ?] | (? & ? & ?)]; [lia|congruence].
  - exfalso. eapply moves_falls; eauto.
  - exfalso. destruct Hf1 as [[? ?] | (? & ? & ?)]; [lia|congruence].
  - destruct (IH _ _ H1) as [-> ->]. done.
  - exfalso. destruct Hpu1; [lia|congruence].
  - exfalso. eapply moves_falls; eauto.
  - exfalso. destruct Hpu; [lia|congruence].
  - destruct (moves_fun _ _ _ _ _ _ _ _ Hm Hm1) as [<- <-]. destruct (IH _ _ H1) as [-> ->]. done.
Qed.

(** * Nothing is lost *)
Lemma junk_text v : stext (junk v) = v.
Proof. destruct v; [done|]. cbn. by rewrite app_nil_r. Qed.
Lemma stext_app a c : stext (a ++ c) = stext a ++ stext c.
Proof. unfold stext. apply flat_map_app. Qed.
Lemma junk_in v x : x ∈ junk v -> x = SJunk v /\ v <> [].
Proof. destruct v; cbn; [by intros ?%elem_of_nil|]. intros ->%elem_of_list_singleton. done. Qed.


Section Wf.
Context (env : gostring -> option (list sdef)) (bl : bool) (b : gostring).
(** The rules reachable from the environment are well formed. *)
Context (good : list sdef -> Prop).
Hypothesis good_wf : forall D d, good D -> d ∈ D -> s_well_formed (sd_re d).
Hypothesis good_env : forall n D, env n = Some D -> good D.

Lemma moves_good d D S D' S' : good D -> Forall good S -> moves env d D S D' S' -> good D' /\ Forall good S'.
Proof.
  intros HD HS. unfold moves. destruct (decide _).
  - intros (_ & H1 & ->). split; [eapply Forall_lookup_1; eauto|]. by apply Forall_drop.
  - destruct (decide _); intros [H1 ->]; [by subst|]. split; [eapply good_env; eauto|]. by constructor.
Qed.
Lemma pick_end D C cur p x d : good D -> ok_cache b cur D C -> gpick bl C cur p x -> D !! p = Some d ->
  found b d x /\ cur <= gend x <= length b /\ cur = sm_i (fst x) + snd x.
Proof.
  intros Hg [_ Hc] [[Hp Hi] _] Hd. destruct (Hc _ _ Hp) as (d' & Hd' & Hf & _). assert (d' = d) as -> by congruence.
  pose proof (good_wf D d Hg ltac:(eapply elem_of_list_lookup_2; eauto) _ _ (proj1 Hf)) as [Hw _].
  rewrite drop_length in Hw. destruct Hf as [Hf Ho]. unfold gend. split; [done|]. lia.
Qed.

(** Every piece is non-empty, every match is one some rule's regexp reported. *)
Definition honest (ps : list spiece) (at0 : nat) : Prop :=
  (forall x, x ∈ ps -> spiece_text x <> [])
  /\ forall before d w val after, ps = before ++ STok d w val :: after ->
       exists D c m, good D /\ d ∈ D /\ sx_find (sd_re d) (drop c b) = Some m
         /\ c + sm_i m = at0 + length (stext before) /\ c + sm_j m = at0 + length (stext before) + length w
         /\ val = value_of d (drop c b) m.
Lemma honest_junk v at0 : honest (junk v) at0.
Proof.
  split; [intros x [-> ?]%junk_in; done|]. intros before d w val after E. exfalso.
  assert (H : STok d w val ∈ junk v) by (rewrite E; set_solver). by apply junk_in in H as [? _].
Qed.
Lemma honest_tok ps at0 v D C cur p x d : good D -> ok_cache b cur D C -> gpick bl C cur p x -> D !! p = Some d ->
  gend x <> cur -> at0 + length v = cur -> honest ps (gend x) ->
  honest (junk v ++ STok d (cut b cur (gend x)) (gval b d x) :: ps) at0.
Proof.
  intros Hg Hc Hp Hd He Hat [H1 H2]. destruct (pick_end _ _ _ _ _ _ Hg Hc Hp Hd) as (Hf & Hend & Hcur).
  assert (Hlen : length (cut b cur (gend x)) = gend x - cur) by (apply cut_length; lia).
  split.
  - intros y Hy. apply elem_of_app in Hy as [Hy|Hy]; [apply junk_in in Hy as [-> ?]; done|].
    apply elem_of_cons in Hy as [->|Hy]; [|by apply H1]. cbn. destruct (cut _ _ _); [cbn in Hlen; lia|done].
  - intros before d' w val after E.
    assert (Hcase : (before = junk v /\ STok d' w val = STok d (cut b cur (gend x)) (gval b d x)) \/
       exists before', before = junk v ++ STok d (cut b cur (gend x)) (gval b d x) :: before' /\ ps = before' ++ STok d' w val :: after).
    { destruct v as [|c v]; cbn [junk app] in *.
      - destruct before as [|y before]; [left; split; [done|]; injection E; congruence|]. injection E as <- E. right. exists before. done.
      - destruct before as [|y before]; [done|]. injection E as <- E. destruct before as [|y before].
        + left. injection E as <- <- <- _. done.
        + injection E as <- E. right. exists before. done. }
    destruct Hcase as [[-> [= -> -> ->]] | (before' & -> & E')].
    + exists D, (snd x), (fst x). split; [done|]. split; [eapply elem_of_list_lookup_2; eauto|]. split; [apply Hf|].
      rewrite junk_text, Hlen. unfold gend in *. split; [lia|]. split; [lia|]. done.
    + destruct (H2 _ _ _ _ _ E') as (D' & c & m & A & A' & B & B' & B'' & V). exists D', c, m. do 3 (split; [done|]).
      rewrite stext_app, junk_text, app_length. cbn [stext flat_map]. fold (stext before'). rewrite app_length. cbn [spiece_text].
      rewrite Hlen. split; [lia|]. split; [lia|done].
Qed.

Lemma run_cut run cur : (forall e, run = Some e -> e < cur) -> run_text b run cur = cut b (default cur run) cur.
Proof. destruct run as [e|]; cbn; [done|]. intros _. unfold cut. by rewrite Nat.sub_diag, take_0. Qed.
Lemma run_split run cur e' : (forall e, run = Some e -> e < cur) -> cur <= e' -> 
  drop (default cur run) b = run_text b run cur ++ cut b cur e' ++ drop e' b.
Proof.
  intros Hr He. rewrite run_cut by done. rewrite <- cut_drop_app by done.
  apply cut_drop_app. destruct run as [e|]; cbn; [|done]. specialize (Hr e eq_refl). lia.
Qed.
Lemma gcuts_text D S C run cur ps ok : gcuts env bl b D S C run cur ps ok ->
  good D -> Forall good S -> ok_cache b cur D C -> cur <= length b -> (b <> [] -> cur < length b) ->
  (forall e, run = Some e -> e < cur) ->
  honest ps (default cur run)
  /\ (if ok then stext ps = drop (default cur run) b else exists rest, rest <> [] /\ stext ps ++ rest = drop (default cur run) b).
Proof.
  induction 1 as [D C run cur Hi He | D C run cur ps ok Hi He _ IH | D D' S' C run cur ps ok Hi _ IH
    | D S C run cur p x d Hp Hd He Hb | D S C run cur p x d Hp Hd He Hb Hf
    | D S C run cur p x d ps ok Hp Hd He Hb Hpo Hpu _ IH | D S C run cur p x d D' S' ps ok Hp Hd He Hb Hpu Hm _ IH];
    intros HD HS HC Hcur Hcur' Hrun.
  - split; [apply honest_junk|]. rewrite junk_text. unfold cut. apply take_ge. rewrite drop_length. lia.
  - cbn [default from_option id] in IH. apply IH; [done|done| |lia|lia|].
    + destruct HC as [H1 H2]. split; [done|]. intros q y Hq. destruct (H2 _ _ Hq) as (d & ? & ? & ?). exists d. repeat split; try done. all: try apply H0. lia.
    + intros e [= <-]. destruct run as [e|]; cbn; [|lia]. specialize (Hrun e eq_refl). lia.
  - apply Forall_cons in HS as [HD' HS']. apply IH; try done. by apply fresh_ok.
  - destruct (pick_end _ _ _ _ _ _ HD HC Hp Hd) as (Hf & Hend & _).
    assert (Hv : default cur run + length (run_text b run cur) = cur).
    { rewrite run_cut by done. rewrite cut_length; [|destruct run as [e|]; cbn; [specialize (Hrun e eq_refl)|]; lia|lia].
      destruct run as [e|]; cbn; [specialize (Hrun e eq_refl)|]; lia. }
    split.
    + eapply honest_tok; eauto. split; [by intros ? ?%elem_of_nil|]. intros [|] ? ? ? ? ?; done.
    + rewrite (run_split run cur (gend x)) by (done || lia). rewrite stext_app, junk_text. cbn. rewrite app_nil_r.
      rewrite (drop_ge b) by lia. by rewrite app_nil_r.
  - destruct (pick_end _ _ _ _ _ _ HD HC Hp Hd) as (Hf' & Hend & _).
    assert (Hv : default cur run + length (run_text b run cur) = cur).
    { rewrite run_cut by done. rewrite cut_length; [|destruct run as [e|]; cbn; [specialize (Hrun e eq_refl)|]; lia|lia].
      destruct run as [e|]; cbn; [specialize (Hrun e eq_refl)|]; lia. }
    split.
    + eapply honest_tok; eauto. split; [by intros ? ?%elem_of_nil|]. intros [|] ? ? ? ? ?; done.
    + exists (drop (gend x) b). split; [intros E; apply (f_equal length) in E; rewrite drop_length in E; cbn in E; lia|]. rewrite (run_split run cur (gend x)) by (done || lia). rewrite stext_app, junk_text. cbn. rewrite app_nil_r.
      by rewrite <- app_assoc.
  - destruct (pick_end _ _ _ _ _ _ HD HC Hp Hd) as (Hf & Hend & _).
    assert (Hv : default cur run + length (run_text b run cur) = cur).
    { rewrite run_cut by done. rewrite cut_length; [|destruct run as [e|]; cbn; [specialize (Hrun e eq_refl)|]; lia|lia].
      destruct run as [e|]; cbn; [specialize (Hrun e eq_refl)|]; lia. }
    destruct IH as [IH1 IH2]; try done; [eapply update_ok; [exact HC|lia|lia]|lia|].
    split; [eapply honest_tok; eauto|]. rewrite (run_split run cur (gend x)) by (done || lia). cbn [default from_option id] in IH2.
    rewrite stext_app, junk_text. cbn [stext flat_map spiece_text]. fold (stext ps).
    destruct ok; [by rewrite IH2|]. destruct IH2 as (rest & Hr & IH2). exists rest. split; [done|]. rewrite <- IH2, <- !app_assoc. done.
  - destruct (pick_end _ _ _ _ _ _ HD HC Hp Hd) as (Hf & Hend & _).
    assert (Hv : default cur run + length (run_text b run cur) = cur).
    { rewrite run_cut by done. rewrite cut_length; [|destruct run as [e|]; cbn; [specialize (Hrun e eq_refl)|]; lia|lia].
      destruct run as [e|]; cbn; [specialize (Hrun e eq_refl)|]; lia. }
    destruct (moves_good _ _ _ _ _ HD HS Hm) as [HD' HS'].
    destruct IH as [IH1 IH2]; try done; [apply fresh_ok; lia|lia|].
    split; [eapply (honest_tok _ _ _ D); eauto|]. rewrite (run_split run cur (gend x)) by (done || lia). cbn [default from_option id] in IH2.
    rewrite stext_app, junk_text. cbn [stext flat_map spiece_text]. fold (stext ps).
    destruct ok; [by rewrite IH2|]. destruct IH2 as (rest & Hr & IH2). exists rest. split; [done|]. rewrite <- IH2, <- !app_assoc. done.
Qed.
End Wf.
