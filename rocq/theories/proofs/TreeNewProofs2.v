(** When tree.New panics. *)
From Coq Require Import String Lia.
From Verif.model Require Import Regex TreeNew.
From Verif.spec Require Import TextSpec.
From Verif.proofs Require Import RegexProofs StringProofs TreeNewProofs.
Local Open Scope N_scope.

Lemma tree_line_total line : exists e, tree_line line = Ok e.
Proof.
  unfold tree_line. destruct (find_some re_tree_line line) as [[[i m] c] E].
  { assert (H : exists x l, rmatch re_tree_line [] [] = x :: l) by (eexists _, _; vm_compute; reflexivity).
    destruct H as (x & l & ->). exists x. by left. }
  rewrite E. destruct (negb _); eauto.
Qed.

Definition go_mark (cur : cursor) (m : mark) : res cursor :=
  match m with MClose => go_up cur | MLeaf lx => go_node lx false cur | MOpen lx => go_node lx true cur end.
Lemma rfold_app {A S} (f : S -> A -> res S) l k s : rfold f (l ++ k) s = (x <-! rfold f l s; rfold f k x).
Proof. revert s. induction l as [|a l IH]; intros s; [done|]. cbn [app rfold]. destruct (f s a); cbn [rbind]; auto. Qed.
Lemma go_line_marks l cur : go_line l cur = rfold go_mark (line_marks l) cur.
Proof.
  destruct l as [c n o]. unfold go_line, line_marks. cbn [tl_close tl_node tl_open]. rewrite rfold_app.
  destruct c; cbn [rfold go_mark rbind].
  - destruct (go_up cur) as [x| |]; cbn [rbind]; try done. destruct n; [|done]. cbn [rfold].
    destruct o; cbn [go_mark]; by destruct (go_node _ _ x).
  - destruct n; [|done]. cbn [rfold]. destruct o; cbn [go_mark]; by destruct (go_node _ _ cur).
Qed.
Lemma go_lines_marks lines ls cur : Forall2 (fun line l => tree_line line = Ok (Some l)) lines ls ->
  go_lines lines cur = (x <-! rfold go_mark (List.concat (map line_marks ls)) cur; Ok (Some x)).
Proof.
  intros H. revert cur. induction H as [|line l lines ls H1 H2 IH]; intros cur; [done|].
  cbn [go_lines map List.concat]. rewrite H1. cbn [rbind]. rewrite rfold_app, <- go_line_marks.
  destruct (go_line l cur); cbn [rbind]; [apply IH|done|done].
Qed.

Definition add_children (ts : list pn) (z : list (lexeme * list pn) * list pn) : list (lexeme * list pn) * list pn :=
  match z with
  | ((lx, cs) :: up, top) => ((lx, cs ++ ts) :: up, top)
  | ([], top) => ([], top ++ ts)
  end.
Lemma add_children_cons t ts z : add_children (t :: ts) z = add_children ts (add_child t z).
Proof. destruct z as [[|[lx cs] up] top]; cbn; by rewrite <- app_assoc. Qed.
Lemma add_children_nil z : add_children [] z = z.
Proof. destruct z as [[|[lx cs] up] top]; cbn; by rewrite app_nil_r. Qed.

Lemma run_forest ms ts : forest ms ts -> forall z, rfold go_mark ms (Some z) = Ok (Some (add_children ts z)).
Proof.
  induction 1 as [|lx ms ts H IH|lx body cs ms ts H1 IH1 H2 IH2]; intros z; cbn [rfold].
  - by rewrite add_children_nil.
  - cbn [go_mark go_node rbind]. by rewrite IH, add_children_cons.
  - cbn [go_mark go_node rbind]. rewrite rfold_app, IH1. cbn [rbind rfold go_mark add_children app go_up].
    rewrite add_children_cons. destruct z. apply IH2.
Qed.
Lemma forest_app a ts b us : forest a ts -> forest b us -> forest (a ++ b) (ts ++ us).
Proof.
  intros H Hb. induction H as [|lx ms ts H IH|lx body cs ms ts H1 IH1 H2 IH2]; cbn [app]; [done|by constructor|].
  rewrite <- app_assoc. cbn [app]. by constructor.
Qed.

Inductive splits : list mark -> list (lexeme * list pn) * list pn -> Prop :=
| splits_top f cs : forest f cs -> splits f ([], cs)
| splits_open pre up top lx f cs : splits pre (up, top) -> forest f cs ->
    splits (pre ++ MOpen lx :: f) ((lx, cs) :: up, top).
Lemma splits_add pre z f ts : splits pre z -> forest f ts -> splits (pre ++ f) (add_children ts z).
Proof.
  intros H Hf. destruct H as [g cs Hg|pre up top lx g cs Hs Hg]; cbn [add_children].
  - constructor. by apply forest_app.
  - rewrite <- app_assoc. cbn [app]. constructor; [done|]. by apply forest_app.
Qed.
Lemma add_child_children t z : add_child t z = add_children [t] z.
Proof. by rewrite add_children_cons, add_children_nil. Qed.
Lemma run_splits : forall ms pre z z', splits pre z -> rfold go_mark ms (Some z) = Ok (Some z') -> splits (pre ++ ms) z'.
Proof.
  induction ms as [|m ms IH]; intros pre z z' Hs; cbn [rfold].
  - intros [= <-]. by rewrite app_nil_r.
  - assert (Hnil : forall r, rfold go_mark ms None = Ok (Some r) -> False).
    { intros r. destruct ms as [|m' ms']; [done|]. cbn [rfold]. destruct m'; done. }
    replace (pre ++ m :: ms) with ((pre ++ [m]) ++ ms) by (by rewrite <- app_assoc).
    destruct m as [lx|lx|]; cbn [go_mark go_node rbind].
    + intros H. apply (IH _ (add_child (PN lx []) z)); [|done]. rewrite add_child_children. apply splits_add; [done|].
      repeat constructor.
    + intros H. apply (IH _ ((lx, []) :: fst z, snd z)); [|done]. destruct z. by apply splits_open; [|constructor].
    + destruct Hs as [f cs Hf|pre up top lx f cs Hs Hf]; cbn [go_up rbind].
      * intros H. by apply Hnil in H.
      * intros H. apply (IH _ (add_child (PN lx cs) (up, top))); [|done]. rewrite add_child_children.
        rewrite <- app_assoc. cbn [app]. apply splits_add; [done|]. constructor; [done|constructor].
Qed.
Lemma splits_run pre z : splits pre z -> rfold go_mark pre (Some ([], [])) = Ok (Some z).
Proof.
  induction 1 as [f cs Hf|pre up top lx f cs Hs IH Hf].
  - by apply (run_forest f cs Hf ([], [])).
  - rewrite rfold_app, IH. cbn [rbind rfold go_mark go_node fst snd]. by rewrite (run_forest f cs Hf).
Qed.
Lemma splits_opens ms z : splits ms z <-> exists pre f cs, ms = pre ++ f /\ opens pre /\ forest f cs
  /\ rfold go_mark ms (Some ([], [])) = Ok (Some z) /\ (match fst z with (_, ds) :: _ => ds | [] => snd z end) = cs.
Proof.
  split.
  - intros H. pose proof (splits_run _ _ H) as Hr.
    assert (Ho : exists pre f cs, ms = pre ++ f /\ opens pre /\ forest f cs /\ (match fst z with (_, ds) :: _ => ds | [] => snd z end) = cs).
    { clear Hr. induction H as [f cs Hf|pre up top lx f cs Hs (p & g & ds & -> & Ho & Hg & E) Hf].
      - exists [], f, cs. repeat split; [constructor|done].
      - exists (p ++ g ++ [MOpen lx]), f, cs. repeat split; [by rewrite <- !app_assoc| |done].
        by apply (opens_node p g ds). }
    destruct Ho as (pre & f & cs & E & Ho & Hf & Ec). exists pre, f, cs. done.
  - intros (pre & f & cs & -> & Ho & Hf & Hr & E).
    change (pre ++ f) with ([] ++ (pre ++ f)). apply (run_splits _ [] ([], [])); [repeat constructor|done].
Qed.
Lemma opens_run pre : opens pre -> exists z, rfold go_mark pre (Some ([], [])) = Ok (Some z)
  /\ (match fst z with (_, ds) :: _ => ds | [] => snd z end) = [].
Proof.
  induction 1 as [|pre f cs lx H (z & E & _) Hf].
  - exists ([], []). done.
  - rewrite rfold_app, E. cbn [rbind]. rewrite rfold_app, (run_forest f cs Hf). cbn [rbind rfold go_mark go_node].
    eexists. split; [done|]. done.
Qed.

Theorem new_exact str ms : text_marks str ms ->
  (forall t, tree_new str = Ok (Some t) <->
     exists pre f ts, ms = pre ++ f /\ opens pre /\ forest f (t :: ts))
  /\ ((forall pre f t ts, ms = pre ++ f -> opens pre -> ~ forest f (t :: ts)) -> tree_new str = Panic).
Proof.
  intros (ls & Hls & ->). set (ms := List.concat (map line_marks ls)).
  assert (E : tree_new str = (cur <-! rfold go_mark ms (Some ([], []));
    match cur with None => Panic | Some (up, top) =>
      match (match up with (_, cs) :: _ => cs | [] => top end) with [] => Panic | c :: _ => Ok (Some c) end end)).
  { unfold tree_new. rewrite (go_lines_marks _ _ _ Hls). fold ms. by destruct (rfold go_mark ms _). }
  assert (Hiff : forall t, tree_new str = Ok (Some t) <-> exists pre f ts, ms = pre ++ f /\ opens pre /\ forest f (t :: ts)).
  { intros t. rewrite E. split.
    - destruct (rfold go_mark ms (Some ([], []))) as [[[up top]|]| |] eqn:Er; cbn [rbind]; try done.
      intros H. assert (Hs : splits ms (up, top)).
      { change ms with ([] ++ ms). apply (run_splits ms [] ([], [])); [repeat constructor|done]. }
      apply splits_opens in Hs as (pre & f & cs & Em & Ho & Hf & _ & Ec). cbn [fst snd] in Ec.
      rewrite Ec in H. destruct cs as [|c cs]; [done|]. injection H as ->. eauto 10.
    - intros (pre & f & ts & Em & Ho & Hf). rewrite Em, rfold_app. destruct (opens_run pre Ho) as (z & Ez & Ec).
      rewrite Ez. cbn [rbind]. rewrite (run_forest f _ Hf). cbn [rbind].
      destruct z as [[|[lx ds] up] top]; cbn [fst snd] in Ec; subst; reflexivity. }
  split; [exact Hiff|]. intros Hno. destruct (tree_new str) as [[t|]| |] eqn:Et; try done.
  - destruct (proj1 (Hiff t) eq_refl) as (pre & f & ts & Em & Ho & Hf). by destruct (Hno pre f t ts Em Ho).
  - rewrite E in Et. destruct (rfold go_mark ms _) as [[[up top]|]| |]; cbn [rbind] in Et; try done. by destruct up as [|[? [|? ?]] ?], top as [|? ?].
  - exfalso. rewrite E in Et.
    assert (Hno2 : forall l c, rfold go_mark l c <> OutOfFuel).
    { induction l as [|m l IH]; intros c; [done|]. cbn [rfold].
      assert (Hm : go_mark c m <> OutOfFuel) by (destruct m, c as [[[|[] ?] ?]|]; done).
      destruct (go_mark c m); cbn [rbind]; [apply IH|done|done]. }
    destruct (rfold go_mark ms _) as [[[up top]|]| |] eqn:Er; cbn [rbind] in Et; try done.
    + by destruct up as [|[? [|? ?]] ?], top as [|? ?].
    + by apply Hno2 in Er.
Qed.
(** A bad line after balanced ones, with nodes still open or not, is reported. *)
Theorem new_bad_line str good bad rest pre f ts ls :
  split1 c_nl str = good ++ bad :: rest ->
  Forall2 (fun line l => tree_line line = Ok (Some l)) good ls -> tree_line bad = Ok None ->
  List.concat (map line_marks ls) = pre ++ f -> opens pre -> forest f ts -> tree_new str = Ok None.
Proof.
  intros Es Hls Hb Em Ho Hf. unfold tree_new. rewrite Es.
  assert (Hg : forall lines cur, go_lines (lines ++ bad :: rest) cur = (c <-! go_lines lines cur; match c with Some c => go_lines (bad :: rest) c | None => Ok None end)).
  { induction lines as [|x lines IH]; intros cur; [done|]. cbn [app]. cbn [go_lines].
    destruct (tree_line x) as [[l|]| |]; cbn [rbind]; try done. destruct (go_line l cur) as [c'| |]; cbn [rbind]; done. }
  rewrite Hg, (go_lines_marks _ _ _ Hls), Em, rfold_app. destruct (opens_run pre Ho) as (z & -> & _).
  cbn [rbind]. rewrite (run_forest f ts Hf). cbn [rbind go_lines]. rewrite Hb. reflexivity.
Qed.
