(** Texts of documents and their tokens. *)
From Coq Require Import String.
From Verif.spec Require Import JsonSpec ReSpec.
From Verif.proofs Require Import Fuel RegexProofs ReProofs LexText LexTableProofs RgPrint.
Local Open Scope nat_scope.
Local Open Scope list_scope.

(** * First characters of expressions *)
Fixpoint re_null (r : re) : bool :=
  match r with
  | REps | RStar _ | REnd => true
  | RSet _ => false
  | RCat a b => re_null a && re_null b
  | RAlt a b => re_null a || re_null b
  | RGroup _ a => re_null a
  end.
Fixpoint re_first (r : re) (x : N) : bool :=
  match r with
  | REps | REnd => false
  | RSet p => p x
  | RCat a b => re_first a x || (re_null a && re_first b x)
  | RAlt a b => re_first a x || re_first b x
  | RStar a | RGroup _ a => re_first a x
  end.
Lemma in_first r w : in_re r w -> match w with [] => re_null r = true | x :: _ => re_first r x = true end.
Proof.
  induction 1 as [|p x H|a b u v _ IH1 _ IH2|a b u _ IH|a b u _ IH|a|a u v _ IH1 _ IH2|n a u _ IH|]; cbn [re_null re_first]; try done.
  - destruct u as [|x u]; cbn [app]; [|by rewrite IH1]. destruct v; rewrite IH1, IH2; [done|]. by rewrite orb_true_r.
  - destruct u; by rewrite IH.
  - destruct u; rewrite IH; apply orb_true_r.
  - destruct u as [|x u]; cbn [app]; [exact IH2|exact IH1].
Qed.
Lemma first_skip r c s : re_null r = false -> re_first r c = false -> hd_len r (c :: s) = None.
Proof.
  intros H1 H2. destruct (hd_len r (c :: s)) as [n|] eqn:E; [|done]. exfalso. apply hd_len_in, in_first in E.
  destruct n as [|n]; cbn [take] in E; congruence.
Qed.

(** * One token at a time *)
Notation RD := (map row_def js_table).
Definition others_skip (c : N) (p : nat) : bool :=
  forallb (fun q => (q =? p) || match js_table !! q with Some r => negb (re_null (lw_re r)) && negb (re_first (lw_re r) c) | None => true end)%nat (seq 0 11).
Lemma skip_all c s p : others_skip c p = true -> forall q r, js_table !! q = Some r -> q <> p -> hd_len (lw_re r) (c :: s) = None.
Proof.
  intros H q r Hq Hne. unfold others_skip in H. rewrite forallb_forall in H. specialize (H q). rewrite Hq in H.
  assert (Hin : In q (seq 0 11)) by (apply in_seq; apply lookup_lt_Some in Hq; split; [lia|exact Hq]).
  apply H in Hin. apply orb_true_iff in Hin as [E|E]; [apply Nat.eqb_eq in E; done|].
  apply andb_true_iff in E as [E1 E2]. apply first_skip; by apply negb_true_iff.
Qed.
Lemma digit_cases c : rd_digit c = true -> c ∈ [48;49;50;51;52;53;54;55;56;57]%N.
Proof.
  unfold rd_digit. rewrite andb_true_iff, !N.leb_le. intros H. rewrite !elem_of_cons. lia.
Qed.
Lemma skip_digit c : rd_digit c = true -> others_skip c 1 = true.
Proof. intros H. apply digit_cases in H. revert c H. apply Forall_forall. apply (bool_decide_unpack _). vm_compute. exact I. Qed.
Lemma skip_space c : lx_space c = true -> others_skip c 0 = true.
Proof.
  intros H. assert (Hc : c ∈ [9;10;12;13;32]%N).
  { unfold lx_space in H. rewrite !orb_true_iff, !N.eqb_eq in H. rewrite !elem_of_cons. tauto. }
  clear H. revert c Hc. apply Forall_forall. apply (bool_decide_unpack _). vm_compute. exact I.
Qed.
Lemma cut_row c p r w s ps : js_table !! p = Some r -> others_skip c p = true -> hd_len (lw_re r) (c :: w ++ s) = Some (S (length w)) ->
  tokenises RD s ps -> tokenises RD (c :: w ++ s) (Tok p (c :: w) :: ps).
Proof.
  intros Hp Ho Hh H. apply (cut_at _ _ _ (c :: w) s); [done| |done]. eapply best_row; [exact Hp|exact Hh|cbn [length]; lia|]. by apply skip_all.
Qed.

Definition nonspace (s : gostring) : Prop := match s with c :: _ => lx_space c = false | [] => True end.
Definition ends (s : gostring) : Prop := match s with c :: _ => rd_digit c = false /\ c <> 46%N | [] => True end.
Definition good (x : piece) : Prop := exists p v r, x = Tok p v /\ js_table !! p = Some r /\ in_re (lw_re r) v.
Notation toks := (flat_map (piece_toks js_table)).
Definition cuts_to (s s' : gostring) (u : list (gostring * gostring)) : Prop :=
  forall ps, tokenises RD s' ps -> exists qs, tokenises RD s (qs ++ ps) /\ Forall good qs /\ toks qs = u.
Lemma cuts_trans s1 s2 s3 u v : cuts_to s1 s2 u -> cuts_to s2 s3 v -> cuts_to s1 s3 (u ++ v).
Proof.
  intros H1 H2 ps Hp. destruct (H2 ps Hp) as (qs & Ht & Hg & <-). destruct (H1 _ Ht) as (qs' & Ht' & Hg' & <-).
  exists (qs' ++ qs). rewrite <- app_assoc. split; [done|]. split; [by apply Forall_app|]. by rewrite flat_map_app.
Qed.
Lemma cuts_row c p r w s : js_table !! p = Some r -> others_skip c p = true -> hd_len (lw_re r) (c :: w ++ s) = Some (S (length w)) ->
  cuts_to (c :: w ++ s) s (if lw_discard r then [] else [(lw_kind r, c :: w)]).
Proof.
  intros Hp Ho Hh ps H. exists [Tok p (c :: w)]. split; [by apply (cut_row c p r)|]. split.
  - constructor; [|constructor]. exists p, (c :: w), r. split; [done|]. split; [done|]. apply hd_len_in in Hh.
    change (S (length w)) with (length (c :: w)) in Hh. change (c :: w ++ s) with ((c :: w) ++ s) in Hh. by rewrite take_app in Hh.
  - cbn [flat_map piece_toks]. rewrite Hp, app_nil_r. done.
Qed.
Lemma cuts_blank w s : blank space_char w -> nonspace s -> cuts_to (w ++ s) s [].
Proof.
  intros Hw Hs. destruct w as [|c w]; cbn [app].
  - intros ps H. exists []. split; [done|]. split; [constructor|done].
  - apply (cuts_row c 0 (LRow (L "space") (L "\s+") (RPlus (RSet lx_space)) true)); [done|inversion Hw; by apply skip_space|].
    apply (hd_is_len _ _ s (c :: w) []); [done|]. cbn [lw_re]. apply hd_plus.
    + unfold blank, space_char in Hw. by rewrite Forall_forall in Hw.
    + destruct s; done.
Qed.
Lemma cuts_char a p k src s : js_table !! p = Some (LRow k src (rd_one a) false) -> length (L a) = 1 -> others_skip (hd 0%N (L a)) p = true ->
  cuts_to (L a ++ s) s [(k, L a)].
Proof.
  intros Hp H1 Ho. unfold rd_one in Hp. destruct (L a) as [|c [|]]; try discriminate H1. cbn [hd app] in *.
  apply (cuts_row c p _ [] s Hp Ho). apply (hd_is_len _ _ s [c] []); [done|]. cbn [lw_re]. apply hd_set. apply N.eqb_refl.
Qed.

Lemma star_S step f s c : star_match step (S f) s c =
  flat_map (fun '(s', c') => if length s' <? length s then star_match step f s' c' else []) (step s c) ++ [(s, c)].
Proof. reflexivity. Qed.
Lemma set_one (p : N -> bool) x s c : p x = true -> rmatch (RSet p) (x :: s) c = [(s, c)].
Proof. intros H. cbn [rmatch]. by rewrite H. Qed.
(** Numbers: the digits are taken one short when there is no point after them. *)
Lemma star_two (p : N -> bool) u x s c : Forall (fun y => p y = true) (u ++ [x]) -> stops p s ->
  exists l, rmatch (RStar (RSet p)) (u ++ x :: s) c = (s, c) :: (x :: s, c) :: l.
Proof.
  intros Hu Hs. cbn [rmatch].
  assert (Hgen : forall f, length (u ++ x :: s) <= f -> exists l, star_match (rmatch (RSet p)) f (u ++ x :: s) c = (s, c) :: (x :: s, c) :: l).
  { induction u as [|y u IH]; intros f Hf; cbn [app] in *.
    - inversion Hu as [|? ? Hx _]; subst. destruct f as [|f]; cbn [length] in Hf; [lia|].
      assert (E : star_match (rmatch (RSet p)) f s c = [(s, c)]).
      { destruct f as [|f]; [done|]. rewrite star_S. by rewrite set_stops. }
      rewrite star_S, set_one by done. cbn [flat_map app]. rewrite (proj2 (Nat.ltb_lt (length s) (length (x :: s)))) by (cbn; lia).
      rewrite E. by eexists.
    - inversion Hu as [|? ? Hy Hu']; subst. destruct f as [|f]; cbn [length] in Hf; [lia|]. destruct (IH Hu' f ltac:(lia)) as [l El].
      rewrite star_S, set_one by done. cbn [flat_map app].
      rewrite (proj2 (Nat.ltb_lt (length (u ++ x :: s)) (length (y :: u ++ x :: s)))) by (cbn; lia). rewrite El. cbn [app]. by eexists. }
  by apply Hgen.
Qed.
Lemma digits_are (v : gostring) : digits v -> Forall (fun y => rd_digit y = true) v.
Proof. intros Hv. eapply Forall_impl; [exact Hv|]. intros x H. unfold rd_digit. rewrite andb_true_iff, !N.leb_le. done. Qed.
Lemma ends_stop s : ends s -> stops rd_digit s.
Proof. by destruct s; [|intros []]. Qed.
Lemma opt_none s c : match s with x :: _ => x <> 46%N | [] => True end -> rmatch (ROpt (rd_one ".")) s c = [(s, c)].
Proof.
  destruct s as [|x s]; [done|]. intros H. cbn [ROpt rmatch rd_one]. change (hd 0%N (L ".")) with 46%N.
  destruct (N.eqb_spec 46 x); [congruence|done].
Qed.
Lemma number_hd v s : number_text v -> ends s ->
  hd_is (RCat (RStar (RSet rd_digit)) (RCat (ROpt (rd_one ".")) (RPlus (RSet rd_digit)))) (v ++ s) [] s [].
Proof.
  intros (a & p & b & -> & Ha & Hp & Hb & Hd) Hs. apply digits_are in Ha, Hd.
  assert (Hplus : forall b t, b <> [] -> Forall (fun y => rd_digit y = true) b -> ends t -> hd_is (RPlus (RSet rd_digit)) (b ++ t) [] t []).
  { clear. intros [|x b] t Hne Hb Ht; [done|]. cbn [app]. apply hd_plus; [by apply Forall_forall|by apply ends_stop]. }
  destruct Hp as [-> | ->].
  - cbn [app]. rewrite <- app_assoc. destruct (exists_last Hb) as (b' & x & ->).
    assert (Hall : Forall (fun y => rd_digit y = true) ((a ++ b') ++ [x])) by (rewrite <- app_assoc; by apply Forall_app).
    destruct (star_two rd_digit (a ++ b') x s [] Hall (ends_stop s Hs)) as [l El].
    assert (Hx : rd_digit x = true) by (apply Forall_app in Hall as [_ Hall]; by inversion Hall).
    assert (Ex : a ++ (b' ++ [x]) ++ s = (a ++ b') ++ x :: s) by (rewrite <- !app_assoc; reflexivity). rewrite Ex. clear Ex.
    unfold hd_is.
    assert (Em : rmatch (RCat (RStar (RSet rd_digit)) (RCat (ROpt (rd_one ".")) (RPlus (RSet rd_digit)))) ((a ++ b') ++ x :: s) []
      = flat_map (fun '(s', c') => rmatch (RCat (ROpt (rd_one ".")) (RPlus (RSet rd_digit))) s' c') (rmatch (RStar (RSet rd_digit)) ((a ++ b') ++ x :: s) [])) by reflexivity.
    rewrite Em, El. cbn [flat_map].
    assert (E1 : rmatch (RCat (ROpt (rd_one ".")) (RPlus (RSet rd_digit))) s [] = []).
    { change (flat_map (fun '(s', c') => rmatch (RPlus (RSet rd_digit)) s' c') (rmatch (ROpt (rd_one ".")) s []) = []).
      rewrite opt_none by (destruct s; [done|by destruct Hs]). cbn [flat_map].
      change ((flat_map (fun '(s', c') => rmatch (RStar (RSet rd_digit)) s' c') (rmatch (RSet rd_digit) s [])) ++ [] = []).
      by rewrite (set_stops _ _ _ (ends_stop s Hs)). }
    rewrite E1. cbn [app].
    destruct (Hplus [x] s) as [l2 E2]; [done|by constructor|done|]. cbn [app] in E2.
    change (exists l0, flat_map (fun '(s', c') => rmatch (RPlus (RSet rd_digit)) s' c') (rmatch (ROpt (rd_one ".")) (x :: s) [])
      ++ flat_map (fun '(s', c') => rmatch (RCat (ROpt (rd_one ".")) (RPlus (RSet rd_digit))) s' c') l = (s, []) :: l0).
    rewrite opt_none by (intros ->; discriminate Hx). cbn [flat_map]. rewrite E2. cbn [app]. by eexists.
  - rewrite <- !app_assoc. eapply hd_cat.
    + apply hd_run; [by apply Forall_forall|done].
    + eapply hd_cat; [apply hd_alt_l; by apply (hd_set _ 46%N)|]. by apply Hplus.
Qed.
Lemma number_first v : number_text v -> exists c w, v = c :: w /\ (rd_digit c = true \/ c = 46%N).
Proof.
  intros (a & p & b & -> & Ha & Hp & Hb & Hd). apply digits_are in Ha, Hd.
  destruct a as [|c a].
  - destruct Hp as [-> | ->]; [|eexists _, _; split; [reflexivity|by right]].
    destruct b as [|c b]; [done|]. exists c, b. split; [done|]. left. by inversion Hd.
  - exists c, (a ++ p ++ b). split; [done|]. left. by inversion Ha.
Qed.
Lemma cuts_number v s : number_text v -> ends s -> cuts_to (v ++ s) s [(L "number", v)].
Proof.
  intros Hv Hs. pose proof (number_hd v s Hv Hs) as Hh. destruct (number_first v Hv) as (c & w & -> & Hc).
  apply (cuts_row c 1 (LRow (L "number") (L "\d*\.?\d+") (RCat (RStar (RSet rd_digit)) (RCat (ROpt (rd_one ".")) (RPlus (RSet rd_digit)))) false)); [done| |].
  - destruct Hc as [Hc| ->]; [by apply skip_digit|vm_compute; reflexivity].
  - exact (hd_is_len _ _ s (c :: w) [] eq_refl Hh).
Qed.

(** Strings *)
Lemma in_quote w : in_re rd_quote w <-> w = [34%N].
Proof.
  split; [|intros ->; by constructor]. intros (x & -> & H)%in_set_inv. apply N.eqb_eq in H as <-. done.
Qed.
Notation re_piece := (RGroup 2 (RAlt (RSet (fun x => negb ((x =? 34) || (x =? 92))%N)) (RGroup 3 (RCat (RSet (N.eqb 92)) (RSet (fun x => negb (x =? 10)%N)))))).
Lemma in_piece w : in_re re_piece w <-> (exists c, w = [c] /\ c <> 34%N /\ c <> 92%N) \/ exists c, w = [92%N; c] /\ c <> 10%N.
Proof.
  split.
  - intros H. inversion H as [| | | | | | |n a u H1|]; subst. inversion H1 as [| | |a b u H2|a b u H2| | | |]; subst.
    + apply in_set_inv in H2 as (x & -> & Hx). left. exists x. rewrite negb_true_iff, orb_false_iff, !N.eqb_neq in Hx. done.
    + inversion H2 as [| | | | | | |n a u H3|]; subst. apply in_cat_inv in H3 as (a & b & -> & Ha & Hb).
      apply in_set_inv in Ha as (x & -> & Hx), Hb as (y & -> & Hy). apply N.eqb_eq in Hx as <-. right. exists y.
      rewrite negb_true_iff, N.eqb_neq in Hy. done.
  - intros [(c & -> & H1 & H2)|(c & -> & H)].
    + constructor. apply in_alt_l. constructor. rewrite negb_true_iff, orb_false_iff, !N.eqb_neq. done.
    + constructor. apply in_alt_r. constructor. apply (in_cat _ _ [92%N] [c]); constructor; [done|]. by rewrite negb_true_iff, N.eqb_neq.
Qed.
Lemma in_body w : in_re (RStar re_piece) w <-> string_body w.
Proof.
  split.
  - intros H. remember (RStar re_piece) as r eqn:E. induction H; try discriminate; [constructor|]. injection E as ->.
    apply in_piece in H as [(c & -> & H1 & H2)|(c & -> & H)]; cbn [app]; [apply sb_plain|apply sb_escape]; auto.
  - induction 1 as [|c s H1 H2 _ IH|c s H _ IH]; [constructor| |].
    + apply (in_star_cons _ [c]); [|done]. apply in_piece. left. by exists c.
    + apply (in_star_cons _ [92%N; c]); [|done]. apply in_piece. right. by exists c.
Qed.

(** Every match is among those tried. *)
Fixpoint no_end (r : re) : bool :=
  match r with
  | REnd => false
  | REps | RSet _ => true
  | RCat a b | RAlt a b => no_end a && no_end b
  | RStar a | RGroup _ a => no_end a
  end.
Lemma in_tried r w : in_re r w -> no_end r = true -> forall s c, exists c', (s, c') ∈ rmatch r (w ++ s) c.
Proof.
  induction 1 as [|p x H|a b u v _ IH1 _ IH2|a b u _ IH|a b u _ IH|a|a u v _ IH1 _ IH2|n a u _ IH|]; cbn [no_end]; intros Hn s c.
  - exists c. left.
  - exists c. cbn [app rmatch]. rewrite H. left.
  - apply andb_true_iff in Hn as [Ha Hb]. rewrite <- app_assoc. destruct (IH1 Ha (v ++ s) c) as [c1 H1]. destruct (IH2 Hb s c1) as [c2 H2].
    exists c2. cbn [rmatch]. apply elem_of_list_In, in_flat_map. exists (v ++ s, c1). split; by apply elem_of_list_In.
  - apply andb_true_iff in Hn as [Ha Hb]. destruct (IH Ha s c) as [c1 H1]. exists c1. cbn [rmatch]. apply elem_of_app. by left.
  - apply andb_true_iff in Hn as [Ha Hb]. destruct (IH Hb s c) as [c1 H1]. exists c1. cbn [rmatch]. apply elem_of_app. by right.
  - exists c. cbn [app rmatch]. destruct (length s); cbn [star_match]; [left|]. apply elem_of_app. right. left.
  - rewrite <- app_assoc. destruct u as [|x u]; [exact (IH2 Hn s c)|].
    destruct (IH1 Hn (v ++ s) c) as [c1 H1]. destruct (IH2 Hn s c1) as [c2 H2]. exists c2. cbn [rmatch] in *.
    change (length ((x :: u) ++ v ++ s)) with (S (length (u ++ v ++ s))). cbn [star_match]. apply elem_of_app. left.
    apply elem_of_list_In, in_flat_map. exists (v ++ s, c1). split; [by apply elem_of_list_In|].
    rewrite (proj2 (Nat.ltb_lt _ _)) by (cbn [length app]; rewrite !app_length; lia). apply elem_of_list_In.
    assert (Hmono : forall f g t d z, length t <= f -> f <= g -> z ∈ star_match (rmatch a) f t d -> z ∈ star_match (rmatch a) g t d).
    { clear. induction f as [|f IH]; intros g t d z Hf Hg.
      - destruct t; cbn [length] in Hf; [|lia]. cbn [star_match]. intros ->%elem_of_list_singleton. destruct g; cbn [star_match]; [left|].
        apply elem_of_app. right. left.
      - destruct g as [|g]; [lia|]. cbn [star_match]. rewrite !elem_of_app. intros [H|H]; [left|by right].
        apply elem_of_list_In, in_flat_map in H as ([t' d'] & H1 & H2). apply elem_of_list_In, in_flat_map. exists (t', d'). split; [done|].
        destruct (length t' <? length t) eqn:E; [|done]. apply Nat.ltb_lt in E. apply elem_of_list_In, IH; [lia|lia|]. by apply elem_of_list_In. }
    apply (Hmono (length (v ++ s))); [done|rewrite !app_length; lia|exact H2].
  - destruct (IH Hn s c) as [c1 H1]. exists ((n, take (length (u ++ s) - length s) (u ++ s)) :: c1). cbn [rmatch].
    apply elem_of_list_In, in_map_iff. exists (s, c1). split; [done|]. by apply elem_of_list_In.
  - done.
Qed.
(** When no match is a prefix of another, the match is found whatever follows. *)
Lemma only_prefix r w s : no_end r = true -> in_re r w -> (forall w' x, in_re r w' -> in_re r (w' ++ x) -> x = []) ->
  hd_len r (w ++ s) = Some (length w).
Proof.
  intros Hn Hw Hp. destruct (in_tried r w Hw Hn s []) as [c1 H1]. unfold hd_len.
  destruct (rmatch r (w ++ s) []) as [|[s' c'] l] eqn:E; [by apply elem_of_nil in H1|].
  destruct (rmatch_in r (w ++ s) [] s' c') as (w' & Ew & Hw'); [rewrite E; left|]. f_equal. rewrite app_length.
  apply app_eq_inv in Ew as [(k & -> & ->)|(k & -> & ->)].
  - rewrite (Hp w' k Hw' Hw). cbn. lia.
  - rewrite (Hp w k Hw Hw'), app_nil_l. lia.
Qed.
Notation re_string := (RGroup 1 (RCat rd_quote (RCat (RStar re_piece) rd_quote))).
Lemma in_string w : in_re re_string w <-> string_text w.
Proof.
  split.
  - intros H. inversion H as [| | | | | | |n a u H1|]; subst. apply in_cat_inv in H1 as (a & b & -> & ->%in_quote & Hb).
    apply in_cat_inv in Hb as (b' & q & -> & Hb & ->%in_quote). exists b'. split; [done|]. by apply in_body.
  - intros (b & -> & Hb). constructor. unfold quoted. apply in_cat; [by apply in_quote|]. apply in_cat; [by apply in_body|by apply in_quote].
Qed.
Lemma body_prefix b : string_body b -> forall b' x y, string_body b' -> b ++ 34%N :: x = b' ++ 34%N :: y -> b = b' /\ x = y.
Proof.
  induction 1 as [|c s H1 H2 _ IH|c s H _ IH]; intros b' x y Hb' E; inversion Hb' as [|c' s' H1' H2' Hs'|c' s' H' Hs']; subst; cbn [app] in E.
  - injection E as ->. done.
  - exfalso. congruence.
  - discriminate E.
  - exfalso. congruence.
  - injection E as -> E. by destruct (IH _ _ _ Hs' E) as [-> ->].
  - exfalso. congruence.
  - discriminate E.
  - exfalso. congruence.
  - injection E as -> E. by destruct (IH _ _ _ Hs' E) as [-> ->].
Qed.
Lemma string_prefix w x : string_text w -> string_text (w ++ x) -> x = [].
Proof.
  intros (b & -> & Hb) (b' & E & Hb'). unfold quoted in E. cbn [app] in E. injection E as E. rewrite <- app_assoc in E. cbn [app] in E.
  by apply (body_prefix b Hb b' x [] Hb') in E as [_ ->].
Qed.
Lemma cuts_string v s : string_text v -> cuts_to (v ++ s) s [(L "string", v)].
Proof.
  intros Hv. assert (Hh : hd_len re_string (v ++ s) = Some (length v)).
  { apply only_prefix; [done|by apply in_string|]. intros w x H1 H2. apply in_string in H1. apply in_string in H2. exact (string_prefix w x H1 H2). }
  destruct Hv as (b & -> & _). unfold quoted in *. cbn [app] in *.
  apply (cuts_row 34%N 2 (LRow (L "string") (L "(\""([^\""\\]|(\\.))*\"")") re_string false)); [done|vm_compute; reflexivity|exact Hh].
Qed.

(** Fixed words *)
Lemma in_lit v w : in_re (rd_lit v) w -> w = v.
Proof.
  revert w. induction v as [|c [|d v] IH]; intros w H.
  - by inversion H.
  - cbn in H. apply in_set_inv in H as (x & -> & Hx). by apply N.eqb_eq in Hx as <-.
  - change (in_re (RCat (RSet (N.eqb c)) (rd_lit (d :: v))) w) in H. apply in_cat_inv in H as (a & b & -> & Ha & Hb).
    apply in_set_inv in Ha as (x & -> & Hx). apply N.eqb_eq in Hx as <-. by rewrite (IH _ Hb).
Qed.
Lemma lit_in v : in_re (rd_lit v) v.
Proof.
  induction v as [|c [|d v] IH].
  - constructor.
  - constructor. apply N.eqb_refl.
  - change (in_re (RCat (RSet (N.eqb c)) (rd_lit (d :: v))) ([c] ++ d :: v)). constructor; [constructor; apply N.eqb_refl|exact IH].
Qed.
Notation re_bool := (RAlt (RGroup 1 (rd_lit (L "true"))) (RGroup 2 (rd_lit (L "false")))).
Lemma in_alt_inv a b w : in_re (RAlt a b) w -> in_re a w \/ in_re b w.
Proof. inversion 1; subst; tauto. Qed.
Lemma in_group_inv n a w : in_re (RGroup n a) w -> in_re a w.
Proof. by inversion 1. Qed.
Lemma in_bool w : in_re re_bool w <-> w = L "true" \/ w = L "false".
Proof.
  split.
  - intros H. apply in_alt_inv in H as [H|H]; apply in_group_inv, in_lit in H; tauto.
  - intros [-> | ->]; [apply in_alt_l|apply in_alt_r]; constructor; apply lit_in.
Qed.
Lemma cuts_bool v s : v = L "true" \/ v = L "false" -> cuts_to (v ++ s) s [(L "bool", v)].
Proof.
  intros Hv. assert (Hh : hd_len re_bool (v ++ s) = Some (length v)).
  { apply only_prefix; [done|by apply in_bool|]. intros w x H1 H2. apply in_bool in H1. apply in_bool in H2.
    destruct H1 as [-> | ->], H2 as [E|E]; try discriminate E; apply (f_equal length) in E; rewrite app_length in E; cbn in E; destruct x; [done|cbn in E; lia|done|cbn in E; lia]. }
  destruct Hv as [-> | ->].
  - apply (cuts_row 116%N 3 (LRow (L "bool") (L "(true)|(false)") re_bool false) (L "rue")); [done|vm_compute; reflexivity|exact Hh].
  - apply (cuts_row 102%N 3 (LRow (L "bool") (L "(true)|(false)") re_bool false) (L "alse")); [done|vm_compute; reflexivity|exact Hh].
Qed.
Lemma cuts_null s : cuts_to (L "null" ++ s) s [(L "null", L "null")].
Proof.
  assert (Hh : hd_len (rd_lit (L "null")) (L "null" ++ s) = Some 4).
  { apply (only_prefix (rd_lit (L "null")) (L "null") s); [done|apply lit_in|]. intros w x H1 H2. apply in_lit in H1 as ->. apply in_lit in H2.
    apply (f_equal length) in H2. rewrite app_length in H2. cbn in H2. destruct x; [done|cbn in H2; lia]. }
  apply (cuts_row 110%N 4 (rd_word "null") (L "ull")); [done|vm_compute; reflexivity|exact Hh].
Qed.

(** * What the tokens of a document are *)
Definition leaf_kinds : list gostring := [L "string"; L "number"; L "bool"; L "null"].
Inductive wv : json -> list (gostring * gostring) -> Prop :=
| wv_leaf k v : k ∈ leaf_kinds -> wv (JLeaf v) [(k, v)]
| wv_no_items a b : wv (JArr []) [(L "lb", a); (L "rb", b)]
| wv_items l u a b : wi l u -> wv (JArr l) ((L "lb", a) :: u ++ [(L "rb", b)])
| wv_no_entries a b : wv (JObj []) [(L "lcb", a); (L "rcb", b)]
| wv_entries l u a b : we l u -> wv (JObj l) ((L "lcb", a) :: u ++ [(L "rcb", b)])
with wi : list json -> list (gostring * gostring) -> Prop :=
| wi_one J u : wv J u -> wi [J] u
| wi_more J l u a v : wv J u -> wi l v -> wi (J :: l) (u ++ (L "comma", a) :: v)
with we : list (gostring * json) -> list (gostring * gostring) -> Prop :=
| we_one k J c u : wv J u -> we [(k, J)] ((L "string", k) :: (L "colon", c) :: u)
| we_more k J l c u a v : wv J u -> we l v -> we ((k, J) :: l) ((L "string", k) :: (L "colon", c) :: u ++ (L "comma", a) :: v).
Scheme wv_mut := Induction for wv Sort Prop with wi_mut := Induction for wi Sort Prop with we_mut := Induction for we Sort Prop.
Combined Scheme w_mut from wv_mut, wi_mut, we_mut.

Definition follows (s : gostring) : Prop := match s with c :: _ => lx_space c = true \/ c ∈ L ",:]}" | [] => True end.
Lemma follows_ends s : follows s -> ends s.
Proof.
  destruct s as [|c s]; [done|]. intros [H|H]; cbn [ends].
  - assert (Hc : c ∈ [9;10;12;13;32]%N) by (unfold lx_space in H; rewrite !orb_true_iff, !N.eqb_eq in H; rewrite !elem_of_cons; tauto).
    clear H. revert c Hc. apply Forall_forall. apply (bool_decide_unpack _). vm_compute. exact I.
  - revert c H. apply Forall_forall. apply (bool_decide_unpack _). vm_compute. exact I.
Qed.
Lemma blank_follows w s : blank space_char w -> follows s -> follows (w ++ s).
Proof. intros Hw Hs. destruct w as [|c w]; [done|]. left. by inversion Hw. Qed.
Lemma leaf_cuts v s : leaf number_text string_text v -> follows s -> exists k, k ∈ leaf_kinds /\ cuts_to (v ++ s) s [(k, v)].
Proof.
  intros H Hs. apply follows_ends in Hs. destruct H as [H|[H|[H|[H|H]]]].
  - exists (L "number"). split; [set_solver|by apply cuts_number].
  - exists (L "string"). split; [set_solver|by apply cuts_string].
  - exists (L "bool"). split; [set_solver|apply cuts_bool; by left].
  - exists (L "bool"). split; [set_solver|apply cuts_bool; by right].
  - exists (L "null"). split; [set_solver|]. subst v. apply cuts_null.
Qed.
Lemma leaf_starts v : leaf number_text string_text v -> v <> [] /\ nonspace v.
Proof.
  intros [H|[H|[H|[H|H]]]]; [|destruct H as (b & -> & _); split; [discriminate|reflexivity]|subst; split; [discriminate|reflexivity]..].
  destruct (number_first v H) as (c & w & -> & Hc). split; [done|]. cbn [nonspace]. destruct Hc as [Hc| ->]; [|reflexivity].
  apply digit_cases in Hc. clear H. revert c Hc. apply Forall_forall. apply (bool_decide_unpack _). vm_compute. exact I.
Qed.
Lemma value_starts J s : value_text number_text string_text space_char J s -> s <> [] /\ nonspace s.
Proof. intros H. inversion H; subst; [by apply leaf_starts|split; [discriminate|reflexivity]..]. Qed.
Lemma nonspace_app s t : s <> [] /\ nonspace s -> nonspace (s ++ t).
Proof. intros [H1 H2]. by destruct s. Qed.
