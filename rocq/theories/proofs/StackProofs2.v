(** The loop of the stack lexer. *)
From Coq Require Import Lia.
From Verif.spec Require Import StackSpec.
From Verif.proofs Require Import Fuel SetProofs LexProofs StackProofs.

(** * Values *)
Definition found (b : gostring) (d : sdef) (x : sloc) : Prop :=
  sx_find (sd_re d) (drop (snd x) b) = Some (fst x) /\ snd x <= length b.
Lemma slice_cut b i j : i <= j -> j <= length b -> go_slice b i j = Ok (cut b i j).
Proof.
  intros H1 H2. unfold go_slice, cut.
  replace (i <=? j) with true by (symmetry; apply Nat.leb_le; lia).
  replace (j <=? length b) with true by (symmetry; apply Nat.leb_le; lia). done.
Qed.
Lemma cut_drop b o i j : cut (drop o b) i j = cut b (o + i) (o + j).
Proof. unfold cut. rewrite drop_drop. f_equal. lia. Qed.
Lemma cut_length b i j : i <= j -> j <= length b -> length (cut b i j) = j - i.
Proof. intros. unfold cut. rewrite take_length, drop_length. lia. Qed.
Lemma take_cut b i j : i <= j -> take j b = take i b ++ cut b i j.
Proof. intros H. unfold cut. rewrite take_take_drop. f_equal. lia. Qed.
Lemma cut_drop_app b i j : i <= j -> drop i b = cut b i j ++ drop j b.
Proof. intros H. unfold cut. rewrite <- (take_drop (j - i) (drop i b)) at 1. rewrite drop_drop. do 2 f_equal. lia. Qed.

Lemma ints_group (gs : list (option (nat * nat))) : forall k a c, gs !! k = Some (Some (a, c)) ->
  let xs := flat_map (fun g => match g with Some (a, b) => [Z.of_nat a; Z.of_nat b] | None => [(-1)%Z; (-1)%Z] end) gs in
  xs !! (2 * k) = Some (Z.of_nat a) /\ xs !! (2 * k + 1) = Some (Z.of_nat c).
Proof.
  induction gs as [|g gs IH]; intros [|k] a c Hk; cbn zeta; try done.
  - injection Hk as ->. done.
  - destruct (IH k a c Hk) as [H1 H2]. cbn zeta in H1, H2. cbn [flat_map].
    replace (2 * S k) with (2 + 2 * k) by lia.
    destruct g as [[? ?]|]; exact (conj H1 H2).
Qed.
Lemma sub_text_ok b d x y : found b d x -> s_well_formed (sd_re d) -> groups_ok d -> y ∈ sd_subs d ->
  sub_text b x y = Ok (part (drop (snd x) b) (fst x) y).
Proof.
  intros [Hf Ho] Hw Hg Hy. pose proof (Hw _ _ Hf) as [Hij Hgs]. rewrite drop_length in Hij, Hgs.
  unfold sub_text, part. destruct (Hg _ _ y Hf Hy) as [E | [E | (k & [a c] & E & Hk)]]; rewrite E.
  - done.
  - change (0 =? -1)%Z with false. change (0 =? 0)%Z with true. cbv iota.
    change (int_at (loc_ints x) (0 * 2)) with (Ok (Z.of_nat (sm_i (fst x)))).
    change (int_at (loc_ints x) (0 * 2 + 1)) with (Ok (Z.of_nat (sm_j (fst x)))). cbn [rbind].
    unfold slice_z. destruct (Z.leb_spec 0 (Z.of_nat (snd x) + Z.of_nat (sm_i (fst x)))); [|lia].
    destruct (Z.leb_spec 0 (Z.of_nat (snd x) + Z.of_nat (sm_j (fst x)))); [|lia]. cbn [andb].
    rewrite slice_cut by lia. rewrite cut_drop. do 2 f_equal; lia.
  - destruct (Z.eqb_spec (Z.of_nat (S k)) (-1)); [lia|]. destruct (Z.eqb_spec (Z.of_nat (S k)) 0); [lia|].
    replace (Z.to_nat (Z.of_nat (S k)) - 1) with k by lia. rewrite Hk.
    assert (Hac : a <= c <= length b - snd x). { apply Hgs. eapply elem_of_list_lookup_2; eauto. }
    destruct (ints_group _ _ _ _ Hk) as [H1 H2]. cbn zeta in H1, H2.
    unfold int_at. destruct (Z.ltb_spec (Z.of_nat (S k) * 2) 0); [lia|]. destruct (Z.ltb_spec (Z.of_nat (S k) * 2 + 1) 0); [lia|].
    replace (Z.to_nat (Z.of_nat (S k) * 2)) with (2 + 2 * k) by lia.
    replace (Z.to_nat (Z.of_nat (S k) * 2 + 1)) with (2 + (2 * k + 1)) by lia.
    assert (L1 : loc_ints x !! (2 + 2 * k) = Some (Z.of_nat a)). { unfold loc_ints. cbn [app lookup Nat.add list_lookup]. apply lookup_app_l_Some. exact H1. }
    assert (L2 : loc_ints x !! (2 + (2 * k + 1)) = Some (Z.of_nat c)). { unfold loc_ints. cbn [app lookup Nat.add list_lookup]. apply lookup_app_l_Some. exact H2. }
    rewrite L1, L2. cbn [rbind]. unfold slice_z.
    destruct (Z.leb_spec 0 (Z.of_nat (snd x) + Z.of_nat a)); [|lia]. destruct (Z.leb_spec 0 (Z.of_nat (snd x) + Z.of_nat c)); [|lia].
    cbn [andb]. rewrite slice_cut by lia. rewrite cut_drop. do 2 f_equal; lia.
Qed.
Lemma concat_flat_map {A B} (f : A -> list B) l : concat (map f l) = flat_map f l.
Proof. induction l as [|x l IH]; cbn; [done|]. by rewrite IH. Qed.
Lemma value_ok b n r x : let d := def_of n r in found b d x -> s_well_formed (sd_re d) -> groups_ok d ->
  st_value b r x = Ok (gval b d x).
Proof.
  intros d Hf Hw Hg. pose proof (Hw _ _ (proj1 Hf)) as [Hij _]. rewrite drop_length in Hij. destruct Hf as [Hf Ho].
  unfold st_value, gval, value_of. change (sd_subs d) with (sr_subs r). destruct (sr_subs r) as [|y ys] eqn:E.
  - rewrite slice_cut by lia. rewrite cut_drop. done.
  - rewrite <- E. rewrite (rmap_ok _ (part (drop (snd x) b) (fst x))).
    + cbn [rbind]. rewrite concat_flat_map. done.
    + intros z Hz. apply (sub_text_ok b d); [done|done|done|exact Hz].
Qed.

(** * The state *)
Record ok_lexer (l : stlexer) : Prop := {
  ol_sane : forall id sl, stl_subs l !! id = Some sl -> sane (stl_set l) sl;
  ol_names : forall n id, stl_lexers l !! n = Some id -> id < length (stl_subs l);
  ol_regexps : forall id D d, frame l id = Some D -> d ∈ D -> s_well_formed (sd_re d) /\ groups_ok d
}.
Definition ok_cache (b : gostring) (cur : nat) (D : list sdef) (C : cache) : Prop :=
  length C = length D /\ forall p x, C !! p = Some (Some x) -> exists d, D !! p = Some d /\ found b d x /\ snd x <= cur.
Record at_state (l : stlexer) (b : gostring) (op : stop) (D : list sdef) (S : list (list sdef)) (C : cache)
  (run : option nat) (cur : nat) : Prop := {
  as_sub : exists sl, stl_subs l !! sp_sub op = Some sl /\ D = defs_in (stl_set l) sl
             /\ sp_next op = table sl C (sym_count (stl_set l));
  as_stack : Forall2 (fun id F => frame l id = Some F) (reverse (sp_stack op)) S;
  as_cache : ok_cache b cur D C;
  as_err : sp_err op = run;
  as_cur : sp_cur op = cur
}.

Lemma fresh_ok b cur D : cur <= length b -> ok_cache b cur D (gfresh b cur D).
Proof.
  intros Hc. split; [apply map_length|]. intros p x. unfold gfresh. rewrite list_lookup_fmap.
  destruct (D !! p) as [d|]; [|done]. cbn. unfold gsearch. destruct (sx_find _ _) as [m|] eqn:E; [|done].
  intros [= <-]. exists d. split; [done|]. split; [|done]. split; done.
Qed.
Lemma update_ok b cur cur' D C : ok_cache b cur D C -> cur <= cur' -> cur' <= length b ->
  ok_cache b cur' D (gupdate b cur' D C).
Proof.
  intros [HC H] Hle Hc. split. { unfold gupdate. rewrite zip_with_length. lia. }
  intros p x. unfold gupdate. rewrite lookup_zip_with. destruct (D !! p) as [d|] eqn:Ed; [|done]. cbn.
  destruct (C !! p) as [y|] eqn:Ec; [|done]. cbn. intros [= Hx]. exists d. split; [done|].
  destruct y as [[m off]|]; [|done]. cbn [gupdate1] in Hx. destruct (sm_i m + off <=? cur').
  - unfold gsearch in Hx. destruct (sx_find _ _) as [m'|] eqn:E; [|done]. injection Hx as <-. split; [split; done|done].
  - injection Hx as <-. destruct (H _ _ Ec) as (d' & Hd' & Hf & Ho). assert (d' = d) as -> by congruence.
    split; [done|]. cbn in *. lia.
Qed.

Lemma line_col_ok b cur lines str : cur <= length b ->
  exists c, column (take cur b) c /\ line_col b cur lines str = (Z.of_nat lines, c, lines + newlines str).
Proof.
  intros H. destruct (last_line_ex (take cur b)) as (last & Hl & E). rewrite take_length, Nat.min_l in E by lia.
  exists (Z.of_nat (1 + length last)). split; [exists last; done|].
  unfold line_col. rewrite E, count_newlines_occ. done.
Qed.

Lemma next_match_ok l b bl op D S C run cur : ok_lexer l -> stl_compare l = by_flag bl ->
  at_state l b op D S C run cur -> cur <= length b ->
  exists sl, sub_at l (sp_sub op) = Ok sl /\ D = defs_in (stl_set l) sl
    /\ sp_next op = table sl C (sym_count (stl_set l)) /\ sane (stl_set l) sl /\
  ((st_next_match l sl b op = Ok (None, sp_lines op) /\ forall p x, ~ gat C cur p x)
   \/ exists p x n r c, let d := def_of n r in
       gpick bl C cur p x /\ D !! p = Some d /\ found b d x
       /\ cur <= gend x <= length b
       /\ column (take cur b) c
       /\ st_next_match l sl b op
          = Ok (Some (Lx n (gval b d x) (Z.of_nat (sp_lines op)) c, gend x, r), sp_lines op + newlines (cut b cur (gend x)))).
Proof.
  intros Hl Hcmp [(sl & Hsl & HD & Hn) _ [HC Hca] _ Hcur] Hle.
  pose proof (ol_sane _ Hl _ _ Hsl) as Hs.
  exists sl. split; [unfold sub_at; by rewrite Hsl|]. do 3 (split; [done|]).
  unfold st_next_match. rewrite Hn, Hcur. rewrite HD in HC.
  destruct (find_table l sl bl cur C Hs HC Hcmp) as [[-> Hno] | (p & x & r & Hp & Hr & <- & ->)]; [left; done|].
  right. destruct (rule_defs _ _ _ _ Hs Hr) as (n & Hnm & Hd).
  destruct (line_col_ok b cur (sp_lines op) (cut b cur (gend x)) Hle) as (c & Hc & Elc).
  assert (Hx : C !! sr_priority r = Some (Some x) /\ sm_i (fst x) + snd x = cur) by apply Hp.
  destruct Hx as [Hx Hxc]. destruct (Hca _ _ Hx) as (d & Hd' & Hf & Ho).
  rewrite HD, Hd in Hd'. injection Hd' as <-.
  assert (Hfr : frame l (sp_sub op) = Some D). { unfold frame. rewrite Hsl. by rewrite HD. }
  destruct (ol_regexps _ Hl _ _ (def_of n r) Hfr) as [Hw Hg].
  { rewrite HD. eapply elem_of_list_lookup_2; eauto. }
  pose proof (Hw _ _ (proj1 Hf)) as [Hij _]. rewrite drop_length in Hij. destruct Hf as [Hf Hfo].
  exists (sr_priority r), x, n, r, c. cbn zeta. split; [done|]. split; [by rewrite HD|]. split; [done|].
  unfold gend in *. split; [lia|]. split; [done|].
  cbn [rbind]. unfold sym_string. destruct (Z.ltb_spec (Z.of_nat (sr_kind r)) 0); [lia|]. rewrite Nat2Z.id, Hnm. cbn [rbind].
  rewrite (value_ok b n r x) by done. cbn [rbind]. rewrite slice_cut by lia. cbn [rbind].
  replace (snd x + sm_i (fst x)) with cur by lia. rewrite Elc. done.
Qed.

(** * One round *)
Definition not_junk (ps : list spiece) : Prop := forall v, last ps <> Some (SJunk v).
(** The pending error of [op0], if any, once something is found at [cur]. *)
Lemma check_error_ok l b op run cur lines0 before w : sp_err op = run -> sp_cur op = cur -> cur <= length b ->
  (forall e, run = Some e -> e < cur) ->
  stext before = take (default cur run) b -> not_junk before ->
  lines0 = 1 + newlines (take (default cur run) b) ->
  forall after, sp_lines op = lines0 + match after with STok _ w _ :: _ => newlines w | _ => 0 end ->
  w = run_text b run cur ->
  exists op1 out, st_check_error l b op = Ok op1 /\ sp_lxs op1 = sp_lxs op ++ out
    /\ sp_err op1 = None /\ sp_cur op1 = cur /\ sp_sub op1 = sp_sub op /\ sp_stack op1 = sp_stack op /\ sp_next op1 = sp_next op
    /\ sp_lines op1 = sp_lines op + newlines w
    /\ stext (before ++ junk w) = take cur b
    /\ 1 + newlines (stext (before ++ junk w)) - match last (before ++ junk w) with Some (SJunk v) => newlines v | _ => 0 end = lines0
    /\ forall rest, semits code_places (stl_error l) (before ++ junk w) after rest ->
         semits code_places (stl_error l) before (junk w ++ after) (out ++ rest).
Proof.
  intros He Hc Hle Hrun Hb Hnj Hlines after Hl Hw. unfold st_check_error. rewrite He.
  destruct run as [e|]; cbn [default from_option id run_text] in *.
  - specialize (Hrun e eq_refl). destruct (Nat.ltb_spec (length b) (sp_cur op)); [lia|].
    rewrite Hc, slice_cut by lia. cbn [rbind]. rewrite <- Hw.
    destruct (line_col_ok b cur (sp_lines op) w ltac:(lia)) as (c & Hcol & ->).
    assert (Hwl : length w = cur - e) by (rewrite Hw; apply cut_length; lia).
    assert (Hj : junk w = [SJunk w]). { destruct w; [cbn in Hwl; lia|done]. }
    assert (Htk : take cur b = take e b ++ w). { rewrite Hw. apply take_cut. lia. }
    eexists _, [_]. split; [reflexivity|]. cbn [sp_lxs sp_err sp_cur sp_sub sp_stack sp_next sp_lines].
    do 7 (split; [done|]). rewrite Hj.
    assert (Hst : stext (before ++ [SJunk w]) = take cur b).
    { unfold stext. rewrite flat_map_app. cbn. rewrite app_nil_r. fold (stext before). by rewrite Hb, Htk. }
    split; [done|]. split.
    { rewrite Hst, last_snoc, Htk. unfold newlines. rewrite count_occ_app. unfold newlines in Hlines. lia. }
    intros rest Hr. cbn [app]. change (LErr ?x :: rest) with ([LErr x] ++ rest). constructor; [|exact Hr].
    cbn [sshows]. exists (c - Z.of_nat (length w))%Z. split.
    + cbn [code_places pl_err_col]. rewrite Hb, <- Htk. by rewrite Z.sub_add.
    + do 3 f_equal. cbn [code_places pl_err_line]. rewrite Hb. rewrite Hl, Hlines. lia.
  - rewrite Hw. cbn [junk]. rewrite app_nil_r. exists op, []. rewrite app_nil_r.
    do 7 (split; [done|]). split; [cbn; lia|]. split; [done|]. split; [|intros rest Hr; exact Hr].
    rewrite Hb, Hlines. destruct (last before) as [[|v]|] eqn:E; [lia| |lia]. destruct (Hnj v E).
Qed.

Lemma pop_ok l b i op S : ok_lexer l -> sp_cur op <= length b ->
  Forall2 (fun id F => frame l id = Some F) (reverse (sp_stack op)) S -> 0 < i ->
  match S with
  | [] => st_pop l b i op = Panic
  | _ => exists op' D' sl, let k := min i (length S) in
      S !! (k - 1) = Some D' /\ st_pop l b i op = Ok op' /\ stl_subs l !! sp_sub op' = Some sl /\ D' = defs_in (stl_set l) sl
      /\ sp_next op' = table sl (gfresh b (sp_cur op) D') (sym_count (stl_set l))
      /\ Forall2 (fun id F => frame l id = Some F) (reverse (sp_stack op')) (drop k S)
      /\ sp_err op' = sp_err op /\ sp_cur op' = sp_cur op /\ sp_lines op' = sp_lines op /\ sp_lxs op' = sp_lxs op
  end.
Proof.
  intros Hl Hc HS Hi. assert (Hlen := Forall2_length _ _ _ HS). rewrite reverse_length in Hlen.
  unfold st_pop. destruct S as [|F S].
  { destruct (sp_stack op); done. }
  set (ln := length (sp_stack op) - i). set (k := min i (length (F :: S))).
  assert (Hk : 0 < k <= length (sp_stack op)) by (unfold k; rewrite Hlen; cbn [length]; lia).
  assert (Hln : ln = length (sp_stack op) - k) by (unfold ln, k; rewrite <- Hlen; lia).
  destruct (lookup_lt_is_Some_2 (sp_stack op) ln) as [id Hid]; [lia|].
  assert (Hrev : reverse (sp_stack op) !! (k - 1) = Some id).
  { rewrite reverse_lookup by lia. rewrite <- Hid. f_equal. lia. }
  destruct (Forall2_lookup_l _ _ _ _ _ HS Hrev) as (D' & HD' & Hf).
  unfold frame in Hf. destruct (stl_subs l !! id) as [sl|] eqn:Esl; [|done]. injection Hf as <-.
  rewrite Hid. unfold sub_at. rewrite Esl. cbn [rbind].
  rewrite populate_table by (eapply ol_sane; eauto). cbn [rbind].
  eexists _, _, sl. cbn zeta. fold k. split; [exact HD'|]. split; [reflexivity|].
  cbn [sp_sub sp_next sp_stack sp_err sp_cur sp_lines sp_lxs]. do 3 (split; [done|]). split; [|done].
  assert (Hdrop : reverse (take ln (sp_stack op)) = drop k (reverse (sp_stack op))).
  { rewrite <- (take_drop ln (sp_stack op)) at 2. rewrite reverse_app.
    replace k with (length (reverse (drop ln (sp_stack op)))) by (rewrite reverse_length, drop_length; lia).
    by rewrite drop_app. }
  rewrite Hdrop. by apply Forall2_drop.
Qed.
Lemma push_ok l b name op D S : ok_lexer l -> sp_cur op <= length b ->
  frame l (sp_sub op) = Some D -> Forall2 (fun id F => frame l id = Some F) (reverse (sp_stack op)) S ->
  match env_of l name with
  | None => st_push l b name op = Panic
  | Some D' => exists op' sl,
      st_push l b name op = Ok op' /\ stl_subs l !! sp_sub op' = Some sl /\ D' = defs_in (stl_set l) sl
      /\ sp_next op' = table sl (gfresh b (sp_cur op) D') (sym_count (stl_set l))
      /\ Forall2 (fun id F => frame l id = Some F) (reverse (sp_stack op')) (D :: S)
      /\ sp_err op' = sp_err op /\ sp_cur op' = sp_cur op /\ sp_lines op' = sp_lines op /\ sp_lxs op' = sp_lxs op
  end.
Proof.
  intros Hl Hc HD HS. unfold env_of, st_push, frame in *. destruct (stl_lexers l !! name) as [id|] eqn:En; [|done].
  destruct (lookup_lt_is_Some_2 _ _ (ol_names _ Hl _ _ En)) as [sl Esl]. unfold sub_at. rewrite Esl. cbn [rbind].
  rewrite populate_table by (eapply ol_sane; eauto). cbn [rbind].
  eexists _, sl. split; [reflexivity|]. cbn [sp_sub sp_next sp_stack sp_err sp_cur sp_lines sp_lxs]. do 3 (split; [done|]). split; [|done].
  rewrite reverse_snoc. constructor; done.
Qed.
