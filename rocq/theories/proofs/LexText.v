(** Regular expressions as lexer rules, and String of a simple lexer. *)
From Coq Require Import String.
From Verif.spec Require Import LexSpec.
From Verif.proofs Require Import Fuel SetProofs StringProofs RegexProofs LexProofs LexProofs2 LexThms LexHist LexMain.
Local Open Scope nat_scope.
Local Open Scope list_scope.

(** * The matcher meets the contract *)
Definition suffix_of (s' s : gostring) : Prop := exists w, s = w ++ s'.
Lemma suffix_refl s : suffix_of s s. Proof. by exists []. Qed.
Lemma suffix_trans a b c : suffix_of a b -> suffix_of b c -> suffix_of a c.
Proof. intros [w ->] [v ->]. exists (v ++ w). by rewrite app_assoc. Qed.
Lemma rmatch_suffix r : forall s c s' c', (s', c') ∈ rmatch r s c -> suffix_of s' s.
Proof.
  induction r as [|p|a IHa b IHb|a IHa b IHb|a IHa|n a IHa|]; intros s c s' c'; cbn [rmatch].
  - rewrite elem_of_list_singleton. intros [= -> ->]. apply suffix_refl.
  - destruct s as [|x t]; [by rewrite elem_of_nil|]. destruct (p x); [|by rewrite elem_of_nil].
    rewrite elem_of_list_singleton. intros [= -> ->]. by exists [x].
  - rewrite elem_of_list_In, in_flat_map. intros ([s1 c1] & H1 & H2). rewrite <- elem_of_list_In in H1, H2.
    eapply suffix_trans; eauto.
  - rewrite elem_of_app. intros [H|H]; eauto.
  - assert (H : forall f s c s' c', (s', c') ∈ star_match (rmatch a) f s c -> suffix_of s' s).
    { clear s c s' c'. induction f as [|f IH]; intros s c s' c'; cbn [star_match].
      - rewrite elem_of_list_singleton. intros [= -> ->]. apply suffix_refl.
      - rewrite elem_of_app, elem_of_list_singleton. intros [H|[= -> ->]]; [|apply suffix_refl].
        rewrite elem_of_list_In, in_flat_map in H. destruct H as ([s1 c1] & H1 & H2). rewrite <- elem_of_list_In in H1.
        destruct (_ <? _); [|done]. rewrite <- elem_of_list_In in H2. eapply suffix_trans; eauto. }
    apply H.
  - rewrite elem_of_list_fmap. intros ([s1 c1] & [= -> ->] & H). eauto.
  - destruct s; [|by rewrite elem_of_nil]. rewrite elem_of_list_singleton. intros [= -> ->]. apply suffix_refl.
Qed.
Definition hd_len (r : re) (s : gostring) : option nat :=
  match rmatch r s [] with (s', _) :: _ => Some (length s - length s') | [] => None end.
Lemma hd_len_le r s n : hd_len r s = Some n -> n <= length s.
Proof. unfold hd_len. destruct (rmatch r s []) as [|[s' c'] l]; [done|]. intros [= <-]. lia. Qed.
Lemma at_start_rx r src s : at_start (rx_of r src) s = hd_len r s.
Proof.
  unfold at_start, rx_of, hd_len. cbn [rx_find].
  assert (E : find_sub r s = match rmatch r s [] with
    | (s', c) :: _ => Some (O, take (length s - length s') s, c)
    | [] => match s with [] => None | _ :: t => match find_sub r t with Some (i, m, c) => Some (S i, m, c) | None => None end end end)
    by (destruct s; done).
  rewrite E. destruct (rmatch r s []) as [|[s' c'] l].
  - destruct s as [|x t]; [done|]. destruct (find_sub r t) as [[[i m] c]|]; done.
  - cbn. rewrite take_length. f_equal. lia.
Qed.
Lemma rx_of_ok r src : no_lookbehind (rx_of r src).
Proof.
  intros s. induction s as [|x t IH].
  - unfold rx_of at 1. cbn [rx_find find_sub]. pose proof (at_start_rx r src []) as Ha. unfold hd_len in Ha.
    destruct (rmatch r [] []) as [|[s' c'] l] eqn:E.
    + intros k Hk. by rewrite drop_nil, Ha.
    + rewrite take_nil. cbn [length Nat.add Nat.sub drop] in *. split; [lia|]. split; [done|]. lia.
  - unfold rx_of in IH |- * at 1. cbn [rx_find find_sub] in *. pose proof (at_start_rx r src (x :: t)) as Ha. unfold hd_len in Ha.
    destruct (rmatch r (x :: t) []) as [|[s' c'] l] eqn:E.
    + destruct (find_sub r t) as [[[i m] c]|].
      * destruct IH as (H1 & H2 & H3). cbn [length] in *. split; [lia|]. split.
        { cbn [drop Nat.add Nat.sub]. rewrite <- H2. done. }
        intros [|k] Hk; [done|]. cbn [drop]. apply H3. lia.
      * intros [|k] Hk; [done|]. cbn [drop]. apply IH. cbn in Hk. lia.
    + rewrite take_length. cbn [length] in *. split; [lia|]. split; [|lia].
      rewrite drop_0, Ha. cbn [Nat.add]. f_equal. lia.
Qed.

(** * String *)
Definition lx_word (x : N) : bool := negb (lx_slash x) && negb (lx_space x).
Definition lx_body : re := RAlt (RSet (fun x => negb (lx_slash x) && negb (lx_backslash x)))
                                (RCat (RSet lx_backslash) (ROpt (RSet lx_slash))).
(** An escaped expression as the pieces the regexp reads. *)
Inductive lx_units : list gostring -> Prop :=
| lu_nil : lx_units []
| lu_char x us : x <> 47%N -> x <> 92%N -> lx_units us -> lx_units ([x] :: us)
| lu_slash us : lx_units us -> lx_units ([92%N; 47%N] :: us)
| lu_back x u us : x <> 47%N -> lx_units ((x :: u) :: us) -> lx_units ([92%N] :: (x :: u) :: us).
Lemma escaped_units src : 
  (forall a b, src = a ++ 47%N :: b -> exists a', a = a' ++ [92%N]) -> (forall a, src <> a ++ [92%N]) ->
  exists us, lx_units us /\ src = List.concat us.
Proof.
  remember (length src) as n eqn:Hn. revert src Hn. induction n as [n IH] using lt_wf_ind. intros src Hn Hs He.
  destruct src as [|x src]; [exists []; split; [constructor|done]|].
  destruct (decide (x = 47%N)) as [->|Hx].
  { destruct (Hs [] src eq_refl) as [a' Ha]. by destruct a'. }
  destruct (decide (x = 92%N)) as [->|Hx'].
  - destruct src as [|y src]; [by destruct (He [])|]. destruct (decide (y = 47%N)) as [->|Hy].
    + destruct (IH (length src) ltac:(cbn in Hn; lia) src eq_refl) as (us & Hus & ->).
      * intros a b E. destruct a as [|a0 a].
        -- exfalso. destruct (Hs [92; 47]%N b) as [a' Ha]; [by rewrite E|].
           destruct a' as [|? [|? [|? ?]]]; done.
        -- destruct (Hs (92%N :: 47%N :: a0 :: a) b) as [a' Ha]; [by rewrite E|].
           destruct a' as [|? [|? a']]; try done. cbn in Ha. injection Ha as _ _ Ha. exists a'. done.
      * intros a E. apply (He (92%N :: 47%N :: a)). by rewrite E.
      * exists ([92%N; 47%N] :: us). split; [by constructor|done].
    + destruct (IH (length (y :: src)) ltac:(cbn in *; lia) (y :: src) eq_refl) as (us & Hus & Eus).
      * intros a b E. destruct (Hs (92%N :: a) b) as [a' Ha]; [by rewrite E|].
        destruct a as [|a0 a]; [cbn in E; congruence|]. destruct a' as [|? a']; [done|]. cbn in Ha. injection Ha as _ Ha.
        exists a'. done.
      * intros a E. apply (He (92%N :: a)). by rewrite E.
      * destruct us as [|[|z u] us]; [done|by inversion Hus|]. cbn in Eus. injection Eus as <- Eus.
        exists ([92%N] :: (y :: u) :: us). split; [by constructor|]. cbn. by rewrite Eus.
  - destruct (IH (length src) ltac:(cbn in *; lia) src eq_refl) as (us & Hus & ->).
    + intros a b E. destruct a as [|a0 a].
      * destruct (Hs [x] b) as [a' Ha]; [by rewrite E|]. destruct a' as [|? [|? ?]]; cbn in Ha; simplify_eq.
      * destruct (Hs (x :: a0 :: a) b) as [a' Ha]; [by rewrite E|].
        destruct a' as [|? a']; [done|]. cbn in Ha. injection Ha as _ Ha. exists a'. done.
    + intros a E. apply (He (x :: a)). by rewrite E.
    + exists ([x] :: us). split; [by constructor|done].
Qed.
Lemma lx_slash_ne x : x <> 47%N -> lx_slash x = false. Proof. intros. by apply N.eqb_neq. Qed.
Lemma lx_back_ne x : x <> 92%N -> lx_backslash x = false. Proof. intros. by apply N.eqb_neq. Qed.
Lemma units_star us s c : lx_units us -> rmatch lx_body s c = [] ->
  forall f, length (List.concat us ++ s) <= f ->
  exists l, star_match (rmatch lx_body) f (List.concat us ++ s) c = (s, c) :: l.
Proof.
  intros Hus Hs. induction Hus as [|x us Hx1 Hx2 Hus IH|us Hus IH|x u us Hx Hus IH]; intros f Hf.
  - cbn [List.concat app]. destruct f; cbn [star_match]; [eauto|]. rewrite Hs. cbn [flat_map app]. eauto.
  - cbn [List.concat app length] in *. destruct f as [|f]; [lia|]. cbn [star_match].
    destruct (IH f ltac:(lia)) as [l Hl].
    assert (Hb : rmatch lx_body (x :: List.concat us ++ s) c = [(List.concat us ++ s, c)]).
    { cbn. rewrite (lx_slash_ne x Hx1), (lx_back_ne x Hx2). done. }
    rewrite Hb. cbn [flat_map app length].
    destruct (Nat.ltb_spec (length (List.concat us ++ s)) (S (length (List.concat us ++ s)))); [|lia].
    rewrite Hl. cbn [app]. eauto.
  - cbn [List.concat app length] in *. destruct f as [|f]; [lia|]. cbn [star_match].
    destruct (IH f ltac:(lia)) as [l Hl].
    assert (Hb : exists l', rmatch lx_body (92%N :: 47%N :: List.concat us ++ s) c = (List.concat us ++ s, c) :: l').
    { cbn. eauto. }
    destruct Hb as [l' Hb]. rewrite Hb. cbn [flat_map length].
    destruct (Nat.ltb_spec (length (List.concat us ++ s)) (S (S (length (List.concat us ++ s))))); [|lia].
    rewrite Hl. cbn [app]. eauto.
  - cbn [List.concat app length] in *. destruct f as [|f]; [lia|]. cbn [star_match].
    destruct (IH f ltac:(lia)) as [l Hl].
    assert (Hb : rmatch lx_body (92%N :: x :: (u ++ List.concat us) ++ s) c = [(x :: (u ++ List.concat us) ++ s, c)]).
    { cbn. rewrite (lx_slash_ne x Hx). done. }
    rewrite Hb. cbn [flat_map length].
    destruct (Nat.ltb_spec (S (length ((u ++ List.concat us) ++ s))) (S (S (length ((u ++ List.concat us) ++ s))))); [|lia].
    rewrite Hl. cbn [app]. eauto.
Qed.
Lemma units_plus us s c : lx_units us -> us <> [] -> rmatch lx_body s c = [] ->
  hd_is (RPlus lx_body) (List.concat us ++ s) c s c.
Proof.
  intros Hus Hne Hs. destruct Hus as [|x us Hx1 Hx2 Hus|us Hus|x u us Hx Hus]; [done| | |]; cbn [List.concat app].
  - eapply (hd_cat _ _ _ _ (List.concat us ++ s) c).
    + apply hd_alt_l, hd_set. by rewrite (lx_slash_ne x Hx1), (lx_back_ne x Hx2).
    + unfold hd_is. cbn [rmatch]. by apply units_star.
  - eapply (hd_cat _ _ _ _ (List.concat us ++ s) c).
    + exists [(47%N :: List.concat us ++ s, c)]. done.
    + unfold hd_is. cbn [rmatch]. by apply units_star.
  - eapply (hd_cat _ _ _ _ (x :: (u ++ List.concat us) ++ s) c).
    + exists []. cbn. rewrite (lx_slash_ne x Hx). done.
    + unfold hd_is. cbn [rmatch]. apply (units_star ((x :: u) :: us)); done.
Qed.

Definition dash_of (d : bool) : gostring := if d then L "-" else [].
Lemma hd_dash d c : hd_is (RGroup 3 (ROpt (RSet lx_dash))) (dash_of d) c [] ((3, dash_of d) :: c).
Proof. destruct d; eexists; cbn; reflexivity. Qed.
Lemma line_tail d c n : hd_is (RCat (RStar (RSet lx_space)) (RGroup 3 (ROpt (RSet lx_dash)))) (replicate n c_sp ++ dash_of d) c [] ((3, dash_of d) :: c).
Proof.
  eapply (hd_cat _ _ _ _ (dash_of d) c); [|apply hd_dash]. apply hd_run.
  - intros x Hx. apply elem_of_replicate in Hx as [-> _]. done.
  - by destruct d.
Qed.
Lemma word_chars (kind : gostring) : (forall x, x ∈ kind -> x <> 47%N /\ x <> 9%N /\ x <> 10%N /\ x <> 12%N /\ x <> 13%N /\ x <> 32%N) ->
  forall x, x ∈ kind -> lx_word x = true.
Proof.
  intros H x Hx. apply H in Hx as (H1 & H2 & H3 & H4 & H5 & H6). unfold lx_word, lx_slash, lx_space.
  apply N.eqb_neq in H1, H2, H3, H4, H5, H6. rewrite H1, H2, H3, H4, H5, H6. done.
Qed.
Lemma hd_word kind s c : kind <> [] -> (forall x, x ∈ kind -> lx_word x = true) -> stops lx_word s ->
  hd_is (RGroup 1 (RPlus (RSet lx_word))) (kind ++ s) c s ((1, kind) :: c).
Proof.
  intros Hne Hk Hs. apply hd_group. destruct kind as [|x w]; [done|]. cbn [app]. by apply hd_plus.
Qed.
Lemma read_plain compile kind d r n : kind <> [] -> (forall x, x ∈ kind -> lx_word x = true) ->
  compile kind = Some r ->
  rule_from_line compile (kind ++ replicate (S n) c_sp ++ dash_of d) = GotRule kind r d.
Proof.
  intros Hne Hk Hc.
  assert (H : hd_is re_lex_line (kind ++ replicate (S n) c_sp ++ dash_of d) [] [] [(3, dash_of d); (1, kind)]).
  { unfold re_lex_line. fold lx_word. eapply hd_cat; [apply (hd_word kind (replicate (S n) c_sp ++ dash_of d)); [done|done|done]|].
    eapply (hd_cat _ _ _ _ (dash_of d) [(1, kind)]).
    { apply hd_run; [|by destruct d]. intros x Hx. apply elem_of_replicate in Hx as [-> _]. done. }
    eapply (hd_cat _ _ _ _ (dash_of d) [(1, kind)]).
    { apply hd_alt_r; [by destruct d|apply hd_eps]. }
    apply (line_tail d [(1, kind)] 0). }
  unfold rule_from_line. rewrite (find_hd _ _ _ _ H). cbn [group]. cbn. rewrite Hc. by destruct d.
Qed.
Lemma read_slashed compile kind src d r n : kind <> [] -> (forall x, x ∈ kind -> lx_word x = true) -> escaped src ->
  compile src = Some r ->
  rule_from_line compile (kind ++ replicate (S n) c_sp ++ L "/" ++ src ++ L "/" ++ replicate 1 c_sp ++ dash_of d) = GotRule kind r d.
Proof.
  intros Hne Hk (H1 & H2 & H3 & H4) Hc. destruct (escaped_units src H1 H4) as (us & Hus & Esrc).
  assert (Hune : us <> []) by (intros ->; by apply H3).
  assert (H : hd_is re_lex_line (kind ++ replicate (S n) c_sp ++ L "/" ++ src ++ L "/" ++ replicate 1 c_sp ++ dash_of d) [] []
     [(3, dash_of d); (2, src); (1, kind)]).
  { unfold re_lex_line. fold lx_word. eapply hd_cat; [apply hd_word; [done|done|done]|].
    eapply (hd_cat _ _ _ _ (L "/" ++ src ++ L "/" ++ replicate 1 c_sp ++ dash_of d) [(1, kind)]).
    { apply hd_run; [|done]. intros x Hx. apply elem_of_replicate in Hx as [-> _]. done. }
    eapply (hd_cat _ _ _ _ (replicate 1 c_sp ++ dash_of d) [(2, src); (1, kind)]).
    { apply hd_alt_l. eapply (hd_cat _ _ _ _ (src ++ L "/" ++ replicate 1 c_sp ++ dash_of d) [(1, kind)]).
      { apply hd_set. done. }
      eapply (hd_cat _ _ _ _ (L "/" ++ replicate 1 c_sp ++ dash_of d) [(2, src); (1, kind)]); [|by apply hd_set].
      apply hd_group. rewrite Esrc. by apply units_plus. }
    apply line_tail. }
  unfold rule_from_line. rewrite (find_hd _ _ _ _ H).
  assert (E2 : group 2 [(3, dash_of d); (2, src); (1, kind)] = src) by done.
  assert (E1 : group 1 [(3, dash_of d); (2, src); (1, kind)] = kind) by done.
  assert (E3 : group 3 [(3, dash_of d); (2, src); (1, kind)] = dash_of d) by done.
  rewrite E1, E2, E3. destruct src as [|x src]; [done|]. rewrite Hc. by destruct d.
Qed.

Definition def_line (longest : nat) (d : rdef) : gostring :=
  pad_right longest (rd_kind d) ++ L " " ++
  (if decide (rx_src (rd_re d) = rd_kind d) then [] else L "/" ++ rx_src (rd_re d) ++ L "/") ++ L " " ++ dash_of (rd_discard d).
Lemma read_def compile longest d : printable d -> compile (rx_src (rd_re d)) = Some (rd_re d) ->
  rule_from_line compile (def_line longest d) = GotRule (rd_kind d) (rd_re d) (rd_discard d).
Proof.
  intros (H1 & H2 & H3) Hc. pose proof (word_chars _ H2) as Hw. unfold def_line, pad_right.
  set (n := longest - length (rd_kind d)). destruct (decide _) as [Heq|Hneq].
  - replace ((rd_kind d ++ replicate n c_sp) ++ L " " ++ [] ++ L " " ++ dash_of (rd_discard d))
      with (rd_kind d ++ replicate (S (S n)) c_sp ++ dash_of (rd_discard d)).
    + apply read_plain; [done|done|]. by rewrite <- Heq.
    + rewrite <- !app_assoc. f_equal. change (L " ") with [c_sp]. cbn [app].
      replace (S (S n)) with (n + 2) by lia. rewrite replicate_add, <- !app_assoc. done.
  - replace ((rd_kind d ++ replicate n c_sp) ++ L " " ++ (L "/" ++ rx_src (rd_re d) ++ L "/") ++ L " " ++ dash_of (rd_discard d))
      with (rd_kind d ++ replicate (S n) c_sp ++ L "/" ++ rx_src (rd_re d) ++ L "/" ++ replicate 1 c_sp ++ dash_of (rd_discard d)).
    + apply read_slashed; try done. destruct H3 as [H3|H3]; done.
    + rewrite <- !app_assoc. f_equal. replace (S n) with (n + 1) by lia. rewrite replicate_add, <- !app_assoc. done.
Qed.
Lemma def_line_nl longest d : printable d -> c_nl ∉ def_line longest d.
Proof.
  intros (H1 & H2 & H3). unfold def_line, pad_right. rewrite !elem_of_app. 
  assert (Hk : c_nl ∉ rd_kind d) by (intros H; apply H2 in H; unfold c_nl in H; lia).
  assert (Hd : c_nl ∉ dash_of (rd_discard d)) by (destruct (rd_discard d); cbn; set_solver).
  assert (Hs : c_nl ∉ L " ") by (cbn; set_solver). assert (Hsl : c_nl ∉ L "/") by (cbn; set_solver).
  assert (Hr : c_nl ∉ replicate (longest - length (rd_kind d)) c_sp).
  { intros H. apply elem_of_replicate in H as [H _]. done. }
  destruct (decide _) as [Heq|Hneq].
  - rewrite elem_of_nil. tauto.
  - destruct H3 as [H3|(_ & H3 & _)]; [done|]. rewrite !elem_of_app. fold c_nl in H3. tauto.
Qed.

Lemma string_ok l D x : tidy l D x -> exists longest, slexer_string l = Ok (strjoin [c_nl] (map (def_line longest) D)).
Proof.
  intros Ht. unfold slexer_string.
  assert (Hname : forall p d, D !! p = Some d -> kind_name l p = Ok (rd_kind d)).
  { intros p d Hd. unfold kind_name. apply sym_string_nat. by apply (tidy_names _ _ _ Ht). }
  assert (Hf : forall D1 D2 m, D = D1 ++ D2 -> exists n, rfold (fun m r => match r with
      | None => Panic | Some r => n <-! kind_name l (lr_kind r); Ok (Nat.max m (length n)) end)
      (imap (fun i d => rule_of (length D1 + i) d) D2) m = Ok n).
  { intros D1 D2. revert D1. induction D2 as [|d D2 IH]; intros D1 m HD; [cbn; eauto|]. cbn [imap rfold rule_of lr_kind].
    unfold kind_name in *. rewrite (Hname (length D1 + 0) d).
    2:{ rewrite HD, lookup_app_r, Nat.add_0_r, Nat.sub_diag by lia. done. }
    cbn [rbind]. destruct (IH (D1 ++ [d]) (Nat.max m (length (rd_kind d)))) as [n Hn]; [by rewrite <- app_assoc|].
    exists n. rewrite <- Hn. f_equal. apply imap_ext. intros i y _. cbn. rewrite app_length. cbn. f_equal. lia. }
  destruct (Hf [] D 0 eq_refl) as [longest Hl]. cbn [length Nat.add] in Hl. rewrite (td_rules _ _ _ Ht).
  change (imap rule_of D) with (imap (fun i d => rule_of i d) D). rewrite Hl. cbn [rbind]. exists longest.
  rewrite (td_order _ _ _ Ht).
  assert (Hm : forall D1 D2, D = D1 ++ D2 -> rmap (slexer_line l longest) (seq (length D1) (length D2)) = Ok (map (def_line longest) D2)).
  { intros D1 D2. revert D1. induction D2 as [|d D2 IH]; intros D1 HD; [done|]. cbn [length seq rmap map].
    assert (Hd : D !! length D1 = Some d) by (rewrite HD, lookup_app_r, Nat.sub_diag by lia; done).
    assert (Hline : slexer_line l longest (length D1) = Ok (def_line longest d)).
    { unfold slexer_line. rewrite (tidy_rule _ _ _ _ _ Ht Hd). cbn [rbind]. rewrite (Hname _ _ Hd). cbn [rbind lr_re lr_discard].
      unfold def_line, dash_of. done. }
    rewrite Hline. cbn [rbind]. specialize (IH (D1 ++ [d])). rewrite app_length, Nat.add_1_r in IH. rewrite IH; [done|].
    by rewrite <- app_assoc. }
  pose proof (Hm [] D eq_refl) as H0. cbn [length] in H0. rewrite H0. done.
Qed.
Lemma string_round_trip compile cs l : adds_first cs -> regexps_in well_formed cs ->
  returns (sl_calls cs slexer_empty) l ->
  Forall printable (rules_of cs) -> Forall (fun d => compile (rx_src (rd_re d)) = Some (rd_re d)) (rules_of cs) ->
  exists t l', slexer_string l = Ok t /\ slexer_new compile [t] = Some l'
    /\ returns (sl_calls (adds (rules_of cs)) slexer_empty) l'.
Proof.
  intros Ha Hr Hl Hp Hc. destruct (history cs Ha Hr) as (l1 & x & Hl1 & Ht & Hs & _).
  assert (l = l1) as -> by (by eapply returns_fun). clear Hl1.
  destruct (string_ok _ _ _ Ht) as [longest Hstr]. set (D := rules_of cs) in *.
  exists (strjoin [c_nl] (map (def_line longest) D)).
  assert (Hdefs : line_defs compile (flat_map (split1 c_nl) [strjoin [c_nl] (map (def_line longest) D)]) = D
     /\ forall y, y ∈ flat_map (split1 c_nl) [strjoin [c_nl] (map (def_line longest) D)] -> rule_from_line compile y <> BadRule).
  { cbn [flat_map]. rewrite app_nil_r. destruct (decide (D = [])) as [HD|HD].
    - rewrite HD. split; [done|]. cbn. intros y Hy. apply elem_of_list_singleton in Hy as ->. done.
    - rewrite split1_join.
      2:{ by destruct D. }
      2:{ apply Forall_forall. intros y Hy. apply elem_of_list_fmap in Hy as (d & -> & Hd). apply def_line_nl.
          rewrite Forall_forall in Hp. by apply Hp. }
      rewrite Forall_forall in Hp, Hc. split.
      + unfold line_defs. clear - Hp Hc. induction D as [|d D IH]; [done|]. cbn [map flat_map].
        rewrite read_def; [|apply Hp; left|apply Hc; left]. cbn [app]. rewrite IH; [by destruct d| |].
        * intros z Hz. apply Hp. by right.
        * intros z Hz. apply Hc. by right.
      + intros y Hy. apply elem_of_list_fmap in Hy as (d & -> & Hd). rewrite read_def; [done|by apply Hp|by apply Hc]. }
  destruct Hdefs as [Hdefs Hbad].
  destruct (new_exact compile [strjoin [c_nl] (map (def_line longest) D)]) as (l' & H1 & H2 & _).
  { split; [done|]. rewrite Hdefs. apply rules_of_nodup. }
  exists l'. split; [done|]. split; [done|]. rewrite Hdefs in H2. done.
Qed.
