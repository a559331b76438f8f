(** tree.New reads what String writes. *)
From Coq Require Import String Lia.
From Verif.model Require Import Regex TreeNew.
From Verif.spec Require Import TextSpec.
From Verif.proofs Require Import RegexProofs StringProofs TreeProofs.
Local Open Scope N_scope.

(** * Quoted strings *)
Definition unit (u : gostring) : Prop :=
  (exists x, u = [x] /\ plain_char x = true) \/ (exists x, u = [92; x] /\ dot x = true).
Definition body : re := RAlt (RSet plain_char) (RCat (RSet (is_char 92)) (RSet dot)).
Lemma body_unit u c : unit u -> u <> [] /\ forall t, hd_is body (u ++ t) c t c.
Proof.
  intros [(x & -> & H)|(x & -> & H)]; (split; [done|]); intros t; cbn [app].
  - apply hd_alt_l. by apply hd_set.
  - apply hd_alt_r; [done|]. eapply hd_cat; by apply hd_set.
Qed.
Lemma body_stop s c : rmatch body (34 :: s) c = [].
Proof. done. Qed.

Definition unitary (s : gostring) : Prop := exists us, Forall unit us /\ s = List.concat us.
Lemma unitary_nil : unitary [].
Proof. exists []. done. Qed.
Lemma unitary_app a b : unitary a -> unitary b -> unitary (a ++ b).
Proof.
  intros (us & H1 & ->) (vs & H2 & ->). exists (us ++ vs). split; [by apply Forall_app|]. by rewrite concat_app.
Qed.
Lemma unitary_plain x s : plain_char x = true -> unitary s -> unitary (x :: s).
Proof. intros Hx Hs. apply (unitary_app [x]); [|done]. exists [[x]]. split; [|done]. constructor; [|done]. left. eauto. Qed.
Lemma unitary_esc x s : dot x = true -> unitary s -> unitary (92 :: x :: s).
Proof. intros Hx Hs. apply (unitary_app [92; x]); [|done]. exists [[92; x]]. split; [|done]. constructor; [|done]. right. eauto. Qed.
Lemma hex_digit_range n : n < 16 -> 48 <= hex_digit n <= 57 \/ 97 <= hex_digit n <= 102.
Proof. intros H. unfold hex_digit. destruct (N.ltb_spec n 10); lia. Qed.
Lemma hex_plain d n : forall x, x ∈ hex d n -> 48 <= x <= 57 \/ 97 <= x <= 102.
Proof.
  revert n. induction d as [|d IH]; intros n x; cbn [hex]; [intros H; by apply elem_of_nil in H|].
  rewrite elem_of_app, elem_of_list_singleton. intros [H| ->]; [by apply (IH (n / 16))|].
  apply hex_digit_range. by apply N.mod_lt.
Qed.
Lemma plain_ok x : x <> 34 -> x <> 92 -> plain_char x = true.
Proof. intros H1 H2. unfold plain_char. apply N.eqb_neq in H1, H2. by rewrite H1, H2. Qed.
Lemma unitary_plains s : (forall x, x ∈ s -> plain_char x = true) -> unitary s.
Proof.
  induction s as [|x s IH]; intros H; [apply unitary_nil|]. apply unitary_plain; [apply H; by left|].
  apply IH. intros y Hy. apply H. by right.
Qed.
Lemma hex_unitary d n : unitary (hex d n).
Proof. apply unitary_plains. intros x Hx. apply hex_plain in Hx. apply plain_ok; lia. Qed.
(** The newlines of a quoted string are escaped too. *)
Lemma quote_rune_cases print c :
  (quote_rune print c = [c] /\ plain_char c = true /\ c <> 10 /\ kept print c = true)
  \/ (c = 34 /\ quote_rune print c = [92; 34])
  \/ (c = 92 /\ quote_rune print c = [92; 92])
  \/ (c = 10 /\ quote_rune print c = [92; 110])
  \/ (kept print c = false /\ exists d w, quote_rune print c = 92 :: d :: w
       /\ d <> 92 /\ d <> 110 /\ d <> 34 /\ d <> 10 /\ (forall x, x ∈ w -> x <> 92 /\ x <> 34 /\ x <> 10)).
Proof.
  assert (Hhex : forall d n x, x ∈ hex d n -> x <> 92 /\ x <> 34 /\ x <> 10).
  { intros d n x Hx. apply hex_plain in Hx. lia. }
  assert (Hnil : forall x : N, x ∈ @nil N -> x <> 92 /\ x <> 34 /\ x <> 10).
  { intros x Hx. by apply elem_of_nil in Hx. }
  unfold quote_rune, kept.
  destruct (N.eqb_spec c 34) as [->|N34]; [right; left; by split|].
  destruct (N.eqb_spec c 92) as [->|N92]; [right; right; left; by split|].
  destruct ((32 <=? c) && (c <? 127)) eqn:Ea.
  { left. split; [done|]. split; [by apply plain_ok|]. apply andb_true_iff in Ea as [Ea Eb].
    apply N.leb_le in Ea. split; [lia|]. by rewrite orb_true_r. }
  destruct ((128 <=? c) && print c) eqn:Ep.
  { left. split; [done|]. split; [by apply plain_ok|]. apply andb_true_iff in Ep as [Ep Eb].
    apply N.leb_le in Ep. split; [lia|]. by rewrite orb_true_r. }
  destruct (N.eqb_spec c 7) as [->|N7].
  { do 4 right. split; [done|]. exists 97, []. repeat split; try done; by apply Hnil. }
  destruct (N.eqb_spec c 8) as [->|N8].
  { do 4 right. split; [done|]. exists 98, []. repeat split; try done; by apply Hnil. }
  destruct (N.eqb_spec c 12) as [->|N12].
  { do 4 right. split; [done|]. exists 102, []. repeat split; try done; by apply Hnil. }
  destruct (N.eqb_spec c 10) as [->|N10].
  { do 3 right. left. by split. }
  destruct (N.eqb_spec c 13) as [->|N13].
  { do 4 right. split; [done|]. exists 114, []. repeat split; try done; by apply Hnil. }
  destruct (N.eqb_spec c 9) as [->|N9].
  { do 4 right. split; [done|]. exists 116, []. repeat split; try done; by apply Hnil. }
  destruct (N.eqb_spec c 11) as [->|N11].
  { do 4 right. split; [done|]. exists 118, []. repeat split; try done; by apply Hnil. }
  do 4 right. split; [done|].
  destruct ((c <? 32) || (c =? 127)).
  { exists 120, (hex 2 c). repeat split; try done; by apply (Hhex 2%nat c). }
  destruct (c <? 65536).
  { exists 117, (hex 4 c). repeat split; try done; by apply (Hhex 4%nat c). }
  exists 85, (hex 8 c). repeat split; try done; by apply (Hhex 8%nat c).
Qed.

Definition quoted_body (print : N -> bool) (v : gostring) : gostring := List.concat (map (quote_rune print) v).
Lemma quoted_unitary print v : unitary (quoted_body print v).
Proof.
  induction v as [|c v IH]; [apply unitary_nil|]. unfold quoted_body. cbn [map List.concat]. apply unitary_app; [|done].
  destruct (quote_rune_cases print c) as [(-> & H & _)|[[-> ->]|[[-> ->]|[[-> ->]|(_ & d & w & -> & H1 & H2 & H3 & H4 & H5)]]]].
  - by apply unitary_plain; [|apply unitary_nil].
  - by apply unitary_esc; [|apply unitary_nil].
  - by apply unitary_esc; [|apply unitary_nil].
  - by apply unitary_esc; [|apply unitary_nil].
  - apply unitary_esc; [unfold dot; by apply negb_true_iff, N.eqb_neq|]. apply unitary_plains.
    intros x Hx. destruct (H5 x Hx) as (? & ? & ?). by apply plain_ok.
Qed.
Lemma quoted_no_nl print v : 10 ∉ quoted_body print v.
Proof.
  induction v as [|c v IH]; [apply not_elem_of_nil|]. unfold quoted_body in *. cbn [map List.concat].
  rewrite elem_of_app. intros [H|H]; [|done].
  destruct (quote_rune_cases print c) as [(E & _ & H1 & _)|[[-> E]|[[-> E]|[[-> E]|(_ & d & w & E & H1 & H2 & H3 & H4 & H5)]]]];
    rewrite E in H; repeat (apply elem_of_cons in H as [H|H]; [by try congruence|]); try (by apply elem_of_nil in H).
  destruct (H5 _ H) as (_ & _ & H6). done.
Qed.
Lemma handle_slash_free w s : 92 ∉ w -> handle_slash (w ++ s) = w ++ handle_slash s.
Proof.
  induction w as [|x w IH]; intros H; [done|]. rewrite not_elem_of_cons in H. destruct H as [Hx H].
  cbn [app]. assert (E : (x =? 92) = false) by (apply N.eqb_neq; congruence).
  destruct (w ++ s) as [|y r] eqn:Er.
  - apply app_eq_nil in Er as [-> ->]. done.
  - cbn [handle_slash]. rewrite E. cbn [andb]. f_equal. rewrite <- (IH H). cbn [handle_slash]. reflexivity.
Qed.
Lemma handle_slash_quoted print v : handle_slash (quoted_body print v) = respelled print v.
Proof.
  induction v as [|c v IH]; [done|]. unfold quoted_body, respelled in *. cbn [map List.concat].
  destruct (quote_rune_cases print c) as [(-> & H & _ & ->)|[[-> ->]|[[-> ->]|[[-> ->]|(-> & d & w & -> & H1 & H2 & H3 & H4 & H5)]]]].
  - rewrite handle_slash_free; [by rewrite IH|]. rewrite elem_of_list_singleton. intros <-. done.
  - cbn [app]. change (handle_slash (92 :: 34 :: ?r)) with (34 :: handle_slash r). by rewrite IH.
  - cbn [app]. change (handle_slash (92 :: 92 :: ?r)) with (92 :: handle_slash r). by rewrite IH.
  - cbn [app]. change (handle_slash (92 :: 110 :: ?r)) with (10 :: handle_slash r). by rewrite IH.
  - cbn [app]. set (r := List.concat (map (quote_rune print) v)) in *.
    assert (E : handle_slash (92 :: d :: w ++ r) = 92 :: handle_slash (d :: w ++ r)).
    { cbn [handle_slash]. apply N.eqb_neq in H1, H2, H3. by rewrite H1, H2, H3. }
    rewrite E. f_equal. change (d :: w ++ r) with ((d :: w) ++ r). rewrite handle_slash_free; [by rewrite IH|].
    rewrite not_elem_of_cons. split; [done|]. intros Hw. destruct (H5 _ Hw). done.
Qed.
Lemma respelled_kept print v : (forall c, c ∈ v -> kept print c = true) -> respelled print v = v.
Proof.
  induction v as [|c v IH]; intros H; [done|]. unfold respelled in *. cbn [map List.concat].
  rewrite (H c) by (by left). rewrite IH; [done|]. intros x Hx. apply H. by right.
Qed.
Lemma respelled_len print v : (length v <= length (respelled print v))%nat.
Proof.
  induction v as [|c v IH]; [done|]. unfold respelled in *. cbn [map List.concat]. rewrite app_length. cbn [length].
  destruct (kept print c); cbn [length]; [lia|].
  destruct (quote_rune_cases print c) as [(-> & _)|[[-> ->]|[[-> ->]|[[-> ->]|(_ & d & w & -> & _)]]]]; cbn [length]; lia.
Qed.
Lemma respelled_same print v : respelled print v = v -> forall c, c ∈ v -> kept print c = true.
Proof.
  induction v as [|c v IH]; intros H x Hx; [by apply elem_of_nil in Hx|]. unfold respelled in H. cbn [map List.concat] in H.
  fold (respelled print v) in H. destruct (kept print c) eqn:Ek.
  - cbn [app] in H. injection H as H. apply elem_of_cons in Hx as [->|Hx]; [done|]. by apply IH.
  - exfalso. apply (f_equal length) in H. rewrite app_length in H. cbn [length] in H.
    pose proof (respelled_len print v).
    destruct (quote_rune_cases print c) as [(_ & _ & _ & E)|[[-> E]|[[-> E]|[[-> E]|(_ & d & w & E & _)]]]]; try congruence;
      rewrite E in H; cbn [length] in H; lia.
Qed.

(** * Lines *)
Definition value_part (print : N -> bool) (v : gostring) : gostring :=
  match v with [] => [] | _ => 58 :: 32 :: 34 :: quoted_body print v ++ [34] end.
Lemma word_ok c : c ∉ [9; 10; 12; 13; 32; 34; 58; 123; 125] -> word_char c = true /\ re_space c = false /\ c <> 125 /\ c <> 10.
Proof.
  intros H. repeat (rewrite not_elem_of_cons in H; let a := fresh in destruct H as [a H]; apply N.eqb_neq in a).
  unfold word_char, re_space.
  repeat match goal with E : (c =? _) = false |- _ => rewrite E end. cbn.
  repeat split; apply N.eqb_neq; assumption.
Qed.

Lemma node_line_hd print pad k v (o : bool) : (forall x, x ∈ pad -> re_space x = true) -> writable_kind k ->
  exists m3, (match v with [] => m3 = [] | _ => m3 = [(3%nat, quoted_body print v)] end) /\
  hd_is re_tree_line (pad ++ k ++ value_part print v ++ (if o then L " {" else [])) []
    [] ((4%nat, if o then L "{" else []) :: m3 ++ [(2%nat, k); (1%nat, [])]).
Proof.
  intros Hpad [Hne Hk]. destruct k as [|k0 k]; [done|].
  assert (Hw : forall x, x ∈ k0 :: k -> word_char x = true) by (intros x Hx; by apply word_ok, Hk).
  assert (H0 : re_space k0 = false /\ k0 <> 125) by (destruct (word_ok k0) as (_ & H1 & H2 & _); [apply Hk; by left|done]).
  destruct H0 as [Hs0 H125].
  set (tail := if o then L " {" else []).
  assert (Htail : exists c4, c4 = (if o then L "{" else []) /\
     forall c, hd_is (RCat re_spaces (RCat re_open REnd)) tail c [] ((4%nat, c4) :: c)).
  { exists (if o then L "{" else []). split; [done|]. intros c. unfold tail. destruct o.
    - eapply hd_cat; [apply (hd_run re_space [32] [123] c)|].
      + intros x ->%elem_of_list_singleton. done.
      + done.
      + eapply hd_cat; [|apply hd_end]. apply (hd_group 4 _ [123] [] c c). apply hd_alt_l. by apply hd_set.
    - eapply hd_cat; [by apply hd_none|]. eapply hd_cat; [|apply hd_end]. apply (hd_group 4 _ [] [] c c).
      apply hd_alt_r; [done|apply hd_eps]. }
  destruct Htail as (c4 & -> & Htail).
  set (rest := value_part print v ++ tail).
  assert (Hstop : stops word_char rest) by (unfold rest, tail; destruct v; [destruct o|]; done).
  assert (Hmid : forall c, exists m3, (match v with [] => m3 = [] | _ => m3 = [(3%nat, quoted_body print v)] end) /\
     hd_is (RCat re_spaces (RCat re_value (RCat re_spaces (RCat re_open REnd)))) rest c [] ((4%nat, if o then L "{" else []) :: m3 ++ c)).
  { intros c. unfold rest. destruct v as [|v0 v].
    - cbn [value_part app]. exists []. split; [done|]. cbn [app].
      unfold tail in *. destruct o.
      + eapply hd_cat; [apply (hd_run re_space [32] [123] c)|].
        * intros x ->%elem_of_list_singleton. done.
        * done.
        * eapply hd_cat; [apply hd_alt_r; [done|apply hd_eps]|]. eapply hd_cat; [by apply hd_none|].
          eapply hd_cat; [|apply hd_end]. apply (hd_group 4 _ [123] [] c c). apply hd_alt_l. by apply hd_set.
      + eapply hd_cat; [by apply hd_none|]. eapply hd_cat; [apply hd_alt_r; [done|apply hd_eps]|]. apply Htail.
    - exists [(3%nat, quoted_body print (v0 :: v))]. split; [done|].
      cbn [value_part]. set (q := quoted_body print (v0 :: v)). cbn [app]. rewrite <- app_assoc. cbn [app].
      eapply hd_cat; [by apply hd_none|]. eapply hd_cat; [|apply Htail].
      apply hd_alt_l. eapply hd_cat; [by apply hd_set|].
      eapply hd_cat; [apply (hd_run re_space [32] (34 :: q ++ 34 :: tail) c)|].
      { intros x ->%elem_of_list_singleton. done. } { done. }
      eapply hd_cat; [by apply hd_set|].
      apply (hd_cat _ _ _ _ (34 :: tail) ((3%nat, q) :: c)); [|by apply hd_set]. apply (hd_group 3 _ q (34 :: tail) c c).
      destruct (quoted_unitary print (v0 :: v)) as (us & Hus & Eq). fold q in Eq. rewrite Eq.
      apply hd_star; [|done]. rewrite Forall_forall in *. intros u Hu. by apply body_unit, Hus. }
  destruct (Hmid [(2%nat, k0 :: k); (1%nat, [])]) as (m3 & Hm3 & Hhd). exists m3. split; [done|].
  unfold re_tree_line.
  eapply hd_cat; [apply (hd_run re_space pad ((k0 :: k) ++ rest) []); [done|done]|].
  eapply hd_cat.
  { apply (hd_group 1 _ [] ((k0 :: k) ++ rest) [] []). apply hd_alt_r; [|apply hd_eps].
    apply set_stops. cbn [app stops]. by apply N.eqb_neq. }
  eapply hd_cat; [by apply hd_none|].
  eapply hd_cat.
  { apply (hd_group 2 _ (k0 :: k) rest [(1%nat, [])] [(1%nat, [])]). apply hd_alt_l. by apply hd_plus. }
  exact Hhd.
Qed.

Lemma node_line print pad k v (o : bool) : (forall x, x ∈ pad -> re_space x = true) -> writable_kind k ->
  tree_line (pad ++ k ++ value_part print v ++ (if o then L " {" else []))
  = Ok (Some (TLine false (Some (Lx k (respelled print v) (-1)%Z 0%Z)) o)).
Proof.
  intros Hpad Hk. destruct (node_line_hd print pad k v o Hpad Hk) as (m3 & Hm3 & Hhd).
  unfold tree_line. rewrite (find_hd _ _ _ _ Hhd). cbn [length]. rewrite Nat.sub_0_r, firstn_all, Nat.eqb_refl. cbn [negb].
  destruct Hk as [Hne _]. destruct k as [|k0 k]; [done|].
  destruct v as [|v0 v]; subst m3; cbn [app group Nat.eqb]; rewrite ?handle_slash_quoted; destruct o; done.
Qed.
Lemma close_line (pad : gostring) : (forall x, x ∈ pad -> re_space x = true) -> tree_line (pad ++ [125]) = Ok (Some (TLine true None false)).
Proof.
  intros Hpad. assert (Hhd : hd_is re_tree_line (pad ++ [125]) [] [] [(4%nat, []); (2%nat, []); (1%nat, [125])]).
  { unfold re_tree_line. eapply hd_cat; [by apply (hd_run re_space pad [125] [])|].
    eapply hd_cat; [apply (hd_group 1 _ [125] [] [] []); apply hd_alt_l; by apply hd_set|]. eexists. vm_compute. reflexivity. }
  unfold tree_line. rewrite (find_hd _ _ _ _ Hhd). cbn [length]. by rewrite Nat.sub_0_r, firstn_all, Nat.eqb_refl.
Qed.
Lemma empty_line : tree_line [] = Ok (Some (TLine false None false)).
Proof. reflexivity. Qed.

(** * Whole texts *)
Lemma segs_text print pad lx cs :
  List.concat (pn_segs print pad (PN lx cs))
  = (pad ++ lx_kind lx ++ value_part print (lx_val lx) ++ (match cs with [] => [] | _ => L " {" end))
    ++ 10 :: (match cs with [] => [] | _ => List.concat (map (fun t => List.concat (pn_segs print (pad ++ [c_tab]) t)) cs)
                ++ (pad ++ [125]) ++ [10] end).
Proof.
  cbn [pn_segs]. rewrite !concat_app. cbn [List.concat]. rewrite app_nil_r.
  assert (Hv : List.concat (match lx_val lx with [] => [] | v => [L ": " ++ quote print v] end) = value_part print (lx_val lx)).
  { destruct (lx_val lx); cbn [List.concat value_part]; [done|]. rewrite app_nil_r. reflexivity. }
  rewrite Hv, <- !app_assoc. do 3 f_equal. destruct cs as [|c cs]; [done|].
  rewrite !concat_app. cbn [List.concat]. rewrite !app_nil_r.
  rewrite <- !app_assoc. cbn [L app]. do 3 f_equal.
  assert (Hcc : forall (A : Type) (l : list (list (list A))), List.concat (List.concat l) = List.concat (map (@List.concat A) l)).
  { intros A l. induction l as [|x l IH]; [done|]. cbn [List.concat map]. by rewrite concat_app, IH. }
  rewrite Hcc, map_map. reflexivity.
Qed.

Lemma pad_tab (pad : gostring) : (forall x, x ∈ pad -> x = c_tab) -> forall x, x ∈ pad -> re_space x = true.
Proof. intros H x Hx. by rewrite (H x Hx). Qed.
Lemma no_nl_line print pad k v (o : bool) : (forall x, x ∈ pad -> x = c_tab) -> writable_kind k ->
  c_nl ∉ pad ++ k ++ value_part print v ++ (if o then L " {" else []).
Proof.
  intros Hp [_ Hk]. rewrite !elem_of_app. intros [H|[H|[H|H]]].
  - by apply Hp in H.
  - apply Hk in H. apply H. right. by left.
  - destruct v; [by apply elem_of_nil in H|]. cbn [value_part] in H.
    repeat (apply elem_of_cons in H as [H|H]; [done|]). apply elem_of_app in H as [H|H]; [by apply quoted_no_nl in H|].
    by apply elem_of_list_singleton in H.
  - destruct o; vm_compute in H; repeat (apply elem_of_cons in H as [H|H]; [done|]); by apply elem_of_nil in H.
Qed.

Lemma read_tree print : forall t, writable t -> forall pad rest up, (forall x, x ∈ pad -> x = c_tab) ->
  go_lines (split1 c_nl (List.concat (pn_segs print pad t) ++ rest)) (Some up)
  = go_lines (split1 c_nl rest) (Some (add_child (reread print t) up)).
Proof.
  induction t as [lx cs IH] using pn_ind_list. intros Hw pad rest up Hpad.
  inversion Hw as [? ? Hk Hcs]; subst. rewrite segs_text, <- app_assoc. cbn [app].
  destruct cs as [|c cs].
  - cbn [app]. rewrite split1_app.
    + cbn [go_lines]. pose proof (node_line print pad (lx_kind lx) (lx_val lx) false (pad_tab _ Hpad) Hk) as Hl.
      rewrite Hl. cbn [rbind]. reflexivity.
    + apply (no_nl_line print pad _ (lx_val lx) false Hpad Hk).
  - rewrite split1_app by (apply (no_nl_line print pad _ (lx_val lx) true Hpad Hk)).
    cbn [go_lines]. pose proof (node_line print pad (lx_kind lx) (lx_val lx) true (pad_tab _ Hpad) Hk) as Hl.
    rewrite Hl. cbn [rbind go_line tl_close tl_node tl_open go_node].
    remember (c :: cs) as ds eqn:Eds.
    assert (Hpad' : forall x, x ∈ pad ++ [c_tab] -> x = c_tab).
    { intros x. rewrite elem_of_app, elem_of_list_singleton. intros [H|H]; [by apply Hpad|done]. }
    assert (Hkids : forall l done_ rest', Forall (fun t => t ∈ ds) l -> go_lines (split1 c_nl
       (List.concat (map (fun t => List.concat (pn_segs print (pad ++ [c_tab]) t)) l) ++ rest'))
       (Some ((Lx (lx_kind lx) (respelled print (lx_val lx)) (-1)%Z 0%Z, done_) :: fst up, snd up))
       = go_lines (split1 c_nl rest')
       (Some ((Lx (lx_kind lx) (respelled print (lx_val lx)) (-1)%Z 0%Z, done_ ++ map (reread print) l) :: fst up, snd up))).
    { induction l as [|d l IHl]; intros done_ rest' Hl'; cbn [map List.concat app].
      - by rewrite app_nil_r.
      - apply Forall_cons in Hl' as [Hd Hl']. rewrite <- app_assoc.
        rewrite Forall_forall in IH, Hcs.
        rewrite (IH d Hd (Hcs d Hd) _ _ _ Hpad'). cbn [add_child]. rewrite IHl by done. by rewrite <- app_assoc. }
    rewrite <- app_assoc. rewrite Hkids by (by apply Forall_forall). cbn [app].
    rewrite <- app_assoc. cbn [app]. rewrite split1_app.
    + cbn [go_lines]. rewrite (close_line pad (pad_tab _ Hpad)). cbn [rbind go_line tl_close tl_node go_up].
      destruct up. reflexivity.
    + rewrite elem_of_app, elem_of_list_singleton. intros [H|H]; [by apply Hpad in H|done].
Qed.

Theorem round_trip print t : writable t -> tree_new (pn_string print (Some t)) = Ok (Some (reread print t)).
Proof.
  intros Hw. unfold tree_new, pn_string. cbn [node_segs].
  rewrite <- (app_nil_r (List.concat _)).
  rewrite (read_tree print t Hw [] [] ([], [])) by (intros x Hx; by apply elem_of_nil in Hx).
  cbn [split1 go_lines]. rewrite empty_line. reflexivity.
Qed.
Lemma reread_kept print t : values_kept print t -> reread print t = unset t.
Proof.
  induction t as [lx cs IH] using pn_ind_list. intros H. inversion H as [? ? Hk Hcs]; subst. cbn [reread unset].
  rewrite respelled_kept by done. f_equal. rewrite Forall_forall in IH, Hcs. apply map_ext_in. intros c Hc.
  apply elem_of_list_In in Hc. by apply IH, Hcs.
Qed.
Lemma reread_same print t : reread print t = unset t -> values_kept print t.
Proof.
  induction t as [lx cs IH] using pn_ind_list. cbn [reread unset]. intros [= Hv Hcs]. constructor.
  - by apply respelled_same.
  - rewrite Forall_forall in *. intros c Hc. apply IH; [done|]. clear -Hcs Hc.
    induction cs as [|d cs IHc]; [by apply elem_of_nil in Hc|]. cbn [map] in Hcs. injection Hcs as H1 H2.
    apply elem_of_cons in Hc as [->|Hc]; [done|]. by apply IHc.
Qed.
Theorem round_trip_iff print t : writable t ->
  tree_new (pn_string print (Some t)) = Ok (Some (unset t)) <-> values_kept print t.
Proof.
  intros Hw. rewrite (round_trip print t Hw). split; [intros [= H]; by apply reread_same|].
  intros H. by rewrite reread_kept.
Qed.
