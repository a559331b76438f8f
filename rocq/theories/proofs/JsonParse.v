(** Topdown on the grammar of documents. *)
From Coq Require Import String.
From Verif.spec Require Import JsonSpec TopdownSpec.
From Verif.proofs Require LeftRecProofs.
From Verif.proofs Require Import Fuel GramRows TopdownProofs TopdownThms RgMust JsonLex JsonText.
Local Open Scope nat_scope.
Local Open Scope list_scope.

Definition js_fuel : nat := 30 * 1000.
Definition js_op : rgop := default (RgOp gr_empty [] [] ∅ ∅) (rg_op js_grammar_text js_fuel).
Definition js_gr : gr := rg_gram js_op.
Definition k_vals := L "MoreVals*". Definition k_keys := L "MoreKeyVals*".
Definition js_bl : list (gostring * list gostring) := [(L "Array", [k_vals]); (L "Object", [k_keys])].
Lemma js_op_some : rg_op js_grammar_text js_fuel = Some js_op.
Proof.
  assert (H : (match rg_op js_grammar_text js_fuel with Some _ => true | None => false end) = true) by (vm_compute; reflexivity).
  unfold js_op. destruct (rg_op js_grammar_text js_fuel); [reflexivity|discriminate H].
Qed.
Lemma js_bl_is : rg_bludgeons js_op = list_to_map js_bl.
Proof. apply (bool_decide_unpack _). vm_compute. exact I. Qed.
Definition js_g : grammar := gr_view js_gr.
Definition alts : list gostring := [L "string"; L "number"; L "bool"; L "null"; L "Array"; L "Object"].
Definition js_rows : list (gostring * list (list gostring)) :=
  [(L "Value", map (fun x => [x]) alts);
   (L "Array", [[L "lb"; L "Value"; k_vals; L "rb"]; [L "lb"; L "rb"]]);
   (L "MoreVals", [[L "comma"; L "Value"]]);
   (L "Object", [[L "lcb"; L "KeyVal"; k_keys; L "rcb"]; [L "lcb"; L "rcb"]]);
   (L "MoreKeyVals", [[L "comma"; L "KeyVal"]]);
   (L "KeyVal", [[L "string"; L "colon"; L "Value"]]);
   (k_vals, [[L "MoreVals"; k_vals]; []]);
   (k_keys, [[L "MoreKeyVals"; k_keys]; []])].
Definition js_terms : list gostring := map lw_kind js_table.
Definition js_check (g : gr) : bool :=
  bool_decide (g_nts (gr_view g) = map fst js_rows) && forallb (fun r => bool_decide (g_prods (gr_view g) (fst r) = Some (snd r))) js_rows.
Lemma js_checked : js_check js_gr = true.
Proof. vm_compute. reflexivity. Qed.
Lemma js_nts : g_nts js_g = map fst js_rows.
Proof. pose proof js_checked as H. apply andb_true_iff in H as [H _]. by apply bool_decide_eq_true in H. Qed.
Lemma js_prods : Forall (fun r => g_prods js_g (fst r) = Some (snd r)) js_rows.
Proof.
  pose proof js_checked as H. apply andb_true_iff in H as [_ H]. rewrite forallb_forall in H. apply Forall_forall.
  intros r Hr. apply elem_of_list_In, H in Hr. by apply bool_decide_eq_true in Hr.
Qed.
Lemma js_wf : g_wf js_g.
Proof. exact (must_wf _ _ _ js_op_some). Qed.
Lemma js_prod i k ps : js_rows !! i = Some (k, ps) -> g_prods js_g k = Some ps.
Proof. intros H. pose proof js_prods as HP. rewrite Forall_lookup in HP. exact (HP i (k, ps) H). Qed.
Lemma js_none k : k ∉ map fst js_rows -> g_prods js_g k = None.
Proof. intros H. apply eq_None_not_Some. intros Hs. apply js_wf in Hs. by rewrite js_nts in Hs. Qed.
Definition p_value := js_prod 0 (L "Value") _ eq_refl.
Definition p_array := js_prod 1 (L "Array") _ eq_refl.
Definition p_moreval := js_prod 2 (L "MoreVals") _ eq_refl.
Definition p_object := js_prod 3 (L "Object") _ eq_refl.
Definition p_morekey := js_prod 4 (L "MoreKeyVals") _ eq_refl.
Definition p_keyval := js_prod 5 (L "KeyVal") _ eq_refl.
Definition p_vals := js_prod 6 k_vals _ eq_refl.
Definition p_keys := js_prod 7 k_keys _ eq_refl.
Lemma term_none k : k ∈ js_terms -> g_prods js_g k = None.
Proof.
  intros H. apply js_none. revert k H. apply Forall_forall. apply (bool_decide_unpack _). vm_compute. exact I.
Qed.
Lemma js_gr_is : rg_gram js_op = js_gr. Proof. reflexivity. Qed.
Global Opaque js_op js_gr.
Definition nt (k : string) (cs : list pn) : pn := PN (Lx (L k) [] (-1) 0) cs.

Section Oc.
  Variable lxs : list lexeme.
  Definition at_pos (pos : nat) (u : list (gostring * gostring)) : Prop := pairs (drop pos lxs) = u.
  Lemma at_cons pos k v u : at_pos pos ((k, v) :: u) -> exists lx, lxs !! pos = Some lx /\ lx_kind lx = k /\ lx_val lx = v /\ at_pos (S pos) u.
  Proof using.
    unfold at_pos. intros H. destruct (drop pos lxs) as [|lx r] eqn:E; [discriminate H|]. cbn [pairs map] in H. injection H as <- <- <-.
    exists lx. assert (lxs !! pos = Some lx) as Hp by (rewrite <- (Nat.add_0_r pos), <- lookup_drop, E; done).
    split; [done|]. split; [done|]. split; [done|]. apply drop_S in Hp. rewrite Hp in E. injection E as ->. done.
  Qed.
  Lemma at_nil pos : at_pos pos [] -> lxs !! pos = None.
  Proof using.
    unfold at_pos. intros H. destruct (drop pos lxs) as [|lx r] eqn:E; [|discriminate H]. rewrite <- (Nat.add_0_r pos), <- lookup_drop, E. done.
  Qed.
  Lemma at_app pos u r : at_pos pos (u ++ r) -> at_pos (pos + length u) r.
  Proof using.
    revert pos. induction u as [|[k v] u IH]; intros pos H; [by rewrite Nat.add_0_r|].
    apply at_cons in H as (lx & _ & _ & _ & H). apply IH in H. cbn [length]. by rewrite <- Nat.add_succ_comm.
  Qed.
  Lemma at_end pos : pos <= length lxs -> at_pos pos [] -> pos = length lxs.
  Proof using.
    intros Hle H. apply at_nil, lookup_ge_None in H. lia.
  Qed.
  Notation sym := (oc_sym js_g lxs).
  Notation seq' := (oc_seq js_g lxs).
  Definition not_at (k : gostring) (r : list (gostring * gostring)) : Prop := match r with (k', _) :: _ => k' <> k | [] => True end.
  Lemma sym_not k pos r : k ∈ js_terms -> at_pos pos r -> not_at k r -> sym k pos None.
  Proof using.
    intros Hk Hr Hn. apply term_none in Hk. destruct r as [|[k' v] r].
    - apply oc_term_end; [done|by apply at_nil].
    - apply at_cons in Hr as (lx & Hl & <- & _). by eapply oc_term_other.
  Qed.
  Lemma sym_is k v pos r : k ∈ js_terms -> at_pos pos ((k, v) :: r) -> exists lx, sym k pos (Some (PN lx [], S pos)) /\ lx_kind lx = k /\ lx_val lx = v /\ at_pos (S pos) r.
  Proof using.
    intros Hk Hr. apply term_none in Hk. apply at_cons in Hr as (lx & Hl & H1 & H2 & H3). exists lx. split; [apply oc_term; assumption|]. repeat split; assumption.
  Qed.
  Ltac term := apply (bool_decide_unpack _); vm_compute; exact I.
  Lemma array_not pos r : at_pos pos r -> not_at (L "lb") r -> sym (L "Array") pos None.
  Proof using.
    intros Hr Hn. eapply oc_nt; [exact p_array|]. assert (sym (L "lb") pos None) by (eapply sym_not; [term|exact Hr|exact Hn]).
    apply oc_miss; [by apply oc_fail|]. apply oc_miss; [by apply oc_fail|]. apply oc_none.
  Qed.
  Lemma object_not pos r : at_pos pos r -> not_at (L "lcb") r -> sym (L "Object") pos None.
  Proof using.
    intros Hr Hn. eapply oc_nt; [exact p_object|]. assert (sym (L "lcb") pos None) by (eapply sym_not; [term|exact Hr|exact Hn]).
    apply oc_miss; [by apply oc_fail|]. apply oc_miss; [by apply oc_fail|]. apply oc_none.
  Qed.
  Lemma singles_none s pos xs : Forall (fun x => sym x pos None) xs -> oc_prods js_g lxs s pos (map (fun x => [x]) xs) None.
  Proof using. induction 1; cbn [map]; [apply oc_none|]. apply oc_miss; [by apply oc_fail|done]. Qed.
  Lemma singles_hit s pos xs x ys t e : Forall (fun x => sym x pos None) xs -> sym x pos (Some (t, e)) ->
    oc_prods js_g lxs s pos (map (fun x => [x]) (xs ++ x :: ys)) (Some (PN (Lx s [] (-1) 0) [t], e)).
  Proof using.
    intros H Hx. induction H; cbn [map app].
    - apply oc_hit. eapply oc_cons; [exact Hx|apply oc_nil].
    - apply oc_miss; [by apply oc_fail|done].
  Qed.
  Lemma top_hit s xs x ys t : Forall (fun x => sym x 0 None) xs -> sym x 0 (Some (t, length lxs)) ->
    oc_top js_g lxs s (map (fun x => [x]) (xs ++ x :: ys)) (Some (PN (Lx s [] (-1) 0) [t])).
  Proof using.
    intros H Hx. induction H; cbn [map app].
    - apply ot_hit. eapply oc_cons; [exact Hx|apply oc_nil].
    - apply ot_miss; [by apply oc_fail|done].
  Qed.
  Lemma value_not pos k v r : at_pos pos ((k, v) :: r) -> k ∉ [L "string"; L "number"; L "bool"; L "null"; L "lb"; L "lcb"] -> sym (L "Value") pos None.
  Proof using.
    intros Hr Hk. eapply oc_nt; [exact p_value|]. unfold alts. rewrite !not_elem_of_cons in Hk. destruct Hk as (H1 & H2 & H3 & H4 & H5 & H6 & _).
    apply singles_none. repeat apply List.Forall_cons; [| | | | | |apply List.Forall_nil].
    1-4: eapply sym_not; [term|exact Hr|done].
    - by eapply array_not.
    - by eapply object_not.
  Qed.
  Lemma vals_end pos r : at_pos pos r -> not_at (L "comma") r -> sym k_vals pos (Some (PN (Lx k_vals [] (-1) 0) [], pos)).
  Proof using.
    intros Hr Hn. eapply oc_nt; [exact p_vals|]. apply oc_miss; [|apply oc_hit, oc_nil]. apply oc_fail. eapply oc_nt; [exact p_moreval|].
    apply oc_miss; [|apply oc_none]. apply oc_fail. eapply sym_not; [term|exact Hr|exact Hn].
  Qed.
  Lemma keys_end pos r : at_pos pos r -> not_at (L "comma") r -> sym k_keys pos (Some (PN (Lx k_keys [] (-1) 0) [], pos)).
  Proof using.
    intros Hr Hn. eapply oc_nt; [exact p_keys|]. apply oc_miss; [|apply oc_hit, oc_nil]. apply oc_fail. eapply oc_nt; [exact p_morekey|].
    apply oc_miss; [|apply oc_none]. apply oc_fail. eapply sym_not; [term|exact Hr|exact Hn].
  Qed.
  Lemma vals_more pos c t e e' m : sym (L "comma") pos (Some (c, S pos)) -> sym (L "Value") (S pos) (Some (t, e)) -> sym k_vals e (Some (m, e')) ->
    sym k_vals pos (Some (PN (Lx k_vals [] (-1) 0) [nt "MoreVals" [c; t]; m], e')).
  Proof using.
    intros H1 H2 H3. eapply oc_nt; [exact p_vals|]. apply oc_hit. eapply oc_cons; [|eapply oc_cons; [exact H3|apply oc_nil]].
    eapply oc_nt; [exact p_moreval|]. apply oc_hit. eapply oc_cons; [exact H1|]. eapply oc_cons; [exact H2|apply oc_nil].
  Qed.
  Lemma keys_more pos c t e e' m : sym (L "comma") pos (Some (c, S pos)) -> sym (L "KeyVal") (S pos) (Some (t, e)) -> sym k_keys e (Some (m, e')) ->
    sym k_keys pos (Some (PN (Lx k_keys [] (-1) 0) [nt "MoreKeyVals" [c; t]; m], e')).
  Proof using.
    intros H1 H2 H3. eapply oc_nt; [exact p_keys|]. apply oc_hit. eapply oc_cons; [|eapply oc_cons; [exact H3|apply oc_nil]].
    eapply oc_nt; [exact p_morekey|]. apply oc_hit. eapply oc_cons; [exact H1|]. eapply oc_cons; [exact H2|apply oc_nil].
  Qed.
  Lemma keyval_is pos k c v t e : sym (L "string") pos (Some (k, S pos)) -> sym (L "colon") (S pos) (Some (c, v)) -> sym (L "Value") v (Some (t, e)) ->
    sym (L "KeyVal") pos (Some (nt "KeyVal" [k; c; t], e)).
  Proof using.
    intros H1 H2 H3. eapply oc_nt; [exact p_keyval|]. apply oc_hit. eapply oc_cons; [exact H1|]. eapply oc_cons; [exact H2|]. eapply oc_cons; [exact H3|apply oc_nil].
  Qed.
End Oc.

(** * The tree of a document *)
Inductive tv : json -> pn -> Prop :=
| tv_leaf lx : lx_kind lx ∈ leaf_kinds -> tv (JLeaf (lx_val lx)) (nt "Value" [PN lx []])
| tv_no_items a b : lx_kind a = L "lb" -> lx_kind b = L "rb" -> tv (JArr []) (nt "Value" [nt "Array" [PN a []; PN b []]])
| tv_items l a t m b : lx_kind a = L "lb" -> lx_kind b = L "rb" -> ti l t m ->
    tv (JArr l) (nt "Value" [nt "Array" [PN a []; t; m; PN b []]])
| tv_no_entries a b : lx_kind a = L "lcb" -> lx_kind b = L "rcb" -> tv (JObj []) (nt "Value" [nt "Object" [PN a []; PN b []]])
| tv_entries l a t m b : lx_kind a = L "lcb" -> lx_kind b = L "rcb" -> te l t m ->
    tv (JObj l) (nt "Value" [nt "Object" [PN a []; t; m; PN b []]])
with ti : list json -> pn -> pn -> Prop :=
| ti_one J t : tv J t -> ti [J] t (PN (Lx k_vals [] (-1) 0) [])
| ti_more J l t c t' m : tv J t -> ti l t' m -> ti (J :: l) t (PN (Lx k_vals [] (-1) 0) [nt "MoreVals" [c; t']; m])
with te : list (gostring * json) -> pn -> pn -> Prop :=
| te_one k c J t : lx_kind k = L "string" -> tv J t -> te [(lx_val k, J)] (nt "KeyVal" [PN k []; c; t]) (PN (Lx k_keys [] (-1) 0) [])
| te_more k c J t l c' t' m : lx_kind k = L "string" -> tv J t -> te l t' m ->
    te ((lx_val k, J) :: l) (nt "KeyVal" [PN k []; c; t]) (PN (Lx k_keys [] (-1) 0) [nt "MoreKeyVals" [c'; t']; m]).
Scheme tv_mut := Induction for tv Sort Prop with ti_mut := Induction for ti Sort Prop with te_mut := Induction for te Sort Prop.
Combined Scheme t_mut from tv_mut, ti_mut, te_mut.

Section Trees.
  Variable lxs : list lexeme.
  Notation sym := (oc_sym js_g lxs).
  Notation at_pos := (at_pos lxs).
  Definition chosen (J : json) (pos e : nat) : Prop := exists xs x ys t,
    alts = xs ++ x :: ys /\ Forall (fun y => sym y pos None) xs /\ sym x pos (Some (t, e)) /\ tv J (nt "Value" [t]).
  Lemma chosen_value J pos e : chosen J pos e -> exists t, sym (L "Value") pos (Some (t, e)) /\ tv J t.
  Proof using.
    intros (xs & x & ys & t & Ha & Hx & Ht & Hv). exists (nt "Value" [t]). split; [|exact Hv].
    eapply oc_nt; [exact p_value|]. rewrite Ha. by apply singles_hit.
  Qed.
  Ltac term := apply (bool_decide_unpack _); vm_compute; exact I.
  Lemma choose_at (n : nat) x J pos k v r t e : at_pos pos ((k, v) :: r) -> alts !! n = Some x -> n < 6 ->
    forallb (fun y => bool_decide (y ∈ js_terms) && bool_decide (y <> k)) (take (Nat.min n 4) alts) = true ->
    (4 < n -> k <> L "lb") -> sym x pos (Some (t, e)) -> tv J (nt "Value" [t]) -> chosen J pos e.
  Proof using.
    intros Hp Hn Hlt Hf Ha Hx Hv. exists (take n alts), x, (drop (S n) alts), t. split; [symmetry; by apply take_drop_middle|]. split; [|done].
    rewrite forallb_forall in Hf. apply Forall_forall. intros y Hy.
    assert (H4 : y ∈ take (Nat.min n 4) alts -> sym y pos None).
    { intros Hin. apply elem_of_list_In, Hf, andb_true_iff in Hin as [H1%bool_decide_eq_true H2%bool_decide_eq_true].
      eapply sym_not; [exact H1|exact Hp|]. cbn [not_at]. by apply not_eq_sym. }
    destruct (decide (4 < n)) as [H5|H5]; [|apply H4; by rewrite Nat.min_l by lia].
    assert (n = 5) as -> by lia. cbn [Nat.min] in H4. change (take 5 alts) with (take 4 alts ++ [L "Array"]) in Hy.
    apply elem_of_app in Hy as [Hy|Hy]; [by apply H4|]. apply elem_of_list_singleton in Hy as ->. eapply array_not; [exact Hp|]. cbn [not_at]. by apply Ha.
  Qed.
  Lemma parse_mut :
    (forall J u, wv J u -> forall pos r, at_pos pos (u ++ r) -> chosen J pos (pos + length u))
    /\ (forall l u, wi l u -> forall pos r, not_at (L "comma") r -> at_pos pos (u ++ r) ->
        exists t e m, sym (L "Value") pos (Some (t, e)) /\ sym k_vals e (Some (m, pos + length u)) /\ ti l t m)
    /\ (forall l u, we l u -> forall pos r, not_at (L "comma") r -> at_pos pos (u ++ r) ->
        exists t e m, sym (L "KeyVal") pos (Some (t, e)) /\ sym k_keys e (Some (m, pos + length u)) /\ te l t m).
  Proof using.
    apply (w_mut
      (fun J u _ => forall pos r, at_pos pos (u ++ r) -> chosen J pos (pos + length u))
      (fun l u _ => forall pos r, not_at (L "comma") r -> at_pos pos (u ++ r) ->
        exists t e m, sym (L "Value") pos (Some (t, e)) /\ sym k_vals e (Some (m, pos + length u)) /\ ti l t m)
      (fun l u _ => forall pos r, not_at (L "comma") r -> at_pos pos (u ++ r) ->
        exists t e m, sym (L "KeyVal") pos (Some (t, e)) /\ sym k_keys e (Some (m, pos + length u)) /\ te l t m)).
    - intros k v Hk pos r Hp. cbn [app length] in *. rewrite Nat.add_1_r.
      destruct (sym_is lxs k v pos r) as (lx & Hs & H1 & <- & _).
      { revert Hk. revert k Hp. intros k _. revert k. apply Forall_forall. term. } { exact Hp. }
      assert (Ht : tv (JLeaf (lx_val lx)) (nt "Value" [PN lx []])) by (constructor; by rewrite H1).
      unfold leaf_kinds in Hk. rewrite !elem_of_cons, elem_of_nil in Hk. destruct Hk as [->|[->|[->|[->|[]]]]].
      + apply (choose_at 0 _ _ _ _ _ _ _ _ Hp eq_refl ltac:(lia) eq_refl ltac:(lia) Hs Ht).
      + apply (choose_at 1 _ _ _ _ _ _ _ _ Hp eq_refl ltac:(lia) eq_refl ltac:(lia) Hs Ht).
      + apply (choose_at 2 _ _ _ _ _ _ _ _ Hp eq_refl ltac:(lia) eq_refl ltac:(lia) Hs Ht).
      + apply (choose_at 3 _ _ _ _ _ _ _ _ Hp eq_refl ltac:(lia) eq_refl ltac:(lia) Hs Ht).
    - intros a b pos r Hp. cbn [app length] in *.
      destruct (sym_is lxs (L "lb") a pos _ ltac:(term) Hp) as (la & Ha & Ka & _ & Hp1).
      destruct (sym_is lxs (L "rb") b (S pos) _ ltac:(term) Hp1) as (lb & Hb & Kb & _ & Hp2).
      replace (pos + 2) with (S (S pos)) by lia.
      eapply (choose_at 4 (L "Array") _ _ _ _ _ _ _ Hp eq_refl ltac:(lia) eq_refl ltac:(lia)); [|exact (tv_no_items la lb Ka Kb)].
      eapply oc_nt; [exact p_array|]. apply oc_miss.
      + eapply oc_fail_later; [exact Ha|]. apply oc_fail. eapply value_not; [exact Hp1|term].
      + apply oc_hit. eapply oc_cons; [exact Ha|]. eapply oc_cons; [exact Hb|apply oc_nil].
    - intros l u a b Hi IH pos r Hp. cbn [app length] in *. rewrite <- app_assoc in Hp. cbn [app] in Hp.
      destruct (sym_is lxs (L "lb") a pos _ ltac:(term) Hp) as (la & Ha & Ka & _ & Hp1).
      destruct (IH (S pos) ((L "rb", b) :: r) ltac:(discriminate) Hp1) as (t & e & m & Ht & Hm & Hti).
      apply at_app in Hp1. destruct (sym_is lxs (L "rb") b _ _ ltac:(term) Hp1) as (lb & Hb & Kb & _ & Hp2).
      rewrite app_length. cbn [length]. replace (pos + S (length u + 1)) with (S (S pos + length u)) by lia.
      eapply (choose_at 4 (L "Array") _ _ _ _ _ _ _ Hp eq_refl ltac:(lia) eq_refl ltac:(lia)); [|exact (tv_items l la t m lb Ka Kb Hti)].
      eapply oc_nt; [exact p_array|]. apply oc_hit. eapply oc_cons; [exact Ha|]. eapply oc_cons; [exact Ht|]. eapply oc_cons; [exact Hm|].
      eapply oc_cons; [exact Hb|apply oc_nil].
    - intros a b pos r Hp. cbn [app length] in *.
      destruct (sym_is lxs (L "lcb") a pos _ ltac:(term) Hp) as (la & Ha & Ka & _ & Hp1).
      destruct (sym_is lxs (L "rcb") b (S pos) _ ltac:(term) Hp1) as (lb & Hb & Kb & _ & Hp2).
      replace (pos + 2) with (S (S pos)) by lia.
      eapply (choose_at 5 (L "Object") _ _ _ _ _ _ _ Hp eq_refl ltac:(lia) eq_refl ltac:(discriminate)); [|exact (tv_no_entries la lb Ka Kb)].
      eapply oc_nt; [exact p_object|]. apply oc_miss.
      + eapply oc_fail_later; [exact Ha|]. apply oc_fail. eapply oc_nt; [exact p_keyval|]. apply oc_miss; [|apply oc_none].
        apply oc_fail. eapply sym_not; [term|exact Hp1|discriminate].
      + apply oc_hit. eapply oc_cons; [exact Ha|]. eapply oc_cons; [exact Hb|apply oc_nil].
    - intros l u a b Hi IH pos r Hp. cbn [app length] in *. rewrite <- app_assoc in Hp. cbn [app] in Hp.
      destruct (sym_is lxs (L "lcb") a pos _ ltac:(term) Hp) as (la & Ha & Ka & _ & Hp1).
      destruct (IH (S pos) ((L "rcb", b) :: r) ltac:(discriminate) Hp1) as (t & e & m & Ht & Hm & Hti).
      apply at_app in Hp1. destruct (sym_is lxs (L "rcb") b _ _ ltac:(term) Hp1) as (lb & Hb & Kb & _ & Hp2).
      rewrite app_length. cbn [length]. replace (pos + S (length u + 1)) with (S (S pos + length u)) by lia.
      eapply (choose_at 5 (L "Object") _ _ _ _ _ _ _ Hp eq_refl ltac:(lia) eq_refl ltac:(discriminate)); [|exact (tv_entries l la t m lb Ka Kb Hti)].
      eapply oc_nt; [exact p_object|]. apply oc_hit. eapply oc_cons; [exact Ha|]. eapply oc_cons; [exact Ht|]. eapply oc_cons; [exact Hm|].
      eapply oc_cons; [exact Hb|apply oc_nil].
    - intros J u _ IH pos r Hr Hp. destruct (chosen_value _ _ _ (IH pos r Hp)) as (t & Ht & Hv). apply at_app in Hp.
      exists t, (pos + length u), (PN (Lx k_vals [] (-1) 0) []). split; [exact Ht|]. split; [by eapply vals_end|by constructor].
    - intros J l u a v _ IH _ IHl pos r Hr Hp. rewrite <- app_assoc in Hp. cbn [app] in Hp.
      destruct (chosen_value _ _ _ (IH pos _ Hp)) as (t & Ht & Hv). apply at_app in Hp.
      destruct (sym_is lxs (L "comma") a _ _ ltac:(term) Hp) as (la & Ha & _ & _ & Hp1).
      destruct (IHl _ r Hr Hp1) as (t' & e & m & Ht' & Hm & Hti).
      rewrite app_length. cbn [length]. replace (pos + (length u + S (length v))) with (S (pos + length u) + length v) by lia.
      eexists t, (pos + length u), _. split; [exact Ht|]. split; [eapply vals_more; [exact Ha|exact Ht'|exact Hm]|by constructor].
    - intros k J c u _ IH pos r Hr Hp. cbn [app length] in *.
      destruct (sym_is lxs (L "string") k _ _ ltac:(term) Hp) as (lk & Hk & Hk' & <- & Hp1).
      destruct (sym_is lxs (L "colon") c _ _ ltac:(term) Hp1) as (lc & Hc & _ & _ & Hp2).
      destruct (chosen_value _ _ _ (IH _ r Hp2)) as (t & Ht & Hv). apply at_app in Hp2.
      replace (pos + S (S (length u))) with (S (S pos) + length u) by lia.
      eexists _, (S (S pos) + length u), _. split; [eapply keyval_is; [exact Hk|exact Hc|exact Ht]|]. split; [by eapply keys_end|by constructor].
    - intros k J l c u a v _ IH _ IHl pos r Hr Hp. cbn [app length] in *. rewrite <- app_assoc in Hp. cbn [app] in Hp.
      destruct (sym_is lxs (L "string") k _ _ ltac:(term) Hp) as (lk & Hk & Hk' & <- & Hp1).
      destruct (sym_is lxs (L "colon") c _ _ ltac:(term) Hp1) as (lc & Hc & _ & _ & Hp2).
      destruct (chosen_value _ _ _ (IH _ _ Hp2)) as (t & Ht & Hv). apply at_app in Hp2.
      destruct (sym_is lxs (L "comma") a _ _ ltac:(term) Hp2) as (la & Ha & _ & _ & Hp3).
      destruct (IHl _ r Hr Hp3) as (t' & e & m & Ht' & Hm & Hti).
      rewrite app_length. cbn [length]. replace (pos + S (S (length u + S (length v)))) with (S (S (S pos) + length u) + length v) by lia.
      eexists _, (S (S pos) + length u), _. split; [eapply keyval_is; [exact Hk|exact Hc|exact Ht]|]. split; [eapply keys_more; [exact Ha|exact Ht'|exact Hm]|by constructor].
  Qed.
  Lemma parse_doc J : wv J (pairs lxs) -> exists t, returns (fun n => td_parse n js_g lxs) (Some t) /\ tv J t.
  Proof using.
    intros H. assert (Hp : at_pos 0 (pairs lxs ++ [])) by (unfold JsonParse.at_pos; by rewrite drop_0, app_nil_r).
    destruct (proj1 parse_mut J _ H 0 [] Hp) as (xs & x & ys & t & Ha & Hx & Ht & Hv). exists (nt "Value" [t]). split; [|exact Hv].
    apply td_parse_oc; [exact js_wf|]. eapply op_start; [exact js_nts|exact p_value|]. rewrite Ha. apply top_hit; [exact Hx|].
    cbn [Nat.add] in Ht. unfold pairs in Ht. by rewrite map_length in Ht.
  Qed.
End Trees.

(** * What has a tree is a document *)
Inductive more_vals : list json -> list (gostring * gostring) -> Prop :=
| mv_nil : more_vals [] []
| mv_cons J l a u v : wv J u -> more_vals l v -> more_vals (J :: l) ((L "comma", a) :: u ++ v).
Definition key_val (e : gostring * json) (u : list (gostring * gostring)) : Prop :=
  exists c v, u = (L "string", fst e) :: (L "colon", c) :: v /\ wv (snd e) v.
Inductive more_keys : list (gostring * json) -> list (gostring * gostring) -> Prop :=
| mk_nil : more_keys [] []
| mk_cons e l a u v : key_val e u -> more_keys l v -> more_keys (e :: l) ((L "comma", a) :: u ++ v).
Lemma more_items l v : more_vals l v -> forall J u, wv J u -> wi (J :: l) (u ++ v).
Proof.
  induction 1 as [|J' l a u' v H _ IH]; intros J u Hu; [rewrite app_nil_r; by constructor|]. apply wi_more; [done|]. by apply IH.
Qed.
Lemma more_entries l v : more_keys l v -> forall e u, key_val e u -> we (e :: l) (u ++ v).
Proof.
  induction 1 as [|e' l a u' v H _ IH]; intros [k J] u (c & w & -> & Hu); cbn [fst snd] in *; [rewrite app_nil_r; by constructor|].
  cbn [app]. apply we_more; [done|]. by apply IH.
Qed.
Definition fits (s : gostring) (u : list (gostring * gostring)) : Prop :=
  if decide (s = L "Value" \/ s = L "Array" \/ s = L "Object") then exists J, wv J u
  else if decide (s = L "MoreVals") then exists a J v, u = (L "comma", a) :: v /\ wv J v
  else if decide (s = k_vals) then exists l, more_vals l u
  else if decide (s = L "KeyVal") then exists e, key_val e u
  else if decide (s = L "MoreKeyVals") then exists a e v, u = (L "comma", a) :: v /\ key_val e v
  else if decide (s = k_keys) then exists l, more_keys l u
  else exists v, u = [(s, v)].
Fixpoint all_fit (p : list gostring) (u : list (gostring * gostring)) : Prop :=
  match p with [] => u = [] | s :: r => exists a b, u = a ++ b /\ fits s a /\ all_fit r b end.
Lemma all_fit_nil u : all_fit [] u -> u = [].
Proof. intros H. exact H. Qed.
Lemma all_fit_cons s r u : all_fit (s :: r) u -> exists a b, u = a ++ b /\ fits s a /\ all_fit r b.
Proof. intros H. exact H. Qed.
Lemma fits_term k u : k ∈ js_terms -> fits k u -> exists v, u = [(k, v)].
Proof.
  intros Hk H. unfold fits in H.
  assert (Hn : k ∉ map fst js_rows) by (revert k Hk H; intros k Hk _; revert k Hk; apply Forall_forall; apply (bool_decide_unpack _); vm_compute; exact I).
  cbn [map fst js_rows] in Hn. rewrite !not_elem_of_cons in Hn. destruct Hn as (H1 & H2 & H3 & H4 & H5 & H6 & H7 & H8 & _).
  rewrite decide_False in H by tauto. rewrite !decide_False in H by assumption. exact H.
Qed.
Ltac split_fit H :=
  match type of H with
  | all_fit [] ?u => apply all_fit_nil in H; subst u
  | all_fit (_ :: _) ?u => let a := fresh "a" in let b := fresh "b" in let Hf := fresh "Hf" in apply all_fit_cons in H as (a & b & -> & Hf & H); split_fit H
  end.
Ltac is_term := apply (bool_decide_unpack _); vm_compute; exact I.
Ltac terms := repeat match goal with
  | H : fits ?k ?a |- _ => apply fits_term in H as [? ->]; [|is_term]
  end.
Lemma rule_fits : Forall (fun r => forall u, all_fit (snd r) u -> fits (fst r) u) (flat_map (fun r => map (pair (fst r)) (snd r)) js_rows).
Proof.
  change (flat_map (fun r => map (pair (fst r)) (snd r)) js_rows) with
    [(L "Value", [L "string"]); (L "Value", [L "number"]); (L "Value", [L "bool"]); (L "Value", [L "null"]); (L "Value", [L "Array"]); (L "Value", [L "Object"]);
     (L "Array", [L "lb"; L "Value"; k_vals; L "rb"]); (L "Array", [L "lb"; L "rb"]); (L "MoreVals", [L "comma"; L "Value"]);
     (L "Object", [L "lcb"; L "KeyVal"; k_keys; L "rcb"]); (L "Object", [L "lcb"; L "rcb"]); (L "MoreKeyVals", [L "comma"; L "KeyVal"]);
     (L "KeyVal", [L "string"; L "colon"; L "Value"]); (k_vals, [L "MoreVals"; k_vals]); (k_vals, []); (k_keys, [L "MoreKeyVals"; k_keys]); (k_keys, [])].
  repeat apply List.Forall_cons; [..|apply List.Forall_nil]; cbn [fst snd]; intros u H; split_fit H.
  1-4: apply fits_term in Hf as [v ->]; [|is_term]; eexists; apply wv_leaf; is_term.
  1-2: rewrite app_nil_r; exact Hf.
  - apply fits_term in Hf as [a' ->]; [|is_term]. apply fits_term in Hf2 as [b' ->]; [|is_term].
    destruct Hf0 as [J HJ]. destruct Hf1 as [l Hl]. exists (JArr (J :: l)). rewrite app_nil_r. cbn [app]. rewrite app_assoc. apply wv_items. by apply more_items.
  - apply fits_term in Hf as [a' ->]; [|is_term]. apply fits_term in Hf0 as [b' ->]; [|is_term]. eexists. apply wv_no_items.
  - apply fits_term in Hf as [a' ->]; [|is_term]. destruct Hf0 as [J HJ]. rewrite app_nil_r. by exists a', J, a0.
  - apply fits_term in Hf as [a' ->]; [|is_term]. apply fits_term in Hf2 as [b' ->]; [|is_term].
    destruct Hf0 as [e He]. destruct Hf1 as [l Hl]. exists (JObj (e :: l)). rewrite app_nil_r. cbn [app]. rewrite app_assoc. apply wv_entries. by apply more_entries.
  - apply fits_term in Hf as [a' ->]; [|is_term]. apply fits_term in Hf0 as [b' ->]; [|is_term]. eexists. apply wv_no_entries.
  - apply fits_term in Hf as [a' ->]; [|is_term]. destruct Hf0 as [e He]. rewrite app_nil_r. by exists a', e, a0.
  - apply fits_term in Hf as [k ->]; [|is_term]. apply fits_term in Hf0 as [c ->]; [|is_term]. destruct Hf1 as [J HJ]. rewrite app_nil_r.
    exists (k, J), c, a1. done.
  - destruct Hf as (a' & J & v & -> & HJ). destruct Hf0 as [l Hl]. rewrite app_nil_r. exists (J :: l). by apply mv_cons.
  - exists []. constructor.
  - destruct Hf as (a' & e & v & -> & He). destruct Hf0 as [l Hl]. rewrite app_nil_r. exists (e :: l). by apply mk_cons.
  - exists []. constructor.
Qed.
Lemma tree_fits s t u : is_tree js_g s t u -> Forall (fun x => lx_kind x ∈ js_terms) u -> fits s (pairs u).
Proof.
  revert s t u.
  apply (is_tree_mut js_g (fun s t u _ => Forall (fun x => lx_kind x ∈ js_terms) u -> fits s (pairs u))
    (fun p cs u _ => Forall (fun x => lx_kind x ∈ js_terms) u -> all_fit p (pairs u))).
  - intros lx H Hok. apply Forall_inv in Hok.
    assert (Hn : lx_kind lx ∉ map fst js_rows).
    { rewrite <- js_nts. intros Hin. apply js_wf in Hin. rewrite H in Hin. by destruct Hin. }
    cbn [map fst js_rows] in Hn. rewrite !not_elem_of_cons in Hn. destruct Hn as (H1 & H2 & H3 & H4 & H5 & H6 & H7 & H8 & _).
    unfold fits. rewrite decide_False by tauto. rewrite !decide_False by assumption. by exists (lx_val lx).
  - intros lx ps p cs lxs Hps Hp _ IH Hok. pose proof rule_fits as HR. rewrite Forall_forall in HR. apply (HR (lx_kind lx, p)); [|by apply IH].
    apply (rows_rule js_g js_rows js_wf js_nts js_prods _ ps); assumption.
  - intros _. reflexivity.
  - intros s r c cs u v _ IH1 _ IH2 Hok. apply Forall_app in Hok as [Hu Hv]. exists (pairs u), (pairs v). split; [apply map_app|]. auto.
Qed.
Lemma tree_doc t u : is_tree js_g (L "Value") t u -> Forall (fun x => lx_kind x ∈ js_terms) u -> exists J, wv J (pairs u).
Proof. intros H1 H2. exact (tree_fits _ _ _ H1 H2). Qed.

(** * Topdown accepts this grammar and always answers *)
Lemma term_empty k : k ∈ js_terms -> ~ derives js_g k [].
Proof. intros Hk H. apply term_none in Hk. inversion H; congruence. Qed.
Lemma first_empty s p x : g_prods js_g s = Some [x :: p] -> ~ derives js_g x [] -> ~ derives js_g s [].
Proof.
  intros Hs Hx H. inversion H as [|? ps q ? Hps Hq Hd]; subst. rewrite Hs in Hps. injection Hps as <-. apply elem_of_list_singleton in Hq as ->.
  inversion Hd as [|? ? u v Hu Hv]; subst. match goal with E : _ ++ _ = [] |- _ => apply app_eq_nil in E as [-> ->] end. exact (Hx Hu).
Qed.
Lemma js_solid : solid_starts js_g.
Proof.
  intros A ps x r HA Hp Hr.
  assert (H : Forall (fun q : gostring * list gostring => match snd q with y :: _ :: _ => ~ derives js_g y [] | _ => True end)
    (flat_map (fun r => map (pair (fst r)) (snd r)) js_rows)).
  { change (flat_map (fun r => map (pair (fst r)) (snd r)) js_rows) with
    [(L "Value", [L "string"]); (L "Value", [L "number"]); (L "Value", [L "bool"]); (L "Value", [L "null"]); (L "Value", [L "Array"]); (L "Value", [L "Object"]);
     (L "Array", [L "lb"; L "Value"; k_vals; L "rb"]); (L "Array", [L "lb"; L "rb"]); (L "MoreVals", [L "comma"; L "Value"]);
     (L "Object", [L "lcb"; L "KeyVal"; k_keys; L "rcb"]); (L "Object", [L "lcb"; L "rcb"]); (L "MoreKeyVals", [L "comma"; L "KeyVal"]);
     (L "KeyVal", [L "string"; L "colon"; L "Value"]); (k_vals, [L "MoreVals"; k_vals]); (k_vals, []); (k_keys, [L "MoreKeyVals"; k_keys]); (k_keys, [])].
    repeat apply List.Forall_cons; [..|apply List.Forall_nil]; cbn [snd]; try exact I; try (apply term_empty; is_term).
    - eapply first_empty; [exact p_moreval|]. apply term_empty; is_term.
    - eapply first_empty; [exact p_morekey|]. apply term_empty; is_term. }
  rewrite Forall_forall in H. specialize (H (A, x :: r) (rows_rule js_g js_rows js_wf js_nts js_prods A ps _ HA Hp)). cbn [snd] in H.
  destruct r; [exfalso; exact (Hr eq_refl)|exact H].
Qed.
Lemma js_new : returns (fun n => td_new n js_g) true.
Proof.
  apply (returns_at _ 100); [|vm_compute; reflexivity].
  intros n m Hle. apply rle_bind; [apply LeftRecProofs.is_lr_mono; exact Hle|]. intros; apply rle_refl.
Qed.
Lemma js_answers lxs : exists r, returns (fun n => td_parse n js_g lxs) r.
Proof. exact (td_new_parse js_g lxs js_wf js_solid js_new). Qed.
Lemma parse_not lxs : Forall (fun x => lx_kind x ∈ js_terms) lxs -> (forall J, ~ wv J (pairs lxs)) -> returns (fun n => td_parse n js_g lxs) None.
Proof.
  intros Hk Hn. destruct (js_answers lxs) as [[t|] Ht]; [|exact Ht]. exfalso.
  destruct (topdown_sound js_g lxs t js_wf Ht) as (s0 & rest & E & Hs). rewrite js_nts in E. injection E as <- _.
  destruct (tree_doc t lxs Hs Hk) as [J HJ]. exact (Hn J HJ).
Qed.
