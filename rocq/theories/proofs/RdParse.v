(** Trees of the grammar of descriptions, and what they evaluate to. *)
From Coq Require Import String.
From Verif.spec Require Import ReducerSpec.
From Verif.spec Require TreeSpec.
From Verif.proofs Require Import GrammarProofs GramRows TreeProofs RegexGramFlat RgMust.
Local Open Scope nat_scope.
Local Open Scope list_scope.

Definition rd_fuel : nat := 30 * 1000.
Definition rd_op : rgop :=
  default (RgOp gr_empty [] [] ∅ ∅) (rg_op rd_grammar_text rd_fuel).
Definition rd_gr : gr := rg_gram rd_op.
Definition rd_bl : list (gostring * list gostring) := [
  (L "Rules", [L "Rule*"]); (L "Chain", [L "(Reduction_period)*"]);
  (L "VarNumArg", [L "(number_comma)*"]); (L "VarStrArg", [L "(string_comma)*"])].
Lemma rd_op_some : rg_op rd_grammar_text rd_fuel = Some rd_op.
Proof.
  assert (H : (match rg_op rd_grammar_text rd_fuel with Some _ => true | None => false end) = true) by (vm_compute; reflexivity).
  unfold rd_op. destruct (rg_op rd_grammar_text rd_fuel); [reflexivity|discriminate H].
Qed.
Lemma rd_bl_is : rg_bludgeons rd_op = list_to_map rd_bl.
Proof. apply (bool_decide_unpack _). vm_compute. exact I. Qed.
Definition rd_g : grammar := gr_view rd_gr.
Definition k_star := L "(Reduction_period)*". Definition k_nums := L "(number_comma)*". Definition k_strs := L "(string_comma)*".
Definition rd_rows : list (gostring * list (list gostring)) :=
  [(L "Rules", [[L "Rule*"]]);
   (L "Rule", [[L "rule"; L "Chain"]]);
   (L "Chain", [[k_star; L "Reduction"]]);
   (L "Reduction", [[L "PromoteSingleChild"; L "NoArgs"]; [L "RemoveChildren"; L "VarNumArg"]; [L "PromoteChildValue"; L "OneNumArg"];
      [L "RemoveChild"; L "OneNumArg"]; [L "ReplaceWithChild"; L "OneNumArg"]; [L "PromoteGrandChildren"; L "NoArgs"];
      [L "PromoteSingleChild"; L "NoArgs"]; [L "PromoteChildrenOf"; L "OneNumArg"]; [L "PromoteChild"; L "OneNumArg"];
      [L "RemoveAll"; L "VarStrArg"]; [L "Nil"];
      [L "If"; L "lp"; L "Condition"; L "comma"; L "Chain"; L "comma"; L "Chain"; L "rp"]]);
   (L "VarNumArg", [[L "lp"; k_nums; L "number"; L "rp"]]);
   (L "VarStrArg", [[L "lp"; k_strs; L "string"; L "rp"]]);
   (L "OneNumArg", [[L "lp"; L "number"; L "rp"]]);
   (L "NoArgs", [[L "lp"; L "rp"]]);
   (L "Condition", [[L "ChildIs"; L "lp"; L "number"; L "comma"; L "string"; L "rp"]]);
   (L "Rule*", [[L "Rule"; L "Rule*"]; []]);
   (k_star, [[L "Reduction"; L "period"; k_star]; []]);
   (k_nums, [[L "number"; L "comma"; k_nums]; []]);
   (k_strs, [[L "string"; L "comma"; k_strs]; []])].
Definition rd_rules2 := flat_map (fun r => map (pair (fst r)) (snd r)) rd_rows.
Definition rd_check (g : gr) : bool :=
  bool_decide (g_nts (gr_view g) = map fst rd_rows) && forallb (fun r => bool_decide (g_prods (gr_view g) (fst r) = Some (snd r))) rd_rows.
Lemma rd_checked : rd_check rd_gr = true.
Proof. vm_compute. reflexivity. Qed.
Lemma rd_nts : g_nts rd_g = map fst rd_rows.
Proof. pose proof rd_checked as H. apply andb_true_iff in H as [H _]. by apply bool_decide_eq_true in H. Qed.
Lemma rd_prods : Forall (fun r => g_prods rd_g (fst r) = Some (snd r)) rd_rows.
Proof.
  pose proof rd_checked as H. apply andb_true_iff in H as [_ H]. rewrite forallb_forall in H. apply Forall_forall.
  intros r Hr. apply elem_of_list_In, H in Hr. by apply bool_decide_eq_true in Hr.
Qed.
Lemma rd_wf : g_wf rd_g.
Proof. exact (must_wf _ _ _ rd_op_some). Qed.

(** * The reducer *)
Definition r_rule (n : pn) : pn := remove_all [L "period"] (fst (promote_children_of 0 (promote_child_value 0 n))).
Definition r_calls (n : pn) : pn := fst (promote_child 0 (remove_all [L "comma"; L "lp"; L "rp"] n)).
Definition r_args (n : pn) : pn := remove_all [L "comma"] (remove_children [0; -1]%Z n).
Definition rd_eff : list (gostring * option reduction) := [
  (L "Rules", Some (bludgeon [L "Rule*"])); (L "Chain", Some (bludgeon [k_star]));
  (L "VarNumArg", Some (fun n => r_args (bludgeon [k_nums] n))); (L "VarStrArg", Some (fun n => r_args (bludgeon [k_strs] n)));
  (L "Rule", Some r_rule); (L "Reduction", Some r_calls); (L "OneNumArg", Some (fun n => remove_children [0; -1]%Z n));
  (L "Condition", Some r_calls)].
Definition rd_made_red : reducer := blunted (list_to_map rd_bl).
Lemma rd_keys1 : orders (map fst rd_bl) rd_made_red.
Proof.
  intros k. unfold rd_made_red, blunted. rewrite lookup_fmap, fmap_is_Some. split.
  - intros H. apply elem_of_list_fmap in H as ([k' v] & -> & Hin).
    rewrite (elem_of_list_to_map_1 rd_bl k' v); [by eexists| |exact Hin].
    change (NoDup (map fst rd_bl)). apply (bool_decide_unpack _). vm_compute. exact I.
  - intros [v Hv]. apply elem_of_list_to_map_2 in Hv. apply elem_of_list_fmap. by exists (k, v).
Qed.
Definition rd_own_rows : list (gostring * option reduction) :=
  ltac:(let t := eval unfold rd_own in rd_own in match t with list_to_map ?T => exact T end).
Lemma rd_keys2 : orders (map fst rd_own_rows) rd_own.
Proof.
  intros k. change rd_own with (list_to_map rd_own_rows : reducer). split.
  - intros H. apply elem_of_list_fmap in H as ([k' v] & -> & Hin).
    rewrite (elem_of_list_to_map_1 rd_own_rows k' v); [by eexists| |exact Hin].
    change (NoDup (map fst rd_own_rows)). apply (bool_decide_unpack _). vm_compute. exact I.
  - intros [v Hv]. apply elem_of_list_to_map_2 in Hv. apply elem_of_list_fmap. by exists (k, v).
Qed.
Definition rd_red : reducer := rd_rdcr (map fst rd_bl) (map fst rd_own_rows) rd_made_red.
Lemma rd_red_any ks1 ks2 : orders ks1 rd_made_red -> orders ks2 rd_own -> rd_rdcr ks1 ks2 rd_made_red = rd_red.
Proof. intros H1 H2. apply merge_order; [exact H1|exact H2|exact rd_keys1|exact rd_keys2]. Qed.
Lemma own_for i k f : rd_own_rows !! i = Some (k, f) -> rd_own !! k = Some f.
Proof.
  intros H. change rd_own with (list_to_map rd_own_rows : reducer).
  rewrite (elem_of_list_to_map_1 rd_own_rows k f); [done| |by eapply elem_of_list_lookup_2].
  change (NoDup (map fst rd_own_rows)). apply (bool_decide_unpack _). vm_compute. exact I.
Qed.
Lemma made_for i k v : rd_bl !! i = Some (k, v) -> rd_made_red !! k = Some (Some (bludgeon v)).
Proof.
  intros H. unfold rd_made_red, blunted. rewrite lookup_fmap.
  rewrite (elem_of_list_to_map_1 rd_bl k v); [done| |by eapply elem_of_list_lookup_2].
  change (NoDup (map fst rd_bl)). apply (bool_decide_unpack _). vm_compute. exact I.
Qed.
Lemma own_none k : k ∉ map fst rd_own_rows -> rd_own !! k = None.
Proof. intros H. apply eq_None_not_Some. intros Hs. by apply rd_keys2 in Hs. Qed.
Lemma made_none k : k ∉ map fst rd_bl -> rd_made_red !! k = None.
Proof. intros H. apply eq_None_not_Some. intros Hs. by apply rd_keys1 in Hs. Qed.
Ltac notin := apply (bool_decide_unpack _); vm_compute; exact I.
Lemma rd_lookup k : reduction_for rd_red k =
  match rd_made_red !! k, rd_own !! k with
  | Some f1, Some f2 => chain f1 f2 | Some f1, None => f1 | None, Some f2 => f2 | None, None => None end.
Proof.
  unfold reduction_for, rd_red, rd_rdcr. rewrite (merge_lookup _ _ _ _ _ rd_keys1 rd_keys2).
  by destruct (rd_made_red !! k), (rd_own !! k).
Qed.
Lemma for_rules : reduction_for rd_red (L "Rules") = Some (bludgeon [L "Rule*"]).
Proof. rewrite rd_lookup, (made_for 0 _ _ eq_refl), own_none by notin. reflexivity. Qed.
Lemma for_chain : reduction_for rd_red (L "Chain") = Some (bludgeon [k_star]).
Proof. rewrite rd_lookup, (made_for 1 _ _ eq_refl), own_none by notin. reflexivity. Qed.
Lemma for_nums : reduction_for rd_red (L "VarNumArg") = Some (fun n => r_args (bludgeon [k_nums] n)).
Proof. rewrite rd_lookup, (made_for 2 _ _ eq_refl), (own_for 2 _ _ eq_refl). reflexivity. Qed.
Lemma for_strs : reduction_for rd_red (L "VarStrArg") = Some (fun n => r_args (bludgeon [k_strs] n)).
Proof. rewrite rd_lookup, (made_for 3 _ _ eq_refl), (own_for 3 _ _ eq_refl). reflexivity. Qed.
Lemma for_rule : reduction_for rd_red (L "Rule") = Some r_rule.
Proof. rewrite rd_lookup, made_none, (own_for 0 _ _ eq_refl) by notin. reflexivity. Qed.
Lemma for_reduction : reduction_for rd_red (L "Reduction") = Some r_calls.
Proof. rewrite rd_lookup, made_none, (own_for 1 _ _ eq_refl) by notin. reflexivity. Qed.
Lemma for_num : reduction_for rd_red (L "OneNumArg") = Some (fun n => remove_children [0; -1]%Z n).
Proof. rewrite rd_lookup, made_none, (own_for 4 _ _ eq_refl) by notin. reflexivity. Qed.
Lemma for_condition : reduction_for rd_red (L "Condition") = Some r_calls.
Proof. rewrite rd_lookup, made_none, (own_for 5 _ _ eq_refl) by notin. reflexivity. Qed.
Lemma rd_for_none k : k ∉ map fst rd_eff -> reduction_for rd_red k = None.
Proof.
  intros H. rewrite rd_lookup, made_none, own_none; [done| |]; intros Hs; apply H; clear H; revert k Hs; apply Forall_forall; notin.
Qed.
Notation red := (raw_reduce rd_red).
Lemma red_node k f lx cs : reduction_for rd_red k = Some f -> lx_kind lx = k -> red (PN lx cs) = f (PN lx (map red cs)).
Proof. intros H <-. cbn [raw_reduce]. unfold reduction_for in H. destruct (rd_red !! lx_kind lx) as [f'|]; [|done]. by subst f'. Qed.
Lemma red_plain lx cs : lx_kind lx ∉ map fst rd_eff -> red (PN lx cs) = PN lx (map red cs).
Proof. intros H. apply rd_for_none in H. cbn [raw_reduce]. unfold reduction_for in H. by destruct (rd_red !! lx_kind lx) as [[f|]|]. Qed.

(** * Arguments *)
Lemma drop_ends (a b : pn) l : TreeSpec.drop_listed [0; -1]%Z (a :: l ++ [b]) = l.
Proof.
  unfold TreeSpec.drop_listed. set (n := length (a :: l ++ [b])). assert (Hn : n = S (S (length l))) by (subst n; cbn [length]; rewrite app_length; cbn [length]; lia).
  clearbody n. subst n.
  assert (H : forall (l : list pn) i m, 1 <= i -> i + length l <= m ->
    map snd (filter (fun kc : nat * pn => TreeSpec.listed [0; -1]%Z (S m) (fst kc) = false) (combine (seq i (S (length l))) (l ++ [b])))
    = l ++ (if decide (TreeSpec.listed [0; -1]%Z (S m) (i + length l) = false) then [b] else [])).
  { clear. induction l as [|x l IH]; intros i m H1 H2.
    - cbn [length seq app combine]. rewrite filter_cons, filter_nil. cbn [fst]. rewrite Nat.add_0_r.
      destruct (decide (TreeSpec.listed _ _ i = false)); reflexivity.
    - cbn [length] in *. cbn [seq app combine]. rewrite filter_cons. cbn [fst]. rewrite decide_True.
      + cbn [map snd]. f_equal. change (seq (S i) (length l)) with (seq (S i) (length l)).
        specialize (IH (S i) m ltac:(lia) ltac:(lia)). cbn [seq] in IH.
        replace (i + S (length l)) with (S i + length l) by lia. exact IH.
      + unfold TreeSpec.listed. cbn [existsb]. rewrite orb_false_r. apply orb_false_iff. split; apply orb_false_iff; split; apply Z.eqb_neq; lia. }
  cbn [seq combine]. rewrite filter_cons. cbn [fst]. rewrite decide_False by (vm_compute; discriminate).
  specialize (H l 1 (S (length l)) ltac:(lia) ltac:(lia)). cbn [seq] in H. etransitivity; [exact H|].
  rewrite decide_False, app_nil_r; [done|].
  unfold TreeSpec.listed. cbn [existsb]. rewrite orb_false_r.
  replace (-1 =? Z.of_nat (1 + length l) - Z.of_nat (S (S (length l))))%Z with true by (symmetry; apply Z.eqb_eq; lia).
  rewrite !orb_true_r. discriminate.
Qed.
Lemma r_args_spec lx a b l : r_args (PN lx (a :: l ++ [b])) = PN lx (filter (others [L "comma"]) l).
Proof. unfold r_args. rewrite remove_children_spec, remove_all_spec, drop_ends. reflexivity. Qed.

(** * What reduced trees show *)
Definition shows_args (text : gostring -> gostring) (T : list pn) (vs : list gostring) : Prop :=
  Forall2 (fun t v => lx_val (pn_lexeme t) = text v) T vs.
Inductive shows_step : pn -> rstep -> Prop :=
| sh_nil lx cs : tk "Nil" lx -> shows_step (PN lx cs) SNil
| sh_single lx cs : tk "PromoteSingleChild" lx -> shows_step (PN lx cs) SSingle
| sh_grand lx cs : tk "PromoteGrandChildren" lx -> shows_step (PN lx cs) SGrand
| sh_remove_children lx la T ns : tk "RemoveChildren" lx -> shows_args id T ns -> shows_step (PN lx [PN la T]) (SRemoveChildren ns)
| sh_remove_all lx la T xs : tk "RemoveAll" lx -> shows_args quoted T xs -> shows_step (PN lx [PN la T]) (SRemoveAll xs)
| sh_child_value lx la i : tk "PromoteChildValue" lx -> shows_step (PN lx [PN la [PN i []]]) (SChildValue (lx_val i))
| sh_remove_child lx la i : tk "RemoveChild" lx -> shows_step (PN lx [PN la [PN i []]]) (SRemoveChild (lx_val i))
| sh_replace lx la i : tk "ReplaceWithChild" lx -> shows_step (PN lx [PN la [PN i []]]) (SReplace (lx_val i))
| sh_children_of lx la i : tk "PromoteChildrenOf" lx -> shows_step (PN lx [PN la [PN i []]]) (SChildrenOf (lx_val i))
| sh_child lx la i : tk "PromoteChild" lx -> shows_step (PN lx [PN la [PN i []]]) (SChild (lx_val i))
| sh_if lx lq i s v lt ts le es th el : tk "If" lx -> tk "ChildIs" lq -> lx_val s = quoted v ->
    shows_steps ts th -> shows_steps es el ->
    shows_step (PN lx [PN lq [PN i []; PN s []]; PN lt ts; PN le es]) (SIf (lx_val i) v th el)
with shows_steps : list pn -> list rstep -> Prop :=
| shs_none : shows_steps [] []
| shs_more t s ts ss : shows_step t s -> shows_steps ts ss -> shows_steps (t :: ts) (s :: ss)
| shs_period x cs ts ss : tk "period" x -> shows_steps ts ss -> shows_steps (PN x cs :: ts) ss.
Scheme shows_step_mut := Induction for shows_step Sort Prop
  with shows_steps_mut := Induction for shows_steps Sort Prop.
Combined Scheme shows_mut from shows_step_mut, shows_steps_mut.
Definition shows_rule (t : pn) (r : gostring * list rstep) : Prop :=
  lx_kind (pn_lexeme t) = L "Rule" /\ lx_val (pn_lexeme t) = fst r /\ shows_steps (pn_children t) (snd r).
Definition shows_rules (T : list pn) (D : description) : Prop := Forall2 shows_rule T D.

Definition step_words : list gostring := map (fun x => L x) [
  "Nil"; "PromoteSingleChild"; "PromoteGrandChildren"; "RemoveChildren"; "RemoveAll"; "PromoteChildValue"; "RemoveChild";
  "ReplaceWithChild"; "PromoteChildrenOf"; "PromoteChild"; "If"]%string.
Lemma step_kind t s : shows_step t s -> lx_kind (pn_lexeme t) ∈ step_words.
Proof. intros H. destruct H; cbn [pn_lexeme]; unfold tk in *; match goal with H : lx_kind ?x = _ |- lx_kind ?x ∈ _ => rewrite H end; notin. Qed.
Lemma steps_app T ss T' ss' : shows_steps T ss -> shows_steps T' ss' -> shows_steps (T ++ T') (ss ++ ss').
Proof.
  intros H H'. induction H; cbn [app]; [exact H'| |].
  - apply shs_more; done.
  - apply shs_period; done.
Qed.
Lemma steps_filter T ss : shows_steps T ss -> shows_steps (filter (others [L "period"]) T) ss.
Proof.
  induction 1 as [|t s ts ss H _ IH|x cs ts ss H _ IH].
  - constructor.
  - rewrite filter_cons_True; [by constructor|]. apply step_kind in H. intros Hp. apply elem_of_list_singleton in Hp. rewrite Hp in H.
    revert H. notin.
  - rewrite filter_cons_False; [done|]. intros Hp. apply Hp. apply elem_of_list_singleton. exact H.
Qed.

Definition tok_ok (x : lexeme) : Prop := lx_kind x = L "string" -> exists v, lx_val x = quoted v.
Definition good (k : gostring) (t : pn) (u : list lexeme) : Prop :=
  if decide (k = L "Rules") then exists D, shows_rules (pn_children t) D /\ writes D u
  else if decide (k = L "Rule*") then exists D, shows_rules (splice [L "Rule*"] t) D /\ writes D u
  else if decide (k = L "Rule") then exists r, shows_rule t r /\ exists x v, tk "rule" x /\ lx_val x = fst r /\ writes_steps (snd r) v /\ u = x :: v
  else if decide (k = L "Chain") then lx_kind (pn_lexeme t) = L "Chain" /\ exists ss, shows_steps (pn_children t) ss /\ writes_steps ss u
  else if decide (k = k_star) then exists ss, shows_steps (splice [k_star] t) ss /\
    forall ss' u', writes_steps ss' u' -> writes_steps (ss ++ ss') (u ++ u')
  else if decide (k = L "Reduction") then exists s, shows_step t s /\ writes_step s u
  else if decide (k = L "VarNumArg") then lx_kind (pn_lexeme t) = L "VarNumArg" /\ exists ns o v c, tk "lp" o /\ tk "rp" c /\ u = o :: v ++ [c]
    /\ shows_args id (pn_children t) ns /\ writes_args "number" id ns v
  else if decide (k = L "VarStrArg") then lx_kind (pn_lexeme t) = L "VarStrArg" /\ exists ns o v c, tk "lp" o /\ tk "rp" c /\ u = o :: v ++ [c]
    /\ shows_args quoted (pn_children t) ns /\ writes_args "string" quoted ns v
  else if decide (k = k_nums) then exists ns, shows_args id (filter (others [L "comma"]) (splice [k_nums] t)) ns /\
    forall ns' u', writes_args "number" id ns' u' -> writes_args "number" id (ns ++ ns') (u ++ u')
  else if decide (k = k_strs) then exists ns, shows_args quoted (filter (others [L "comma"]) (splice [k_strs] t)) ns /\
    forall ns' u', writes_args "string" quoted ns' u' -> writes_args "string" quoted (ns ++ ns') (u ++ u')
  else if decide (k = L "OneNumArg") then exists la o i c, t = PN la [PN i []] /\ lx_kind la = L "OneNumArg" /\ tk "lp" o /\ tk "number" i /\ tk "rp" c /\ u = [o; i; c]
  else if decide (k = L "NoArgs") then lx_kind (pn_lexeme t) = L "NoArgs" /\ exists o c, tk "lp" o /\ tk "rp" c /\ u = [o; c]
  else if decide (k = L "Condition") then exists q o i m s c v, t = PN q [PN i []; PN s []] /\ tk "ChildIs" q /\ tk "lp" o /\ tk "number" i
    /\ tk "comma" m /\ tk "string" s /\ lx_val s = quoted v /\ tk "rp" c /\ u = [q; o; i; m; s; c]
  else exists x, lx_kind x = k /\ t = PN x [] /\ u = [x] /\ tok_ok x.
Lemma good_nt s t u : s ∉ map fst rd_rows -> good s t u = exists x, lx_kind x = s /\ t = PN x [] /\ u = [x] /\ tok_ok x.
Proof.
  intros H. unfold good.
  repeat match goal with
  | |- context [decide (s = ?k)] => destruct (decide (s = k)) as [->|?];
      [exfalso; apply H; apply (bool_decide_unpack _); vm_compute; exact I|]
  end. reflexivity.
Qed.
Definition goods := fix goods (p : list gostring) (cs : list pn) (u : list lexeme) : Prop :=
  match p with
  | [] => cs = [] /\ u = []
  | s :: r => exists c cs' u1 u2, cs = c :: cs' /\ u = u1 ++ u2 /\ good s (red c) u1 /\ goods r cs' u2
  end.
Ltac tok H := let x := fresh "x" in let Hk := fresh "Hk" in let Ht := fresh "Ht" in let Ho := fresh "Ho" in
  rewrite good_nt in H by notin; destruct H as (x & Hk & Ht & -> & Ho).
(** Reduced nodes. *)
Lemma red_tok x : lx_kind x ∉ map fst rd_rows -> red (PN x []) = PN x [].
Proof.
  intros H. rewrite red_plain; [done|]. intros Hin. apply H. revert Hin. generalize (lx_kind x). apply Forall_forall. notin.
Qed.
Lemma red_rules lx a : lx_kind lx = L "Rules" -> red (PN lx [a]) = PN lx (splice [L "Rule*"] (red a)).
Proof. intros H. rewrite (red_node _ _ lx [a] for_rules H), bludgeon_spec. cbn [pn_lexeme pn_children map flat_map]. by rewrite app_nil_r. Qed.
Lemma red_chain lx a b : lx_kind lx = L "Chain" -> red (PN lx [a; b]) = PN lx (splice [k_star] (red a) ++ splice [k_star] (red b)).
Proof. intros H. rewrite (red_node _ _ lx [a; b] for_chain H), bludgeon_spec. cbn [pn_lexeme pn_children map flat_map]. by rewrite app_nil_r. Qed.
Lemma red_rule lx a b : lx_kind lx = L "Rule" -> exists l c,
  red (PN lx [a; b]) = PN (Lx (L "Rule") (lx_val (pn_lexeme (red a))) l c) (filter (others [L "period"]) (pn_children (red b))).
Proof.
  intros H. rewrite (red_node _ _ lx [a; b] for_rule H). cbn [map]. generalize (red a) (red b). clear a b. intros a b.
  exists (lx_line (pn_lexeme a)), (lx_col (pn_lexeme a)). unfold r_rule.
  change (fst (promote_children_of 0 (promote_child_value 0 (PN lx [a; b]))))
    with (PN (Lx (lx_kind lx) (lx_val (pn_lexeme a)) (lx_line (pn_lexeme a)) (lx_col (pn_lexeme a))) (pn_children b)).
  rewrite remove_all_spec, H. reflexivity.
Qed.
Lemma calls_spec lx C c rest : filter (others [L "comma"; L "lp"; L "rp"]) C = c :: rest ->
  r_calls (PN lx C) = PN (pn_lexeme c) (pn_children c ++ rest).
Proof.
  intros H. unfold r_calls. rewrite remove_all_spec, H.
  rewrite (promote_child_in 0 lx (c :: rest) [] c rest); [reflexivity|]. split; [done|]. left. reflexivity.
Qed.
Notation brackets := [L "comma"; L "lp"; L "rp"].
Lemma keep t C : lx_kind (pn_lexeme t) ∉ brackets -> filter (others brackets) (t :: C) = t :: filter (others brackets) C.
Proof. intros H. by rewrite filter_cons_True. Qed.
Lemma drops t C : lx_kind (pn_lexeme t) ∈ brackets -> filter (others brackets) (t :: C) = filter (others brackets) C.
Proof. intros H. rewrite filter_cons_False; [done|]. intros Hn. by apply Hn. Qed.
Ltac kinds := cbn [pn_lexeme]; unfold tk in *; match goal with H : lx_kind ?x = _ |- context [lx_kind ?x] => rewrite H end; notin.
Lemma red_call lx x a : lx_kind lx = L "Reduction" -> red x = PN (pn_lexeme x) [] -> lx_kind (pn_lexeme x) ∉ brackets ->
  lx_kind (pn_lexeme (red a)) ∉ brackets -> red (PN lx [x; a]) = PN (pn_lexeme x) [red a].
Proof.
  intros H Hx H1 H2. rewrite (red_node _ _ _ _ for_reduction H). cbn [map]. rewrite Hx.
  rewrite (calls_spec _ _ (PN (pn_lexeme x) []) [red a]); [done|]. by rewrite !keep, filter_nil.
Qed.
Lemma red_splice k t : lx_kind (pn_lexeme t) <> k -> splice [k] t = [t].
Proof. destruct t as [lx cs]. cbn [pn_lexeme splice]. intros H. rewrite bool_decide_false; [done|]. by intros ?%elem_of_list_singleton. Qed.

(** Productions. *)
Lemma g_rules lx c u : lx_kind lx = L "Rules" -> good (L "Rule*") (red c) u -> good (L "Rules") (red (PN lx [c])) u.
Proof. intros H (D & Hs & Hw). rewrite red_rules by exact H. exists D. done. Qed.
Lemma g_rules_none lx : lx_kind lx = L "Rule*" -> good (L "Rule*") (red (PN lx [])) [].
Proof.
  intros H. exists []. rewrite red_plain by (rewrite H; notin). cbn [map splice]. rewrite bool_decide_true by (rewrite H; notin).
  split; constructor.
Qed.
Lemma g_rules_more lx a b u v : lx_kind lx = L "Rule*" -> good (L "Rule") (red a) u -> good (L "Rule*") (red b) v ->
  good (L "Rule*") (red (PN lx [a; b])) (u ++ v).
Proof.
  intros H (r & Hr & x & u' & Hx & Hv & Hw & ->) (D & Hs & HD). exists (r :: D).
  rewrite red_plain by (rewrite H; notin). cbn [map splice flat_map]. rewrite bool_decide_true by (rewrite H; notin).
  rewrite app_nil_r. split.
  - rewrite (red_splice _ (red a)); [by constructor|]. destruct Hr as [-> _]. clear. intros E. revert E. notin.
  - destruct r as [k ss]. cbn [app]. by constructor.
Qed.
Lemma g_rule lx a b u v : lx_kind lx = L "Rule" -> good (L "rule") (red a) u -> good (L "Chain") (red b) v ->
  good (L "Rule") (red (PN lx [a; b])) (u ++ v).
Proof.
  intros H Ha (Hk & ss & Hs & Hw). tok Ha. destruct (red_rule lx a b H) as (l & c & ->). rewrite Ht.
  exists (lx_val x, ss). split.
  - split; [done|]. split; [done|]. cbn [pn_children snd]. by apply steps_filter.
  - exists x, v. done.
Qed.
Lemma g_chain lx a b u v : lx_kind lx = L "Chain" -> good k_star (red a) u -> good (L "Reduction") (red b) v ->
  good (L "Chain") (red (PN lx [a; b])) (u ++ v).
Proof.
  intros H (ss & Hs & Hw) (s & Hb & Hv). rewrite red_chain by exact H. split; [done|]. exists (ss ++ [s]). cbn [pn_children]. split.
  - apply steps_app; [done|]. rewrite red_splice; [by constructor; [|constructor]|].
    apply step_kind in Hb. intros E. rewrite E in Hb. revert Hb. notin.
  - apply Hw. by constructor.
Qed.
Lemma g_star_none lx : lx_kind lx = k_star -> good k_star (red (PN lx [])) [].
Proof.
  intros H. exists []. rewrite red_plain by (rewrite H; notin). cbn [map splice]. rewrite bool_decide_true by (rewrite H; notin).
  split; [constructor|]. done.
Qed.
Lemma g_star_more lx a b c u v w : lx_kind lx = k_star -> good (L "Reduction") (red a) u -> good (L "period") (red b) v ->
  good k_star (red c) w -> good k_star (red (PN lx [a; b; c])) (u ++ v ++ w).
Proof.
  intros H (s & Ha & Hu) Hb (ss & Hs & Hw). tok Hb. exists (s :: ss).
  rewrite red_plain by (rewrite H; notin). cbn [map splice flat_map]. rewrite bool_decide_true by (rewrite H; notin).
  rewrite app_nil_r. split.
  - rewrite (red_splice _ (red a)).
    2: { apply step_kind in Ha. intros E. rewrite E in Ha. revert Ha. notin. }
    rewrite Ht. rewrite (red_splice _ (PN x [])) by (cbn [pn_lexeme]; rewrite Hk; notin).
    cbn [app]. apply shs_more; [done|]. by apply shs_period.
  - intros ss' u' H'. cbn [app]. rewrite <- app_assoc. cbn [app]. apply wss_more; [done|exact Hk|]. by apply Hw.
Qed.
Lemma g_nums_none lx : lx_kind lx = k_nums -> good k_nums (red (PN lx [])) [].
Proof.
  intros H. exists []. rewrite red_plain by (rewrite H; notin). cbn [map splice]. rewrite bool_decide_true by (rewrite H; notin).
  split; [constructor|]. done.
Qed.
Lemma g_strs_none lx : lx_kind lx = k_strs -> good k_strs (red (PN lx [])) [].
Proof.
  intros H. exists []. rewrite red_plain by (rewrite H; notin). cbn [map splice]. rewrite bool_decide_true by (rewrite H; notin).
  split; [constructor|]. done.
Qed.
Lemma keep1 t C : lx_kind (pn_lexeme t) ∉ [L "comma"] -> filter (others [L "comma"]) (t :: C) = t :: filter (others [L "comma"]) C.
Proof. intros H. by rewrite filter_cons_True. Qed.
Lemma drops1 t C : lx_kind (pn_lexeme t) ∈ [L "comma"] -> filter (others [L "comma"]) (t :: C) = filter (others [L "comma"]) C.
Proof. intros H. rewrite filter_cons_False; [done|]. intros Hn. by apply Hn. Qed.
Lemma g_nums_more lx a b c u v w : lx_kind lx = k_nums -> good (L "number") (red a) u -> good (L "comma") (red b) v ->
  good k_nums (red c) w -> good k_nums (red (PN lx [a; b; c])) (u ++ v ++ w).
Proof.
  intros H Ha Hb (ns & Hs & Hw). tok Ha. tok Hb. exists (lx_val x :: ns).
  rewrite red_plain by (rewrite H; notin). cbn [map splice flat_map]. rewrite bool_decide_true by (rewrite H; notin).
  rewrite app_nil_r, Ht, Ht0. rewrite (red_splice _ (PN x [])) by (cbn [pn_lexeme]; rewrite Hk; notin).
  rewrite (red_splice _ (PN x0 [])) by (cbn [pn_lexeme]; rewrite Hk0; notin). cbn [app].
  rewrite keep1 by (cbn [pn_lexeme]; rewrite Hk; notin). rewrite drops1 by (cbn [pn_lexeme]; rewrite Hk0; notin). split.
  - constructor; [done|exact Hs].
  - intros ns' u' H'. cbn [app]. apply wa_more; [done|done|done|]. by apply Hw.
Qed.
Lemma g_strs_more lx a b c u v w : lx_kind lx = k_strs -> good (L "string") (red a) u -> good (L "comma") (red b) v ->
  good k_strs (red c) w -> good k_strs (red (PN lx [a; b; c])) (u ++ v ++ w).
Proof.
  intros H Ha Hb (ns & Hs & Hw). tok Ha. tok Hb. destruct (Ho Hk) as [z Hz]. exists (z :: ns).
  rewrite red_plain by (rewrite H; notin). cbn [map splice flat_map]. rewrite bool_decide_true by (rewrite H; notin).
  rewrite app_nil_r, Ht, Ht0. rewrite (red_splice _ (PN x [])) by (cbn [pn_lexeme]; rewrite Hk; notin).
  rewrite (red_splice _ (PN x0 [])) by (cbn [pn_lexeme]; rewrite Hk0; notin). cbn [app].
  rewrite keep1 by (cbn [pn_lexeme]; rewrite Hk; notin). rewrite drops1 by (cbn [pn_lexeme]; rewrite Hk0; notin). split.
  - constructor; [done|exact Hs].
  - intros ns' u' H'. cbn [app]. apply wa_more; [done|done|done|]. by apply Hw.
Qed.
Lemma g_var_nums lx a b c d u v w z : lx_kind lx = L "VarNumArg" -> good (L "lp") (red a) u -> good k_nums (red b) v ->
  good (L "number") (red c) w -> good (L "rp") (red d) z -> good (L "VarNumArg") (red (PN lx [a; b; c; d])) (u ++ v ++ w ++ z).
Proof.
  intros H Ha (ns & Hs & Hw) Hc Hd. tok Ha. tok Hc. tok Hd.
  rewrite (red_node _ _ lx [a; b; c; d] for_nums H), bludgeon_spec. cbn [pn_lexeme pn_children map flat_map].
  rewrite Ht, Ht0, Ht1. rewrite (red_splice _ (PN x [])) by (cbn [pn_lexeme]; rewrite Hk; notin).
  rewrite (red_splice _ (PN x0 [])) by (cbn [pn_lexeme]; rewrite Hk0; notin).
  rewrite (red_splice _ (PN x1 [])) by (cbn [pn_lexeme]; rewrite Hk1; notin).
  cbn [app]. rewrite (app_assoc _ [_] [_] : _ ++ PN x0 [] :: [PN x1 []] = _), r_args_spec.
  split; [exact H|]. exists (ns ++ [lx_val x0]), x, (v ++ [x0]), x1. split; [done|]. split; [done|]. split; [by rewrite <- app_assoc|].
  cbn [pn_children]. split.
  - rewrite filter_app. apply Forall2_app; [exact Hs|]. rewrite keep1 by (cbn [pn_lexeme]; rewrite Hk0; notin).
    rewrite filter_nil. apply Forall2_cons. split; [first [reflexivity|assumption]|constructor].
  - apply Hw. by constructor.
Qed.
Lemma g_var_strs lx a b c d u v w z : lx_kind lx = L "VarStrArg" -> good (L "lp") (red a) u -> good k_strs (red b) v ->
  good (L "string") (red c) w -> good (L "rp") (red d) z -> good (L "VarStrArg") (red (PN lx [a; b; c; d])) (u ++ v ++ w ++ z).
Proof.
  intros H Ha (ns & Hs & Hw) Hc Hd. tok Ha. tok Hc. tok Hd. destruct (Ho0 Hk0) as [y Hy].
  rewrite (red_node _ _ lx [a; b; c; d] for_strs H), bludgeon_spec. cbn [pn_lexeme pn_children map flat_map].
  rewrite Ht, Ht0, Ht1. rewrite (red_splice _ (PN x [])) by (cbn [pn_lexeme]; rewrite Hk; notin).
  rewrite (red_splice _ (PN x0 [])) by (cbn [pn_lexeme]; rewrite Hk0; notin).
  rewrite (red_splice _ (PN x1 [])) by (cbn [pn_lexeme]; rewrite Hk1; notin).
  cbn [app]. rewrite (app_assoc _ [_] [_] : _ ++ PN x0 [] :: [PN x1 []] = _), r_args_spec.
  split; [exact H|]. exists (ns ++ [y]), x, (v ++ [x0]), x1. split; [done|]. split; [done|]. split; [by rewrite <- app_assoc|].
  cbn [pn_children]. split.
  - rewrite filter_app. apply Forall2_app; [exact Hs|]. rewrite keep1 by (cbn [pn_lexeme]; rewrite Hk0; notin).
    rewrite filter_nil. apply Forall2_cons. split; [first [reflexivity|assumption]|constructor].
  - apply Hw. by constructor.
Qed.
Lemma g_num lx a b c u v w : lx_kind lx = L "OneNumArg" -> good (L "lp") (red a) u -> good (L "number") (red b) v ->
  good (L "rp") (red c) w -> good (L "OneNumArg") (red (PN lx [a; b; c])) (u ++ v ++ w).
Proof.
  intros H Ha Hb Hc. tok Ha. tok Hb. tok Hc. rewrite (red_node _ _ lx [a; b; c] for_num H). cbn [map]. rewrite Ht, Ht0, Ht1.
  exists lx, x, x0, x1. split; [|unfold tk; tauto]. rewrite remove_children_spec. exact (f_equal (PN lx) (drop_ends (PN x []) (PN x1 []) [PN x0 []])).
Qed.
Lemma g_noargs lx a b u v : lx_kind lx = L "NoArgs" -> good (L "lp") (red a) u -> good (L "rp") (red b) v ->
  good (L "NoArgs") (red (PN lx [a; b])) (u ++ v).
Proof.
  intros H Ha Hb. tok Ha. tok Hb. rewrite red_plain by (rewrite H; notin). split; [exact H|]. exists x, x0. done.
Qed.
Lemma g_condition lx a b c d e f ua ub uc ud ue uf : lx_kind lx = L "Condition" -> good (L "ChildIs") (red a) ua -> good (L "lp") (red b) ub ->
  good (L "number") (red c) uc -> good (L "comma") (red d) ud -> good (L "string") (red e) ue -> good (L "rp") (red f) uf ->
  good (L "Condition") (red (PN lx [a; b; c; d; e; f])) (ua ++ ub ++ uc ++ ud ++ ue ++ uf).
Proof.
  intros H Ha Hb Hc Hd He Hf. tok Ha. tok Hb. tok Hc. tok Hd. tok He. tok Hf. destruct (Ho3 Hk3) as [y Hy].
  rewrite (red_node _ _ lx [a; b; c; d; e; f] for_condition H). cbn [map]. rewrite Ht, Ht0, Ht1, Ht2, Ht3, Ht4.
  exists x, x0, x1, x2, x3, x4, y. split; [|unfold tk; tauto].
  rewrite (calls_spec _ _ (PN x []) [PN x1 []; PN x3 []]); [done|].
  rewrite keep by (cbn [pn_lexeme]; rewrite Hk; notin). rewrite drops by (cbn [pn_lexeme]; rewrite Hk0; notin). rewrite keep by (cbn [pn_lexeme]; rewrite Hk1; notin).
  rewrite drops by (cbn [pn_lexeme]; rewrite Hk2; notin). rewrite keep by (cbn [pn_lexeme]; rewrite Hk3; notin).
  rewrite drops by (cbn [pn_lexeme]; rewrite Hk4; notin). by rewrite filter_nil.
Qed.

Ltac tok_red H x := rewrite good_nt in H by notin; destruct H as (x & ? & ? & -> & _).
Lemma g_call0 lx a b u v k s : lx_kind lx = L "Reduction" -> k ∉ map fst rd_rows -> k ∉ brackets ->
  good k (red a) u -> good (L "NoArgs") (red b) v ->
  (forall x cs, lx_kind x = k -> shows_step (PN x cs) s) ->
  (forall x o c, lx_kind x = k -> tk "lp" o -> tk "rp" c -> writes_step s [x; o; c]) ->
  good (L "Reduction") (red (PN lx [a; b])) (u ++ v).
Proof.
  intros H Hn Hb Ha (Hkb & o & c & Ho & Hc & ->) Hs Hw. rewrite good_nt in Ha by exact Hn. destruct Ha as (x & Hk & Ht & -> & _).
  exists s. split; [|by apply Hw]. rewrite (red_node _ _ lx [a; b] for_reduction H). cbn [map]. rewrite Ht.
  rewrite (calls_spec _ _ (PN x []) [red b]); [by apply Hs|]. rewrite keep by (cbn [pn_lexeme]; rewrite Hk; done).
  rewrite keep by (rewrite Hkb; notin). by rewrite filter_nil.
Qed.
Lemma g_call1 lx a b u v k s : lx_kind lx = L "Reduction" -> k ∉ map fst rd_rows -> k ∉ brackets ->
  good k (red a) u -> good (L "OneNumArg") (red b) v ->
  (forall x la i, lx_kind x = k -> shows_step (PN x [PN la [PN i []]]) (s (lx_val i))) ->
  (forall x o i c, lx_kind x = k -> tk "lp" o -> tk "number" i -> tk "rp" c -> writes_step (s (lx_val i)) [x; o; i; c]) ->
  good (L "Reduction") (red (PN lx [a; b])) (u ++ v).
Proof.
  intros H Hn Hb Ha (la & o & i & c & Hbt & Hkb & Ho & Hi & Hc & ->) Hs Hw. rewrite good_nt in Ha by exact Hn. destruct Ha as (x & Hk & Ht & -> & _).
  exists (s (lx_val i)). split; [|by apply Hw]. rewrite (red_node _ _ lx [a; b] for_reduction H). cbn [map]. rewrite Ht, Hbt.
  rewrite (calls_spec _ _ (PN x []) [PN la [PN i []]]); [by apply Hs|]. rewrite keep by (cbn [pn_lexeme]; rewrite Hk; done).
  rewrite keep by (cbn [pn_lexeme]; rewrite Hkb; notin). by rewrite filter_nil.
Qed.
Lemma g_call_nums lx a b u v : lx_kind lx = L "Reduction" -> good (L "RemoveChildren") (red a) u -> good (L "VarNumArg") (red b) v ->
  good (L "Reduction") (red (PN lx [a; b])) (u ++ v).
Proof.
  intros H Ha (Hkb & ns & o & w & c & Ho & Hc & -> & Hs & Hw). tok Ha.
  exists (SRemoveChildren ns). split; [|by constructor]. rewrite (red_node _ _ lx [a; b] for_reduction H). cbn [map]. rewrite Ht.
  rewrite (calls_spec _ _ (PN x []) [red b]).
  - destruct (red b) as [la T]. by apply sh_remove_children.
  - rewrite keep by (cbn [pn_lexeme]; rewrite Hk; notin). rewrite keep by (rewrite Hkb; notin). by rewrite filter_nil.
Qed.
Lemma g_call_strs lx a b u v : lx_kind lx = L "Reduction" -> good (L "RemoveAll") (red a) u -> good (L "VarStrArg") (red b) v ->
  good (L "Reduction") (red (PN lx [a; b])) (u ++ v).
Proof.
  intros H Ha (Hkb & ns & o & w & c & Ho & Hc & -> & Hs & Hw). tok Ha.
  exists (SRemoveAll ns). split; [|by constructor]. rewrite (red_node _ _ lx [a; b] for_reduction H). cbn [map]. rewrite Ht.
  rewrite (calls_spec _ _ (PN x []) [red b]).
  - destruct (red b) as [la T]. by apply sh_remove_all.
  - rewrite keep by (cbn [pn_lexeme]; rewrite Hk; notin). rewrite keep by (rewrite Hkb; notin). by rewrite filter_nil.
Qed.
Lemma g_nil lx a u : lx_kind lx = L "Reduction" -> good (L "Nil") (red a) u -> good (L "Reduction") (red (PN lx [a])) u.
Proof.
  intros H Ha. tok Ha. exists SNil. split; [|by constructor]. rewrite (red_node _ _ lx [a] for_reduction H). cbn [map]. rewrite Ht.
  rewrite (calls_spec _ _ (PN x []) []); [by apply sh_nil|]. rewrite keep by (cbn [pn_lexeme]; rewrite Hk; notin). by rewrite filter_nil.
Qed.
Lemma g_if lx a b c d e f g h ua ub uc ud ue uf ug uh : lx_kind lx = L "Reduction" ->
  good (L "If") (red a) ua -> good (L "lp") (red b) ub -> good (L "Condition") (red c) uc -> good (L "comma") (red d) ud ->
  good (L "Chain") (red e) ue -> good (L "comma") (red f) uf -> good (L "Chain") (red g) ug -> good (L "rp") (red h) uh ->
  good (L "Reduction") (red (PN lx [a; b; c; d; e; f; g; h])) (ua ++ ub ++ uc ++ ud ++ ue ++ uf ++ ug ++ uh).
Proof.
  intros H Ha Hb (q & o1 & i & m & s & c1 & v & Hct & Hq & Ho1 & Hi & Hm & Hss & Hv & Hc1 & ->) Hd (Hke & th & Hth & Hwt) Hf (Hkg & el & Hel & Hwe) Hh.
  tok Ha. tok Hb. tok Hd. tok Hf. tok Hh.
  exists (SIf (lx_val i) v th el). split.
  - rewrite (red_node _ _ lx [a; b; c; d; e; f; g; h] for_reduction H). cbn [map]. rewrite Ht, Ht0, Ht1, Ht2, Ht3, Hct.
    rewrite (calls_spec _ _ (PN x []) [PN q [PN i []; PN s []]; red e; red g]).
    + destruct (red e) as [lt ts], (red g) as [le es]. by apply sh_if.
    + rewrite keep by (cbn [pn_lexeme]; rewrite Hk; notin). rewrite drops by (cbn [pn_lexeme]; rewrite Hk0; notin).
      rewrite keep by (cbn [pn_lexeme]; rewrite Hq; notin). rewrite drops by (cbn [pn_lexeme]; rewrite Hk1; notin).
      rewrite keep by (rewrite Hke; notin). rewrite drops by (cbn [pn_lexeme]; rewrite Hk2; notin).
      rewrite keep by (rewrite Hkg; notin). rewrite drops by (cbn [pn_lexeme]; rewrite Hk3; notin). by rewrite filter_nil.
  - cbn [app]. by apply ws_if.
Qed.
Lemma nodes_good : Forall (fun r => forall lx cs u, lx_kind lx = fst r -> goods (snd r) cs u -> good (fst r) (red (PN lx cs)) u) rd_rules2.
Proof.
  unfold rd_rules2, rd_rows. cbn [flat_map map fst snd app].
  repeat (apply List.Forall_cons; [intros lx cs u Hk H; cbn [fst] in Hk; cbn [fst snd]; cbn [snd goods] in H;
   repeat match goal with
   | H : exists c cs u1 u2, _ |- _ =>
       let c := fresh "qc" in let cs := fresh "qcs" in let u1 := fresh "qu" in let u2 := fresh "qv" in
       let G := fresh "G" in destruct H as (c & cs & u1 & u2 & -> & -> & G & H)
   end; destruct H as [-> ->]; rewrite ?app_nil_r|]); [..|apply List.Forall_nil].
  - apply g_rules; assumption.
  - apply g_rule; assumption.
  - apply g_chain; assumption.
  - apply (g_call0 _ _ _ _ _ (L "PromoteSingleChild") SSingle); [exact Hk|notin|notin|exact G|exact G0| |]; intros; constructor; assumption.
  - apply g_call_nums; assumption.
  - apply (g_call1 _ _ _ _ _ (L "PromoteChildValue") SChildValue); [exact Hk|notin|notin|exact G|exact G0| |]; intros; constructor; assumption.
  - apply (g_call1 _ _ _ _ _ (L "RemoveChild") SRemoveChild); [exact Hk|notin|notin|exact G|exact G0| |]; intros; constructor; assumption.
  - apply (g_call1 _ _ _ _ _ (L "ReplaceWithChild") SReplace); [exact Hk|notin|notin|exact G|exact G0| |]; intros; constructor; assumption.
  - apply (g_call0 _ _ _ _ _ (L "PromoteGrandChildren") SGrand); [exact Hk|notin|notin|exact G|exact G0| |]; intros; constructor; assumption.
  - apply (g_call0 _ _ _ _ _ (L "PromoteSingleChild") SSingle); [exact Hk|notin|notin|exact G|exact G0| |]; intros; constructor; assumption.
  - apply (g_call1 _ _ _ _ _ (L "PromoteChildrenOf") SChildrenOf); [exact Hk|notin|notin|exact G|exact G0| |]; intros; constructor; assumption.
  - apply (g_call1 _ _ _ _ _ (L "PromoteChild") SChild); [exact Hk|notin|notin|exact G|exact G0| |]; intros; constructor; assumption.
  - apply g_call_strs; assumption.
  - apply g_nil; assumption.
  - apply g_if; assumption.
  - apply g_var_nums; assumption.
  - apply g_var_strs; assumption.
  - apply g_num; assumption.
  - apply g_noargs; assumption.
  - apply g_condition; assumption.
  - apply g_rules_more; assumption.
  - apply g_rules_none; assumption.
  - apply g_star_more; assumption.
  - apply g_star_none; assumption.
  - apply g_nums_more; assumption.
  - apply g_nums_none; assumption.
  - apply g_strs_more; assumption.
  - apply g_strs_none; assumption.
Qed.
Lemma node_good lx cs u p : (lx_kind lx, p) ∈ rd_rules2 -> goods p cs u -> good (lx_kind lx) (red (PN lx cs)) u.
Proof. intros Hin. pose proof nodes_good as H. rewrite Forall_forall in H. exact (H _ Hin lx cs u eq_refl). Qed.
Theorem tree_good s t u : is_tree rd_g s t u -> Forall tok_ok u -> good s (red t) u.
Proof.
  revert s t u.
  apply (is_tree_mut rd_g (fun s t u _ => Forall tok_ok u -> good s (red t) u) (fun p cs u _ => Forall tok_ok u -> goods p cs u)).
  - intros lx H Hok. assert (Hn : lx_kind lx ∉ map fst rd_rows).
    { rewrite <-rd_nts. intros Hin. apply rd_wf in Hin. rewrite H in Hin. by destruct Hin. }
    rewrite good_nt by exact Hn. exists lx. split; [done|]. split; [by apply red_tok|]. split; [done|]. by apply Forall_inv in Hok.
  - intros lx ps p cs lxs Hps Hp _ IH Hok. apply (node_good lx cs lxs p); [|by apply IH].
    apply (rows_rule rd_g rd_rows rd_wf rd_nts rd_prods _ ps); done.
  - done.
  - intros s r c cs u v _ IH1 _ IH2 Hok. apply Forall_app in Hok as [Hu Hv]. exists c, cs, u, v. auto.
Qed.
Theorem tree_shows t u : is_tree rd_g (L "Rules") t u -> Forall tok_ok u -> exists D, shows_rules (pn_children (red t)) D /\ writes D u.
Proof. exact (tree_good (L "Rules") t u). Qed.
