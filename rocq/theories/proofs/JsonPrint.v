(** The reduced tree of a document and how it is printed. *)
From Coq Require Import String.
From Verif.spec Require Import JsonSpec.
From Verif.proofs Require Import TreeProofs RegexGramFlat RgMust RdParse RdWit JsonLex JsonText JsonParse.
Local Open Scope nat_scope.
Local Open Scope list_scope.

(** * The description of the reducer *)
Definition js_D : description := [
  (L "Value", [SSingle]); (L "Object", [SRemoveChildren [L "0"; L "-1"]]); (L "Array", [SRemoveChildren [L "0"; L "-1"]]);
  (L "KeyVal", [SChildValue (L "0"); SRemoveChild (L "0")]); (L "MoreVals", [SReplace (L "1")]); (L "MoreKeyVals", [SReplace (L "1")])].
Definition num (v : string) (l c : Z) : lexeme := tok "number" (L v) l c.
Definition rl (v : string) (l c : Z) : lexeme := tok "rule" (L v) l c.
Definition js_D_toks : list lexeme :=
  rl "Value" 1 3 :: [w "PromoteSingleChild" 1 9; lp 1 27; rp 1 28] ++
  rl "Object" 2 3 :: (w "RemoveChildren" 2 15 :: lp 2 29 :: [num "0" 2 30; cm 2 31; num "-1" 2 33] ++ [rp 2 35]) ++
  rl "Array" 3 3 :: (w "RemoveChildren" 3 15 :: lp 3 29 :: [num "0" 3 30; cm 3 31; num "-1" 3 33] ++ [rp 3 35]) ++
  rl "KeyVal" 4 3 :: ([w "PromoteChildValue" 4 15; lp 4 32; num "0" 4 33; rp 4 34] ++ tok "period" (L ".") 5 6 ::
     [w "RemoveChild" 5 7; lp 5 18; num "0" 5 19; rp 5 20]) ++
  rl "MoreVals" 6 3 :: [w "ReplaceWithChild" 6 15; lp 6 31; num "1" 6 32; rp 6 33] ++
  rl "MoreKeyVals" 7 3 :: [w "ReplaceWithChild" 7 15; lp 7 31; num "1" 7 32; rp 7 33] ++ [].
Definition run_lex_long (s : gostring) : option (list lexeme) :=
  match rd_lexer both with
  | Some l => match slex l s 2000 with
      | Ok (xs, _) => match lex_errors xs with [] => Some (map olex_lx xs) | _ => None end
      | _ => None end
  | None => None end.
Lemma run_tokens_long s lxs : run_lex_long s = Some lxs -> lexes_to (rd_calls []) s lxs.
Proof.
  unfold run_lex_long. destruct (RdText.rd_lexer_some both both_rd) as (l & -> & Hl). intros H.
  destruct (slex l s 2000) as [[ys l2]| |] eqn:E; [|discriminate H|discriminate H].
  destruct (lex_errors ys) as [|e es] eqn:He; [|discriminate H]. injection H as <-.
  exact (LexTableProofs.table_run rd_table [] RdText.rd_more RdText.rd_length l s 2000 ys l2 Hl E He).
Qed.
Lemma js_describes : describes js_reduce_text js_D.
Proof.
  exists js_D_toks. split; [apply run_tokens_long; vm_compute; reflexivity|].
  unfold js_D, js_D_toks. apply w_rule; [reflexivity|reflexivity|apply wss_one; apply ws_single; reflexivity|].
  apply w_rule; [reflexivity|reflexivity|apply wss_one, ws_remove_children; try reflexivity; apply wa_more; try reflexivity; by apply wa_one|].
  apply w_rule; [reflexivity|reflexivity|apply wss_one, ws_remove_children; try reflexivity; apply wa_more; try reflexivity; by apply wa_one|].
  apply w_rule; [reflexivity|reflexivity| |].
  { apply wss_more; [exact (ws_child_value (w "PromoteChildValue" 4 15) (lp 4 32) (num "0" 4 33) (rp 4 34) eq_refl eq_refl eq_refl eq_refl)|reflexivity|].
    apply wss_one. exact (ws_remove_child (w "RemoveChild" 5 7) (lp 5 18) (num "0" 5 19) (rp 5 20) eq_refl eq_refl eq_refl eq_refl). }
  apply w_rule; [reflexivity|reflexivity|apply wss_one; exact (ws_replace (w "ReplaceWithChild" 6 15) (lp 6 31) (num "1" 6 32) (rp 6 33) eq_refl eq_refl eq_refl eq_refl)|].
  apply w_rule; [reflexivity|reflexivity|apply wss_one; exact (ws_replace (w "ReplaceWithChild" 7 15) (lp 7 31) (num "1" 7 32) (rp 7 33) eq_refl eq_refl eq_refl eq_refl)|].
  apply w_none.
Qed.
Lemma js_ints k : Forall ints_only (steps_for js_D k).
Proof.
  assert (H : forall v, (exists sg ds, v = sg ++ ds /\ (sg = [] \/ sg = [45%N]) /\ ds <> [] /\ Forall (fun c => (48 <= c <= 57)%N) ds) -> int_text v) by done.
  assert (H0 : int_text (L "0")) by (apply H; exists [], (L "0"); repeat split; [by left|discriminate|apply (bool_decide_unpack _); vm_compute; exact I]).
  assert (H1 : int_text (L "1")) by (apply H; exists [], (L "1"); repeat split; [by left|discriminate|apply (bool_decide_unpack _); vm_compute; exact I]).
  assert (Hm : int_text (L "-1")) by (apply H; exists [45%N], (L "1"); repeat split; [by right|discriminate|apply (bool_decide_unpack _); vm_compute; exact I]).
  unfold steps_for. destruct (list_find _ (reverse js_D)) as [[i [k' ss]]|] eqn:E; [|constructor].
  apply list_find_Some in E as (E & _ & _). apply elem_of_list_lookup_2 in E. apply elem_of_reverse in E.
  assert (HA : Forall (fun r => Forall ints_only (snd r)) js_D).
  { unfold js_D. repeat apply List.Forall_cons; [..|apply List.Forall_nil]; cbn [snd]; repeat apply List.Forall_cons; try apply List.Forall_nil; cbn [ints_only]; try exact I; try assumption;
      repeat apply List.Forall_cons; try apply List.Forall_nil; assumption. }
  rewrite Forall_forall in HA. exact (HA (k', ss) E).
Qed.

(** * The reduced tree *)
Inductive nv : json -> pn -> Prop :=
| nv_leaf lx : lx_kind lx ∈ leaf_kinds -> nv (JLeaf (lx_val lx)) (PN lx [])
| nv_array l ns : ni l ns -> nv (JArr l) (nt "Array" ns)
| nv_object l ns : ne l ns -> nv (JObj l) (nt "Object" ns)
with ni : list json -> list pn -> Prop :=
| ni_nil : ni [] []
| ni_cons J l n ns : nv J n -> ni l ns -> ni (J :: l) (n :: ns)
with ne : list (gostring * json) -> list pn -> Prop :=
| ne_nil : ne [] []
| ne_cons J l lx n ns : lx_kind lx = L "KeyVal" -> nv J n -> ne l ns -> ne ((lx_val lx, J) :: l) (PN lx [n] :: ns).
Lemma nv_kind J n : nv J n -> lx_kind (pn_lexeme n) ∈ leaf_kinds ++ [L "Array"; L "Object"].
Proof.
  intros H. destruct H; cbn [pn_lexeme nt lx_kind]; [apply elem_of_app; by left|apply elem_of_app; right; set_solver..].
Qed.
Lemma nv_splice k J n : k ∉ leaf_kinds ++ [L "Array"; L "Object"] -> nv J n -> splice [k] n = [n].
Proof. intros Hk Hn. apply red_splice. intros E. apply nv_kind in Hn. rewrite E in Hn. done. Qed.
Lemma term_splice k lx : lx_kind lx <> k -> splice [k] (PN lx []) = [PN lx []].
Proof. intros H. apply red_splice. exact H. Qed.
Scheme nv_mut := Induction for nv Sort Prop with ni_mut := Induction for ni Sort Prop with ne_mut := Induction for ne Sort Prop.
Combined Scheme n_mut from nv_mut, ni_mut, ne_mut.

(** * Reducing *)
Definition js_made_red : reducer := blunted (list_to_map js_bl).
Section Reduce.
  Variable ks1 ks2 : list gostring.
  Variable described : reducer.
  Hypothesis Hks1 : orders ks1 js_made_red.
  Hypothesis Hks2 : orders ks2 described.
  Hypothesis Hd : reducer_means described js_D.
  Notation rd := (js_rdcr ks1 ks2 js_made_red described).
  Notation redj := (raw_reduce rd).
  Lemma js_red_for k n : run_red (reduction_for rd k) n = steps_mean (steps_for js_D k) (run_red (reduction_for js_made_red k) n).
  Proof using All.
    rewrite <- (proj2 Hd k (js_ints k)). unfold reduction_for, js_rdcr. rewrite (merge_lookup _ _ _ _ _ Hks1 Hks2).
    destruct (js_made_red !! k) as [[f|]|], (described !! k) as [[f'|]|]; reflexivity.
  Qed.
  Lemma js_red_node lx cs : redj (PN lx cs) = steps_mean (steps_for js_D (lx_kind lx)) (run_red (reduction_for js_made_red (lx_kind lx)) (PN lx (map redj cs))).
  Proof using All.
    rewrite <- js_red_for. cbn [raw_reduce]. unfold reduction_for. by destruct (rd !! lx_kind lx) as [[f|]|].
  Qed.
  Lemma js_made_at i k v : js_bl !! i = Some (k, v) -> js_made_red !! k = Some (Some (bludgeon v)).
  Proof using.
    intros H. unfold js_made_red, blunted. rewrite lookup_fmap.
    rewrite (elem_of_list_to_map_1 js_bl k v); [done| |by eapply elem_of_list_lookup_2].
    change (NoDup (map fst js_bl)). apply (bool_decide_unpack _). vm_compute. exact I.
  Qed.
  Lemma js_made_not k : k ∉ map fst js_bl -> js_made_red !! k = None.
  Proof using.
    intros H. unfold js_made_red, blunted. rewrite lookup_fmap, fmap_None. apply not_elem_of_list_to_map_1. exact H.
  Qed.
  Lemma red_other k cs : (lx_kind k ∉ map fst js_bl) -> steps_for js_D (lx_kind k) = [] -> redj (PN k cs) = PN k (map redj cs).
  Proof using All. intros H1 H2. rewrite js_red_node, H2. unfold reduction_for. by rewrite (js_made_not _ H1). Qed.
  Lemma red_leaf lx : lx_kind lx ∈ js_terms -> redj (PN lx []) = PN lx [].
  Proof using All.
    intros H. apply (red_other lx []).
    - revert H. generalize (lx_kind lx). apply Forall_forall. apply (bool_decide_unpack _). vm_compute. exact I.
    - revert H. generalize (lx_kind lx). apply Forall_forall. unfold js_terms. cbn [map js_table lw_kind rd_word]. repeat apply List.Forall_cons; [..|apply List.Forall_nil]; reflexivity.
  Qed.
  Lemma red_value c : redj (nt "Value" [c]) = redj c.
  Proof using All.
    unfold nt. rewrite js_red_node. cbn [lx_kind]. change (steps_for js_D (L "Value")) with [SSingle]. unfold reduction_for.
    rewrite (js_made_not (L "Value")) by notin. cbn [run_red steps_mean fold_left step_means map]. by rewrite promote_single_child_one.
  Qed.
  Lemma red_array cs : redj (nt "Array" cs) = remove_children [0; -1]%Z (PN (Lx (L "Array") [] (-1) 0) (flat_map (splice [k_vals]) (map redj cs))).
  Proof using All.
    unfold nt. rewrite js_red_node. cbn [lx_kind]. change (steps_for js_D (L "Array")) with [SRemoveChildren [L "0"; L "-1"]]. unfold reduction_for.
    rewrite (js_made_at 0 _ _ eq_refl). cbn [run_red steps_mean fold_left step_means]. rewrite bludgeon_spec. reflexivity.
  Qed.
  Lemma red_object cs : redj (nt "Object" cs) = remove_children [0; -1]%Z (PN (Lx (L "Object") [] (-1) 0) (flat_map (splice [k_keys]) (map redj cs))).
  Proof using All.
    unfold nt. rewrite js_red_node. cbn [lx_kind]. change (steps_for js_D (L "Object")) with [SRemoveChildren [L "0"; L "-1"]]. unfold reduction_for.
    rewrite (js_made_at 1 _ _ eq_refl). cbn [run_red steps_mean fold_left step_means]. rewrite bludgeon_spec. reflexivity.
  Qed.
  Lemma red_moreval c t : redj (nt "MoreVals" [c; t]) = redj t.
  Proof using All.
    unfold nt. rewrite js_red_node. cbn [lx_kind]. change (steps_for js_D (L "MoreVals")) with [SReplace (L "1")]. unfold reduction_for.
    rewrite (js_made_not (L "MoreVals")) by notin. reflexivity.
  Qed.
  Lemma red_morekey c t : redj (nt "MoreKeyVals" [c; t]) = redj t.
  Proof using All.
    unfold nt. rewrite js_red_node. cbn [lx_kind]. change (steps_for js_D (L "MoreKeyVals")) with [SReplace (L "1")]. unfold reduction_for.
    rewrite (js_made_not (L "MoreKeyVals")) by notin. reflexivity.
  Qed.
  Lemma red_keyval k c t : redj (nt "KeyVal" [k; c; t])
    = PN (Lx (L "KeyVal") (lx_val (pn_lexeme (redj k))) (lx_line (pn_lexeme (redj k))) (lx_col (pn_lexeme (redj k)))) [redj t].
  Proof using All.
    unfold nt. rewrite js_red_node. cbn [lx_kind]. change (steps_for js_D (L "KeyVal")) with [SChildValue (L "0"); SRemoveChild (L "0")]. unfold reduction_for.
    rewrite (js_made_not (L "KeyVal")) by notin. reflexivity.
  Qed.
  Lemma red_vals cs : redj (PN (Lx k_vals [] (-1) 0) cs) = PN (Lx k_vals [] (-1) 0) (map redj cs).
  Proof using All. apply red_other; [cbn [lx_kind]; notin|reflexivity]. Qed.
  Lemma red_keys cs : redj (PN (Lx k_keys [] (-1) 0) cs) = PN (Lx k_keys [] (-1) 0) (map redj cs).
  Proof using All. apply red_other; [cbn [lx_kind]; notin|reflexivity]. Qed.

  Lemma tree_reduces :
    (forall J t, tv J t -> nv J (redj t))
    /\ (forall l t m, ti l t m -> exists ns, ni l ns /\ splice [k_vals] (redj t) ++ splice [k_vals] (redj m) = ns)
    /\ (forall l t m, te l t m -> exists ns, ne l ns /\ splice [k_keys] (redj t) ++ splice [k_keys] (redj m) = ns).
  Proof using All.
    apply (t_mut (fun J t _ => nv J (redj t))
      (fun l t m _ => exists ns, ni l ns /\ splice [k_vals] (redj t) ++ splice [k_vals] (redj m) = ns)
      (fun l t m _ => exists ns, ne l ns /\ splice [k_keys] (redj t) ++ splice [k_keys] (redj m) = ns)).
    - intros lx Hk. rewrite red_value, red_leaf; [by constructor|].
      revert Hk. generalize (lx_kind lx). apply Forall_forall. apply (bool_decide_unpack _). vm_compute. exact I.
    - intros a b Ha Hb. rewrite red_value, red_array. cbn [map flat_map]. rewrite (red_leaf a), (red_leaf b) by (rewrite ?Ha, ?Hb; notin).
      rewrite !term_splice by (rewrite ?Ha, ?Hb; discriminate). rewrite app_nil_r, remove_children_spec. constructor. constructor.
    - intros l a t m b Ha Hb _ (ns & Hn & E). rewrite red_value, red_array. cbn [map flat_map]. rewrite (red_leaf a), (red_leaf b) by (rewrite ?Ha, ?Hb; notin).
      rewrite (term_splice _ a), (term_splice _ b) by (rewrite ?Ha, ?Hb; discriminate). rewrite app_nil_r, (app_assoc (splice _ (redj t))), E, remove_children_spec.
      cbn [app]. rewrite drop_ends. by constructor.
    - intros a b Ha Hb. rewrite red_value, red_object. cbn [map flat_map]. rewrite (red_leaf a), (red_leaf b) by (rewrite ?Ha, ?Hb; notin).
      rewrite !term_splice by (rewrite ?Ha, ?Hb; discriminate). rewrite app_nil_r, remove_children_spec. constructor. constructor.
    - intros l a t m b Ha Hb _ (ns & Hn & E). rewrite red_value, red_object. cbn [map flat_map]. rewrite (red_leaf a), (red_leaf b) by (rewrite ?Ha, ?Hb; notin).
      rewrite (term_splice _ a), (term_splice _ b) by (rewrite ?Ha, ?Hb; discriminate). rewrite app_nil_r, (app_assoc (splice _ (redj t))), E, remove_children_spec.
      cbn [app]. rewrite drop_ends. by constructor.
    - intros J t _ IH. rewrite red_vals. eexists. split; [|reflexivity]. rewrite (nv_splice k_vals J) by (first [notin|exact IH]). cbn [map splice lx_kind].
      rewrite bool_decide_true by (by left). cbn [flat_map]. rewrite app_nil_r. by repeat constructor.
    - intros J l t c t' m _ IH _ (ns & Hn & E). rewrite red_vals. exists (redj t :: ns). split; [by constructor|].
      rewrite (nv_splice k_vals J (redj t)) by (first [notin|exact IH]). cbn [map splice lx_kind]. rewrite bool_decide_true by (by left).
      cbn [flat_map]. rewrite red_moreval, app_nil_r, E. reflexivity.
    - intros k c J t Hk _ IH. rewrite red_keys, red_keyval, (red_leaf k) by (rewrite Hk; notin). cbn [pn_lexeme]. eexists. split; [|reflexivity].
      rewrite red_splice by discriminate. cbn [map splice lx_kind]. rewrite bool_decide_true by (by left). cbn [flat_map]. rewrite app_nil_r.
      apply (ne_cons J [] (Lx (L "KeyVal") (lx_val k) (lx_line k) (lx_col k))); [reflexivity|exact IH|constructor].
    - intros k c J t l c' t' m Hk _ IH _ (ns & Hn & E). rewrite red_keys, red_keyval, (red_leaf k) by (rewrite Hk; notin). cbn [pn_lexeme].
      exists (PN (Lx (L "KeyVal") (lx_val k) (lx_line k) (lx_col k)) [redj t] :: ns). split.
      + apply (ne_cons J l (Lx (L "KeyVal") (lx_val k) (lx_line k) (lx_col k))); [reflexivity|exact IH|exact Hn].
      + rewrite red_splice by discriminate. cbn [map splice lx_kind]. rewrite bool_decide_true by (by left).
        cbn [flat_map]. rewrite red_morekey, app_nil_r, E. reflexivity.
  Qed.
End Reduce.

(** * Printing *)
Definition is_nested (c : pn) : bool :=
  bool_decide (lx_kind (pn_lexeme c) = L "Array") || bool_decide (lx_kind (pn_lexeme c) = L "Object").
Definition print_array (pad : gostring) := fix array (cs : list pn) (first prepend : bool) : res gostring :=
  match cs with
  | [] => Ok ((if prepend then [c_nl] ++ pad else []) ++ L "]")
  | c :: r =>
      x <-! pretty c (pad ++ L "  ");
      y <-! array r false (prepend || is_nested c);
      Ok ((if first then [] else L ",") ++ (if is_nested c then [c_nl] ++ pad ++ L "  " else []) ++ x ++ y)
  end.
Definition print_object (pad : gostring) := fix object (cs : list pn) (first : bool) : res gostring :=
  match cs with
  | [] => Ok ([c_nl] ++ pad ++ L "}")
  | c :: r =>
      x <-! pretty c (pad ++ L "  ");
      y <-! object r false;
      Ok ((if first then [] else L "," ++ [c_nl]) ++ (pad ++ L "  ") ++ x ++ y)
  end.
Lemma pretty_array cs pad : pretty (nt "Array" cs) pad = (x <-! print_array pad cs true false; Ok (L "[" ++ x)).
Proof. reflexivity. Qed.
Lemma pretty_object cs pad : pretty (nt "Object" cs) pad =
  match cs with
  | [] => Ok (L "{}")
  | [c] => x <-! pretty c pad; Ok (L "{" ++ x ++ L "}")
  | _ => x <-! print_object pad cs true; Ok (L "{" ++ [c_nl] ++ x)
  end.
Proof. reflexivity. Qed.
Lemma pretty_key lx n pad : lx_kind lx = L "KeyVal" -> pretty (PN lx [n]) pad = (x <-! pretty n pad; Ok (lx_val lx ++ L ": " ++ x)).
Proof. intros H. cbn [pretty]. rewrite !decide_False by (rewrite H; discriminate). by rewrite decide_True. Qed.
Lemma pretty_leaf lx pad : lx_kind lx ∈ leaf_kinds -> pretty (PN lx []) pad = Ok (lx_val lx).
Proof.
  intros H. cbn [pretty]. assert (H3 : lx_kind lx ∉ [L "Array"; L "Object"; L "KeyVal"]).
  { revert H. generalize (lx_kind lx). apply Forall_forall. notin. }
  rewrite !not_elem_of_cons in H3. rewrite !decide_False by tauto. reflexivity.
Qed.
Lemma nested_is J n : nv J n -> is_nested n = nested J.
Proof.
  intros H. destruct H; [|reflexivity|reflexivity]. unfold is_nested. cbn [pn_lexeme nested].
  assert (H3 : lx_kind lx ∉ [L "Array"; L "Object"]) by (revert H; generalize (lx_kind lx); apply Forall_forall; notin).
  rewrite !not_elem_of_cons in H3. rewrite !bool_decide_false by tauto. reflexivity.
Qed.
Definition pads (n : nat) : gostring := repeat 32%N (2 * n).
Lemma pads_S n : pads n ++ L "  " = pads (S n).
Proof. unfold pads. replace (2 * S n) with (2 * n + 2) by lia. rewrite repeat_app. reflexivity. Qed.
Definition item_text (n : nat) (J : json) : gostring := (if nested J then line (S n) else []) ++ layout (S n) J.
Definition entry_text (n : nat) (e : gostring * json) : gostring := line (S n) ++ fst e ++ L ": " ++ layout (S n) (snd e).
Lemma join_flat sep x l : strjoin sep (x :: l) = x ++ flat_map (fun y => sep ++ y) l.
Proof.
  revert x. induction l as [|y l IH]; intros x; [cbn [strjoin flat_map]; by rewrite app_nil_r|].
  change (strjoin sep (x :: y :: l)) with (x ++ sep ++ strjoin sep (y :: l)). rewrite IH. cbn [flat_map]. by rewrite <- !app_assoc.
Qed.
Lemma flat_map_map {A B C} (f : B -> list C) (g : A -> B) l : flat_map f (map g l) = flat_map (fun x => f (g x)) l.
Proof. induction l as [|x l IH]; [done|]. cbn [map flat_map]. by rewrite IH. Qed.
Definition items_from (n : nat) (l : list json) (first : bool) : gostring :=
  match l with [] => [] | J :: r => (if first then [] else L ",") ++ item_text n J ++ flat_map (fun J => L "," ++ item_text n J) r end.
Definition entries_from (n : nat) (l : list (gostring * json)) (first : bool) : gostring :=
  match l with [] => [] | e :: r => (if first then drop 1 (entry_text n e) else L "," ++ entry_text n e) ++ flat_map (fun e => L "," ++ entry_text n e) r end.
Lemma layout_array n l : layout n (JArr l) = L "[" ++ items_from n l true ++ (if existsb nested l then line n else []) ++ L "]".
Proof.
  change (layout n (JArr l)) with (L "[" ++ strjoin (L ",") (map (item_text n) l) ++ (if existsb nested l then line n else []) ++ L "]").
  assert (E : strjoin (L ",") (map (item_text n) l) = items_from n l true) by (destruct l as [|J l]; [done|]; cbn [map items_from]; by rewrite join_flat, flat_map_map).
  by rewrite E.
Qed.
Lemma layout_object n e e' l : layout n (JObj (e :: e' :: l)) = L "{" ++ [c_nl] ++ entries_from n (e :: e' :: l) true ++ line n ++ L "}".
Proof.
  destruct e as [k J].
  change (layout n (JObj ((k, J) :: e' :: l))) with (L "{" ++ strjoin (L ",") (map (entry_text n) ((k, J) :: e' :: l)) ++ line n ++ L "}").
  cbn [map]. rewrite join_flat. change (entry_text n e' :: map (entry_text n) l) with (map (entry_text n) (e' :: l)).
  rewrite flat_map_map. reflexivity.
Qed.
Lemma print_all :
  (forall J t, nv J t -> forall n, pretty t (pads n) = Ok (layout n J))
  /\ (forall l ns, ni l ns -> forall n first prepend, print_array (pads n) ns first prepend =
       Ok (items_from n l first ++ (if prepend || existsb nested l then line n else []) ++ L "]"))
  /\ (forall l ns, ne l ns -> forall n, (forall first, print_object (pads n) ns first = Ok (entries_from n l first ++ line n ++ L "}"))
       /\ match l, ns with [(k, J)], [c] => pretty c (pads n) = Ok (k ++ L ": " ++ layout n J) | _, _ => True end).
Proof.
  apply (n_mut (fun J t _ => forall n, pretty t (pads n) = Ok (layout n J))
    (fun l ns _ => forall n first prepend, print_array (pads n) ns first prepend =
       Ok (items_from n l first ++ (if prepend || existsb nested l then line n else []) ++ L "]"))
    (fun l ns _ => forall n, (forall first, print_object (pads n) ns first = Ok (entries_from n l first ++ line n ++ L "}"))
       /\ match l, ns with [(k, J)], [c] => pretty c (pads n) = Ok (k ++ L ": " ++ layout n J) | _, _ => True end)).
  - intros lx H n. by rewrite pretty_leaf.
  - intros l ns _ IH n. rewrite pretty_array, IH, layout_array. reflexivity.
  - intros l ns Hne IH n. rewrite pretty_object. destruct Hne as [|J l lx m ns Hk Hm Hne]; [reflexivity|].
    destruct Hne as [|J' l lx' m' ns Hk' Hm' Hne].
    + destruct (IH n) as [_ ->]. cbn [rbind]. cbn [layout]. by rewrite <- !app_assoc.
    + rewrite (proj1 (IH n)). rewrite layout_object. reflexivity.
  - intros n first prepend. cbn [print_array items_from existsb]. rewrite orb_false_r. reflexivity.
  - intros J l m ns Hv IH _ IHl n first prepend. cbn [print_array]. fold (print_array (pads n)). rewrite pads_S, IH, IHl. cbn [rbind].
    rewrite (nested_is J m Hv). f_equal. cbn [items_from existsb]. rewrite orb_assoc. unfold item_text at 1. rewrite <- !app_assoc. f_equal. f_equal.
    assert (E : items_from n l false = flat_map (fun J => L "," ++ item_text n J) l) by (destruct l; [done|]; cbn [items_from flat_map]; by rewrite <- app_assoc).
    by rewrite E.
  - intros n. split; [|exact I]. intros first. reflexivity.
  - intros J l lx m ns Hk Hv IH _ IHl n. split.
    + intros first. cbn [print_object]. fold (print_object (pads n)). rewrite pads_S, pretty_key, IH by exact Hk. cbn [rbind]. rewrite (proj1 (IHl n) false). cbn [rbind].
      f_equal. cbn [entries_from]. rewrite <- !app_assoc.
      assert (E : forall b, (if b : bool then drop 1 (entry_text n (lx_val lx, J)) else L "," ++ entry_text n (lx_val lx, J))
        = (if b then [] else L "," ++ [c_nl]) ++ pads (S n) ++ lx_val lx ++ L ": " ++ layout (S n) J) by (intros []; reflexivity).
      assert (E2 : entries_from n l false = flat_map (fun e => L "," ++ entry_text n e) l) by (destruct l; [done|]; cbn [entries_from flat_map]; by rewrite <- app_assoc).
      by rewrite E, E2, <- !app_assoc.
    + destruct l, ns; try exact I. rewrite pretty_key, IH by exact Hk. reflexivity.
Qed.
Lemma prints J t : nv J t -> pretty t [] = Ok (layout 0 J).
Proof. intros H. exact (proj1 print_all J t H 0). Qed.
