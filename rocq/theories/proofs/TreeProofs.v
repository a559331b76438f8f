(** The tree reductions against their list specifications. *)
From Verif.model Require Import TreeOps TreeText.
From Verif.spec Require Import TreeSpec.
From Coq Require Import Lia.
Local Open Scope Z_scope.

(** * Indexes *)
Lemma at_index_range {A} i (C a : list A) c b : at_index i C a c b -> in_range i C.
Proof.
  intros [-> Hi]. unfold in_range. rewrite app_length. cbn [length] in *. lia.
Qed.

Lemma range_at_index {A} i (C : list A) : in_range i C -> exists a c b, at_index i C a c b.
Proof.
  intros Hr. unfold in_range in Hr.
  set (k := Z.to_nat (if i <? 0 then Z.of_nat (length C) + i else i)).
  assert (Hk : (k < length C)%nat) by (unfold k; destruct (Z.ltb_spec i 0); lia).
  destruct (lookup_lt_is_Some_2 C k Hk) as [c Hc].
  exists (take k C), c, (drop (S k) C). split.
  - symmetry. by apply take_drop_middle.
  - cbn [length]. rewrite take_length, drop_length. unfold k in *. destruct (Z.ltb_spec i 0); lia.
Qed.

Lemma get_idx_at p i a c b :
  at_index i (pn_children p) a c b ->
  get_idx p i = (Z.of_nat (length a), zlen (pn_children p), true).
Proof.
  intros [HC Hi]. unfold get_idx, zlen. rewrite HC, app_length. cbn [length] in *.
  assert (Hx : (if i <? 0 then Z.of_nat (length a + S (length b)) + i else i) = Z.of_nat (length a))
    by (destruct (Z.ltb_spec i 0); lia).
  rewrite Hx. f_equal. apply andb_true_iff. split; [apply Z.leb_le|apply Z.ltb_lt]; lia.
Qed.

Lemma get_idx_out p i : ~ in_range i (pn_children p) -> snd (get_idx p i) = false.
Proof.
  intros Hr. unfold get_idx, zlen, in_range in *. cbn [snd].
  apply andb_false_iff. destruct (Z.ltb_spec i 0).
  - left. apply Z.leb_gt. lia.
  - right. apply Z.ltb_ge. lia.
Qed.

Lemma zget_mid {A} (a : list A) c b : zget (a ++ c :: b) (Z.of_nat (length a)) = Some c.
Proof.
  unfold zget. replace (Z.of_nat (length a) <? 0) with false by (symmetry; apply Z.ltb_ge; lia).
  rewrite Nat2Z.id. by apply list_lookup_middle.
Qed.
Lemma zto_mid {A} (a : list A) c b : zto (Z.of_nat (length a)) (a ++ c :: b) = a.
Proof. unfold zto. rewrite Nat2Z.id. by rewrite take_app. Qed.
Lemma zfrom_mid {A} (a : list A) c b : zfrom (Z.of_nat (length a) + 1) (a ++ c :: b) = b.
Proof.
  unfold zfrom. replace (Z.to_nat (Z.of_nat (length a) + 1)) with (length (a ++ [c]))
    by (rewrite app_length; cbn [length]; lia).
  replace (a ++ c :: b) with ((a ++ [c]) ++ b) by (by rewrite <- app_assoc). by rewrite drop_app.
Qed.
Lemma zlen_mid {A} (a : list A) c b :
  zlen (a ++ c :: b) = Z.of_nat (length a) + 1 + Z.of_nat (length b).
Proof. unfold zlen. rewrite app_length. cbn [length]. lia. Qed.

Ltac out_of_range H :=
  let E := fresh "E" in
  match goal with |- context [get_idx ?p ?i] =>
    pose proof (get_idx_out p i H) as E; destruct (get_idx p i) as [[? ?] ?]; cbn [snd] in E; subst
  end.

(** * Accessors *)
Lemma child_in p i a c b : at_index i (pn_children p) a c b -> child p i = Some c.
Proof.
  intros H. unfold child. rewrite (get_idx_at _ _ _ _ _ H). destruct H as [-> _]. apply zget_mid.
Qed.
Lemma child_out p i : ~ in_range i (pn_children p) -> child p i = None.
Proof. intros H. unfold child. out_of_range H. reflexivity. Qed.

Lemma child_at_in p i a c b symbs : at_index i (pn_children p) a c b ->
  (child_at p i symbs = true <-> lx_kind (pn_lexeme c) ∈ symbs).
Proof.
  intros H. unfold child_at. rewrite (get_idx_at _ _ _ _ _ H). destruct H as [-> _].
  rewrite zget_mid, existsb_exists. split.
  - intros (x & Hx & Hd). apply bool_decide_eq_true in Hd as ->. by apply elem_of_list_In.
  - intros Hin. eexists. split; [by apply elem_of_list_In|]. by apply bool_decide_eq_true.
Qed.
Lemma child_at_out p i symbs : ~ in_range i (pn_children p) -> child_at p i symbs = false.
Proof. intros H. unfold child_at. out_of_range H. reflexivity. Qed.

Lemma child_is_in p i a c b kind : at_index i (pn_children p) a c b ->
  (child_is p i kind = true <-> lx_kind (pn_lexeme c) = kind).
Proof.
  intros H. unfold child_is. rewrite (get_idx_at _ _ _ _ _ H).
  assert (H' : at_index (Z.of_nat (length a)) (pn_children p) a c b) by (destruct H; split; auto).
  rewrite (child_in _ _ _ _ _ H'). by rewrite bool_decide_eq_true.
Qed.
Lemma child_is_out p i kind : ~ in_range i (pn_children p) -> child_is p i kind = false.
Proof. intros H. unfold child_is. out_of_range H. reflexivity. Qed.

(** * Removing *)
Lemma remove_child_in i lx C a c b :
  at_index i C a c b -> remove_child i (PN lx C) = (PN lx (a ++ b), true).
Proof.
  intros H. unfold remove_child. rewrite (get_idx_at (PN lx C) i a c b H).
  destruct H as [-> _]. cbn [pn_children pn_lexeme].
  rewrite zto_mid, zfrom_mid, zlen_mid.
  destruct (Z.eqb_spec (Z.of_nat (length a)) (Z.of_nat (length a) + 1 + Z.of_nat (length b) - 1)) as [He|He]; [|done].
  destruct b; [by rewrite app_nil_r|cbn [length] in He; lia].
Qed.
Lemma remove_child_out i p : ~ in_range i (pn_children p) -> remove_child i p = (p, false).
Proof. intros H. unfold remove_child. out_of_range H. reflexivity. Qed.

Notation matches symbols := (fun c : pn => lx_kind (pn_lexeme c) ∈ symbols).
Notation others symbols := (fun c : pn => ~ lx_kind (pn_lexeme c) ∈ symbols).

Lemma remove_all_loop_spec symbols : forall b fuel lx a,
  (length b <= fuel)%nat ->
  remove_all_loop fuel symbols (Z.of_nat (length a)) (PN lx (a ++ b))
  = PN lx (a ++ filter (others symbols) b).
Proof.
  induction b as [|c b IH]; intros fuel lx a Hf.
  - destruct fuel; cbn [remove_all_loop]; [done|]. cbn [pn_children].
    unfold zlen. rewrite app_nil_r. rewrite Z.ltb_irrefl. by rewrite filter_nil, app_nil_r.
  - destruct fuel as [|fuel]; [cbn in Hf; lia|]. cbn [remove_all_loop pn_children].
    replace (Z.of_nat (length a) <? zlen (a ++ c :: b)) with true
      by (symmetry; rewrite zlen_mid; apply Z.ltb_lt; lia).
    assert (Hat : at_index (Z.of_nat (length a)) (a ++ c :: b) a c b) by (split; auto).
    pose proof (child_at_in (PN lx (a ++ c :: b)) _ a c b symbols Hat) as Hc.
    cbn [length] in Hf. destruct (child_at _ _ _).
    + rewrite (remove_child_in _ _ _ _ _ _ Hat). cbn [fst].
      rewrite filter_cons_False; [apply IH; lia|].
      intros Hn. apply Hn. apply Hc. done.
    + rewrite filter_cons_True; [|intros Hin; apply Hc in Hin; done].
      replace (a ++ c :: b) with ((a ++ [c]) ++ b) by (by rewrite <- app_assoc).
      replace (Z.of_nat (length a) + 1) with (Z.of_nat (length (a ++ [c])))
        by (rewrite app_length; cbn [length]; lia).
      rewrite IH by lia. by rewrite <- app_assoc.
Qed.
Lemma remove_all_spec symbols lx C :
  remove_all symbols (PN lx C) = PN lx (filter (others symbols) C).
Proof. apply (remove_all_loop_spec symbols C _ lx []). done. Qed.

Lemma mark_drop_len p : forall idxs d, length (mark_drop p idxs d) = length d.
Proof.
  induction idxs as [|i idxs IH]; intros d; cbn [mark_drop]; [done|].
  destruct (get_idx p i) as [[? ?] []]; rewrite IH; [apply insert_length|done].
Qed.

Lemma get_idx_hits p i k : (k < length (pn_children p))%nat ->
  (((i =? Z.of_nat k) || (i =? Z.of_nat k - zlen (pn_children p))) = true
   <-> let '(j, _, ok) := get_idx p i in ok = true /\ Z.to_nat j = k).
Proof.
  intros Hk. unfold get_idx, zlen. rewrite orb_true_iff, !Z.eqb_eq, andb_true_iff, Z.leb_le, Z.ltb_lt.
  destruct (Z.ltb_spec i 0); lia.
Qed.

Lemma mark_drop_spec p : forall idxs d k,
  length d = length (pn_children p) -> (k < length d)%nat ->
  mark_drop p idxs d !! k = Some true <-> d !! k = Some true \/ listed idxs (length d) k = true.
Proof.
  induction idxs as [|i idxs IH]; intros d k Hd Hk; cbn [mark_drop].
  - unfold listed. cbn [existsb]. split; [auto|intros [?|?]; done].
  - rewrite Hd in Hk. pose proof (get_idx_hits p i k Hk) as Hh. unfold zlen in Hh.
    destruct (get_idx p i) as [[j l] ok]. unfold listed. cbn [existsb]. fold (listed idxs (length d) k).
    rewrite orb_true_iff. rewrite Hd at 1. rewrite Hh. destruct ok.
    + rewrite IH by (rewrite insert_length; lia). rewrite insert_length.
      destruct (decide (Z.to_nat j = k)) as [<-|Hne].
      * rewrite list_lookup_insert by lia. tauto.
      * rewrite list_lookup_insert_ne by done. tauto.
    + rewrite IH by lia. split; [tauto|]. intros [?|[[? _]|?]]; [tauto|done|tauto].
Qed.

Lemma keep_undropped_spec (test : nat -> bool) : forall (C : list pn) d n,
  length d = length C -> (forall k, (k < length C)%nat -> (d !! k = Some true <-> test (n + k)%nat = true)) ->
  keep_undropped d C = map snd (filter (fun kc => test (fst kc) = false) (combine (seq n (length C)) C)).
Proof.
  induction C as [|c C IH]; intros d n Hl Hd; destruct d as [|b d]; try discriminate; [done|].
  cbn [length] in Hl, Hd. cbn [keep_undropped combine seq length].
  pose proof (Hd 0%nat ltac:(lia)) as H0. rewrite Nat.add_0_r in H0. cbn in H0.
  assert (Hr : forall k, (k < length C)%nat -> (d !! k = Some true <-> test (S n + k)%nat = true)).
  { intros k Hk. specialize (Hd (S k) ltac:(lia)). cbn in Hd. by rewrite Nat.add_succ_r in Hd. }
  specialize (IH d (S n) ltac:(lia) Hr). destruct b.
  - rewrite filter_cons_False; [done|]. cbn [fst]. intros He. destruct H0 as [H0 _]. by rewrite H0 in He.
  - rewrite filter_cons_True; [cbn [map snd]; by rewrite IH|]. cbn [fst]. destruct (test n); [|done].
    destruct H0 as [_ H0]. by specialize (H0 eq_refl).
Qed.

Lemma remove_children_spec idxs lx C :
  remove_children idxs (PN lx C) = PN lx (drop_listed idxs C).
Proof.
  unfold remove_children, drop_listed. cbn [pn_children pn_lexeme]. f_equal.
  apply (keep_undropped_spec (listed idxs (length C)) C _ 0%nat).
  - by rewrite mark_drop_len, replicate_length.
  - intros k Hk. rewrite mark_drop_spec; rewrite ?replicate_length; [|done..].
    cbn [Nat.add]. split; [|tauto]. intros [Hr|?]; [|done].
    apply lookup_replicate in Hr as [? _]. done.
Qed.

(** * Splicing *)
Lemma promote_children_of_in i lx C a c b : at_index i C a c b ->
  promote_children_of i (PN lx C) = (PN lx (a ++ pn_children c ++ b), true).
Proof.
  intros H. unfold promote_children_of. rewrite (get_idx_at (PN lx C) i a c b H).
  destruct H as [-> _]. cbn [pn_children pn_lexeme].
  rewrite zget_mid, zto_mid, zfrom_mid, zlen_mid.
  destruct (Z.eqb_spec (Z.of_nat (length a)) (Z.of_nat (length a) + 1 + Z.of_nat (length b) - 1)) as [He|He]; [|done].
  destruct b; [by rewrite !app_nil_r|cbn [length] in He; lia].
Qed.
Lemma promote_children_of_out i p : ~ in_range i (pn_children p) -> promote_children_of i p = (p, false).
Proof. intros H. unfold promote_children_of. out_of_range H. reflexivity. Qed.

Lemma promote_grand_children_spec lx C :
  promote_grand_children (PN lx C) = PN lx (List.concat (map pn_children C)).
Proof.
  unfold promote_grand_children. cbn [pn_children pn_lexeme]. f_equal.
  assert (Hg : forall C acc, fold_left (fun acc c => acc ++ pn_children c) C acc
                             = acc ++ List.concat (map pn_children C)).
  { clear C. induction C as [|c C IH]; intros acc; cbn [fold_left map List.concat]; [by rewrite app_nil_r|].
    by rewrite IH, app_assoc. }
  apply Hg.
Qed.

(** * Promoting *)
Lemma promote_child_in i lx C a c b : at_index i C a c b ->
  promote_child i (PN lx C) = (PN (pn_lexeme c) (a ++ pn_children c ++ b), true).
Proof.
  intros H. unfold promote_child. rewrite (get_idx_at (PN lx C) i a c b H).
  destruct H as [-> _]. cbn [pn_children pn_lexeme].
  rewrite zget_mid, zto_mid, zfrom_mid, zlen_mid.
  destruct (Z.ltb_spec (Z.of_nat (length a) + 1) (Z.of_nat (length a) + 1 + Z.of_nat (length b))); [done|].
  destruct b; [by rewrite !app_nil_r|cbn [length] in *; lia].
Qed.
Lemma promote_child_out i p : ~ in_range i (pn_children p) -> promote_child i p = (p, false).
Proof. intros H. unfold promote_child. out_of_range H. reflexivity. Qed.

Lemma promote_single_child_one lx c :
  promote_single_child (PN lx [c]) = (c, true).
Proof.
  unfold promote_single_child. cbn [pn_children length Nat.eqb].
  rewrite (promote_child_in 0 lx [c] [] c []) by (split; auto).
  cbn [fst app]. rewrite app_nil_r. by destruct c.
Qed.
Lemma promote_single_child_other p :
  (length (pn_children p) <> 1)%nat -> promote_single_child p = (p, false).
Proof. intros H. unfold promote_single_child. apply Nat.eqb_neq in H. by rewrite H. Qed.

Lemma replace_with_child_in i lx C a c b : at_index i C a c b ->
  replace_with_child i (PN lx C) = (c, true).
Proof.
  intros H. unfold replace_with_child. rewrite (get_idx_at (PN lx C) i a c b H).
  destruct H as [-> _]. cbn [pn_children]. by rewrite zget_mid.
Qed.
Lemma replace_with_child_out i p : ~ in_range i (pn_children p) -> replace_with_child i p = (p, false).
Proof. intros H. unfold replace_with_child. out_of_range H. reflexivity. Qed.

(** * PromoteChildValue *)
Lemma promote_child_value_in i lx C a c b : at_index i C a c b ->
  promote_child_value i (PN lx C)
  = PN (Lx (lx_kind lx) (lx_val (pn_lexeme c)) (lx_line (pn_lexeme c)) (lx_col (pn_lexeme c))) (a ++ b).
Proof.
  intros H. unfold promote_child_value. cbn [pn_children pn_lexeme].
  assert (Hx : (if i <? 0 then zlen C + i else i) = Z.of_nat (length a)).
  { destruct H as [-> Hi]. rewrite zlen_mid. cbn [length] in Hi. destruct (Z.ltb_spec i 0); lia. }
  rewrite Hx. destruct H as [-> Hi]. rewrite zget_mid, zlen_mid.
  replace ((0 <=? Z.of_nat (length a)) && (Z.of_nat (length a) <? Z.of_nat (length a) + 1 + Z.of_nat (length b))) with true
    by (symmetry; apply andb_true_iff; split; [apply Z.leb_le|apply Z.ltb_lt]; lia).
  rewrite (remove_child_in _ _ _ a c b); [done|]. split; auto.
Qed.

Lemma promote_child_value_out i lx C : ~ in_range i C ->
  promote_child_value i (PN lx C)
  = fst (remove_child (if i <? 0 then zlen C + i else i) (PN lx C)).
Proof.
  intros H. unfold promote_child_value, in_range, zlen in *. cbn [pn_children pn_lexeme].
  match goal with |- fst (remove_child _ (if ?b then _ else _)) = _ => replace b with false; [done|] end.
  symmetry. apply andb_false_iff. destruct (Z.ltb_spec i 0); [left; apply Z.leb_gt; lia|right; apply Z.ltb_ge; lia].
Qed.
Lemma promote_child_value_far i lx C :
  i < - 2 * Z.of_nat (length C) \/ Z.of_nat (length C) <= i ->
  promote_child_value i (PN lx C) = PN lx C.
Proof.
  intros H. rewrite promote_child_value_out by (unfold in_range; lia).
  rewrite remove_child_out; [done|]. cbn [pn_children]. unfold in_range, zlen.
  destruct (Z.ltb_spec i 0); lia.
Qed.
Lemma promote_child_value_wrap i lx C a c b :
  C = a ++ c :: b -> i = - (Z.of_nat (length C) + Z.of_nat (length (c :: b))) ->
  promote_child_value i (PN lx C) = PN lx (a ++ b).
Proof.
  intros HC Hi. assert (Hlen := f_equal length HC). rewrite app_length in Hlen. cbn [length] in *.
  rewrite promote_child_value_out by (unfold in_range; lia).
  rewrite (remove_child_in _ lx C a c b); [done|].
  split; [done|]. right. unfold zlen. cbn [length]. destruct (Z.ltb_spec i 0); lia.
Qed.

(** * Merge *)
Lemma merge_step2_lookup r1 r2 k : forall ks m,
  fold_left (merge_step2 r1 r2) ks m !! k
  = if decide (k ∈ ks) then
      match r2 !! k with
      | None => m !! k
      | Some f2 => Some (match r1 !! k with None => f2 | Some f1 => chain f1 f2 end)
      end
    else m !! k.
Proof.
  induction ks as [|x ks IH]; intros m; cbn [fold_left]; [done|]. rewrite IH.
  assert (Hs : merge_step2 r1 r2 m x !! k
    = if decide (k = x) then match r2 !! k with
        | None => m !! k
        | Some f2 => Some (match r1 !! k with None => f2 | Some f1 => chain f1 f2 end) end else m !! k).
  { unfold merge_step2. destruct (decide (k = x)) as [->|Hne].
    - destruct (r2 !! x) as [f2|] eqn:E2; [|done]. destruct (r1 !! x); by rewrite lookup_insert.
    - destruct (r2 !! x); [|done]. destruct (r1 !! x); by rewrite lookup_insert_ne. }
  rewrite Hs. destruct (decide (k ∈ ks)) as [Hin|Hin], (decide (k = x)) as [->|Hne].
  - rewrite decide_True by (by left). destruct (r2 !! x); done.
  - rewrite decide_True by (by right). done.
  - by rewrite decide_True by (by left).
  - rewrite decide_False; [done|]. rewrite elem_of_cons. tauto.
Qed.
Lemma merge_step1_lookup r1 k : forall ks m,
  fold_left (merge_step1 r1) ks m !! k
  = match m !! k with
    | Some f => Some f
    | None => if decide (k ∈ ks) then r1 !! k else None
    end.
Proof.
  induction ks as [|x ks IH]; intros m; cbn [fold_left]; [by destruct (m !! k)|]. rewrite IH.
  unfold merge_step1. destruct (r1 !! x) as [f1|] eqn:E1.
  - destruct (m !! x) as [g|] eqn:Em.
    + destruct (m !! k) eqn:Ek; [done|]. destruct (decide (k ∈ ks)).
      * rewrite decide_True by (by right). done.
      * rewrite decide_False; [done|]. rewrite elem_of_cons. intros [->|?]; [by rewrite Ek in Em|done].
    + destruct (decide (k = x)) as [->|Hne].
      * rewrite lookup_insert, Em. rewrite decide_True by (by left). done.
      * rewrite lookup_insert_ne by done. destruct (m !! k); [done|].
        destruct (decide (k ∈ ks)); [rewrite decide_True by (by right); done|].
        rewrite decide_False; [done|]. rewrite elem_of_cons. tauto.
  - destruct (m !! k); [done|]. destruct (decide (k ∈ ks)).
    + rewrite decide_True by (by right). done.
    + destruct (decide (k = x)) as [->|Hne].
      * rewrite decide_True by (by left). done.
      * rewrite decide_False; [done|]. rewrite elem_of_cons. tauto.
Qed.

Lemma merge_lookup (ks1 ks2 : list gostring) (r1 r2 : reducer) (k : gostring) :
  (forall x, x ∈ ks1 <-> is_Some (r1 !! x)) -> (forall x, x ∈ ks2 <-> is_Some (r2 !! x)) ->
  merge_reducers ks1 ks2 r1 r2 !! k
  = match r1 !! k, r2 !! k with
    | Some f1, Some f2 => Some (chain f1 f2)
    | Some f1, None => Some f1
    | None, Some f2 => Some f2
    | None, None => None
    end.
Proof.
  intros H1 H2. unfold merge_reducers. rewrite merge_step1_lookup, merge_step2_lookup, lookup_empty.
  destruct (decide (k ∈ ks2)) as [Hk2|Hk2].
  - apply H2 in Hk2 as [f2 ->]. by destruct (r1 !! k).
  - assert (E2 : r2 !! k = None) by (apply eq_None_not_Some; rewrite <- H2; done). rewrite E2.
    destruct (decide (k ∈ ks1)) as [Hk1|Hk1]; [by destruct (r1 !! k)|].
    assert (E1 : r1 !! k = None) by (apply eq_None_not_Some; rewrite <- H1; done). by rewrite E1.
Qed.

Lemma merge_order (ks1 ks2 ks1' ks2' : list gostring) (r1 r2 : reducer) :
  (forall x, x ∈ ks1 <-> is_Some (r1 !! x)) -> (forall x, x ∈ ks2 <-> is_Some (r2 !! x)) ->
  (forall x, x ∈ ks1' <-> is_Some (r1 !! x)) -> (forall x, x ∈ ks2' <-> is_Some (r2 !! x)) ->
  merge_reducers ks1 ks2 r1 r2 = merge_reducers ks1' ks2' r1 r2.
Proof. intros. apply map_eq. intros k. by rewrite !merge_lookup. Qed.

(** * Text segments *)
Lemma fold_add l : forall n : nat, fold_left (fun r c => (r + c)%nat) l n = (n + list_sum l)%nat.
Proof. induction l as [|x l IH]; intros n; cbn [fold_left list_sum fold_right]; [lia|]. rewrite IH. unfold list_sum. lia. Qed.

Definition pn_ind_list (P : pn -> Prop) (H : forall lx cs, Forall P cs -> P (PN lx cs)) : forall t, P t :=
  fix rec (t : pn) : P t :=
    match t with
    | PN lx cs => H lx cs ((fix go (cs : list pn) : Forall P cs :=
        match cs with [] => List.Forall_nil P | c :: r => List.Forall_cons P c r (rec c) (go r) end) cs)
    end.

Lemma pn_segs_len print t : forall pad, length (pn_segs print pad t) = pn_req t.
Proof.
  induction t as [lx cs IH] using pn_ind_list. intros pad.
  assert (Hcs : length (List.concat (map (pn_segs print (pad ++ [c_tab])) cs)) = list_sum (map pn_req cs)).
  { clear -IH. induction IH as [|c cs Hc _ IH]; cbn [map List.concat list_sum fold_right]; [done|].
    rewrite app_length, Hc, IH. reflexivity. }
  cbn [pn_segs pn_req]. rewrite !app_length. destruct (lx_val lx) as [|v0 v], cs as [|c cs];
    rewrite ?fold_add, ?app_length, ?Hcs; cbn [length]; lia.
Qed.
Lemma slice_req_exact print pad t : length (node_segs print pad t) = slice_req t.
Proof. destruct t as [t|]; [apply pn_segs_len|reflexivity]. Qed.

Lemma pn_size_nodes t : pn_size t = length (nodes t).
Proof.
  induction t as [lx cs IH] using pn_ind_list. cbn [pn_size nodes length]. rewrite fold_add.
  cbn [Nat.add]. f_equal. induction IH as [|c cs Hc _ IH]; cbn [map list_sum fold_right List.concat]; [done|].
  rewrite app_length, Hc, <- IH. reflexivity.
Qed.

(** * RawReduce *)
Lemma raw_reduce_sound r t : reduces (reduction_for r) t (raw_reduce r t).
Proof.
  induction t as [lx cs IH] using pn_ind_list. cbn [raw_reduce].
  assert (Hcs : Forall2 (reduces (reduction_for r)) cs (map (raw_reduce r) cs)).
  { clear -IH. induction IH; cbn [map]; constructor; auto. }
  destruct (r !! lx_kind lx) as [[f|]|] eqn:E.
  - apply (red_some _ lx cs _ f Hcs). unfold reduction_for. by rewrite E.
  - apply (red_none _ lx cs _ Hcs). unfold reduction_for. by rewrite E.
  - apply (red_none _ lx cs _ Hcs). unfold reduction_for. by rewrite E.
Qed.

Lemma reduces_fun R t : forall t1 t2, reduces R t t1 -> reduces R t t2 -> t1 = t2.
Proof.
  induction t as [lx cs IH] using pn_ind_list. intros t1 t2 H1 H2.
  assert (Hcs : forall c1 c2, Forall2 (reduces R) cs c1 -> Forall2 (reduces R) cs c2 -> c1 = c2).
  { clear -IH. induction IH as [|c cs Hc _ IH]; intros c1 c2 F1 F2; inversion F1; inversion F2; subst; [done|].
    f_equal; [by apply Hc|by apply IH]. }
  inversion H1; inversion H2; subst.
  - assert (f = f0) by congruence. subst. f_equal. f_equal. by apply Hcs.
  - congruence.
  - congruence.
  - f_equal. by apply Hcs.
Qed.

Lemma raw_reduce_exact r t t' : raw_reduce r t = t' <-> reduces (reduction_for r) t t'.
Proof.
  split; [intros <-; apply raw_reduce_sound|].
  intros H. apply (reduces_fun _ _ _ _ (raw_reduce_sound r t) H).
Qed.

Lemma raw_reduce_empty t : raw_reduce ∅ t = t.
Proof.
  induction t as [lx cs IH] using pn_ind_list. cbn [raw_reduce]. rewrite lookup_empty. f_equal.
  induction IH as [|c cs Hc _ IH]; cbn [map]; [done|]. by rewrite Hc, IH.
Qed.
