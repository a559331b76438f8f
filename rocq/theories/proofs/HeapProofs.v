(** The in-memory reductions implement the ones on values. *)
From Coq Require Import Lia.
From Verif.model Require Import TreeOps.
From Verif.spec Require Import HeapSpec TreeSpec.
From Verif.proofs Require Import TreeProofs.

Definition atree_ind_list (P : atree -> Prop)
  (H : forall p lx sl cs, Forall P cs -> P (AT p lx sl cs)) : forall A, P A :=
  fix rec (A : atree) : P A :=
    match A with
    | AT p lx sl cs => H p lx sl cs ((fix go (cs : list atree) : Forall P cs :=
        match cs with [] => List.Forall_nil P | c :: r => List.Forall_cons P c r (rec c) (go r) end) cs)
    end.

Notation fnodes cs := (List.concat (map a_nodes cs)).
Notation farrs cs := (List.concat (map a_arrs cs)).

Lemma fnodes_app cs ds : fnodes (cs ++ ds) = fnodes cs ++ fnodes ds.
Proof. by rewrite map_app, concat_app. Qed.
Lemma farrs_app cs ds : farrs (cs ++ ds) = farrs cs ++ farrs ds.
Proof. by rewrite map_app, concat_app. Qed.
Lemma fnodes_cons c cs : fnodes (c :: cs) = a_nodes c ++ fnodes cs.
Proof. done. Qed.
Lemma farrs_cons c cs : farrs (c :: cs) = a_arrs c ++ farrs cs.
Proof. done. Qed.
Lemma nodes_AT p lx sl cs : a_nodes (AT p lx sl cs) = p :: fnodes cs.
Proof. done. Qed.
Lemma arrs_AT p lx sl cs : a_arrs (AT p lx sl cs) = sl_arr sl ++ farrs cs.
Proof. done. Qed.
Lemma ptr_in_nodes A : a_ptr A ∈ a_nodes A.
Proof. destruct A. rewrite nodes_AT. by left. Qed.
Lemma ptr_in_fnodes c cs : c ∈ cs -> a_ptr c ∈ fnodes cs.
Proof.
  intros Hin. apply elem_of_list_In, in_concat. exists (a_nodes c).
  split; [apply in_map; by apply elem_of_list_In|apply elem_of_list_In, ptr_in_nodes].
Qed.
Lemma val_AT p lx sl cs : a_val (AT p lx sl cs) = PN lx (map a_val cs).
Proof. done. Qed.

(** * Slices *)
Lemma map_Some_inj {A} (l k : list A) : map Some l = map Some k -> l = k.
Proof. revert k. induction l; intros [|]; cbn; intros; f_equal; try congruence. apply IHl. congruence. Qed.

Lemma slice_len_is h sl ps : slice_is h sl ps -> slice_len sl = length ps.
Proof. destruct sl as [[a l]|]; cbn; [by intros [-> _]|by intros ->]. Qed.
Lemma elems_is h sl ps : slice_is h sl ps -> elems h sl = map Some ps.
Proof.
  destruct sl as [[a l]|]; cbn [slice_is elems]; [|by intros ->].
  intros [-> [sp Ha]]. unfold array. rewrite Ha. cbn [from_option id].
  rewrite <- (map_length Some ps). by rewrite take_app.
Qed.
Lemma slice_to_is h sl a b : slice_is h sl (a ++ b) -> slice_is h (slice_to sl (length a)) a.
Proof.
  destruct sl as [[x l]|]; cbn [slice_is slice_to].
  - intros [-> [sp Ha]]. split; [done|]. exists (map Some b ++ sp).
    by rewrite Ha, map_app, app_assoc.
  - intros E. by destruct a.
Qed.
Lemma sl_arr_to sl i : sl_arr (slice_to sl i) = sl_arr sl.
Proof. by destruct sl as [[? ?]|]. Qed.
Lemma slice_is_agree h h' sl ps :
  slice_is h sl ps -> (forall a, a ∈ sl_arr sl -> h_arrs h' !! a = h_arrs h !! a) -> slice_is h' sl ps.
Proof.
  destruct sl as [[x l]|]; cbn [slice_is sl_arr]; [|done]. intros [-> [sp Ha]] Hag.
  split; [done|]. exists sp. rewrite Hag; [done|by left].
Qed.
Lemma slice_get_is h sl a c b : slice_is h sl (a ++ c :: b) -> slice_get h sl (length a) = Ok (Some c).
Proof.
  intros H. unfold slice_get. rewrite (elems_is _ _ _ H), map_app. cbn [map].
  rewrite list_lookup_middle; [done|by rewrite map_length].
Qed.
Lemma slice_arr_lt h sl ps a : slice_is h sl ps -> a ∈ sl_arr sl -> a < length (h_arrs h).
Proof.
  destruct sl as [[x l]|]; cbn [slice_is sl_arr]; [|by rewrite elem_of_nil].
  intros [_ [sp Ha]] ->%elem_of_list_singleton. by apply lookup_lt_Some in Ha.
Qed.

Lemma append_spec g h sl ps qs h' sl' :
  slice_is h sl ps -> append_slice g h sl (map Some qs) = (h', sl') ->
  slice_is h' sl' (ps ++ qs) /\ h_nodes h' = h_nodes h
  /\ length (h_arrs h) <= length (h_arrs h')
  /\ (forall a, a < length (h_arrs h) -> a ∉ sl_arr sl -> h_arrs h' !! a = h_arrs h !! a)
  /\ (sl_arr sl' = sl_arr sl \/ sl_arr sl' = [length (h_arrs h)]).
Proof.
  intros Hs Ha. unfold append_slice in Ha.
  destruct qs as [|q qs].
  { injection Ha as <- <-. rewrite app_nil_r. split; [done|]. split; [done|]. split; [lia|]. auto. }
  set (xs := q :: qs) in *. change (map Some (q :: qs)) with (map Some xs) in Ha.
  assert (Hx : map Some xs <> []) by done. destruct (map Some xs) as [|x0 xr] eqn:Ex; [done|].
  rewrite <- Ex in Ha. clear Hx x0 xr Ex.
  rewrite (slice_len_is _ _ _ Hs), map_length in Ha.
  destruct (Nat.leb_spec (length ps + length xs) (match sl with None => O | Some (a, _) => length (array h a) end)).
  - destruct sl as [[a l]|]; [|cbn [length] in *; unfold xs in *; cbn [length] in *; lia].
    injection Ha as <- <-. destruct Hs as [-> [sp Hsp]]. pose proof (lookup_lt_Some _ _ _ Hsp).
    cbn [h_nodes h_arrs]. split; [|split; [done|split; [by rewrite insert_length|split; [|by left]]]].
    + split; [by rewrite app_length|]. eexists. cbn [h_arrs]. rewrite list_lookup_insert by done. f_equal.
      unfold array. rewrite Hsp. cbn [from_option id]. rewrite map_app, <- app_assoc. f_equal.
      rewrite <- (map_length Some ps). by rewrite take_app.
    + intros b Hb Hne. rewrite list_lookup_insert_ne; [done|]. cbn [sl_arr] in Hne. set_solver.
  - injection Ha as <- <-. cbn [h_nodes h_arrs].
    split; [|split; [done|split; [rewrite app_length; lia|split; [|by right]]]].
    + split; [by rewrite app_length|]. eexists. cbn [h_arrs]. rewrite list_lookup_middle by done. f_equal.
      rewrite (elems_is _ _ _ Hs), map_app, <- app_assoc. reflexivity.
    + intros b Hb _. by rewrite lookup_app_l.
Qed.

(** * Frames *)
Definition same_node (n n' : hnode) : Prop := h_lex n' = h_lex n /\ h_ch n' = h_ch n.
Definition agree (h h' : heap) (ns ars : list nat) : Prop :=
  (forall n x, n ∈ ns -> h_nodes h !! n = Some x -> exists x', h_nodes h' !! n = Some x' /\ same_node x x')
  /\ (forall a, a ∈ ars -> h_arrs h' !! a = h_arrs h !! a).

Lemma agree_sub h h' ns ars ns2 ars2 :
  agree h h' ns ars -> (forall n, n ∈ ns2 -> n ∈ ns) -> (forall a, a ∈ ars2 -> a ∈ ars) -> agree h h' ns2 ars2.
Proof. intros [H1 H2] Hn Ha. split; [intros n x Hin; by apply H1, Hn|intros a Hin; by apply H2, Ha]. Qed.

Lemma agree_eq h h' ns ars :
  (forall n, n ∈ ns -> h_nodes h' !! n = h_nodes h !! n) ->
  (forall a, a ∈ ars -> h_arrs h' !! a = h_arrs h !! a) -> agree h h' ns ars.
Proof.
  intros Hn Ha. split; [|done]. intros n x Hin Hx. exists x. rewrite Hn by done. by repeat split.
Qed.

Lemma agree_trans h h1 h2 ns ars : agree h h1 ns ars -> agree h1 h2 ns ars -> agree h h2 ns ars.
Proof.
  intros [N1 A1] [N2 A2]. split.
  - intros n x Hin Hx. destruct (N1 n x Hin Hx) as (x1 & Hx1 & S1).
    destruct (N2 n x1 Hin Hx1) as (x2 & Hx2 & S2). exists x2. split; [done|].
    unfold same_node in *. intuition congruence.
  - intros a Hin. rewrite A2, A1; done.
Qed.

Lemma holds_agree h h' A : holds h A -> agree h h' (a_nodes A) (a_arrs A) -> holds h' A.
Proof.
  induction A as [p lx sl cs IH] using atree_ind_list. intros Hh Hag.
  inversion Hh as [p0 lx0 par sl0 cs0 Hp Hsl Hcs]; subst.
  rewrite nodes_AT, arrs_AT in Hag. destruct Hag as [Hn Ha].
  destruct (Hn p _ ltac:(by left) Hp) as ([lx' par' sl'] & Hp' & [E1 E2]). cbn in E1, E2. subst.
  apply (holds_intro h' p lx par' sl cs); [done| |].
  - apply (slice_is_agree h); [done|]. intros a Hin. apply Ha. set_solver.
  - rewrite Forall_forall in *. intros c Hc. apply IH; [done|by apply Hcs|].
    split; [intros n x Hin; apply Hn|intros a Hin; apply Ha].
    + right. apply elem_of_list_In, in_concat. exists (a_nodes c).
      split; [apply in_map; by apply elem_of_list_In|by apply elem_of_list_In].
    + apply elem_of_app. right. apply elem_of_list_In, in_concat. exists (a_arrs c).
      split; [apply in_map; by apply elem_of_list_In|by apply elem_of_list_In].
Qed.

Lemma holds_all_agree h h' cs : Forall (holds h) cs -> agree h h' (fnodes cs) (farrs cs) -> Forall (holds h') cs.
Proof.
  rewrite !Forall_forall. intros Hh Hag c Hc. apply (holds_agree h); [by apply Hh|].
  apply (agree_sub _ _ _ _ _ _ Hag); intros x Hin; apply elem_of_list_In, in_concat.
  - exists (a_nodes c). split; [apply in_map; by apply elem_of_list_In|by apply elem_of_list_In].
  - exists (a_arrs c). split; [apply in_map; by apply elem_of_list_In|by apply elem_of_list_In].
Qed.

Lemma holds_node_lt h A n : holds h A -> n ∈ a_nodes A -> n < length (h_nodes h).
Proof.
  revert n. induction A as [p lx sl cs IH] using atree_ind_list. intros n Hh Hin.
  inversion Hh as [p0 lx0 par sl0 cs0 Hp Hsl Hcs]; subst. rewrite nodes_AT in Hin.
  apply elem_of_cons in Hin as [->|Hin]; [by apply lookup_lt_Some in Hp|].
  apply elem_of_list_In, in_concat in Hin as (l & Hl & Hn). apply in_map_iff in Hl as (c & <- & Hc).
  apply elem_of_list_In in Hc, Hn. rewrite Forall_forall in IH, Hcs. by apply (IH c Hc n (Hcs c Hc)).
Qed.
Lemma holds_arr_lt h A a : holds h A -> a ∈ a_arrs A -> a < length (h_arrs h).
Proof.
  revert a. induction A as [p lx sl cs IH] using atree_ind_list. intros n Hh Hin.
  inversion Hh as [p0 lx0 par sl0 cs0 Hp Hsl Hcs]; subst. rewrite arrs_AT in Hin.
  apply elem_of_app in Hin as [Hin|Hin]; [by apply (slice_arr_lt _ _ _ _ Hsl)|].
  apply elem_of_list_In, in_concat in Hin as (l & Hl & Hn). apply in_map_iff in Hl as (c & <- & Hc).
  apply elem_of_list_In in Hc, Hn. rewrite Forall_forall in IH, Hcs. by apply (IH c Hc n (Hcs c Hc)).
Qed.

(** * The shape of a step on node [p] whose children become [cs'] *)
Lemma step_tree h h' p lx sl cs lx' par' sl' cs' :
  tree_at h (AT p lx sl cs) ->
  h_nodes h' !! p = Some (HN lx' par' sl') ->
  slice_is h' sl' (map a_ptr cs') ->
  Forall (holds h) cs' ->
  (forall n, n <> p -> forall x, h_nodes h !! n = Some x ->
     exists x', h_nodes h' !! n = Some x' /\ same_node x x' /\ (n ∉ fnodes cs -> x' = x)) ->
  length (h_nodes h') = length (h_nodes h) ->
  length (h_arrs h) <= length (h_arrs h') ->
  (forall a, a ∈ farrs cs' -> h_arrs h' !! a = h_arrs h !! a) ->
  (forall a, a < length (h_arrs h) -> a ∉ a_arrs (AT p lx sl cs) -> h_arrs h' !! a = h_arrs h !! a) ->
  NoDup (p :: fnodes cs') -> NoDup (farrs cs') ->
  (forall n, n ∈ fnodes cs' -> n ∈ fnodes cs) ->
  (forall a, a ∈ farrs cs' -> a ∈ farrs cs) ->
  (forall a, a ∈ sl_arr sl' -> a ∉ farrs cs' /\ (a ∈ a_arrs (AT p lx sl cs) \/ length (h_arrs h) <= a)) ->
  tree_at h' (AT p lx' sl' cs') /\ only_changes h h' (AT p lx sl cs) (AT p lx' sl' cs').
Proof.
  intros (Hh & Hn & Ha) Hp' Hs' Hcs' Hnodes Hln Hla Hfa Hout Nd Na Sn Sa Hsl.
  assert (Hpf : p ∉ fnodes cs') by (by apply NoDup_cons in Nd as [? _]).
  split.
  - split; [|split; [done|]].
    + apply (holds_intro h' p lx' par' sl' cs'); [done|done|].
      apply (holds_all_agree h); [done|]. split; [|done].
      intros n x Hin Hx. destruct (Hnodes n ltac:(intros ->; done) x Hx) as (x' & ? & ? & _). eauto.
    + rewrite arrs_AT. apply NoDup_app. split; [destruct sl' as [[? ?]|]; cbn; [apply NoDup_singleton|constructor]|].
      split; [|done]. intros a Hin. by apply Hsl.
  - split; [lia|]. split; [lia|]. split; [|split; [done|split]].
    + intros n Hlt Hnin. rewrite nodes_AT in Hnin. apply not_elem_of_cons in Hnin as [Hne Hnf].
      destruct (lookup_lt_is_Some_2 (h_nodes h) n Hlt) as [x Hx].
      destruct (Hnodes n Hne x Hx) as (x' & Hx' & _ & He). rewrite Hx, Hx'. f_equal. by apply He.
    + intros n. rewrite !nodes_AT, !elem_of_cons. intros [->|Hin]; [by left; left|left; right; by apply Sn].
    + intros a. rewrite arrs_AT, elem_of_app. intros [Hin|Hin]; [by apply Hsl|].
      left. rewrite arrs_AT, elem_of_app. right. by apply Sa.
Qed.

Lemma implements_id : implements (fun t => t) (fun _ h => Ok h).
Proof.
  intros h A HA. exists h, A. split; [done|]. split; [done|]. split; [done|]. split; [done|].
  split; [lia|]. split; [lia|]. auto.
Qed.
Lemma only_changes_refl h A : only_changes h h A A.
Proof. split; [lia|]. split; [lia|]. auto. Qed.
Lemma only_changes_trans h h1 h2 A A1 A2 :
  only_changes h h1 A A1 -> only_changes h1 h2 A1 A2 -> only_changes h h2 A A2.
Proof.
  intros (L1 & M1 & N1 & R1 & S1 & T1) (L2 & M2 & N2 & R2 & S2 & T2).
  split; [lia|]. split; [lia|]. split; [|split; [|split]].
  - intros n Hlt Hnin. rewrite N2, N1; [done|done|done|lia|]. intros Hin. destruct (S1 n Hin); [done|lia].
  - intros n Hlt Hnin. rewrite R2, R1; [done|done|done|lia|]. intros Hin. destruct (T1 n Hin); [done|lia].
  - intros n Hin. destruct (S2 n Hin) as [H|H]; [by apply S1|right; lia].
  - intros n Hin. destruct (T2 n Hin) as [H|H]; [by apply T1|right; lia].
Qed.

(** * Sublists *)
Lemma sublist_in {A} (l k : list A) x : l `sublist_of` k -> x ∈ l -> x ∈ k.
Proof. induction 1; rewrite ?elem_of_cons; intuition. Qed.
Lemma sublist_nodup {A} (l k : list A) : l `sublist_of` k -> NoDup k -> NoDup l.
Proof.
  induction 1 as [|x l k Hs IH|x l k Hs IH]; intros Hnd; [done| |].
  - apply NoDup_cons in Hnd as [Hx Hk]. apply NoDup_cons. split; [|by apply IH].
    intros Hin. apply Hx. by apply (sublist_in _ _ _ Hs).
  - apply NoDup_cons in Hnd as [_ Hk]. by apply IH.
Qed.
Lemma fnodes_sublist cs' cs : cs' `sublist_of` cs -> fnodes cs' `sublist_of` fnodes cs.
Proof.
  induction 1; cbn [map List.concat]; [done|by apply sublist_app|by apply sublist_inserts_l].
Qed.
Lemma farrs_sublist cs' cs : cs' `sublist_of` cs -> farrs cs' `sublist_of` farrs cs.
Proof.
  induction 1; cbn [map List.concat]; [done|by apply sublist_app|by apply sublist_inserts_l].
Qed.
Lemma fnodes_splice a p lx sl ks b : fnodes (a ++ ks ++ b) `sublist_of` fnodes (a ++ AT p lx sl ks :: b).
Proof.
  rewrite !fnodes_app, fnodes_cons, nodes_AT. apply sublist_app; [done|].
  change ((p :: fnodes ks) ++ fnodes b) with (p :: (fnodes ks ++ fnodes b)).
  apply sublist_cons. done.
Qed.
Lemma farrs_splice a p lx sl ks b : farrs (a ++ ks ++ b) `sublist_of` farrs (a ++ AT p lx sl ks :: b).
Proof.
  rewrite !farrs_app, farrs_cons, arrs_AT. apply sublist_app; [done|].
  rewrite <- app_assoc. by apply sublist_inserts_l.
Qed.

Lemma step_tree_sub h h' p lx sl cs lx' par' sl' cs' :
  tree_at h (AT p lx sl cs) ->
  h_nodes h' !! p = Some (HN lx' par' sl') ->
  slice_is h' sl' (map a_ptr cs') ->
  Forall (holds h) cs' ->
  (forall n, n <> p -> forall x, h_nodes h !! n = Some x ->
     exists x', h_nodes h' !! n = Some x' /\ same_node x x' /\ (n ∉ fnodes cs -> x' = x)) ->
  length (h_nodes h') = length (h_nodes h) ->
  length (h_arrs h) <= length (h_arrs h') ->
  (forall a, a ∈ farrs cs' -> h_arrs h' !! a = h_arrs h !! a) ->
  (forall a, a < length (h_arrs h) -> a ∉ a_arrs (AT p lx sl cs) -> h_arrs h' !! a = h_arrs h !! a) ->
  fnodes cs' `sublist_of` fnodes cs -> farrs cs' `sublist_of` farrs cs ->
  sl_arr sl' = [] \/ sl_arr sl' = sl_arr sl \/ (exists a, sl_arr sl' = [a] /\ length (h_arrs h) <= a) ->
  tree_at h' (AT p lx' sl' cs') /\ only_changes h h' (AT p lx sl cs) (AT p lx' sl' cs').
Proof.
  intros HT. intros. pose proof HT as (Hh & Hn & Ha).
  rewrite nodes_AT in Hn. apply NoDup_cons in Hn as [Hpn Hn].
  rewrite arrs_AT in Ha. apply NoDup_app in Ha as (_ & Hd & Ha).
  apply (step_tree h h' p lx sl cs lx' par' sl' cs'); try done.
  - apply NoDup_cons. split; [|by apply (sublist_nodup _ (fnodes cs))].
    intros Hin. apply Hpn. by apply (sublist_in (fnodes cs')).
  - by apply (sublist_nodup _ (farrs cs)).
  - intros n. by apply sublist_in.
  - intros n. by apply sublist_in.
  - intros a Hin. match goal with H : _ \/ _ \/ _ |- _ => destruct H as [E|[E|(b & E & Hb)]] end; rewrite E in Hin.
    + by apply elem_of_nil in Hin.
    + split; [|left; rewrite arrs_AT; set_solver]. intros Hf. apply (Hd a Hin). by apply (sublist_in (farrs cs')).
    + apply elem_of_list_singleton in Hin as ->. split; [|by right]. intros Hf.
      assert (Hlt : b < length (h_arrs h)); [|lia].
      apply (holds_arr_lt h (AT p lx sl cs)); [done|]. rewrite arrs_AT, elem_of_app. right.
      by apply (sublist_in (farrs cs')).
Qed.

Lemma only_p_changed (ns ns' : list hnode) p n' (cs : list atree) :
  ns' = <[p := n']> ns ->
  forall n, n <> p -> forall x, ns !! n = Some x ->
    exists x', ns' !! n = Some x' /\ same_node x x' /\ (n ∉ fnodes cs -> x' = x).
Proof.
  intros E n Hne x Hx. exists x. rewrite E, list_lookup_insert_ne by done. by repeat split.
Qed.

Lemma insert_again (ns ns1 : list hnode) p n' :
  (forall n, n <> p -> ns1 !! n = ns !! n) -> length ns1 = length ns -> <[p := n']> ns1 = <[p := n']> ns.
Proof.
  intros Hne Hl. apply list_eq. intros i. destruct (decide (i = p)) as [->|Hi].
  - destruct (decide (p < length ns)).
    + rewrite !list_lookup_insert by lia. done.
    + rewrite !lookup_ge_None_2 by (rewrite insert_length; lia). done.
  - rewrite !list_lookup_insert_ne by done. by apply Hne.
Qed.

(** The common end of the in-place edits: the children become [a ++ ks], where [a] is a
    prefix of the old ones and [ks] is appended to [p.C[:len(a)]]. *)
Lemma splice_step g h h1 h2 p lx sl cs lx' par' a ks sl2 :
  tree_at h (AT p lx sl cs) ->
  (forall n, n <> p -> h_nodes h1 !! n = h_nodes h !! n) -> length (h_nodes h1) = length (h_nodes h) ->
  slice_is h1 (slice_to sl (length a)) (map a_ptr a) ->
  append_slice g h1 (slice_to sl (length a)) (map Some (map a_ptr ks)) = (h2, sl2) ->
  Forall (holds h) (a ++ ks) -> length (h_arrs h) <= length (h_arrs h1) ->
  (forall x, x ∈ farrs (a ++ ks) -> h_arrs h1 !! x = h_arrs h !! x) ->
  (forall x, x < length (h_arrs h) -> x ∉ a_arrs (AT p lx sl cs) -> h_arrs h1 !! x = h_arrs h !! x) ->
  fnodes (a ++ ks) `sublist_of` fnodes cs -> farrs (a ++ ks) `sublist_of` farrs cs ->
  h_nodes (set_node h2 p (HN lx' par' sl2)) = <[p := HN lx' par' sl2]> (h_nodes h)
  /\ tree_at (set_node h2 p (HN lx' par' sl2)) (AT p lx' sl2 (a ++ ks))
  /\ only_changes h (set_node h2 p (HN lx' par' sl2)) (AT p lx sl cs) (AT p lx' sl2 (a ++ ks)).
Proof.
  intros HT Hne Hl Hsa Eap HF Hla Hfa Hout Sn Sa. pose proof HT as (Hh & Hn & Ha).
  destruct (append_spec _ _ _ _ _ _ _ Hsa Eap) as (Hs1 & Hn1 & Hl1 & Ho1 & Ha1). rewrite sl_arr_to in *.
  assert (En : h_nodes (set_node h2 p (HN lx' par' sl2)) = <[p := HN lx' par' sl2]> (h_nodes h)).
  { cbn [set_node h_nodes]. rewrite Hn1. by apply insert_again. }
  assert (Hpl : p < length (h_nodes h)) by (apply (holds_node_lt h (AT p lx sl cs)); [done|rewrite nodes_AT; by left]).
  split; [done|].
  apply (step_tree_sub h _ p lx sl cs lx' par'); try done.
  - rewrite En. by apply list_lookup_insert.
  - rewrite map_app. apply Hs1.
  - by apply (only_p_changed _ _ _ _ cs En).
  - rewrite En. by rewrite insert_length.
  - cbn [set_node h_arrs]. lia.
  - intros x Hx. cbn [set_node h_arrs]. rewrite <- Hfa by done.
    assert (Hx' : x ∈ farrs cs) by (by apply (sublist_in (farrs (a ++ ks)))). apply Ho1.
    + apply (Nat.lt_le_trans _ (length (h_arrs h))); [|done].
      apply (holds_arr_lt h (AT p lx sl cs)); [done|]. rewrite arrs_AT. set_solver.
    + intros Hin. rewrite arrs_AT in Ha. apply NoDup_app in Ha as (_ & Hd & _). by apply (Hd x Hin).
  - intros x Hlt Hx. cbn [set_node h_arrs]. rewrite <- (Hout x) by done.
    apply Ho1; [lia|]. rewrite arrs_AT in Hx. set_solver.
  - destruct Ha1 as [Ha1|Ha1]; [auto|]. right. right. eauto.
Qed.

(** * Indexes in memory *)
Lemma h_idx_in h lx par sl cs i a c b :
  slice_is h sl (map a_ptr cs) -> at_index i cs a c b ->
  h_get_idx (HN lx par sl) i = (Z.of_nat (length a), Z.of_nat (length cs), true).
Proof.
  intros Hs [-> Hi]. unfold h_get_idx. cbn [h_ch]. rewrite (slice_len_is _ _ _ Hs), map_length, app_length.
  cbn [length] in *.
  assert (Hx : (if i <? 0 then Z.of_nat (length a + S (length b)) + i else i)%Z = Z.of_nat (length a))
    by (destruct (Z.ltb_spec i 0); lia).
  rewrite Hx. f_equal. apply andb_true_iff. split; [apply Z.leb_le|apply Z.ltb_lt]; lia.
Qed.
Lemma h_idx_out h lx par sl cs i :
  slice_is h sl (map a_ptr cs) -> ~ in_range i cs -> snd (h_get_idx (HN lx par sl) i) = false.
Proof.
  intros Hs Hr. unfold h_get_idx, in_range in *. cbn [h_ch snd]. rewrite (slice_len_is _ _ _ Hs), map_length.
  apply andb_false_iff. destruct (Z.ltb_spec i 0); [left; apply Z.leb_gt; lia|right; apply Z.ltb_ge; lia].
Qed.
Lemma in_range_dec {A} i (C : list A) : {in_range i C} + {~ in_range i C}.
Proof.
  unfold in_range. destruct (Z_le_dec (- Z.of_nat (length C)) i), (Z_lt_dec i (Z.of_nat (length C))); auto; right; lia.
Qed.
Lemma at_index_map {A B} (f : A -> B) i C a c b :
  at_index i C a c b -> at_index i (map f C) (map f a) (f c) (map f b).
Proof. intros [-> Hi]. split; [by rewrite map_app|]. cbn [length] in *. by rewrite !map_length. Qed.
Lemma in_range_map {A B} (f : A -> B) i C : in_range i (map f C) <-> in_range i C.
Proof. unfold in_range. by rewrite map_length. Qed.

Lemma deref_at h p n : h_nodes h !! p = Some n -> deref h p = Ok n.
Proof. intros H. unfold deref. by rewrite H. Qed.
Lemma zfrom_ptrs (a : list atree) c b :
  zfrom (Z.of_nat (length a) + 1) (map Some (map a_ptr (a ++ c :: b))) = map Some (map a_ptr b).
Proof.
  rewrite !map_app. cbn [map].
  replace (Z.of_nat (length a)) with (Z.of_nat (length (map Some (map a_ptr a)))) by (by rewrite !map_length).
  apply zfrom_mid.
Qed.

Ltac open_tree HT :=
  let Hh := fresh "Hh" in let Hn := fresh "Hn" in let Ha := fresh "Ha" in
  pose proof HT as (Hh & Hn & Ha);
  let Hp := fresh "Hp" in let Hs := fresh "Hs" in let Hc := fresh "Hc" in
  inversion Hh as [p0 lx0 par sl0 cs0 Hp Hs Hc]; subst p0 lx0 sl0 cs0.

(** * RemoveChild *)
Lemma remove_child_heap g i p lx sl cs h :
  tree_at h (AT p lx sl cs) ->
  exists h' sl' cs' ok, h_remove_child g i p h = Ok (h', ok)
    /\ tree_at h' (AT p lx sl' cs') /\ only_changes h h' (AT p lx sl cs) (AT p lx sl' cs')
    /\ remove_child i (a_val (AT p lx sl cs)) = (a_val (AT p lx sl' cs'), ok)
    /\ exists n', h_nodes h' = <[p := n']> (h_nodes h) /\ option_map h_par (h_nodes h !! p) = Some (h_par n').
Proof.
  intros HT. open_tree HT. unfold h_remove_child. rewrite (deref_at _ _ _ Hp). cbn [rbind].
  destruct (in_range_dec i cs) as [Hr|Hr].
  - destruct (range_at_index i cs Hr) as (a & c & b & Hat).
    rewrite (h_idx_in h lx par sl cs i a c b Hs Hat). cbn [h_ch].
    pose proof (at_index_map a_val _ _ _ _ _ Hat) as Hat'. destruct Hat as [-> _].
    assert (Hsub : fnodes (a ++ b) `sublist_of` fnodes (a ++ c :: b) /\ farrs (a ++ b) `sublist_of` farrs (a ++ c :: b)).
    { split; [apply fnodes_sublist|apply farrs_sublist]; (apply sublist_app; [done|by apply sublist_cons]). }
    assert (HF : Forall (holds h) (a ++ b)).
    { rewrite Forall_app, Forall_cons in *. tauto. }
    rewrite Nat2Z.id.
    assert (Hsa : slice_is h (slice_to sl (length a)) (map a_ptr a)).
    { rewrite <- (map_length a_ptr a). apply (slice_to_is h sl _ (map a_ptr (c :: b))). by rewrite <- map_app. }
    destruct (Z.eqb_spec (Z.of_nat (length a)) (Z.of_nat (length (a ++ c :: b)) - 1)) as [He|He].
    + assert (b = []) as -> by (rewrite app_length in He; cbn [length] in He; destruct b; [done|cbn [length] in He; lia]).
      destruct (splice_step g h h h p lx sl (a ++ [c]) lx par a [] (slice_to sl (length a))) as (En & Ht & Hch);
        try done; try tauto.
      rewrite app_nil_r in *.
      eexists _, (slice_to sl (length a)), a, true. split; [reflexivity|].
      split; [done|]. split; [done|]. split; [|exists (HN lx par (slice_to sl (length a)))].
      { rewrite ?val_AT. rewrite (remove_child_in i lx _ _ _ _ Hat'). by rewrite app_nil_r. }
      split; [exact En|]. by rewrite Hp.
    + rewrite (elems_is _ _ _ Hs), zfrom_ptrs.
      destruct (append_slice g h (slice_to sl (length a)) (map Some (map a_ptr b))) as [h1 sl1] eqn:Eap.
      destruct (splice_step g h h h1 p lx sl (a ++ c :: b) lx par a b sl1) as (En & Ht & Hch);
        try done; try tauto.
      eexists _, sl1, (a ++ b), true. split; [reflexivity|].
      split; [done|]. split; [done|]. split; [|exists (HN lx par sl1)].
      { rewrite ?val_AT. rewrite (remove_child_in i lx _ _ _ _ Hat'). by rewrite map_app. }
      split; [exact En|]. by rewrite Hp.
  - pose proof (h_idx_out h lx par sl cs i Hs Hr) as Ho.
    destruct (h_get_idx (HN lx par sl) i) as [[? ?] ok]. cbn [snd] in Ho. subst ok.
    exists h, sl, cs, false. split; [done|]. split; [done|]. split; [apply only_changes_refl|]. split.
    + apply remove_child_out. cbn [a_val pn_children]. by rewrite in_range_map.
    + exists (HN lx par sl). rewrite list_insert_id; [by rewrite Hp|done].
Qed.

Lemma remove_child_implements g i :
  implements (fun t => fst (remove_child i t)) (fun p h => drop_bool (h_remove_child g i p h)).
Proof.
  intros h [p lx sl cs] HT. destruct (remove_child_heap g i p lx sl cs h HT) as (h' & sl' & cs' & ok & E & Ht & Hc & Hv & _).
  exists h', (AT p lx sl' cs'). unfold drop_bool. cbn [a_ptr]. rewrite E. cbn [rbind fst].
  rewrite Hv. repeat split; try done; try apply Ht; try apply Hc.
Qed.

(** * PromoteChildValue *)
Lemma set_lex_step h p lx sl cs pr lx' :
  tree_at h (AT p lx sl cs) -> h_nodes h !! p = Some (HN lx pr sl) ->
  tree_at (set_node h p (HN lx' pr sl)) (AT p lx' sl cs)
  /\ only_changes h (set_node h p (HN lx' pr sl)) (AT p lx sl cs) (AT p lx' sl cs).
Proof.
  intros HT Hpr. open_tree HT. rewrite Hp in Hpr. injection Hpr as <-.
  apply (step_tree_sub h _ p lx sl cs lx' par); cbn [set_node h_nodes h_arrs]; try done; auto.
  - apply list_lookup_insert. by apply lookup_lt_Some in Hp.
  - by apply (only_p_changed _ _ _ _ cs eq_refl).
  - by rewrite insert_length.
Qed.

Lemma promote_child_value_implements g i :
  implements (promote_child_value i) (h_promote_child_value g i).
Proof.
  intros h [p lx sl cs] HT. open_tree HT. unfold h_promote_child_value. cbn [a_ptr].
  rewrite (deref_at _ _ _ Hp). cbn [rbind h_ch]. rewrite (slice_len_is _ _ _ Hs), map_length.
  unfold promote_child_value. cbn [a_val pn_children pn_lexeme].
  assert (Hz : zlen (map a_val cs) = Z.of_nat (length cs)) by (unfold zlen; by rewrite map_length).
  rewrite Hz. generalize (if i <? 0 then Z.of_nat (length cs) + i else i)%Z. intros j.
  assert (Hfin : forall lx' h1, tree_at h1 (AT p lx' sl cs) -> only_changes h h1 (AT p lx sl cs) (AT p lx' sl cs) ->
    exists h' A', (r <-! h_remove_child g j p h1; Ok (fst r)) = Ok h' /\ tree_at h' A' /\ a_ptr A' = p
      /\ a_val A' = fst (remove_child j (PN lx' (map a_val cs))) /\ only_changes h h' (AT p lx sl cs) A').
  { intros lx' h1 HT1 Hc1. destruct (remove_child_heap g j p lx' sl cs h1 HT1) as (h' & sl' & cs' & ok & E & Ht & Hc2 & Hv & _).
    exists h', (AT p lx' sl' cs'). rewrite E. cbn [rbind fst]. rewrite val_AT in Hv. rewrite Hv.
    split; [done|]. split; [done|]. split; [done|]. split; [done|]. by apply (only_changes_trans _ _ _ _ _ _ Hc1). }
  destruct ((0 <=? j)%Z && (j <? Z.of_nat (length cs))%Z) eqn:Ej; cbn [rbind].
  - apply andb_true_iff in Ej as [E1 E2]. apply Z.leb_le in E1. apply Z.ltb_lt in E2.
    destruct (range_at_index j cs) as (a & c & b & Hat); [unfold in_range; lia|].
    pose proof (at_index_map a_val _ _ _ _ _ Hat) as Hat'.
    assert (Hj : j = Z.of_nat (length a)).
    { destruct Hat as [-> Hi]. rewrite app_length in *. cbn [length] in *. lia. }
    destruct Hat as [-> _]. destruct Hat' as [Hm _].
    assert (Hg : zget (map a_val (a ++ c :: b)) j = Some (a_val c)).
    { rewrite Hj, Hm. rewrite <- (map_length a_val a). apply zget_mid. }
    rewrite Hg. replace (Z.to_nat j) with (length a) by lia.
    assert (Hsc : slice_is h sl (map a_ptr a ++ a_ptr c :: map a_ptr b)) by (by rewrite map_app in Hs).
    pose proof (slice_get_is h sl _ _ _ Hsc) as Hsg. rewrite map_length in Hsg. rewrite Hsg. cbn [rbind deref_opt].
    assert (Hcc : holds h c) by (rewrite Forall_app, Forall_cons in Hc; tauto).
    inversion Hcc as [cp clx cpar csl ccs Hcp Hcsl Hccs]; subst. cbn [a_ptr a_val pn_lexeme].
    rewrite (deref_at _ _ _ Hcp). cbn [rbind h_lex h_par h_ch].
    destruct (set_lex_step h p lx sl (a ++ AT cp clx csl ccs :: b) par (Lx (lx_kind lx) (lx_val clx) (lx_line clx) (lx_col clx)) HT Hp) as [Ht1 Hc1].
    apply (Hfin _ _ Ht1 Hc1).
  - apply (Hfin lx h HT (only_changes_refl _ _)).
Qed.

Lemma arr_disj (S A C K B : list nat) x :
  NoDup (S ++ A ++ (C ++ K) ++ B) -> x ∈ C -> x ∉ S /\ x ∉ A /\ x ∉ K /\ x ∉ B.
Proof.
  intros H Hx. apply NoDup_app in H as (_ & H1 & H). apply NoDup_app in H as (_ & H2 & H).
  apply NoDup_app in H as (H & H3 & _). apply NoDup_app in H as (_ & H4 & _).
  repeat split.
  - intros Hs. apply (H1 x Hs). rewrite !elem_of_app. auto.
  - intros Ha. apply (H2 x Ha). rewrite !elem_of_app. auto.
  - by apply H4.
  - apply H3. rewrite elem_of_app. auto.
Qed.

(** * PromoteChildrenOf *)
Lemma inner_append h g csl ps qs h1 inner p lx sl cs clx cp ccs a b :
  tree_at h (AT p lx sl cs) -> cs = a ++ AT cp clx csl ccs :: b ->
  slice_is h csl ps -> append_slice g h csl (map Some qs) = (h1, inner) ->
  slice_is h1 inner (ps ++ qs) /\ h_nodes h1 = h_nodes h /\ length (h_arrs h) <= length (h_arrs h1)
  /\ (forall ks, farrs (a ++ ks) `sublist_of` farrs (a ++ ccs ++ b) ->
        forall x, x ∈ farrs (a ++ ks) -> h_arrs h1 !! x = h_arrs h !! x)
  /\ (forall x, x ∈ sl_arr sl -> h_arrs h1 !! x = h_arrs h !! x)
  /\ (forall x, x < length (h_arrs h) -> x ∉ a_arrs (AT p lx sl cs) -> h_arrs h1 !! x = h_arrs h !! x).
Proof.
  intros (Hh & Hn & Ha) -> Hcs Eap.
  destruct (append_spec _ _ _ _ _ _ _ Hcs Eap) as (Hs1 & Hn1 & Hl1 & Ho1 & Ha1).
  rewrite arrs_AT, farrs_app, farrs_cons, arrs_AT in Ha.
  split; [done|]. split; [done|]. split; [done|]. split; [|split].
  - intros ks Hsub x Hx. pose proof (sublist_in _ _ _ Hsub Hx) as Hx'. rewrite !farrs_app, !elem_of_app in Hx'. apply Ho1.
    + apply (holds_arr_lt h _ _ Hh). rewrite arrs_AT, farrs_app, farrs_cons, arrs_AT, !elem_of_app. tauto.
    + intros Hin. pose proof (arr_disj _ _ _ _ _ x Ha Hin). tauto.
  - intros x Hx. apply Ho1.
    + apply (holds_arr_lt h _ _ Hh). rewrite arrs_AT, elem_of_app. tauto.
    + intros Hin. pose proof (arr_disj _ _ _ _ _ x Ha Hin). tauto.
  - intros x Hlt Hx. apply Ho1; [done|]. intros Hin. apply Hx.
    rewrite arrs_AT, farrs_app, farrs_cons, arrs_AT, !elem_of_app. tauto.
Qed.

Lemma promote_children_of_heap g i p lx sl cs h :
  tree_at h (AT p lx sl cs) ->
  exists h' sl' cs' ok, h_promote_children_of g i p h = Ok (h', ok)
    /\ tree_at h' (AT p lx sl' cs') /\ only_changes h h' (AT p lx sl cs) (AT p lx sl' cs')
    /\ promote_children_of i (a_val (AT p lx sl cs)) = (a_val (AT p lx sl' cs'), ok).
Proof.
  intros HT. open_tree HT. unfold h_promote_children_of. rewrite (deref_at _ _ _ Hp). cbn [rbind].
  destruct (in_range_dec i cs) as [Hr|Hr].
  - destruct (range_at_index i cs Hr) as (a & c & b & Hat).
    rewrite (h_idx_in h lx par sl cs i a c b Hs Hat). cbn [h_ch].
    pose proof (at_index_map a_val _ _ _ _ _ Hat) as Hat'. destruct Hat as [-> _].
    rewrite Nat2Z.id.
    assert (Hsc : slice_is h sl (map a_ptr a ++ a_ptr c :: map a_ptr b)) by (by rewrite map_app in Hs).
    pose proof (slice_get_is h sl _ _ _ Hsc) as Hsg. rewrite map_length in Hsg. rewrite Hsg. cbn [rbind deref_opt].
    assert (Hcc : holds h c) by (rewrite Forall_app, Forall_cons in Hc; tauto).
    inversion Hcc as [cp clx cpar csl ccs Hcp Hcsl Hccs]; subst c. cbn [a_ptr a_val] in *.
    rewrite (deref_at _ _ _ Hcp). cbn [rbind h_ch].
    assert (Hsa : slice_is h (slice_to sl (length a)) (map a_ptr a)).
    { rewrite <- (map_length a_ptr a). by apply (slice_to_is h sl _ (cp :: map a_ptr b)). }
    assert (HF : Forall (holds h) (a ++ ccs ++ b)).
    { rewrite !Forall_app, ?Forall_cons in *. tauto. }
    destruct (Z.eqb_spec (Z.of_nat (length a)) (Z.of_nat (length (a ++ AT cp clx csl ccs :: b)) - 1)) as [He|He].
    + assert (b = []) as -> by (rewrite app_length in He; cbn [length] in He; destruct b; [done|cbn [length] in He; lia]).
      rewrite app_nil_r in HF. rewrite (elems_is _ _ _ Hcsl).
      destruct (append_slice g h (slice_to sl (length a)) (map Some (map a_ptr ccs))) as [h1 sl1] eqn:Eap.
      destruct (splice_step g h h h1 p lx sl (a ++ [AT cp clx csl ccs]) lx par a ccs sl1) as (En & Ht & Hch); try done.
      { pose proof (fnodes_splice a cp clx csl ccs []) as H. by rewrite app_nil_r in H. }
      { pose proof (farrs_splice a cp clx csl ccs []) as H. by rewrite app_nil_r in H. }
      eexists _, sl1, (a ++ ccs), true. split; [reflexivity|]. split; [done|]. split; [done|].
      rewrite ?val_AT. rewrite (promote_children_of_in i lx _ _ _ _ Hat'). cbn [pn_children map].
      by rewrite app_nil_r, map_app.
    + rewrite (elems_is _ _ _ Hs), zfrom_ptrs.
      destruct (append_slice g h csl (map Some (map a_ptr b))) as [h1 inner] eqn:Ein.
      destruct (inner_append h g csl _ _ h1 inner p lx sl _ clx cp ccs a b HT eq_refl Hcsl Ein)
        as (Hi1 & Hi2 & Hi3 & Hi4 & Hi5 & Hi6).
      rewrite (elems_is _ _ _ Hi1), <- map_app.
      destruct (append_slice g h1 (slice_to sl (length a)) (map Some (map a_ptr (ccs ++ b)))) as [h2 sl2] eqn:Eap.
      destruct (splice_step g h h1 h2 p lx sl (a ++ AT cp clx csl ccs :: b) lx par a (ccs ++ b) sl2) as (En & Ht & Hch); try done.
      { by rewrite Hi2. } { by rewrite Hi2. }
      { apply (slice_is_agree h); [done|]. rewrite sl_arr_to. apply Hi5. }
      { by apply Hi4. } { apply fnodes_splice. } { apply farrs_splice. }
      eexists _, sl2, (a ++ ccs ++ b), true. split; [reflexivity|]. split; [done|]. split; [done|].
      rewrite ?val_AT. rewrite (promote_children_of_in i lx _ _ _ _ Hat'). cbn [pn_children].
      by rewrite !map_app.
  - pose proof (h_idx_out h lx par sl cs i Hs Hr) as Ho.
    destruct (h_get_idx (HN lx par sl) i) as [[? ?] ok]. cbn [snd] in Ho. subst ok.
    exists h, sl, cs, false. split; [done|]. split; [done|]. split; [apply only_changes_refl|].
    apply promote_children_of_out. cbn [a_val pn_children]. by rewrite in_range_map.
Qed.
Lemma promote_children_of_implements g i :
  implements (fun t => fst (promote_children_of i t)) (fun p h => drop_bool (h_promote_children_of g i p h)).
Proof.
  intros h [p lx sl cs] HT. destruct (promote_children_of_heap g i p lx sl cs h HT) as (h' & sl' & cs' & ok & E & Ht & Hc & Hv).
  exists h', (AT p lx sl' cs'). unfold drop_bool. cbn [a_ptr]. rewrite E. cbn [rbind fst]. rewrite Hv.
  split; [done|]. split; [done|]. split; [done|]. split; done.
Qed.

(** * ReplaceWithChild *)
Lemma replace_with_child_heap i p lx sl cs h :
  tree_at h (AT p lx sl cs) ->
  exists h' A' ok, h_replace_with_child i p h = Ok (h', ok) /\ a_ptr A' = p
    /\ tree_at h' A' /\ only_changes h h' (AT p lx sl cs) A'
    /\ replace_with_child i (a_val (AT p lx sl cs)) = (a_val A', ok).
Proof.
  intros HT. open_tree HT. unfold h_replace_with_child. rewrite (deref_at _ _ _ Hp). cbn [rbind].
  destruct (in_range_dec i cs) as [Hr|Hr].
  - destruct (range_at_index i cs Hr) as (a & c & b & Hat).
    rewrite (h_idx_in h lx par sl cs i a c b Hs Hat). cbn [h_ch].
    pose proof (at_index_map a_val _ _ _ _ _ Hat) as Hat'. destruct Hat as [-> _].
    rewrite Nat2Z.id.
    assert (Hsc : slice_is h sl (map a_ptr a ++ a_ptr c :: map a_ptr b)) by (by rewrite map_app in Hs).
    pose proof (slice_get_is h sl _ _ _ Hsc) as Hsg. rewrite map_length in Hsg. rewrite Hsg. cbn [rbind deref_opt].
    assert (Hcc : holds h c) by (rewrite Forall_app, Forall_cons in Hc; tauto).
    inversion Hcc as [cp clx cpar csl ccs Hcp Hcsl Hccs]; subst c. cbn [a_ptr a_val] in *.
    rewrite (deref_at _ _ _ Hcp). cbn [rbind].
    exists (set_node h p (HN clx cpar csl)), (AT p clx csl ccs), true.
    assert (Hsn : fnodes ccs `sublist_of` fnodes (a ++ AT cp clx csl ccs :: b)).
    { rewrite fnodes_app, fnodes_cons, nodes_AT. apply sublist_inserts_l, sublist_inserts_r. by apply sublist_cons. }
    assert (Hsa : farrs ccs `sublist_of` farrs (a ++ AT cp clx csl ccs :: b)).
    { rewrite farrs_app, farrs_cons, arrs_AT. apply sublist_inserts_l, sublist_inserts_r. by apply sublist_inserts_l. }
    split; [done|]. split; [done|].
    assert (Hpl : p < length (h_nodes h)) by (by apply lookup_lt_Some in Hp).
    rewrite nodes_AT in Hn. pose proof Hn as Hn'. apply NoDup_cons in Hn' as [Hpn Hnn].
    rewrite arrs_AT in Ha. pose proof Ha as Ha'. apply NoDup_app in Ha' as (_ & Hdis & Hna).
    assert (Hst : tree_at (set_node h p (HN clx cpar csl)) (AT p clx csl ccs)
      /\ only_changes h (set_node h p (HN clx cpar csl)) (AT p lx sl (a ++ AT cp clx csl ccs :: b)) (AT p clx csl ccs)).
    { apply (step_tree h _ p lx sl _ clx cpar csl ccs); cbn [set_node h_nodes h_arrs]; try done.
      - by apply list_lookup_insert.
      - by apply (only_p_changed _ _ _ _ _ eq_refl).
      - by rewrite insert_length.
      - apply NoDup_cons. split; [|by apply (sublist_nodup _ _ Hsn)].
        intros Hin. apply Hpn. by apply (sublist_in _ _ _ Hsn).
      - by apply (sublist_nodup _ _ Hsa).
      - intros n. by apply sublist_in.
      - intros n. by apply sublist_in.
      - intros x Hx. split.
        + rewrite farrs_app, farrs_cons, arrs_AT in Ha. pose proof (arr_disj _ _ _ _ _ x Ha Hx). tauto.
        + left. rewrite arrs_AT, farrs_app, farrs_cons, arrs_AT, !elem_of_app. tauto. }
    destruct Hst as [Ht Hch]. split; [done|]. split; [done|].
    rewrite ?val_AT. by rewrite (replace_with_child_in i lx _ _ _ _ Hat').
  - pose proof (h_idx_out h lx par sl cs i Hs Hr) as Ho.
    destruct (h_get_idx (HN lx par sl) i) as [[? ?] ok]. cbn [snd] in Ho. subst ok.
    exists h, (AT p lx sl cs), false. split; [done|]. split; [done|]. split; [done|]. split; [apply only_changes_refl|].
    apply replace_with_child_out. cbn [a_val pn_children]. by rewrite in_range_map.
Qed.
Lemma replace_with_child_implements i :
  implements (fun t => fst (replace_with_child i t)) (fun p h => drop_bool (h_replace_with_child i p h)).
Proof.
  intros h [p lx sl cs] HT. destruct (replace_with_child_heap i p lx sl cs h HT) as (h' & A' & ok & E & Hp & Ht & Hc & Hv).
  exists h', A'. unfold drop_bool. cbn [a_ptr]. rewrite E. cbn [rbind fst]. rewrite Hv.
  split; [done|]. split; [done|]. split; [done|]. split; done.
Qed.
