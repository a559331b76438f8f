(** grammar.Grammar refines an ordered multimap. *)
From Coq Require Import String Lia.
From Verif.model Require Import GrammarGo GrammarClient.
From Verif.spec Require Import GrammarSpec.
From Verif.proofs Require Import SetProofs StringProofs.

Definition tbl (g : gr) (i : nat) : option (list (list nat)) := default None (gr_prods g !! i).

(** Every index is in range of the set [s]. *)
Definition in_range (s : set) (ps : list (list nat)) : Prop :=
  Forall (Forall (fun v => v < sym_count s)) ps.

Record R (g : gr) (A : amap) : Prop := {
  R_set : set_wf (gr_set g);
  R_len : length (gr_prods g) <= sym_count (gr_set g);
  R_ord : map (fun i => symb2str (gr_set g) !! i) (gr_order g) = map (fun kp => Some (fst kp)) A;
  R_rng : forall i ps, tbl g i = Some ps -> in_range (gr_set g) ps;
  R_get : forall i nm, symb2str (gr_set g) !! i = Some nm ->
            option_map (map (prod_names (gr_set g))) (tbl g i) = assoc_prods A nm;
}.

Lemma set_le_lookup s s' i nm : set_le s s' -> symb2str s !! i = Some nm -> symb2str s' !! i = Some nm.
Proof. intros [l Hl] H. rewrite Hl. by apply lookup_app_l_Some. Qed.
Lemma set_le_count s s' : set_le s s' -> sym_count s <= sym_count s'.
Proof. intros [l Hl]. unfold sym_count. rewrite Hl, app_length. lia. Qed.
Lemma sym_name_le s s' i : set_le s s' -> i < sym_count s -> sym_name s' i = sym_name s i.
Proof.
  intros Hle Hi. unfold sym_name. destruct (lookup_lt_is_Some_2 (symb2str s) i Hi) as [nm Hn].
  rewrite Hn, (set_le_lookup s s' i nm Hle Hn). done.
Qed.
Lemma prod_names_le s s' p : set_le s s' -> Forall (fun v => v < sym_count s) p -> prod_names s' p = prod_names s p.
Proof.
  intros Hle H. unfold prod_names. induction H as [|v p Hv Hp IH]; [done|]. simpl.
  rewrite IH, (sym_name_le s s' v Hle Hv). done.
Qed.
Lemma prods_names_le s s' ps : set_le s s' -> in_range s ps -> map (prod_names s') ps = map (prod_names s) ps.
Proof.
  intros Hle H. induction H as [|p ps Hp Hps IH]; [done|]. simpl. rewrite IH, (prod_names_le s s') by done. done.
Qed.
Lemma in_range_le s s' ps : set_le s s' -> in_range s ps -> in_range s' ps.
Proof.
  intros Hle H. eapply Forall_impl; [exact H|]. intros p Hp. eapply Forall_impl; [exact Hp|].
  simpl. intros v Hv. pose proof (set_le_count _ _ Hle). lia.
Qed.

Lemma assoc_None A nm : assoc_prods A nm = None <-> nm ∉ map fst A.
Proof.
  induction A as [|[k ps] A IH]; simpl; [split; [intros _; apply not_elem_of_nil|done]|].
  rewrite not_elem_of_cons. destruct (decide (k = nm)) as [->|Hne]; [split; [done|intros [? _]; done]|].
  rewrite IH. split; [intros; split; [congruence|done]|intros [_ ?]; done].
Qed.

Lemma R_known g A nm : R g A -> nm ∈ map fst A -> exists i, symb2str (gr_set g) !! i = Some nm /\ i ∈ gr_order g.
Proof.
  intros HR Hin. pose proof (R_ord _ _ HR) as Ho.
  assert (Some nm ∈ map (fun i => symb2str (gr_set g) !! i) (gr_order g)) as H.
  { rewrite Ho. rewrite <- (map_map fst Some). apply elem_of_list_fmap_1; done. }
  apply elem_of_list_fmap in H as (i & E & Hi). eauto.
Qed.

Lemma R_grow g A s' : R g A -> set_wf s' -> set_le (gr_set g) s' -> R (Gr (gr_order g) (gr_prods g) s') A.
Proof.
  intros HR Hw Hle. constructor; simpl.
  - done.
  - pose proof (R_len _ _ HR). pose proof (set_le_count _ _ Hle). lia.
  - rewrite <- (R_ord _ _ HR). pose proof (R_ord _ _ HR) as Ho. revert Ho. generalize A. clear -Hle.
    induction (gr_order g) as [|i l IH]; intros A Ho; [done|]. destruct A as [|kp A]; [done|]. simpl in *.
    injection Ho as H1 H2. f_equal; [|eapply IH; eauto]. rewrite H1. eapply set_le_lookup; eauto.
  - intros i ps H. eapply in_range_le; [exact Hle|]. eapply (R_rng _ _ HR i); done.
  - intros i nm Hi. change (tbl {| gr_order := gr_order g; gr_prods := gr_prods g; gr_set := s' |} i) with (tbl g i).
    destruct (decide (i < sym_count (gr_set g))) as [Hlt|Hge].
    + destruct (lookup_lt_is_Some_2 (symb2str (gr_set g)) i Hlt) as [nm' Hn].
      pose proof (set_le_lookup _ _ _ _ Hle Hn). assert (nm' = nm) as -> by congruence.
      rewrite <- (R_get _ _ HR i nm Hn). destruct (tbl g i) as [ps|] eqn:Et; [|done]. simpl. f_equal.
      apply prods_names_le; [done|]. eapply R_rng; eauto.
    + assert (tbl g i = None) as ->.
      { unfold tbl. rewrite lookup_ge_None_2; [done|]. pose proof (R_len _ _ HR). lia. }
      simpl. symmetry. apply assoc_None. intros Hin. destruct (R_known _ _ _ HR Hin) as (j & Hj & _).
      pose proof (set_le_lookup _ _ _ _ Hle Hj) as Hj'.
      apply Hw in Hj'. apply Hw in Hi. assert (i = j) as -> by congruence.
      apply lookup_lt_Some in Hj. unfold sym_count in Hge. lia.
Qed.

Lemma set_le_eq s : Gr (gr_order s) (gr_prods s) (gr_set s) = s.
Proof. destruct s; done. Qed.

Lemma am_add_fst A nt p : map fst (am_add A nt p) = if decide (nt ∈ map fst A) then map fst A else map fst A ++ [nt].
Proof.
  induction A as [|[k ps] A IH].
  - cbn [am_add map fst]. case_decide as H; [inversion H|done].
  - cbn [am_add map fst]. destruct (decide (k = nt)) as [->|Hne].
    + rewrite decide_True; [done|left].
    + cbn [map fst]. rewrite IH. destruct (decide (nt ∈ map fst A)).
      * rewrite decide_True; [done|]. right; done.
      * rewrite decide_False; [done|]. apply not_elem_of_cons. split; [congruence|done].
Qed.
Lemma am_add_get A nt p s : assoc_prods (am_add A nt p) s =
  if decide (nt = s) then Some (default [] (assoc_prods A nt) ++ [p]) else assoc_prods A s.
Proof.
  induction A as [|[k ps] A IH]; simpl.
  - destruct (decide (nt = s)); done.
  - destruct (decide (k = nt)) as [->|Hne]; simpl.
    + destruct (decide (nt = s)); done.
    + rewrite IH. destruct (decide (k = s)) as [->|Hne2].
      * rewrite decide_False by done. done.
      * done.
Qed.

Lemma R_order_mem g A i nm : R g A -> symb2str (gr_set g) !! i = Some nm -> i ∈ gr_order g <-> nm ∈ map fst A.
Proof.
  intros HR Hi. split.
  - intros H. pose proof (R_ord _ _ HR) as Ho.
    assert (Some nm ∈ map (fun i => symb2str (gr_set g) !! i) (gr_order g)) as H'.
    { rewrite <- Hi. apply (elem_of_list_fmap_1 (fun i => symb2str (gr_set g) !! i)). done. }
    rewrite Ho in H'. apply elem_of_list_fmap in H' as (kp & [= ->] & Hk). apply elem_of_list_fmap_1. done.
  - intros H. destruct (R_known _ _ _ HR H) as (j & Hj & Hin).
    apply (R_set _ _ HR) in Hi, Hj. congruence.
Qed.

Lemma tbl_grow g n o s i : tbl (Gr o (gr_prods g ++ replicate n None) s) i = tbl g i.
Proof.
  unfold tbl; simpl. destruct (decide (i < length (gr_prods g))).
  - rewrite lookup_app_l by done. done.
  - rewrite lookup_app_r by lia. rewrite (lookup_ge_None_2 (gr_prods g)) by lia.
    destruct (replicate n None !! _) eqn:E; [|done]. apply lookup_replicate in E as [-> _]. done.
Qed.

Lemma gr_add_idx_R g A i nm p : R g A -> symb2str (gr_set g) !! i = Some nm ->
  Forall (fun v => v < sym_count (gr_set g)) p ->
  R (gr_add_idx g i p) (am_add A nm (prod_names (gr_set g) p)) /\ gr_set (gr_add_idx g i p) = gr_set g.
Proof.
  intros HR Hi Hp. pose proof (lookup_lt_Some _ _ _ Hi) as Hlt.
  (* normal form of the update *)
  assert (HN : exists t, length t <= sym_count (gr_set g) /\ i < length t
     /\ (forall j, default None (t !! j) = tbl g j)
     /\ gr_add_idx g i p = match tbl g i with
                           | None => Gr (gr_order g ++ [i]) (<[i := Some [p]]> t) (gr_set g)
                           | Some ps => Gr (gr_order g) (<[i := Some (ps ++ [p])]> t) (gr_set g)
                           end).
  { unfold gr_add_idx. destruct (Nat.ltb_spec i (length (gr_prods g))).
    - exists (gr_prods g). pose proof (R_len _ _ HR). split_and!; try done.
    - exists (gr_prods g ++ replicate (1 + i - length (gr_prods g)) None).
      rewrite app_length, replicate_length. split_and!.
      + unfold sym_count in *. lia.
      + lia.
      + intros j. apply (tbl_grow g _ [] set_new j).
      + unfold tbl. rewrite lookup_ge_None_2 by lia. done. }
  destruct HN as (t & Hl & Hit & Ht & ->).
  set (g' := match tbl g i with None => _ | Some ps => _ end).
  assert (Hs : gr_set g' = gr_set g) by (unfold g'; destruct (tbl g i); done).
  assert (Hpr : gr_prods g' = <[i := Some (default [] (tbl g i) ++ [p])]> t) by (unfold g'; destruct (tbl g i); done).
  assert (Htbl : forall j, tbl g' j = if decide (i = j) then Some (default [] (tbl g i) ++ [p]) else tbl g j).
  { intros j. unfold tbl at 1. rewrite Hpr. destruct (decide (i = j)) as [<-|Hne].
    - rewrite list_lookup_insert by done. done.
    - rewrite list_lookup_insert_ne by done. apply Ht. }
  split; [|done]. constructor; rewrite ?Hs.
  - apply (R_set _ _ HR).
  - rewrite Hpr, insert_length. done.
  - pose proof (R_get _ _ HR i nm Hi) as Hg.
    rewrite <- (map_map fst Some), am_add_fst.
    assert (Hmem : nm ∈ map fst A <-> is_Some (tbl g i)).
    { destruct (tbl g i) as [ps|]; simpl in Hg.
      - split; [eauto|]. intros _. destruct (decide (nm ∈ map fst A)) as [|Hn]; [done|].
        apply assoc_None in Hn. congruence.
      - symmetry in Hg. apply assoc_None in Hg. split; [done|intros [? ?]; done]. }
    unfold g'. destruct (tbl g i) as [ps|] eqn:Et; simpl.
    + rewrite decide_True by (apply Hmem; eauto). rewrite map_map. apply (R_ord _ _ HR).
    + rewrite decide_False by (intros [? ?]%Hmem; done). rewrite !map_app, map_map.
      rewrite (R_ord _ _ HR). simpl. rewrite Hi. done.
  - intros j ps. rewrite Htbl. destruct (decide (i = j)) as [<-|Hne]; [|apply (R_rng _ _ HR)].
    intros [= <-]. apply Forall_app. split; [|by constructor].
    destruct (tbl g i) as [qs|] eqn:Et; simpl; [|constructor]. eapply (R_rng _ _ HR); eauto.
  - intros j nm' Hj. rewrite Htbl, am_add_get.
    destruct (decide (i = j)) as [<-|Hne].
    + assert (nm' = nm) as -> by congruence. rewrite decide_True by done.
      rewrite <- (R_get _ _ HR i nm Hi). simpl. rewrite map_app. destruct (tbl g i); done.
    + rewrite decide_False; [apply (R_get _ _ HR); done|].
      intros ->. apply (R_set _ _ HR) in Hi, Hj. congruence.
Qed.

Lemma gr_empty_R : R gr_empty [].
Proof.
  constructor; simpl; try done; try apply set_new_wf.
Qed.

(** Symbol arguments. *)
Definition psym_is (s : set) (x : psym) (nm : gostring) : Prop :=
  match x with Own i => symb2str s !! i = Some nm | Foreign n => n = nm end.

Lemma psym_is_le s s' x nm : set_le s s' -> psym_is s x nm -> psym_is s' x nm.
Proof. intros Hle. destruct x; simpl; [|done]. apply set_le_lookup; done. Qed.

Lemma set_symbol_spec s x nm i s' : set_wf s -> psym_is s x nm -> set_symbol s x = (i, s') ->
  set_wf s' /\ set_le s s' /\ symb2str s' !! i = Some nm.
Proof.
  intros Hw Hx. destruct x as [v|n]; simpl in *.
  - intros [= <- <-]. auto using set_le_refl.
  - subst n. intros E. destruct (set_str_spec _ _ _ _ Hw E) as (? & ? & ? & _). done.
Qed.

Lemma set_syms_names xs : forall nms s vs s', set_wf s -> Forall2 (psym_is s) xs nms -> set_syms s xs = (vs, s') ->
  set_wf s' /\ set_le s s' /\ Forall (fun v => v < sym_count s') vs /\ prod_names s' vs = nms.
Proof.
  induction xs as [|x xs IH]; intros nms s vs s' Hw HF; simpl.
  - intros [= <- <-]. inversion HF; subst. auto using set_le_refl.
  - inversion HF as [|? nm ? nms' Hx HF']; subst.
    destruct (set_symbol s x) as [v s1] eqn:E1. destruct (set_syms s1 xs) as [vs' s2] eqn:E2.
    intros [= <- <-]. destruct (set_symbol_spec _ _ _ _ _ Hw Hx E1) as (Hw1 & Hl1 & Hv).
    destruct (IH nms' s1 vs' s2 Hw1) as (Hw2 & Hl2 & Hr & Hn); [|done|].
    { eapply Forall2_impl; [exact HF'|]. intros; eapply psym_is_le; eauto. }
    pose proof (set_le_lookup _ _ _ _ Hl2 Hv) as Hv2.
    split_and!; auto.
    + eapply set_le_trans; eauto.
    + constructor; [|done]. apply lookup_lt_Some in Hv2. done.
    + simpl. rewrite Hn. unfold sym_name. rewrite Hv2. done.
Qed.

Lemma resolve_is g A x : R g A -> psym_is (gr_set g) (resolve g x) (fst x).
Proof.
  intros HR. unfold resolve. destruct (str2sym (gr_set g) !! fst x) eqn:E; [|done].
  destruct (snd x); [|done]. simpl. apply (R_set _ _ HR). done.
Qed.

Lemma gr_add_R g A x nm to nms : R g A -> psym_is (gr_set g) x nm -> Forall2 (psym_is (gr_set g)) (default [] to) nms ->
  R (gr_add g x to) (am_add A nm nms).
Proof.
  intros HR Hx Hto. unfold gr_add. destruct (set_symbol (gr_set g) x) as [f s1] eqn:E1.
  destruct (set_symbol_spec _ _ _ _ _ (R_set _ _ HR) Hx E1) as (Hw1 & Hl1 & Hf).
  destruct (set_syms s1 (default [] to)) as [vs s2] eqn:E2.
  destruct (set_syms_names (default [] to) nms s1 vs s2 Hw1) as (Hw2 & Hl2 & Hr & Hn); [|exact E2|].
  { eapply Forall2_impl; [exact Hto|]. intros; eapply psym_is_le; eauto. }
  pose proof (R_grow g A s2 HR Hw2 (set_le_trans _ _ _ Hl1 Hl2)) as HR2.
  pose proof (set_le_lookup _ _ _ _ Hl2 Hf) as Hf2.
  destruct (gr_add_idx_R _ A f nm vs HR2 Hf2 Hr) as [H _]. rewrite <- Hn. exact H.
Qed.

Lemma gr_productions_R g A x nm : R g A -> psym_is (gr_set g) x nm ->
  option_map (map (prod_names (gr_set g))) (fst (gr_productions g x)) = assoc_prods A nm
  /\ R (snd (gr_productions g x)) A
  /\ (known (gr_set g) nm -> snd (gr_productions g x) = g).
Proof.
  intros HR Hx. unfold gr_productions. destruct (set_symbol (gr_set g) x) as [i s1] eqn:E1.
  destruct (set_symbol_spec _ _ _ _ _ (R_set _ _ HR) Hx E1) as (Hw1 & Hl1 & Hi).
  pose proof (R_grow g A s1 HR Hw1 Hl1) as HR1. simpl.
  assert (Ht : (if length (gr_prods g) <=? i then None else default None (gr_prods g !! i)) = tbl g i).
  { unfold tbl. destruct (Nat.leb_spec (length (gr_prods g)) i); [|done]. rewrite lookup_ge_None_2 by done. done. }
  rewrite Ht. split_and!; [|done|].
  - rewrite <- (R_get _ _ HR1 i nm Hi). simpl.
    change (tbl {| gr_order := gr_order g; gr_prods := gr_prods g; gr_set := s1 |} i) with (tbl g i).
    destruct (tbl g i) as [ps|] eqn:Et; [|done]. simpl. f_equal. symmetry.
    apply prods_names_le; [done|]. eapply (R_rng _ _ HR); eauto.
  - intros [j Hj]. destruct x as [v|n]; simpl in *.
    + injection E1 as _ <-. apply set_le_eq.
    + subst n. rewrite (set_str_known _ _ _ Hj) in E1. injection E1 as _ <-. apply set_le_eq.
Qed.

Lemma gr_nonterminals_R g A : R g A -> map (sym_name (gr_set g)) (gr_nonterminals g) = map fst A.
Proof.
  intros HR. pose proof (R_ord _ _ HR) as Ho. unfold gr_nonterminals. revert Ho. generalize A.
  clear. induction (gr_order g) as [|i l IH]; intros [|kp A] Ho; simpl in *; try done.
  injection Ho as H1 H2. unfold sym_name at 1. rewrite H1. simpl. f_equal. apply IH; done.
Qed.

Definition am_ok (A : amap) : Prop := NoDup (map fst A) /\ Forall (fun kp => snd kp <> []) A.

Lemma am_add_ok A nt p : am_ok A -> am_ok (am_add A nt p).
Proof.
  intros [Hn Hp]. split.
  - rewrite am_add_fst. case_decide; [done|]. apply NoDup_app. split_and!; [done| |apply NoDup_singleton].
    intros x Hx Hx'. apply elem_of_list_singleton in Hx'. congruence.
  - clear Hn. induction Hp as [|[k ps] A Hk Hp IH]; simpl.
    + constructor; [done|constructor].
    + case_decide; constructor; auto. simpl. intros E. apply app_nil in E as [_ E]. discriminate.
Qed.

Lemma am_get_in A k ps : NoDup (map fst A) -> (k, ps) ∈ A -> assoc_prods A k = Some ps.
Proof.
  induction A as [|[k' ps'] A IH]; intros Hn Hin; [inversion Hin|]. simpl in *.
  apply NoDup_cons in Hn as [Hk Hn]. apply elem_of_cons in Hin as [[= <- <-]|Hin].
  - rewrite decide_True; done.
  - rewrite decide_False; [auto|]. intros ->. apply Hk. apply (elem_of_list_fmap_1 fst _ _ Hin).
Qed.

Lemma gr_string_R g A : R g A -> am_ok A -> gr_string g = am_text A.
Proof.
  intros HR [Hnd Hne]. unfold gr_string, am_text.
  assert (Hw : fold_left (fun m nt => Nat.max m (length (sym_name (gr_set g) nt))) (gr_nonterminals g) 0
             = fold_left (fun m kp => Nat.max m (length (fst kp))) A 0).
  { pose proof (gr_nonterminals_R _ _ HR) as Hm. revert Hm. generalize 0. generalize (gr_nonterminals g).
    clear. induction A as [|kp A IH]; intros l n Hm; destruct l as [|i l]; simpl in *; try done.
    injection Hm as H1 H2. rewrite H1. apply IH; done. }
  rewrite Hw. set (w := fold_left _ A 0). clearbody w. clear Hw. f_equal. f_equal.
  assert (HF : Forall2 (fun i kp => symb2str (gr_set g) !! i = Some (fst kp)) (gr_nonterminals g) A).
  { pose proof (R_ord _ _ HR) as Ho. unfold gr_nonterminals. revert Ho. clear. revert A.
    induction (gr_order g) as [|i l IH]; intros [|kp A] Ho; simpl in *; try done. injection Ho as H1 H2. constructor; auto. }
  assert (HA : forall kp, kp ∈ A -> assoc_prods A (fst kp) = Some (snd kp)).
  { intros [k ps] Hin. apply am_get_in; done. }
  match goal with |- map ?F _ = map ?G _ => assert (HG : forall A0 l,
    Forall2 (fun i kp => symb2str (gr_set g) !! i = Some (fst kp)) l A0 ->
    (forall kp, kp ∈ A0 -> assoc_prods A (fst kp) = Some (snd kp)) -> map F l = map G A0) end; [|apply HG; done].
  clear HF HA. induction A0 as [|kp A0 IH]; intros l HF HA; inversion HF as [|i ? l' ? Hi HF']; subst; [done|].
  simpl. f_equal; [|apply IH; [done|intros; apply HA; right; done]].
  assert (Hps : psym_is (gr_set g) (Own i) (fst kp)) by done.
  pose proof (proj1 (gr_productions_R g A (Own i) (fst kp) HR Hps)) as Hp.
  rewrite HA in Hp by left. unfold gr_prods_of. destruct (fst (gr_productions g (Own i))) as [qs|]; [|done].
  simpl in *. injection Hp as <-. unfold sym_name. rewrite Hi. simpl.
  destruct qs as [|q qs]; simpl; [done|]. f_equal. rewrite map_map. done.
Qed.

Definition RO g A := R g A /\ am_ok A.

Lemma gr_call_R g A c : RO g A -> fst (gr_call g c) = fst (am_call A c) /\ RO (snd (gr_call g c)) (snd (am_call A c)).
Proof.
  intros [HR Hok]. destruct c as [f to|s| |].
  - destruct f as [f own]. simpl. split; [done|]. split; [|apply am_add_ok; done].
    apply gr_add_R; [done|apply (resolve_is g A (f, own)); done|].
    destruct to as [to|]; simpl; [|constructor]. induction to as [|x to IH]; simpl; constructor; [|done].
    eapply resolve_is; eauto.
  - pose proof (resolve_is g A s HR) as Hs. destruct (gr_productions_R g A _ _ HR Hs) as (H1 & H2 & _).
    destruct s as [s own]. simpl in *.
    destruct (gr_productions g (resolve g (s, own))) as [ps g'] eqn:E. simpl in *. split; [|done].
    rewrite <- H1. f_equal. destruct ps as [ps|]; [|done]. simpl. f_equal.
    unfold gr_productions in E. destruct (set_symbol (gr_set g) (resolve g (s, own))) as [i s1] eqn:E1.
    destruct (set_symbol_spec _ _ _ _ _ (R_set _ _ HR) Hs E1) as (Hw1 & Hl1 & Hi).
    injection E as E <-. simpl. apply prods_names_le; [done|].
    destruct (Nat.leb_spec (length (gr_prods g)) i); [done|]. eapply (R_rng _ _ HR i). exact E.
  - simpl. split; [|done]. rewrite (gr_nonterminals_R _ _ HR). done.
  - simpl. split; [|done]. rewrite (gr_string_R _ _ HR Hok). done.
Qed.

Lemma am_ok_nil : am_ok [].
Proof. split; [constructor|constructor]. Qed.

Lemma gr_run_R cs : forall g A, RO g A -> gr_run g cs = am_run A cs.
Proof.
  induction cs as [|c cs IH]; intros g A HR; [done|]. simpl.
  destruct (gr_call_R g A c HR) as [H1 H2]. destruct (gr_call g c), (am_call A c). simpl in *. subst.
  f_equal. apply IH; done.
Qed.

Lemma gr_history cs : gr_run gr_empty cs = am_run [] cs.
Proof. apply gr_run_R. split; [apply gr_empty_R|apply am_ok_nil]. Qed.

(** The view of a grammar is the multimap, and is well formed. *)
Lemma gr_view_R g A : R g A -> same_grammar (gr_view g) (gram_of A).
Proof.
  intros HR. split.
  - apply gr_nonterminals_R; done.
  - intros s. simpl. apply (gr_productions_R g A (Foreign s) s HR). done.
Qed.
Lemma gram_of_wf' A : g_wf (gram_of A).
Proof.
  intros s. unfold gram_of. simpl. split.
  - intros H. destruct (assoc_prods A s) eqn:E; [eauto|]. apply assoc_None in E. done.
  - intros [ps H]. destruct (decide (s ∈ map fst A)) as [|Hn]; [done|]. apply assoc_None in Hn. congruence.
Qed.
Lemma same_wf g h : same_grammar g h -> g_wf h -> g_wf g.
Proof. intros [H1 H2] Hw s. rewrite H1, H2. apply Hw. Qed.
Lemma gr_view_wf g A : R g A -> g_wf (gr_view g).
Proof. intros HR. eapply same_wf; [apply gr_view_R; done|apply gram_of_wf']. Qed.

Lemma gr_state_R cs : forall g A, RO g A -> RO (gr_state g cs) (fold_left (fun A c => snd (am_call A c)) cs A).
Proof.
  induction cs as [|c cs IH]; intros g A HR; [done|]. simpl. apply IH. apply gr_call_R. done.
Qed.

Lemma am_run_app cs1 : forall cs2 A, am_run A (cs1 ++ cs2) = am_run A cs1 ++ am_run (fold_left (fun A c => snd (am_call A c)) cs1 A) cs2.
Proof.
  induction cs1 as [|c cs1 IH]; intros cs2 A; [done|]. simpl. destruct (am_call A c) as [a A']. simpl.
  rewrite IH. done.
Qed.
Lemma am_run_len cs : forall A, length (am_run A cs) = length cs.
Proof. induction cs as [|c cs IH]; intros A; [done|]. simpl. destruct (am_call A c). simpl. rewrite IH. done. Qed.

Lemma lookup_insert_history g A pre l post : RO g A -> lookup_call l = true ->
  exists a, gr_run g (pre ++ l :: post)
    = take (length pre) (gr_run g (pre ++ post)) ++ a :: drop (length pre) (gr_run g (pre ++ post)).
Proof.
  intros HR Hl. rewrite !(gr_run_R _ _ A HR), !am_run_app. set (A' := fold_left _ pre A).
  rewrite take_app_alt by (rewrite am_run_len; done). rewrite drop_app_alt by (rewrite am_run_len; done).
  exists (fst (am_call A' l)). f_equal. simpl. destruct l as [f to|[s o]| |]; done.
Qed.

Lemma mentions_known g A s : R g A -> mentions (gr_view g) s -> known (gr_set g) s.
Proof.
  intros HR [H|(nt & ps & p & Hp & Hin & Hs)].
  - simpl in H. rewrite (gr_nonterminals_R _ _ HR) in H. destruct (R_known _ _ _ HR H) as (i & Hi & _).
    exists i. apply (R_set _ _ HR). done.
  - simpl in Hp. unfold gr_productions in Hp. destruct (set_symbol (gr_set g) (Foreign nt)) as [i s1] eqn:E1.
    simpl in Hp. destruct (Nat.leb_spec (length (gr_prods g)) i); [done|].
    destruct (default None (gr_prods g !! i)) as [qs|] eqn:Et; [|done]. injection Hp as <-.
    apply elem_of_list_fmap in Hin as (q & -> & Hq). apply elem_of_list_fmap in Hs as (v & -> & Hv).
    pose proof (R_rng _ _ HR i qs Et) as Hr. unfold in_range in Hr. rewrite Forall_forall in Hr.
    specialize (Hr q Hq). rewrite Forall_forall in Hr. specialize (Hr v Hv).
    destruct (lookup_lt_is_Some_2 (symb2str (gr_set g)) v Hr) as [nm Hn].
    exists v. unfold sym_name. rewrite Hn. apply (R_set _ _ HR). done.
Qed.

Lemma lookup_no_write g A s own : RO g A -> mentions (gr_view g) s ->
  snd (gr_call g (CProductions (s, own))) = g.
Proof.
  intros [HR _] Hm. pose proof (mentions_known _ _ _ HR Hm) as Hk.
  destruct (gr_productions_R g _ (resolve g (s, own)) s HR (resolve_is g _ (s, own) HR)) as (_ & _ & H).
  simpl. specialize (H Hk). destruct (gr_productions g (resolve g (s, own))). exact H.
Qed.
