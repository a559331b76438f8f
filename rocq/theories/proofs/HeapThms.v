(** The statements of props/HeapProps.v. *)
From Coq Require Import Lia.
From Verif.model Require Import TreeOps Packrat.
From Verif.spec Require Import HeapSpec TreeSpec Outcome PackratSpec CFG.
From Verif.proofs Require Import TreeProofs HeapProofs HeapProofs2 HeapBuild Fuel PackratFuel PackratThms.

Lemma h_raw_reduce_mono n n' r p h : n <= n' -> rle (h_raw_reduce n r p h) (h_raw_reduce n' r p h).
Proof.
  revert n' p h. induction n as [|n IH]; intros n' p h Hle; [apply rle_oof|].
  destruct n' as [|n']; [lia|]. cbn [h_raw_reduce]. apply rle_bind; [apply rle_refl|]. intros nd.
  destruct (make_slice h _ _) as [h1 sl]. destruct (alloc h1 _) as [h2 cp].
  apply rle_bind; [|intros; apply rle_refl]. apply rle_rfold. intros s i.
  apply rle_bind; [apply rle_refl|]. intros [[c|]|]; try apply rle_refl.
  apply rle_bind; [apply IH; lia|]. intros []. apply rle_refl.
Qed.
Lemma h_clone_mono n n' p h : n <= n' -> rle (h_clone n p h) (h_clone n' p h).
Proof.
  revert n' p h. induction n as [|n IH]; intros n' p h Hle; [apply rle_oof|].
  destruct n' as [|n']; [lia|]. cbn [h_clone]. apply rle_bind; [apply rle_refl|]. intros nd.
  destruct (make_slice h _ _) as [h1 sl]. destruct (alloc h1 _) as [h2 cp].
  apply rle_bind; [|intros; apply rle_refl]. apply rle_rfold. intros s i.
  apply rle_bind; [apply rle_refl|]. intros [[c|]|]; try apply rle_refl.
  apply rle_bind; [apply IH; lia|]. intros []. apply rle_refl.
Qed.
Lemma h_to_pn_mono n n' lxms m name td h : n <= n' -> rle (h_to_pn n lxms m name td h) (h_to_pn n' lxms m name td h).
Proof.
  revert n' td h. induction n as [|n IH]; intros n' td h Hle; [apply rle_oof|].
  destruct n' as [|n']; [lia|]. cbn [h_to_pn]. destruct (td_key td) as [[idx start] e].
  destruct (make_slice h _ _) as [h1 sl]. destruct (alloc h1 _) as [h2 cp].
  apply rle_bind; [|intros; apply rle_refl]. apply rle_rfold. intros s [i c].
  apply rle_bind; [apply IH; lia|]. intros []. apply rle_refl.
Qed.
Lemma h_packrat_parse_mono g lxs h : fuel_mono (fun n => h_packrat_parse n g lxs h).
Proof.
  intros n n' Hle. unfold h_packrat_parse. destruct (g_nts g) as [|nt0 nts]; [apply rle_refl|].
  apply rle_bind; [apply rle_refl|]. intros set1. destruct (load_lexemes set1 lxs) as [lxms st].
  apply rle_bind; [by apply add_prods_mono|]. intros s1.
  apply rle_bind; [by apply run_mono|]. intros s2.
  destruct (_ =? _); [|apply rle_refl]. apply rle_bind; [by apply h_to_pn_mono|]. intros []. apply rle_refl.
Qed.

Theorem raw_reduce_untouched r hr h A :
  reducers_agree r hr -> holds h A ->
  exists h' A', returns (fun n => h_raw_reduce n hr (a_ptr A) h) (h', a_ptr A')
    /\ tree_at h' A' /\ a_val A' = raw_reduce r (a_val A)
    /\ extends h h' /\ fresh_from h A' /\ holds h' A.
Proof.
  intros Hag Hh.
  destruct (raw_reduce_heap r hr Hag (fun _ _ => True)) with (fuel := a_height A) (A := A) (h := h)
    as (h' & A' & E & Ht & He & Hf & Hv & _); try done.
  { by left. }
  exists h', A'. split.
  - apply (returns_at _ (a_height A)); [|done]. intros n m Hle. by apply h_raw_reduce_mono.
  - repeat (split; [done|]). by apply (extends_holds h).
Qed.

Theorem clone_copies h A :
  holds h A ->
  exists h' A', returns (fun n => h_clone n (a_ptr A) h) (h', a_ptr A')
    /\ tree_at h' A' /\ a_val A' = unplaced (a_val A) /\ linked h' None A'
    /\ extends h h' /\ fresh_from h A' /\ holds h' A.
Proof.
  intros Hh. destruct (clone_heap (a_height A) A h) as (h' & A' & E & Ht & He & Hf & Hv & Hp); [done|done|].
  exists h', A'. split.
  - apply (returns_at _ (a_height A)); [|done]. intros n m Hle. by apply h_clone_mono.
  - repeat (split; [done|]). split; [by apply has_parents_linked|]. repeat (split; [done|]). by apply (extends_holds h).
Qed.

(** A reducer with nothing registered: every copy's P is nil. *)
Lemma orphan_nodes h A : has_parents (fun _ => None) h None A ->
  forall n x, n ∈ a_nodes A -> h_nodes h !! n = Some x -> h_par x = None.
Proof.
  induction A as [p lx sl cs IH] using atree_ind_list. intros H n x Hin Hx. rewrite Forall_forall in IH.
  inversion H as [? ? ? ? ? y Hp Hpar Hcs]; subst. rewrite nodes_AT, elem_of_cons in Hin. destruct Hin as [->|Hin].
  - congruence.
  - rewrite Forall_forall in Hcs. apply elem_of_list_In, in_concat in Hin as (l & Hl & Hin).
    apply in_map_iff in Hl as (c & <- & Hc). apply elem_of_list_In in Hc, Hin.
    by apply (IH c Hc (Hcs c Hc) n x).
Qed.
Theorem raw_reduce_orphans h A :
  holds h A ->
  exists h' A', returns (fun n => h_raw_reduce n ∅ (a_ptr A) h) (h', a_ptr A')
    /\ tree_at h' A' /\ a_val A' = a_val A
    /\ forall n x, n ∈ a_nodes A' -> h_nodes h' !! n = Some x -> h_par x = None.
Proof.
  intros Hh.
  assert (Hag : reducers_agree ∅ ∅) by (intros k; unfold reduction_for; by rewrite !lookup_empty).
  destruct (raw_reduce_heap ∅ ∅ Hag (fun h => has_parents (fun _ => None) h None)) with (fuel := a_height A) (A := A) (h := h)
    as (h' & A' & E & Ht & He & Hf & Hv & Hp); try done.
  { apply has_parents_local. }
  { intros h0 p lx sl cs Hp Hcs. by eapply hp_intro. }
  { right. intros k. unfold reduction_for. by rewrite lookup_empty. }
  exists h', A'. split.
  - apply (returns_at _ (a_height A)); [|done]. intros n m Hle. by apply h_raw_reduce_mono.
  - split; [done|]. split; [rewrite Hv; apply raw_reduce_empty|]. by apply orphan_nodes.
Qed.

Theorem packrat_in_memory g lexemes h t :
  returns (fun n => packrat_parse n g lexemes) (Some t) ->
  exists h' A, returns (fun n => h_packrat_parse n g lexemes h) (h', Some (a_ptr A))
    /\ tree_at h' A /\ a_val A = t /\ linked h' None A /\ extends h h' /\ fresh_from h A.
Proof.
  intros [F HF]. specialize (HF F (le_n F)).
  assert (H : exists h' A, h_packrat_parse F g lexemes h = Ok (h', Some (a_ptr A))
    /\ tree_at h' A /\ extends h h' /\ fresh_from h A /\ a_val A = t /\ has_parents Some h' None A).
  { unfold packrat_parse, h_packrat_parse in *. destruct (g_nts g) as [|nt0 nts]; [done|].
    destruct (load_grammar g set_new) as [set1| |]; cbn [rbind] in *; try done.
    destruct (load_lexemes set1 lexemes) as [lxms st].
    destruct (add_prods _ _ _ _ _ _ _) as [s1| |]; cbn [rbind] in *; try done.
    destruct (run _ _ _ _ _ _) as [s2| |]; cbn [rbind] in *; try done.
    destruct (_ =? _); [|done].
    destruct (to_pn _ _ _ _ _) as [t'| |] eqn:Et; cbn [rbind] in HF; try done. injection HF as <-.
    destruct (to_pn_heap _ _ _ _ _ _ Et h) as (h' & A & E & Hrest). exists h', A. rewrite E. by split. }
  destruct H as (h' & A & E & Ht & He & Hf & Hv & Hp). exists h', A. split.
  - apply (returns_at _ F); [apply h_packrat_parse_mono|done].
  - repeat (split; [done|]). split; [by apply has_parents_linked|done].
Qed.

Theorem packrat_placed g lexemes h r :
  g_wf g -> terminal_kinds g lexemes -> returns (fun n => packrat_parse n g lexemes) r ->
  match r with
  | Some t => positioned g t /\ exists h' A, returns (fun n => h_packrat_parse n g lexemes h) (h', Some (a_ptr A))
      /\ tree_at h' A /\ a_val A = t /\ linked h' None A /\ extends h h' /\ fresh_from h A
  | None => returns (fun n => h_packrat_parse n g lexemes h) (h, None)
  end.
Proof.
  intros Hwf Htk Hr. destruct r as [t|].
  - split; [|by apply packrat_in_memory]. destruct (g_nts g) as [|s0 rest] eqn:En.
    + exfalso. destruct Hr as [F HF]. specialize (HF F (le_n F)). unfold packrat_parse in HF. by rewrite En in HF.
    + by apply (packrat_positions g lexemes Hwf Htk s0 rest).
  - destruct Hr as [F HF]. specialize (HF F (le_n F)).
    apply (returns_at _ F); [apply h_packrat_parse_mono|].
    unfold packrat_parse, h_packrat_parse in *. destruct (g_nts g) as [|nt0 nts]; [done|].
    destruct (load_grammar g set_new) as [set1| |]; cbn [rbind] in *; try done.
    destruct (load_lexemes set1 lexemes) as [lxms st].
    destruct (add_prods _ _ _ _ _ _ _) as [s1| |]; cbn [rbind] in *; try done.
    destruct (run _ _ _ _ _ _) as [s2| |]; cbn [rbind] in *; try done.
    destruct (_ =? _); [|done]. destruct (to_pn _ _ _ _ _); done.
Qed.

(** Parent() of a node never is the nil interface. *)
Theorem parent_not_nil h p i : h_parent h p = Ok i -> i <> INil.
Proof. unfold h_parent. destruct (deref_opt h p); cbn [rbind]; try done. by intros [= <-]. Qed.
Theorem parent_exact h par A : linked h par A -> h_parent h (Some (a_ptr A)) = Ok (IPN par).
Proof.
  intros H. inversion H as [? ? ? ? ? n Hp Hpar _]; subst. unfold h_parent, deref_opt. cbn [a_ptr].
  by rewrite (deref_at _ _ _ Hp).
Qed.
