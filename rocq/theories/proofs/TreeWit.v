(** Small facts and concrete trees for props/TreeProps.v. *)
From Coq Require Import String Lia.
From Verif.model Require Import TreeText TreeOps.
From Verif.spec Require Import TreeSpec.
From Verif.proofs Require Import TreeProofs.
Local Open Scope Z_scope.

Lemma index_exact {A} i (C : list A) : in_range i C <-> exists a c b, at_index i C a c b.
Proof.
  split; [apply range_at_index|]. intros (a & c & b & H). apply (at_index_range _ _ _ _ _ H).
Qed.

Definition lx (k v : string) : lexeme := Lx (L k) (L v) 0 0.
Definition leaf (k : string) : pn := PN (Lx (L k) (L "v" ++ L k) 0 0) [].
Definition abc : pn := PN (lx "P" "") [leaf "a"; leaf "b"; leaf "a"].

Lemma abc_remove :
  at_index (-2) (pn_children abc) [leaf "a"] (leaf "b") [leaf "a"]
  /\ ~ in_range 3 (pn_children abc)
  /\ remove_children [2; -3; 0; 7] abc = PN (lx "P" "") [leaf "b"]
  /\ remove_all [L "a"; L "z"] abc = PN (lx "P" "") [leaf "b"].
Proof.
  split; [split; [reflexivity|right; reflexivity]|]. split; [unfold in_range; cbn; lia|].
  split; vm_compute; reflexivity.
Qed.

Lemma abc_promote :
  at_index 1 [leaf "c"; abc] [leaf "c"] abc []
  /\ promote_child 1 (PN (lx "Q" "") [leaf "c"; abc])
     = (PN (lx "P" "") [leaf "c"; leaf "a"; leaf "b"; leaf "a"], true).
Proof. split; [split; [reflexivity|left; reflexivity]|vm_compute; reflexivity]. Qed.

Lemma promote_value_refuted : exists i p,
  ~ in_range i (pn_children p) /\ promote_child_value i p <> p.
Proof.
  exists (-4), abc. split; [unfold in_range; cbn; lia|]. vm_compute. discriminate.
Qed.

Lemma chain_run f g n : run_red (chain f g) n = run_red g (run_red f n).
Proof. destruct f, g; reflexivity. Qed.

Lemma merge_runs (ks1 ks2 : list gostring) (r1 r2 : reducer) (k : gostring) (n : pn) :
  (forall x, x ∈ ks1 <-> is_Some (r1 !! x)) -> (forall x, x ∈ ks2 <-> is_Some (r2 !! x)) ->
  run_red (reduction_for (merge_reducers ks1 ks2 r1 r2) k) n
  = run_red (reduction_for r2 k) (run_red (reduction_for r1 k) n).
Proof.
  intros H1 H2. unfold reduction_for. rewrite (merge_lookup ks1 ks2 r1 r2 k H1 H2).
  destruct (r1 !! k), (r2 !! k); cbn [run_red]; rewrite ?chain_run; reflexivity.
Qed.

Lemma chain_laws (f g h : option reduction) n :
  chain None f = f /\ chain f None = f
  /\ run_red (chain f g) n = run_red g (run_red f n)
  /\ run_red (chain (chain f g) h) n = run_red (chain f (chain g h)) n.
Proof. rewrite !chain_run. destruct f; repeat split. Qed.

Lemma if_runs c th el n :
  (c = None -> if_ c th el n = run_red el n)
  /\ (forall b, c = Some b -> if_ c th el n = if b n then run_red th n else run_red el n).
Proof. split; [intros ->; reflexivity|intros b ->; reflexivity]. Qed.

Definition red1 : reducer := {[L "P" := Some (promote_child_value 1)]}.
Definition red2 : reducer := <[L "P" := Some (fun p => fst (remove_child 0 p))]> {[L "Q" := None]}.

Lemma merge_example :
  (forall x, x ∈ [L "P"] <-> is_Some (red1 !! x))
  /\ (forall x, x ∈ [L "Q"; L "P"] <-> is_Some (red2 !! x))
  /\ run_red (reduction_for (merge_reducers [L "P"] [L "Q"; L "P"] red1 red2) (L "P")) abc
     = PN (lx "P" "vb") [leaf "a"].
Proof.
  split; [|split; [|vm_compute; reflexivity]]; intros x; unfold red1, red2.
  - rewrite elem_of_list_singleton. split; [intros ->; by rewrite lookup_singleton|].
    intros [f Hf]. apply lookup_singleton_Some in Hf as [? _]. done.
  - rewrite lookup_insert_is_Some', !elem_of_cons, elem_of_nil. split.
    + intros [->|[->|[]]]; [right; by rewrite lookup_singleton|by left].
    + intros [<-|[f Hf]]; [auto|]. apply lookup_singleton_Some in Hf as [? _]. auto.
Qed.

(** Reducers made by calls of Add. *)
Definition added (calls : list (gostring * option reduction)) (r : reducer) : reducer :=
  fold_left (fun r c => reducer_add r (fst c) (snd c)) calls r.
Lemma add_lookup r k f k' n : reduction_for (reducer_add r k f) k' = (if decide (k' = k) then f else reduction_for r k')
  /\ (reducer_can (reducer_add r k f) n = true <-> lx_kind (pn_lexeme n) = k \/ reducer_can r n = true).
Proof.
  unfold reduction_for, reducer_can, reducer_add. split.
  - case_decide as E; [subst; by rewrite lookup_insert|]. by rewrite lookup_insert_ne.
  - destruct (decide (lx_kind (pn_lexeme n) = k)) as [->|E]; [rewrite lookup_insert; tauto|]. rewrite lookup_insert_ne by done. tauto.
Qed.
Lemma added_skip calls r k : k ∉ map fst calls -> added calls r !! k = r !! k.
Proof.
  unfold added. revert r. induction calls as [|[k2 f] calls IH]; intros r H; [done|]. cbn [map fst] in H. apply not_elem_of_cons in H as [H1 H2].
  cbn [fold_left fst snd]. rewrite IH by done. by apply lookup_insert_ne.
Qed.
Lemma added_can calls r k : is_Some (added calls r !! k) <-> k ∈ map fst calls \/ is_Some (r !! k).
Proof.
  unfold added. revert r. induction calls as [|[k2 f] calls IH]; intros r; cbn [fold_left map fst snd].
  - split; [auto|]. intros [H|H]; [inversion H|done].
  - rewrite IH, elem_of_cons. unfold reducer_add. destruct (decide (k = k2)) as [->|E]; [rewrite lookup_insert; split; eauto|].
    rewrite lookup_insert_ne by done. tauto.
Qed.
Lemma added_spec calls k n :
  (forall a f b, calls = a ++ (k, f) :: b -> k ∉ map fst b -> reduction_for (added calls ∅) k = f)
  /\ (k ∉ map fst calls -> reduction_for (added calls ∅) k = None)
  /\ (reducer_can (added calls ∅) n = true <-> lx_kind (pn_lexeme n) ∈ map fst calls).
Proof.
  split; [|split].
  - intros a f b -> Hb. unfold reduction_for. unfold added. rewrite fold_left_app. cbn [fold_left fst snd].
    pose proof (added_skip b (reducer_add (added a ∅) k f) k Hb) as H. unfold added in H. rewrite H. unfold reducer_add. by rewrite lookup_insert.
  - intros H. unfold reduction_for. by rewrite added_skip, lookup_empty.
  - unfold reducer_can. pose proof (added_can calls ∅ (lx_kind (pn_lexeme n))) as H. rewrite lookup_empty in H.
    destruct (added calls ∅ !! lx_kind (pn_lexeme n)) as [x|].
    + split; [|done]. intros _. destruct (proj1 H ltac:(eauto)) as [HI|[? E]]; [done|discriminate E].
    + split; [discriminate|]. intros HI. destruct (proj2 H (or_introl HI)) as [? E]. discriminate E.
Qed.
Lemma added_example : reduction_for (added [(L "P", None); (L "Q", None); (L "P", Some (fun p => fst (remove_child 0 p)))] ∅) (L "P")
    = Some (fun p => fst (remove_child 0 p))
  /\ reducer_can (added [(L "P", None); (L "Q", None)] ∅) (leaf "a") = false.
Proof. split; reflexivity. Qed.
