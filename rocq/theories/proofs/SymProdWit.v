(** Witnesses for the productions of symbol sets. *)
From Coq Require Import String.
From Verif.spec Require Import SymProdSpec.
From Coq Require Import Lia.
From Verif.proofs Require Import SymProdProofs SetProofs.
Local Open Scope nat_scope.
Local Open Scope list_scope.

(** Two sets: the first empty, the second with E, a and b. *)
Definition two_sets : nat -> set := fun k => if k =? 1 then snd (set_syms set_new (map Foreign [L "E"; L "a"; L "b"])) else set_new.

Lemma two_sets_reached : reached two_sets.
Proof.
  intros k. unfold two_sets. destruct (k =? 1).
  - exists [SProduction (map Foreign [L "E"; L "a"; L "b"])]. reflexivity.
  - exists []. reflexivity.
Qed.

Lemma cast_ex : reached two_sets
  /\ exists W', cast_prod two_sets 0 (PrSet 1 (Some [1; 0; 1])) = Ok (Some [0; 1; 0], W')
    /\ symbols two_sets (PrSet 1 (Some [1; 0; 1])) = Ok [L "a"; L "E"; L "a"]
    /\ symbols W' (PrSet 0 (Some [0; 1; 0])) = Ok [L "a"; L "E"; L "a"].
Proof.
  split; [apply two_sets_reached|]. eexists. split_and!; [vm_compute; reflexivity|vm_compute; reflexivity|vm_compute; reflexivity].
Qed.

(** A nil production is cast to a nil pointer, which cannot be cast again. *)
Lemma cast_nil_twice W k : cast_prod W k PrNil = Ok (None, W) /\ cast_prod W k (PrSet k None) = Panic.
Proof. done. Qed.
Lemma casts_nil_twice W k : cast_prods W k PsNil = Ok (None, W) /\ cast_prods W k (PsSet k None) = Panic.
Proof. done. Qed.
(** One nil production among others: no cast to a set, an empty production for strings. *)
Lemma casts_nil_inside W k : cast_prods W k (PsOther [PrStr [L "a"]; PrNil]) = Panic
  /\ str_casts W (PsOther [PrStr [L "a"]; PrNil]) = Ok [[L "a"]; []].
Proof.
  split; [|reflexivity]. cbn [cast_prods members cast_members cast_prod symbols rbind].
  destruct (set_syms (W k) (map Foreign [L "a"])). reflexivity.
Qed.

(** Two productions taken from one list, whose array has room, and both extended. *)
Definition two_writers : list pcall :=
  [CNew [Foreign (L "a"); Foreign (L "b")]; CAddSymbols 0 [Foreign (L "c")]; CProds [0]; CGet 0 0; CGet 0 0;
   CAddSymbols 1 [Foreign (L "d")]; CAddSymbols 2 [Foreign (L "e")]].
Lemma overwritten grow : 1 <= grow 2 ->
  exists m r, pcalls grow two_writers pmem_empty = Ok m /\ ref_calls two_writers rmem_empty = Ok r
    /\ map (slice_of m) (pm_prods m) = [[0; 1; 2]; [0; 1; 2; 4]; [0; 1; 2; 4]]
    /\ map snd (r_prods r) = [[0; 1; 2]; [0; 1; 2; 3]; [0; 1; 2; 4]].
Proof.
  intros Hg. assert (exists m, pcalls grow two_writers pmem_empty = Ok m
    /\ map (slice_of m) (pm_prods m) = [[0; 1; 2]; [0; 1; 2; 4]; [0; 1; 2; 4]]) as (m & E & Hm).
  { destruct (pcalls grow two_writers pmem_empty) as [m| |] eqn:E; revert E; vm_compute;
      (destruct (grow 2) as [|n]; [lia|]); [|discriminate|discriminate].
    intros E. exists m. split; [done|]. injection E as <-. reflexivity. }
  exists m. eexists. split_and!; [exact E|vm_compute; reflexivity|exact Hm|vm_compute; reflexivity].
Qed.

(** The same list read twice, with one of the two extended twice over. *)
Definition one_writer_calls : list pcall :=
  [CNew [Foreign (L "a"); Foreign (L "b")]; CAddSymbols 0 [Foreign (L "c")]; CProds [0]; CGet 0 0;
   CAddProds 0 [1; 0]; CAddSymbols 0 [Foreign (L "d"); Foreign (L "a")]; CGet 0 2].
Lemma one_writer_ex : exists r, ref_calls one_writer_calls rmem_empty = Ok r /\ one_writer (r_writes r)
  /\ map snd (r_prods r) = [[0; 1; 2; 3; 0]; [0; 1; 2]; [0; 1; 2]]
  /\ map (map snd) (r_lists r) = [[[0; 1; 2]; [0; 1; 2]; [0; 1; 2]]].
Proof.
  eexists. split_and!; [vm_compute; reflexivity| |vm_compute; reflexivity|vm_compute; reflexivity].
  cbn [r_writes]. intros f p q Hp Hq.
  repeat (apply elem_of_cons in Hp as [Hp|Hp]; [injection Hp as -> ->|]); try (by inversion Hp);
  repeat (apply elem_of_cons in Hq as [Hq|Hq]; [injection Hq as ->|]); try (by inversion Hq); done.
Qed.
