(** C87-C89: productions as interface values, and a set's productions in memory. *)
From Coq Require Import String.
From Verif.spec Require Import SymProdSpec.
From Verif.proofs Require SymProdProofs SymProdWit.
Local Open Scope nat_scope.
Local Open Scope list_scope.

(** C87 is false: what casting nil gives cannot be cast, and productions with a nil one among
    them cannot be cast to a set's. *)
Theorem c87_nil_refuted : exists W k, cast_prod W k PrNil = Ok (None, W) /\ cast_prod W k (PrSet k None) = Panic.
Proof. exact (ex_intro _ SymProdWit.two_sets (ex_intro _ 0 (SymProdWit.cast_nil_twice _ _))). Qed.
Print Assumptions c87_nil_refuted.
Theorem c87_nils_refuted : exists W k, cast_prods W k PsNil = Ok (None, W) /\ cast_prods W k (PsSet k None) = Panic.
Proof. exact (ex_intro _ SymProdWit.two_sets (ex_intro _ 0 (SymProdWit.casts_nil_twice _ _))). Qed.
Print Assumptions c87_nils_refuted.
Theorem c87_nil_inside_refuted : exists W k, cast_prods W k (PsOther [PrStr [L "a"]; PrNil]) = Panic
  /\ str_casts W (PsOther [PrStr [L "a"]; PrNil]) = Ok [[L "a"]; []].
Proof. exact (ex_intro _ SymProdWit.two_sets (ex_intro _ 0 (SymProdWit.casts_nil_inside _ _))). Qed.
Print Assumptions c87_nil_inside_refuted.
(** Missing: nil. *)
Theorem c87_partial W k p xs : reached W -> (forall j, p <> PrSet j None) -> symbols W p = Ok xs ->
  exists vs W', cast_prod W k p = Ok (Some vs, W')
    /\ symbols W' (PrSet k (Some vs)) = Ok xs
    /\ cast_prod W' k (PrSet k (Some vs)) = Ok (Some vs, W')
    /\ (forall q ys, symbols W q = Ok ys -> symbols W' q = Ok ys)
    /\ str_cast W p = Ok xs.
Proof. exact (SymProdProofs.cast_prod_full W k p xs). Qed.
Print Assumptions c87_partial.
Theorem c87_prods_partial W k q xss : reached W -> q <> PsNil -> (forall j, q <> PsSet j None) ->
  Forall2 (fun p xs => (forall j, p <> PrSet j None) /\ symbols W p = Ok xs) (members q) xss ->
  exists vss W', cast_prods W k q = Ok (Some vss, W')
    /\ Forall2 (fun vs xs => symbols W' (PrSet k (Some vs)) = Ok xs) vss xss
    /\ cast_prods W' k (PsSet k (Some vss)) = Ok (Some vss, W')
    /\ (forall p ys, symbols W p = Ok ys -> symbols W' p = Ok ys)
    /\ str_casts W q = Ok xss.
Proof. exact (SymProdProofs.cast_prods_full W k q xss). Qed.
Print Assumptions c87_prods_partial.
(** A production of one set cast to another, empty one. *)
Example c87_example : reached SymProdWit.two_sets
  /\ exists W', cast_prod SymProdWit.two_sets 0 (PrSet 1 (Some [1; 0; 1])) = Ok (Some [0; 1; 0], W')
    /\ symbols SymProdWit.two_sets (PrSet 1 (Some [1; 0; 1])) = Ok [L "a"; L "E"; L "a"]
    /\ symbols W' (PrSet 0 (Some [0; 1; 0])) = Ok [L "a"; L "E"; L "a"].
Proof. exact SymProdWit.cast_ex. Qed.

(** C88 is false: indexes below 0 panic, and so does any index of a nil pointer, which says
    that it has no symbols. *)
Theorem c88_negative_refuted : exists (l : list nat) i, at_index l i = Panic.
Proof. exact (ex_intro _ [0] (ex_intro _ (-1)%Z (proj1 (SymProdProofs.at_index_exact [0] (-1)) eq_refl))). Qed.
Print Assumptions c88_negative_refuted.
Theorem c88_nil_refuted : exists W k i, symbols W (PrSet k None) = Ok [] /\ ptr_at_index (@None (list nat)) i = Panic.
Proof. exact (ex_intro _ SymProdWit.two_sets (ex_intro _ 0 (ex_intro _ 0%Z (conj eq_refl eq_refl)))). Qed.
Print Assumptions c88_nil_refuted.
(** Missing: indexes below 0, and nil pointers. *)
Theorem c88_partial {A} (l : list A) i :
  ((i < 0)%Z -> at_index l i = Panic) /\ ((0 <= i)%Z -> at_index l i = Ok (l !! Z.to_nat i)).
Proof. exact (SymProdProofs.at_index_exact l i). Qed.
Print Assumptions c88_partial.
Example c88_example : at_index [4; 5; 6] 2 = Ok (Some 6) /\ at_index [4; 5; 6] 3 = Ok None /\ ptr_at_index (Some [4; 5; 6]) 0 = Ok (Some 4).
Proof. vm_compute. auto. Qed.

(** C89 is false: two productions taken from one list and both extended are the same after
    it, whenever append leaves room behind an array of two. *)
Theorem c89_refuted grow : 1 <= grow 2 ->
  exists m r, pcalls grow SymProdWit.two_writers pmem_empty = Ok m /\ ref_calls SymProdWit.two_writers rmem_empty = Ok r
    /\ map (slice_of m) (pm_prods m) = [[0; 1; 2]; [0; 1; 2; 4]; [0; 1; 2; 4]]
    /\ map snd (r_prods r) = [[0; 1; 2]; [0; 1; 2; 3]; [0; 1; 2; 4]].
Proof. exact (SymProdWit.overwritten grow). Qed.
Print Assumptions c89_refuted.
(** Missing: programs that extend two productions first made as one. *)
Theorem c89_partial grow cs r : ref_calls cs rmem_empty = Ok r -> one_writer (r_writes r) ->
  exists m, pcalls grow cs pmem_empty = Ok m /\ reads_as m r.
Proof. exact (SymProdProofs.one_writer_reads grow cs r). Qed.
Print Assumptions c89_partial.
(** One of three productions that share an array is extended. *)
Example c89_example : exists r, ref_calls SymProdWit.one_writer_calls rmem_empty = Ok r /\ one_writer (r_writes r)
  /\ map snd (r_prods r) = [[0; 1; 2; 3; 0]; [0; 1; 2]; [0; 1; 2]]
  /\ map (map snd) (r_lists r) = [[[0; 1; 2]; [0; 1; 2]; [0; 1; 2]]].
Proof. exact SymProdWit.one_writer_ex. Qed.
