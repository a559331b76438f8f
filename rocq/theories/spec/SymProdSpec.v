(** What casting productions and extending them should do. *)
From Verif.model Require Export SymProd.
Local Open Scope nat_scope.
Local Open Scope list_scope.

(** Sets that have come about by their own operations. *)
Definition reached (W : nat -> set) : Prop := forall k, exists ops, set_after set_new ops = Ok (W k).

(** * Productions as values *)
(** If productions were values: each has its symbols, a list of productions holds copies, and
    AddSymbols changes one production. Each value carries the number of the production it was
    first made as, and [r_writes] lists which production, made as which, was extended. *)
Record rmem := RMem { r_set : set; r_prods : list (nat * list nat);
  r_lists : list (list (nat * list nat)); r_writes : list (nat * nat) }.
Definition rmem_empty : rmem := RMem set_new [] [] [].

Definition r_pick (m : rmem) (ps : list nat) : res (list (nat * list nat)) :=
  rmap (fun p => match r_prods m !! p with Some x => Ok x | None => Panic end) ps.

Definition ref_step (m : rmem) (c : pcall) : res rmem :=
  match c with
  | CNew xs =>
      let '(vs, s') := set_syms (r_set m) xs in
      Ok (RMem s' (r_prods m ++ [(length (r_prods m), vs)]) (r_lists m) (r_writes m))
  | CAddSymbols p xs =>
      match r_prods m !! p with
      | None => Panic
      | Some (f, vs) =>
          let '(ws, s') := set_syms (r_set m) xs in
          Ok (RMem s' (<[p := (f, vs ++ ws)]> (r_prods m)) (r_lists m) (r_writes m ++ [(f, p)]))
      end
  | CProds ps => xs <-! r_pick m ps; Ok (RMem (r_set m) (r_prods m) (r_lists m ++ [xs]) (r_writes m))
  | CAddProds l ps =>
      match r_lists m !! l with
      | None => Panic
      | Some ys => xs <-! r_pick m ps; Ok (RMem (r_set m) (r_prods m) (<[l := ys ++ xs]> (r_lists m)) (r_writes m))
      end
  | CGet l i =>
      match r_lists m !! l with
      | None => Panic
      | Some ys =>
          match ys !! i with
          | Some x => Ok (RMem (r_set m) (r_prods m ++ [x]) (r_lists m) (r_writes m))
          | None => Panic
          end
      end
  end.
Definition ref_calls (cs : list pcall) (m : rmem) : res rmem := rfold ref_step cs m.

(** Of the productions first made as one, only one is ever extended. *)
Definition one_writer (ws : list (nat * nat)) : Prop :=
  forall f p q, (f, p) ∈ ws -> (f, q) ∈ ws -> p = q.

(** Every production and every list of productions reads as it would if they were values. *)
Definition reads_as (m : pmem) (r : rmem) : Prop :=
  pm_set m = r_set r
  /\ map (slice_of m) (pm_prods m) = map snd (r_prods r)
  /\ map (map (slice_of m)) (pm_lists m) = map (map snd) (r_lists r).
