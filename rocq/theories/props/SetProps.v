(** C21-C24: symbol/setsymbol/set.go and the iterators of helpers.go.
    [set_after set_new ops] is a Set after any history of operations. *)
From Coq Require Import String.
From Verif.model Require Import SetSym Iter.
From Verif.proofs Require SetProofs SetThms IterProofs.

(** C21 *)
Theorem c21_interning ops s x i s1 :
  set_after set_new ops = Ok s -> set_str s x = (i, s1) ->
  sym_string s1 (Z.of_nat i) = Ok x
  /\ (set_has s x = true -> s1 = s /\ i < sym_count s)
  /\ (set_has s x = false -> i = sym_count s /\ sym_count s1 = S (sym_count s))
  /\ (forall j, j < sym_count s -> exists y, set_has s y = true /\ set_str s y = (j, s))
  /\ (forall ops2 s2, set_after s1 ops2 = Ok s2 ->
        sym_string s2 (Z.of_nat i) = Ok x /\ forall y, fst (set_str s2 y) = i <-> y = x).
Proof. exact (SetProofs.set_history ops s x i s1). Qed.
Print Assumptions c21_interning.
Example c21_example : exists s i s1,
  set_after set_new [SStr (L "a"); SLexemes [Lx (L "b") [] 0 0]; SProduction [Own 1; Foreign (L "c")]] = Ok s
  /\ set_str s (L "d") = (i, s1) /\ i = 3.
Proof. eexists _, _, _. split; [vm_compute; reflexivity|]. split; vm_compute; reflexivity. Qed.

(** C22 is false in three ways: ByIdx(Size()) and ByIdx(-1) return symbols whose
    String panics, and Idx does not add. What they do exactly: *)
Theorem c22_by_idx_size_refuted : exists s v,
  set_after set_new [SStr (L "a")] = Ok s
  /\ by_idx s (Z.of_nat (sym_count s)) = Some v /\ sym_string s v = Panic.
Proof. exact SetThms.by_idx_refuted. Qed.
Print Assumptions c22_by_idx_size_refuted.
Theorem c22_by_idx_negative_refuted : exists s v,
  set_after set_new [SStr (L "a")] = Ok s /\ by_idx s (-1) = Some v /\ sym_string s v = Panic.
Proof. exact SetThms.by_idx_neg_refuted. Qed.
Print Assumptions c22_by_idx_negative_refuted.
Theorem c22_idx_adds_refuted : exists s x,
  set_after set_new [SStr (L "a")] = Ok s /\ set_idx s (Foreign x) = (-1)%Z.
Proof. exact SetThms.idx_refuted. Qed.
Print Assumptions c22_idx_adds_refuted.
Theorem c22_by_idx_partial s idx :
  match by_idx s idx with
  | None => (Z.of_nat (sym_count s) < idx)%Z
  | Some v => v = idx /\ (idx <= Z.of_nat (sym_count s))%Z
      /\ ((exists x, sym_string s v = Ok x) <-> (0 <= idx < Z.of_nat (sym_count s))%Z)
      /\ (sym_string s v = Panic <-> ~ (0 <= idx < Z.of_nat (sym_count s))%Z)
  end.
Proof. exact (SetThms.by_idx_exact s idx). Qed.
Print Assumptions c22_by_idx_partial.
Theorem c22_idx_partial ops s x :
  set_after set_new ops = Ok s ->
  (set_has s x = true -> set_idx s (Foreign x) = Z.of_nat (fst (set_str s x)))
  /\ (set_has s x = false -> set_idx s (Foreign x) = (-1)%Z)
  /\ set_has_symbol s (Foreign x) = (if set_has s x then Some (fst (set_str s x)) else None)
  /\ forall v, set_has_symbol s (Own v) = Some v /\ set_idx s (Own v) = Z.of_nat v.
Proof. exact (SetThms.idx_exact ops s x). Qed.
Print Assumptions c22_idx_partial.

(** C23 *)
Theorem c23_load_grammar ops s g :
  set_after set_new ops = Ok s -> g_wf g ->
  exists s', load_grammar g s = Ok s' /\
    forall x, (x ∈ g_nts g \/ exists nt ps p, g_prods g nt = Some ps /\ p ∈ ps /\ x ∈ p) -> set_has s' x = true.
Proof. exact (SetProofs.load_grammar_wf ops s g). Qed.
Print Assumptions c23_load_grammar.
Theorem c23_load_lexemes ops s lxs o s' :
  set_after set_new ops = Ok s -> load_lexemes s lxs = (o, s') ->
  map snd o = lxs
  /\ Forall (fun x => sym_string s' (Z.of_nat (fst x)) = Ok (lx_kind (snd x))) o.
Proof. exact (SetThms.load_lexemes_same ops s lxs o s'). Qed.
Print Assumptions c23_load_lexemes.
Example c23_example : exists s o s', set_after set_new [SStr (L "a")] = Ok s
  /\ load_lexemes s [Lx (L "b") (L "1") 1 2; Lx (L "a") (L "2") 1 3] = (o, s') /\ map fst o = [1; 0].
Proof. exact SetThms.load_lexemes_ex. Qed.

(** C24: the k-th of n calls of Next, on a production / list of productions [l]. *)
Theorem c24_production_iterator {A} (l : list A) n k :
  k < n -> exists b c i, next_calls (next_symbol (Some l)) n iter_new !! k = Some (b, c, i)
      /\ (k < length l -> b = true /\ c = l !! k /\ i = k)
      /\ (length l <= k -> b = false).
Proof. exact (IterProofs.next_symbol_calls l n k). Qed.
Print Assumptions c24_production_iterator.
Theorem c24_productions_iterator {A} (l : list A) n k :
  k < n -> exists b c i, next_calls (next_production (Some l)) n iter_new !! k = Some (b, c, i)
      /\ (k < length l -> b = true /\ c = l !! k /\ i = k)
      /\ (length l <= k -> b = false).
Proof. exact (IterProofs.next_production_calls l n k). Qed.
Print Assumptions c24_productions_iterator.
Example c24_example :
  next_calls (next_symbol (Some [7; 8])) 4 iter_new
  = [(true, Some 7, 0); (true, Some 8, 1); (false, Some 8, 2); (false, Some 8, 3)].
Proof. vm_compute. reflexivity. Qed.
