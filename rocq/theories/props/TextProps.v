(** C33, C34: tree.New and the text form of trees. [print] is unicode.IsPrint above
    ASCII. *)
From Coq Require Import String.
From Verif.model Require Import TreeNew.
From Verif.spec Require Import TextSpec.
From Verif.proofs Require TreeNewProofs TreeNewProofs2 TreeNewWit.

(** C33 is false: a tab comes back as a backslash and a t. *)
Theorem c33_round_trip_refuted : exists print t t', writable t
  /\ tree_new (pn_string print (Some t)) = Ok (Some t')
  /\ lx_val (pn_lexeme t') <> lx_val (pn_lexeme t).
Proof. exact TreeNewWit.tab_refuted. Qed.
Print Assumptions c33_round_trip_refuted.
(** What comes back, for all trees whose kinds are plain words. Missing from the full
    statement: control characters and unprintable code points in values. *)
Theorem c33_round_trip_exact_partial print t :
  writable t -> tree_new (pn_string print (Some t)) = Ok (Some (reread print t)).
Proof. exact (TreeNewProofs.round_trip print t). Qed.
Print Assumptions c33_round_trip_exact_partial.
Theorem c33_round_trip_partial print t : writable t ->
  tree_new (pn_string print (Some t)) = Ok (Some (unset t)) <-> values_kept print t.
Proof. exact (TreeNewProofs.round_trip_iff print t). Qed.
Print Assumptions c33_round_trip_partial.
Example c33_example :
  writable TreeNewWit.odd_tree /\ values_kept TreeNewWit.no_print TreeNewWit.odd_tree
  /\ tree_new (pn_string TreeNewWit.no_print (Some TreeNewWit.odd_tree)) = Ok (Some TreeNewWit.odd_tree).
Proof. exact TreeNewWit.odd_ok. Qed.

(** C34 is false: the empty string panics. *)
Theorem c34_new_refuted : exists str, tree_new str = Panic.
Proof. exact TreeNewWit.new_panic_refuted. Qed.
Print Assumptions c34_new_refuted.
(** For texts all of whose lines match, exactly when a tree is returned, and which; it
    panics otherwise. Missing: those panics. *)
Theorem c34_new_partial str ms : text_marks str ms ->
  (forall t, tree_new str = Ok (Some t) <->
     exists pre f ts, ms = pre ++ f /\ opens pre /\ forest f (t :: ts))
  /\ ((forall pre f t ts, ms = pre ++ f -> opens pre -> ~ forest f (t :: ts)) -> tree_new str = Panic).
Proof. exact (TreeNewProofs2.new_exact str ms). Qed.
Print Assumptions c34_new_partial.
(** A line that does not match is an error if no brace before it closed too much. *)
Theorem c34_bad_line_partial str good bad rest pre f ts ls :
  split1 c_nl str = good ++ bad :: rest ->
  Forall2 (fun line l => tree_line line = Ok (Some l)) good ls -> tree_line bad = Ok None ->
  List.concat (map line_marks ls) = pre ++ f -> opens pre -> forest f ts -> tree_new str = Ok None.
Proof. exact (TreeNewProofs2.new_bad_line str good bad rest pre f ts ls). Qed.
Print Assumptions c34_bad_line_partial.
(** The regexp itself never fails to match. *)
Theorem c34_line_total_partial line : exists e, tree_line line = Ok e.
Proof. exact (TreeNewProofs2.tree_line_total line). Qed.
Print Assumptions c34_line_total_partial.
Example c34_example : exists ms, text_marks TreeNewWit.two ms
  /\ exists pre f ts, ms = pre ++ f /\ opens pre /\ forest f (PN (Lx (L "b") [] (-1)%Z 0%Z) [] :: ts).
Proof. exact TreeNewWit.two_marks. Qed.
Example c34_bad_example : exists str good bad rest ls, split1 c_nl str = good ++ bad :: rest
  /\ Forall2 (fun line l => tree_line line = Ok (Some l)) good ls /\ tree_line bad = Ok None
  /\ forest (List.concat (map line_marks ls)) [PN (Lx (L "x") [] (-1)%Z 0%Z) []] /\ tree_new str = Ok None.
Proof. exact TreeNewWit.bad_line. Qed.
Example c34_panics : tree_new [] = Panic /\ tree_new (L "}") = Panic /\ tree_new (L "a {") = Panic.
Proof. exact TreeNewWit.new_panics. Qed.
