(** Concrete grammar texts. *)
From Coq Require Import String.
From Verif.spec Require Import RegexGramText.
From Verif.proofs Require Import RgText RgPrint RgParse RegexGramWit.
Local Open Scope nat_scope.
Local Open Scope list_scope.

Definition table_compiler (T : list lrow) : compiler :=
  fun src => (fun x => rx_of (lw_re (snd x)) src) <$> list_find (fun r => lw_src r = src) T.
Lemma table_compiles T : NoDup (map lw_src T) -> compiles (table_compiler T) T.
Proof.
  intros HN r Hr. unfold table_compiler. destruct (list_find_elem_of (fun r' => lw_src r' = lw_src r) T r Hr eq_refl) as [[i r'] E].
  rewrite E. cbn [fmap option_fmap option_map snd]. apply list_find_Some in E as (E & Hs & _).
  apply elem_of_list_lookup in Hr as [j Hj].
  assert (i = j) as -> by (apply (NoDup_lookup (map lw_src T) i j (lw_src r) HN); rewrite list_lookup_fmap; [rewrite E|rewrite Hj]; cbn; congruence).
  by rewrite Hj in E; injection E as <-.
Qed.
Definition the_compiler : compiler := table_compiler rg_table.
Lemma the_compiles : compiles the_compiler rg_table.
Proof. apply table_compiles. apply (bool_decide_unpack _). vm_compute. exact I. Qed.

Definition demo_text : gostring := Eval vm_compute in rg_print demo.
Lemma demo_reads : demo_text = [c_nl] ++ L "S -> a ( b | ( c T ) ) * e ? " ++ [c_nl] ++ L "T -> ( c ) * x "
  /\ reads demo_text demo.
Proof.
  split; [vm_compute; reflexivity|]. change demo_text with (rg_print demo). apply print_reads; [|discriminate].
  apply good_proper. exact demo_proper.
Qed.
Lemma demo_no_empty : no_empty_groups demo.
Proof. exact (proj1 (proj2 (proj2 demo_hyps))). Qed.

(** A text with comments, a line that continues the one before, and little white space. *)
Definition comment_text : gostring :=
  L "E -> T (op T)*" ++ [c_nl] ++ L "  // a comment" ++ [c_nl] ++ L "T -> num" ++ [c_nl] ++ L "  -> lp E rp" ++ [c_nl].
Definition run_new (s : gostring) : option (list (gostring * list (list gostring)) + run_error) :=
  match rg_lexer the_compiler, rg_grammar with
  | Some l, Some gg => match rg_new l gg s 300 with
      | Ok (inl (g, _), _) => Some (inl (map (fun n => (n, default [] (g_prods (gr_view g) n))) (g_nts (gr_view g))))
      | Ok (inr e, _) => Some (inr e)
      | _ => None end
  | _, _ => None end.
Lemma comment_runs : run_new comment_text = Some (inl [(L "E", [[L "T"; L "(op_T)*"]]); (L "T", [[L "num"]; [L "lp"; L "E"; L "rp"]]);
  (L "(op_T)*", [[L "op"; L "T"; L "(op_T)*"]; []])]).
Proof. vm_compute. reflexivity. Qed.
(** A comment on the first line is not a comment. *)
Lemma first_line_runs : run_new (L "// a comment" ++ [c_nl] ++ L "E -> a") = Some (inr (ErrLex (Lx (L "Error") (L "//") (-1) 0))).
Proof. vm_compute. reflexivity. Qed.
(** Text without a production. *)
Lemma arrow_runs : run_new (L "-> a") = Some (inr ErrCouldNotParse).
Proof. vm_compute. reflexivity. Qed.
