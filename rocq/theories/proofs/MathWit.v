(** Concrete expressions, over the integers. *)
From Coq Require Import String.
From Verif.spec Require Import MathSpec.
From Verif.proofs Require Import MathProofs RgTextWit Fuel LexMain RunProofs LexTableProofs.
Local Open Scope nat_scope.
Local Open Scope list_scope.

Definition z_digits (s : gostring) : Z := fold_left (fun a c => a * 10 + (Z.of_N c - 48))%Z s 0%Z.
Definition z_arith : arith := Arith Z 0%Z z_digits Z.opp Z.add Z.sub Z.mul Z.div.
Definition mx_compiler : compiler := table_compiler mx_table.
Lemma mx_compiles : compiles mx_compiler mx_table.
Proof. apply table_compiles. apply (bool_decide_unpack _). vm_compute. exact I. Qed.

Definition run_eval (s : gostring) : option (Z * option run_error) :=
  match mx_lexer mx_compiler, mx_grammar with
  | Some l, Some gg => match mx_run z_arith l gg s 600 with Ok (x, _) => Some x | _ => None end
  | _, _ => None end.
Lemma runs :
  run_eval (L "1 - 2*3 - (4 - 5)*6") = Some (1%Z, None)
  /\ run_eval (L "100/10/5*-3+7") = Some (1%Z, None)
  /\ run_eval (L "9-4-3-1") = Some (1%Z, None)
  /\ run_eval (L "-(1)") = Some (0%Z, Some ErrCouldNotParse)
  /\ run_eval (L "1 + x") = Some (0%Z, Some (ErrLex (Lx (L "Error") (L "x") (-1) 0)))
  /\ run_eval (L "  ") = Some (0%Z, None).
Proof. vm_compute. repeat split; reflexivity. Qed.

Definition run_lex (s : gostring) : option (list lexeme) :=
  match mx_lexer mx_compiler with
  | Some l => match slex l s 100 with
      | Ok (xs, _) => match lex_errors xs with [] => Some (map olex_lx xs) | _ => None end
      | _ => None end
  | None => None end.
Lemma run_tokens s lxs : run_lex s = Some lxs -> mx_tokens s lxs.
Proof.
  unfold run_lex. destruct (mx_lexer_some mx_compiler mx_compiles) as (l & -> & Hl). intros H.
  destruct (slex l s 100) as [[ys l2]| |] eqn:E; [|discriminate H|discriminate H].
  destruct (lex_errors ys) as [|e es] eqn:He; [|discriminate H]. injection H as <-.
  exact (table_run mx_table [] mx_more mx_length l s 100 ys l2 Hl E He).
Qed.

Definition demo_text : gostring := L "1 - 2*3 - 4".
Definition tok (k v : string) (c : Z) : lexeme := Lx (L k) (L v) 0%Z c.
Definition demo_tokens : list lexeme :=
  [tok "number" "1" 1; tok "op2" "-" 3; tok "number" "2" 5; tok "op1" "*" 6; tok "number" "3" 7; tok "op2" "-" 9; tok "number" "4" 11].
Lemma demo_lexes : mx_tokens demo_text demo_tokens.
Proof. apply run_tokens. vm_compute. reflexivity. Qed.
Lemma demo_expr : is_expr demo_tokens
  /\ exists a o b, demo_tokens = a ++ o :: b /\ lx_kind o = L "op2" /\ is_expr a /\ is_expr b.
Proof.
  assert (H : is_expr (firstn 5 demo_tokens)).
  { apply (ex_op [_] _ [_; _; _]); [by right|by apply ex_number|]. apply (ex_op [_] _ [_]); [by left|by apply ex_number|by apply ex_number]. }
  assert (H4 : is_expr (skipn 6 demo_tokens)) by (by apply ex_number).
  split; [|exists (firstn 5 demo_tokens), (tok "op2" "-" 9), (skipn 6 demo_tokens); repeat split; assumption].
  apply (ex_op (firstn 5 demo_tokens) (tok "op2" "-" 9) (skipn 6 demo_tokens)); [by right|exact H|exact H4].
Qed.
(** 1 - 2*3 - 4, and a chain of each kind of operator, from the left. *)
Lemma demo_left : left_sum z_arith demo_tokens (-9)%Z.
Proof.
  apply (lsum_op z_arith (firstn 5 demo_tokens) (tok "op2" "-" 9) [tok "number" "4" 11] (-5)%Z 4%Z).
  - done.
  - apply (lsum_op z_arith [tok "number" "1" 1] (tok "op2" "-" 3) (firstn 3 (skipn 2 demo_tokens)) 1%Z 6%Z).
    + done.
    + apply lsum_term, lterm_factor, (lfactor_number z_arith (tok "number" "1" 1)). done.
    + apply (lterm_op z_arith [tok "number" "2" 5] (tok "op1" "*" 6) [tok "number" "3" 7] 2%Z 3%Z).
      * done.
      * apply lterm_factor, (lfactor_number z_arith (tok "number" "2" 5)). done.
      * apply (lfactor_number z_arith (tok "number" "3" 7)). done.
      * unfold op_value. right. right. left. done.
    + unfold op_value. right. left. done.
  - apply lterm_factor, (lfactor_number z_arith (tok "number" "4" 11)). done.
  - unfold op_value. right. left. done.
Qed.
Lemma left_runs : run_eval (L "10-4-3+2") = Some (5%Z, None) /\ run_eval (L "100/10/5*2") = Some (4%Z, None)
  /\ run_eval (L "2-3*4/6--1-(5-2-1)") = Some ((-1)%Z, None).
Proof. vm_compute. repeat split; reflexivity. Qed.
(** A sign is followed by a number. *)
Definition signed (u : list lexeme) : Prop :=
  match u with
  | a :: b :: _ => lx_kind a = L "op2" -> lx_kind b = L "number"
  | [a] => lx_kind a <> L "op2"
  | [] => False
  end.
Lemma expr_signed u : is_expr u -> signed u.
Proof.
  intros H. induction H as [n Hn|o n Ho Hn|o u c Ho H IH Hc|u o v Ho Hu IHu Hv IHv].
  - cbn [signed]. rewrite Hn. discriminate.
  - cbn [signed]. intros _. exact Hn.
  - destruct u as [|a u]; [destruct IH|]. cbn [signed app]. rewrite Ho. discriminate.
  - destruct u as [|a [|b u]]; [destruct IHu| |exact IHu]. cbn [signed app] in *. intros E. destruct (IHu E).
Qed.
Definition bad_toks : list lexeme := [tok "op2" "-" 1; tok "(" "(" 2; tok "number" "1" 3; tok ")" ")" 4].
Lemma bad_tokens : mx_tokens (L "-(1)") bad_toks /\ bad_toks <> [] /\ ~ is_expr bad_toks.
Proof.
  split; [apply run_tokens; vm_compute; reflexivity|]. split; [discriminate|]. intros H.
  apply expr_signed in H. specialize (H eq_refl). discriminate H.
Qed.
Lemma blank_tokens : mx_tokens (L "  ") [].
Proof. apply run_tokens. vm_compute. reflexivity. Qed.
(** The empty text is not an expression, and Eval reports no error. *)
Lemma blank_refuted : exists compile l gg s lxs A x l',
  compiles compile mx_table /\ mx_lexer compile = Some l /\ mx_grammar = Some gg /\
  mx_tokens s lxs /\ ~ is_expr lxs /\ returns (mx_run A l gg s) ((x, None), l').
Proof.
  destruct (mx_lexer_some mx_compiler mx_compiles) as (l & Hl & _).
  destruct (value_blank z_arith mx_compiler l l mx_gr [] mx_compiles Hl) with (s := L "  ") as [l' H].
  - exists 0. intros n _. reflexivity.
  - exact mx_grammar_some.
  - exact blank_tokens.
  - exists mx_compiler, l, mx_gr, (L "  "), [], z_arith, 0%Z, l'. split; [exact mx_compiles|].
    split; [exact Hl|]. split; [exact mx_grammar_some|]. split; [exact blank_tokens|]. split; [|exact H].
    intros E. exact (expr_nonempty [] E eq_refl).
Qed.
