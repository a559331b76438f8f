(** Concrete texts for the stack calculator, over the integers. *)
From Coq Require Import String.
From Verif.spec Require Import ScalcSpec.
From Verif.proofs Require Import RgTextWit Fuel LexMain LexTableProofs ScalcGram ScalcTotal ScalcMachine ScalcRpn.
Local Open Scope nat_scope.
Local Open Scope list_scope.

Definition z_abs_digits (s : gostring) : Z := fold_left (fun a c => if (c =? 46)%N then a else a * 10 + (Z.of_N c - 48))%Z s 0%Z.
Definition z_digits (s : gostring) : Z :=
  match s with 45%N :: r => (- z_abs_digits r)%Z | 43%N :: r => z_abs_digits r | _ => z_abs_digits s end.
Definition z_arith : sarith :=
  SArith Z 0%Z 1%Z (-1)%Z z_digits Z.of_nat Z.opp Z.add Z.sub Z.mul Z.div Z.pow Z.modulo Z.ltb Z.eqb.
Definition zp (v p : Z) : pfloat z_arith := PF (A := z_arith) v p.
Definition sc_compiler : compiler := table_compiler sc_table.
Lemma sc_compiles : compiles sc_compiler sc_table.
Proof. apply table_compiles. apply (bool_decide_unpack _). vm_compute. exact I. Qed.

Definition run_eval (s : string) : option (option (list (Z * Z))) :=
  match sc_lexer sc_compiler, sc_grammar with
  | Some l, Some gg => match sc_eval z_arith l gg (L s) 900 with
      | Ok (x, _) => Some (match x with Some vs => Some (map (fun p : pfloat z_arith => (pf_v p, pf_p p)) vs) | None => None end)
      | _ => None end
  | _, _ => None end.
Definition run_lex (s : gostring) : option (list lexeme) :=
  match sc_lexer sc_compiler with
  | Some l => match slex l s 100 with
      | Ok (xs, _) => match lex_errors xs with [] => Some (map olex_lx xs) | _ => None end
      | _ => None end
  | None => None end.
Lemma run_tokens s lxs : run_lex s = Some lxs -> sc_tokens s lxs.
Proof.
  unfold run_lex. destruct (sc_lexer_some sc_compiler sc_compiles) as (l & -> & Hl). intros H.
  destruct (slex l s 100) as [[ys l2]| |] eqn:E; [|discriminate H|discriminate H].
  destruct (lex_errors ys) as [|e es] eqn:He; [|discriminate H]. injection H as <-.
  exact (table_run sc_table [] sc_more sc_length l s 100 ys l2 Hl E He).
Qed.
Lemma eval_mono A l gg s : fuel_mono (sc_eval A l gg s).
Proof.
  intros n m Hle. unfold sc_eval, sc_parse. apply rle_bind.
  - apply rle_bind; [replace m with (n + (m - n)) by lia; apply slex_mono|]. intros [xs l'].
    apply rle_bind; [by apply PackratFuel.packrat_parse_mono|]. intros t. apply rle_refl.
  - intros [t l']. destruct t as [t|]; [|apply rle_refl]. apply rle_bind; [by apply sc_mono|]. intros x. apply rle_refl.
Qed.
Lemma run_returns s vs : run_eval s = Some vs -> exists l gg vs' l', sc_lexer sc_compiler = Some l /\ sc_grammar = Some gg
  /\ returns (sc_eval z_arith l gg (L s)) (vs', l')
  /\ match vs' with Some vs => Some (map (fun p : pfloat z_arith => (pf_v p, pf_p p)) vs) | None => None end = vs.
Proof.
  unfold run_eval. destruct (sc_lexer sc_compiler) as [l|] eqn:El; [|discriminate]. destruct sc_grammar as [gg|] eqn:Eg; [|discriminate].
  destruct (sc_eval z_arith l gg (L s) 900) as [[x l']| |] eqn:E; [|discriminate|discriminate]. intros H. injection H as <-.
  exists l, gg, x, l'. split; [done|]. split; [done|]. split; [|done]. exact (returns_at _ 900 _ (eval_mono _ _ _ _) E).
Qed.
Definition tok (k v : string) (c : Z) : lexeme := Lx (L k) (L v) 0%Z c.

Lemma runs :
  run_eval "12 3.50 - 2 *" = Some (Some [(-676, 2)])%Z
  /\ run_eval "7 1 2 + -- 3 3 =" = Some (Some [(7, 0); (-3, 0); (1, 0)])%Z
  /\ run_eval "1 2 3 swap" = Some (Some [(1, 0); (3, 0); (2, 0)])%Z
  /\ run_eval "1 2 3 sum 4" = Some (Some [(6, 0); (4, 0)])%Z
  /\ run_eval "1 +" = Some None
  /\ run_eval "1 x" = Some None
  /\ run_eval "" = Some (Some []).
Proof. vm_compute. repeat split; reflexivity. Qed.
Definition demo_tokens : list lexeme :=
  [tok "int" "7" 1; tok "int" "1" 3; tok "dec" ".5" 4; tok "int" "2" 7; tok "bop" "+" 9; tok "uop" "--" 11].
Lemma demo_lexes : sc_tokens (L "7 1.5 2 + --") demo_tokens /\ arithmetic demo_tokens.
Proof. split; [apply run_tokens; vm_compute; reflexivity|]. repeat constructor; cbn; tauto. Qed.
Lemma demo_machine : machine z_arith true [] demo_tokens [zp (-17) 1; zp 7 0].
Proof.
  apply m_int; [done|intros y r E; by injection E as <- _|]. apply m_dec; [done|done|]. apply m_int; [done|intros y r E; by injection E as <- _|].
  eapply m_bop; [done|apply bv_add|]. eapply m_uop; [done|apply uv_neg|]. apply m_done.
Qed.
Definition short_tokens : list lexeme := [tok "int" "1" 1; tok "bop" "+" 3].
Lemma short_lexes : sc_tokens (L "1 +") short_tokens /\ arithmetic short_tokens /\ forall A st, ~ machine A true [] short_tokens st.
Proof.
  split; [apply run_tokens; vm_compute; reflexivity|]. split; [repeat constructor; cbn; tauto|].
  intros A st H.
  inversion H; subst; repeat match goal with Hk : lx_kind _ = L _ |- _ => first [discriminate Hk|clear Hk] | Hk : _ \/ _ |- _ => destruct Hk as [Hk|Hk] end.
  match goal with H1 : machine A true _ [_] _ |- _ => inversion H1; subst end;
    repeat match goal with Hk : lx_kind _ = L _ |- _ => first [discriminate Hk|clear Hk] | Hk : _ \/ _ |- _ => destruct Hk as [Hk|Hk] end.
Qed.
Definition swap_tokens : list lexeme := [tok "int" "1" 1; tok "int" "2" 3; tok "int" "3" 5].
Lemma swap_lexes : sc_tokens (L "1 2 3 swap") (swap_tokens ++ [tok "smp" "swap" 7]) /\ arithmetic swap_tokens.
Proof. split; [apply run_tokens; vm_compute; reflexivity|]. repeat constructor; cbn; tauto. Qed.

(** * Where the calculator leaves the stack machine *)
Definition paren_tokens : list lexeme := [tok "(" "(" 1; tok "int" "1" 2; tok "int" "2" 4; tok ")" ")" 5; tok "int" "3" 7].
Definition if_tokens : list lexeme := [tok "int" "5" 1; tok "int" "2" 3; tok "int" "1" 5; tok "int" "0" 7; tok "?" "?" 9].
Definition drop_tokens : list lexeme := [tok "int" "1" 1; tok "int" "2" 3; tok "smp" "swap" 5; tok "smp" "drop" 10].
Definition then_tokens : list lexeme := [tok "int" "1" 1; tok "int" "2" 3; tok "smp" "swap" 5; tok "int" "3" 10].
Ltac nd := let y := fresh in let r := fresh in let E := fresh in intros y r E; first [discriminate E|by injection E as <- _].
Definition strays (s : gostring) (lxs : list lexeme) (st : list (pfloat z_arith)) (got : option (list (Z * Z))) : Prop :=
  sc_tokens s lxs /\ machine z_arith true [] lxs st
  /\ exists l gg vs l', sc_lexer sc_compiler = Some l /\ sc_grammar = Some gg /\ returns (sc_eval z_arith l gg s) (vs, l') /\ vs <> Some (rev st)
     /\ match vs with Some vs => Some (map (fun p : pfloat z_arith => (pf_v p, pf_p p)) vs) | None => None end = got.
Lemma stray (s : string) lxs st got : run_lex (L s) = Some lxs -> machine z_arith true [] lxs st -> run_eval s = Some got ->
  got <> Some (map (fun p : pfloat z_arith => (pf_v p, pf_p p)) (rev st)) -> strays (L s) lxs st got.
Proof.
  intros H1 H2 H3 H4. split; [by apply run_tokens|]. split; [done|]. destruct (run_returns s got H3) as (l & gg & vs & l' & Hl & Hg & Hr & E).
  exists l, gg, vs, l'. split; [done|]. split; [done|]. split; [done|]. split; [|done]. intros ->. apply H4. by rewrite <- E.
Qed.
Lemma strays_paren : strays (L "(1 2) 3") paren_tokens [zp 3 0; zp 2 0; zp 1 0] (Some [(0, 0); (3, 0)])%Z.
Proof.
  apply stray; [vm_compute; reflexivity| |vm_compute; reflexivity|discriminate].
  apply m_paren; [by left|]. apply m_int; [done|nd|]. apply m_int; [done|nd|]. apply m_paren; [by right|]. apply m_int; [done|nd|]. apply m_done.
Qed.
Lemma strays_if : strays (L "5 2 1 0 ?") if_tokens [zp 2 0; zp 5 0] (Some [(2, 0)])%Z.
Proof.
  apply stray; [vm_compute; reflexivity| |vm_compute; reflexivity|discriminate].
  do 4 (apply m_int; [done|nd|]). apply m_if_not; [done|done|]. apply m_done.
Qed.
Lemma strays_drop : strays (L "1 2 swap drop") drop_tokens [zp 2 0] (Some []).
Proof.
  apply stray; [vm_compute; reflexivity| |vm_compute; reflexivity|discriminate].
  do 2 (apply m_int; [done|nd|]). eapply m_smp; [done|apply sv_swap|]. eapply m_smp; [done|apply sv_drop|]. apply m_done.
Qed.
Lemma strays_then : strays (L "1 2 swap 3") then_tokens [zp 3 0; zp 1 0; zp 2 0] None.
Proof.
  apply stray; [vm_compute; reflexivity| |vm_compute; reflexivity|discriminate].
  do 2 (apply m_int; [done|nd|]). eapply m_smp; [done|apply sv_swap|]. apply m_int; [done|nd|]. apply m_done.
Qed.
Lemma stack_refuted s lxs st got : strays s lxs st got -> exists compile A l gg vs l', compiles compile sc_table
  /\ sc_lexer compile = Some l /\ sc_grammar = Some gg /\ sc_tokens s lxs
  /\ (exists st', machine A true [] lxs st') /\ returns (sc_eval A l gg s) (vs, l') /\ (forall st', machine A true [] lxs st' -> vs <> Some (rev st')).
Proof.
  intros (H1 & H2 & l & gg & vs & l' & Hl & Hg & Hr & Hn & _). exists sc_compiler, z_arith, l, gg, vs, l'. split; [exact sc_compiles|].
  split; [done|]. split; [done|]. split; [done|]. split; [by exists st|]. split; [done|]. intros st' H'. by rewrite <- (machine_fun _ _ _ _ H2 _ H').
Qed.
Definition len_tokens : list lexeme :=
  [tok "int" "1" 1; tok "int" "2" 3; tok "sop" "len" 5; tok "int" "3" 9; tok "int" "4" 11; tok "sop" "len" 13; tok "int" "5" 17; tok "bop" "*" 19].
Definition few_tokens : list lexeme :=
  [tok "int" "2" 1; tok "int" "2" 3; tok "int" "3" 5; tok "sop" "sum" 7; tok "bop" "*" 11].
Lemma len_operators : sc_tokens (L "1 2 len 3 4 len 5 *") len_tokens /\ operators len_tokens.
Proof. split; [apply run_tokens; vm_compute; reflexivity|]. unfold operators, len_tokens. repeat (apply List.Forall_cons; [cbn [lx_kind tok]; tauto|]). apply List.Forall_nil. Qed.
Lemma len_takes_two : machine z_arith false [] len_tokens [zp 10 0; zp 2 0].
Proof.
  do 2 (apply m_int; [done|nd|]).
  apply (m_sop z_arith false _ [zp 2 0; zp 1 0] (zp 2 0) _ []); [done|done|apply so_len|].
  do 2 (apply m_int; [done|nd|]).
  apply (m_sop z_arith false _ [zp 4 0; zp 3 0] (zp 2 0) _ [zp 2 0]); [done|done|apply so_len|].
  apply m_int; [done|nd|]. eapply m_bop; [done|apply bv_mul|]. apply m_done.
Qed.
Lemma strays_len : strays (L "1 2 len 3 4 len 5 *") len_tokens [zp 15 0] (Some [(2, 0); (10, 0)])%Z.
Proof.
  apply stray; [vm_compute; reflexivity| |vm_compute; reflexivity|discriminate].
  do 2 (apply m_int; [done|nd|]).
  apply (m_sop z_arith true _ [zp 2 0; zp 1 0] (zp 2 0) _ []); [done|done|apply so_len|].
  do 2 (apply m_int; [done|nd|]).
  apply (m_sop z_arith true _ [zp 4 0; zp 3 0; zp 2 0] (zp 3 0) _ []); [done|done|apply so_len|].
  apply m_int; [done|nd|]. eapply m_bop; [done|apply bv_mul|]. apply m_done.
Qed.
Lemma len_runs : run_eval "1 2 len 3 4 len 5 *" = Some (Some [(2, 0); (10, 0)])%Z.
Proof. vm_compute. reflexivity. Qed.

(** One stack operator, whose result is used further on. *)
Definition neg_tokens : list lexeme :=
  [tok "int" "1" 1; tok "uop" "--" 3; tok "int" "2" 6; tok "sop" "sum" 8; tok "int" "3" 12; tok "bop" "*" 14].
Lemma strays_neg : strays (L "1 -- 2 sum 3 *") neg_tokens [zp 3 0] (Some [(-1, 0); (6, 0)])%Z.
Proof.
  apply stray; [vm_compute; reflexivity| |vm_compute; reflexivity|discriminate].
  apply m_int; [done|nd|]. eapply m_uop; [done|apply uv_neg|]. apply m_int; [done|nd|].
  apply (m_sop z_arith true _ [zp 2 0; zp (-1) 0] (zp 1 0) _ []); [done|done|apply so_sum|].
  apply m_int; [done|nd|]. eapply m_bop; [done|apply bv_mul|]. apply m_done.
Qed.
Definition sum_tokens : list lexeme := [tok "int" "1" 1; tok "uop" "--" 3; tok "int" "2" 6].
Definition after_tokens : list lexeme := [tok "int" "3" 12; tok "int" "4" 14; tok "bop" "*" 16].
Lemma sum_whole : sc_tokens (L "1 -- 2 sum 3 4 *") (sum_tokens ++ tok "sop" "sum" 8 :: after_tokens) /\ arithmetic sum_tokens /\ arithmetic after_tokens
  /\ machine z_arith true [] after_tokens [zp 12 0] /\ run_eval "1 -- 2 sum 3 4 *" = Some (Some [(1, 0); (12, 0)])%Z.
Proof.
  split; [apply run_tokens; vm_compute; reflexivity|].
  split; [unfold arithmetic, sum_tokens; repeat (apply List.Forall_cons; [cbn [lx_kind tok]; tauto|]); apply List.Forall_nil|].
  split; [unfold arithmetic, after_tokens; repeat (apply List.Forall_cons; [cbn [lx_kind tok]; tauto|]); apply List.Forall_nil|].
  split; [|vm_compute; reflexivity]. do 2 (apply m_int; [done|nd|]). eapply m_bop; [done|apply bv_mul|]. apply m_done.
Qed.
