(** Concrete sessions. *)
From Coq Require Import String Lia.
From Verif.spec Require Import ScalcMainSpec.
From Verif.proofs Require Import Fuel RgTextWit LexMain LexTableProofs ScalcGram ScalcTotal ScalcMachine ScalcRpn ScalcLines ScalcWit ScalcLoop.
Local Open Scope nat_scope.
Local Open Scope list_scope.

Lemma loop_mono A show gg l stack inp out : fuel_mono (sc_loop A show l gg stack inp out).
Proof.
  intros n. revert l stack inp out. induction n as [|n IH]; intros l stack inp out m Hm; [left; done|]. destruct m as [|m]; [lia|]. cbn [sc_loop].
  destruct (read_line inp) as [w inp']. destruct (decide _); [apply rle_refl|]. apply rle_bind; [apply eval_mono; lia|]. intros [r l']. destruct r; apply IH; lia.
Qed.
Definition lines_of (ls : list string) : list gostring := map (fun s => L s ++ [newline]) ls.
Definition run_session (A : sarith) (show : Z -> sf A -> gostring) (ls : list string) : option gostring :=
  match sc_lexer sc_compiler, sc_grammar with
  | Some l, Some gg => match sc_interactive A show l gg (lines_of ls ++ [exit_line]) 400 with Ok o => Some o | _ => None end
  | _, _ => None end.
Lemma session_returns A show ls o : run_session A show ls = Some o -> exists l gg, sc_lexer sc_compiler = Some l /\ sc_grammar = Some gg
  /\ returns (sc_interactive A show l gg (lines_of ls ++ [exit_line])) o.
Proof.
  unfold run_session. destruct (sc_lexer sc_compiler) as [l|] eqn:El; [|discriminate]. destruct sc_grammar as [gg|] eqn:Eg; [|discriminate].
  destruct (sc_interactive A show l gg (lines_of ls ++ [exit_line]) 400) as [x| |] eqn:E; [|discriminate|discriminate]. intros H. injection H as <-.
  exists l, gg. split; [done|]. split; [done|]. apply (returns_at _ 400); [|exact E]. apply loop_mono.
Qed.

(** Integers, printed with the point where the precision says. *)
Fixpoint z_print (n : nat) (v : Z) (acc : gostring) : gostring :=
  match n with
  | O => acc
  | S n => let acc := (48 + Z.to_N (v mod 10))%N :: acc in if (v <? 10)%Z then acc else z_print n (v / 10)%Z acc
  end.
Definition z_show (p v : Z) : gostring :=
  let ds := z_print 20 (Z.abs v) [] in
  let ds := replicate (S (Z.to_nat p) - length ds) 48%N ++ ds in
  let k := length ds - Z.to_nat p in
  (if (v <? 0)%Z then L "-" else []) ++ take k ds ++ match Z.to_nat p with O => [] | _ => L "." ++ drop k ds end.
Definition nl : string := String (Ascii.ascii_of_nat 10) EmptyString.
(** A session within what is proved. *)
Ltac lexed := apply run_tokens; vm_compute; reflexivity.
Ltac bad_kind := repeat match goal with
  | Hk : lx_kind _ = L _ |- _ => first [discriminate Hk|clear Hk] | Hk : _ \/ _ |- _ => destruct Hk as [Hk|Hk] end.
Definition sum_line : list lexeme := [tok "int" "7" 1; tok "dec" ".0" 2; tok "int" "1" 5; tok "dec" ".5" 6; tok "bop" "+" 9].
Definition plus_line : list lexeme := [tok "bop" "+" 1].
Definition swap_line : list lexeme := [tok "int" "2" 1; tok "dec" ".0" 2; tok "smp" "swap" 5].
Definition all_line : list lexeme := [tok "sop" "sum" 1; tok "int" "1" 5].
Definition four_lines : list string := ["7.0 1.5 +"; "+"; "2.0 swap"; "sum 1"]%string.
Definition four_answers : list (option (list (pfloat z_arith))) := [Some [zp 85 1]; None; Some [zp 85 1; zp 20 1]; Some [zp 1 0; zp 105 1]].
Definition four_out : gostring := L ("> 8.5" ++ nl ++ "> Bad input" ++ nl ++ "> 2.0 8.5" ++ nl ++ "> 10.5 1" ++ nl ++ "> ")%string.
Lemma four_session : session z_arith [] (lines_of four_lines) four_answers.
Proof.
  eapply (ss_run _ _ _ sum_line); [lexed| |].
  { apply m_dec; [done|done|]. apply m_dec; [done|done|]. eapply m_bop; [done|apply bv_add|]. apply m_done. }
  eapply (ss_none _ _ _ plus_line); [lexed| |]. { intros st H. inversion H; subst; bad_kind. }
  eapply (ss_run _ _ _ swap_line); [lexed| |].
  { apply m_dec; [done|done|]. eapply m_smp; [done|apply sv_swap|apply m_done]. }
  eapply (ss_run _ _ _ all_line); [lexed| |constructor].
  apply (m_sop z_arith true _ [zp 85 1; zp 20 1] (zp 105 1) _ []); [done|done|apply (so_sum z_arith [zp 20 1; zp 85 1])|].
  apply m_int; [done|nd|apply m_done].
Qed.
Lemma line_known w u : sc_tokens w u -> plain_line z_arith u -> ScalcSpec.not_dec u -> line_reads z_arith w.
Proof. intros H Hp Hn u' H'. by rewrite <- (table_unique sc_table [] [] sc_more w _ _ H H'). Qed.
Ltac arith_line := repeat (apply List.Forall_cons; [cbn; tauto|]); constructor.
Lemma four_reads : Forall (line_reads z_arith) (lines_of four_lines).
Proof.
  apply List.Forall_cons; [apply (line_known _ sum_line); [lexed|left; arith_line|nd]|].
  apply List.Forall_cons; [apply (line_known _ plus_line); [lexed|left; arith_line|nd]|].
  apply List.Forall_cons; [apply (line_known _ swap_line); [lexed| |nd]|].
  { right. left. exists [tok "int" "2" 1; tok "dec" ".0" 2], (tok "smp" "swap" 5). split; [done|]. split; [arith_line|done]. }
  apply List.Forall_cons; [apply (line_known _ all_line); [lexed| |nd]|constructor].
  right. right. exists [], (tok "sop" "sum" 1), [tok "int" "1" 5], [zp 1 0]. split; [done|]. split; [constructor|]. split; [done|]. split; [arith_line|].
  apply m_int; [done|nd|apply m_done].
Qed.
Lemma digits_here w : forallb sc_digit w = true -> w <> [] -> digits w.
Proof.
  intros H Hn. split; [done|]. intros x Hx. rewrite forallb_forall in H. specialize (H x (proj1 (elem_of_list_In _ _) Hx)).
  unfold sc_digit in H. apply andb_true_iff in H as [H1%N.leb_le H2%N.leb_le]. lia.
Qed.
Lemma reads_here (i ds : string) v : z_show (Z.of_nat (length (L ds))) v = L i ++ match L ds with [] => [] | _ => L "." ++ L ds end ->
  forallb sc_digit (L i) = true -> L i <> [] -> forallb sc_digit (L ds) = true -> z_digits (L i ++ match L ds with [] => [] | _ => L "." ++ L ds end) = v ->
  reads_back z_arith z_show (zp v (Z.of_nat (length (L ds)))).
Proof.
  intros H1 H2 H3 H4 H5. exists (L i), (match L ds with [] => [] | _ => L "." ++ L ds end). split; [exact H1|].
  split; [exists [], (L i); split; [done|]; split; [by apply digits_here|by left]|]. split; [exact H5|].
  destruct (L ds) as [|c cs] eqn:E; [by left|]. right. exists (c :: cs). split; [done|]. split; [by apply digits_here|done].
Qed.
Lemma four_answers_read : Forall (answer_reads z_arith z_show) four_answers.
Proof.
  assert (H85 : reads_back z_arith z_show (zp 85 1)) by (apply (reads_here "8" "5"); first [vm_compute; reflexivity|discriminate]).
  assert (H20 : reads_back z_arith z_show (zp 20 1)) by (apply (reads_here "2" "0"); first [vm_compute; reflexivity|discriminate]).
  assert (H105 : reads_back z_arith z_show (zp 105 1)) by (apply (reads_here "10" "5"); first [vm_compute; reflexivity|discriminate]).
  assert (H1 : reads_back z_arith z_show (zp 1 0)) by (apply (reads_here "1" ""); first [vm_compute; reflexivity|discriminate]).
  repeat (apply List.Forall_cons; [cbn [answer_reads]; first [exact I|repeat (apply List.Forall_cons; [assumption|]); constructor]|]). constructor.
Qed.
Lemma four_printed : printed z_arith z_show four_answers four_out.
Proof.
  apply (pd_stack _ _ [zp 85 1] _ (L "8.5")); [apply sp_one|]. apply pd_bad.
  apply (pd_stack _ _ [zp 85 1; zp 20 1] _ (L "2.0 8.5")); [apply (sp_more (L "2.0") [L "8.5"]); [apply sp_one|done]|].
  apply (pd_stack _ _ [zp 1 0; zp 105 1] _ (L "10.5 1")); [apply (sp_more (L "10.5") [L "1"]); [apply sp_one|done]|]. apply pd_end.
Qed.
Lemma four_runs : run_session z_arith z_show four_lines = Some four_out.
Proof. vm_compute. reflexivity. Qed.
Lemma four_ok : session z_arith [] (lines_of four_lines) four_answers /\ Forall is_line (lines_of four_lines) /\ exit_line ∉ lines_of four_lines
  /\ Forall (line_reads z_arith) (lines_of four_lines) /\ Forall (answer_reads z_arith z_show) four_answers /\ printed z_arith z_show four_answers four_out
  /\ run_session z_arith z_show four_lines = Some four_out.
Proof.
  split; [exact four_session|]. split.
  { repeat (apply List.Forall_cons; [eexists; split; [reflexivity|apply (bool_decide_unpack _); vm_compute; exact I]|]). constructor. }
  split; [apply (bool_decide_unpack _); vm_compute; exact I|]. split; [exact four_reads|]. split; [exact four_answers_read|]. split; [exact four_printed|exact four_runs].
Qed.

(** Where sessions leave the machine. *)
Definition leaves (A : sarith) (show : Z -> sf A -> gostring) (ls : list string) (ans : list (option (list (pfloat A)))) (o o' : gostring) : Prop :=
  session A [] (lines_of ls) ans /\ printed A show ans o /\ o <> o'
  /\ exists l gg, sc_lexer sc_compiler = Some l /\ sc_grammar = Some gg /\ returns (sc_interactive A show l gg (lines_of ls ++ [exit_line])) o'.
Lemma session_refuted A show ls ans o o' : leaves A show ls ans o o' ->
  exists compile A show l gg ans o o', compiles compile sc_table /\ sc_lexer compile = Some l /\ sc_grammar = Some gg
    /\ session A [] (lines_of ls) ans /\ printed A show ans o /\ returns (sc_interactive A show l gg (lines_of ls ++ [exit_line])) o' /\ o <> o'.
Proof.
  intros (H1 & H2 & H3 & l & gg & Hl & Hg & H4). exists sc_compiler, A, show, l, gg, ans, o, o'. exact (conj sc_compiles (conj Hl (conj Hg (conj H1 (conj H2 (conj H4 H3)))))).
Qed.
Definition one_tokens : list lexeme := [tok "int" "1" 1].
Definition dot_tokens : list lexeme := [tok "dec" ".5" 1].
Lemma leaves_dot : leaves z_arith z_show ["1"; ".5"]%string [Some [zp 1 0]; None]
  (L ("> 1" ++ nl ++ "> Bad input" ++ nl ++ "> ")%string) (L ("> 1" ++ nl ++ "> 1.5" ++ nl ++ "> ")%string).
Proof.
  split.
  { apply (ss_run _ _ _ one_tokens [zp 1 0]); [lexed|apply m_int; [done|nd|apply m_done]|].
    apply (ss_none _ _ _ dot_tokens); [lexed| |constructor]. intros st H. inversion H; subst; bad_kind. }
  split; [apply (pd_stack _ _ [zp 1 0] _ (L "1")); [apply sp_one|]; apply pd_bad, pd_end|]. split; [discriminate|].
  apply session_returns. vm_compute. reflexivity.
Qed.
(** Division by zero gives a number that is printed but not read. *)
Definition lift1 (f : Z -> Z) (a : option Z) : option Z := match a with Some a => Some (f a) | None => None end.
Definition lift2 (f : Z -> Z -> Z) (a b : option Z) : option Z := match a, b with Some a, Some b => Some (f a b) | _, _ => None end.
Definition inf_arith : sarith :=
  SArith (option Z) (Some 0%Z) (Some 1%Z) (Some (-1)%Z) (fun s => Some (z_digits s)) (fun n => Some (Z.of_nat n)) (lift1 Z.opp) (lift2 Z.add) (lift2 Z.sub) (lift2 Z.mul)
    (fun a b => match b with Some 0%Z => None | _ => lift2 Z.div a b end) (lift2 Z.pow) (lift2 Z.modulo)
    (fun a b => match a, b with Some a, Some b => (a <? b)%Z | Some _, None => true | _, _ => false end)
    (fun a b => match a, b with Some a, Some b => (a =? b)%Z | None, None => true | _, _ => false end).
Definition inf_show (p : Z) (v : option Z) : gostring := match v with Some v => z_show p v | None => L "+Inf" end.
Definition div_tokens : list lexeme := [tok "int" "1" 1; tok "int" "0" 3; tok "bop" "/" 5].
Definition clear_tokens : list lexeme := [tok "smp" "clear" 1].
Lemma leaves_inf : leaves inf_arith inf_show ["1 0 /"; "clear"]%string [Some [PF (A := inf_arith) None 0]; Some []]
  (L ("> +Inf" ++ nl ++ "> " ++ nl ++ "> ")%string) (L ("> +Inf" ++ nl ++ "> Bad input" ++ nl ++ "> ")%string).
Proof.
  split.
  { eapply (ss_run _ _ _ div_tokens); [lexed| |].
    - apply m_int; [done|nd|]. apply m_int; [done|nd|]. eapply m_bop; [done|apply bv_div|]. apply m_done.
    - eapply (ss_run _ _ _ clear_tokens); [lexed| |constructor]. eapply m_smp; [done|apply sv_clear|apply m_done]. }
  split; [apply (pd_stack _ _ [PF (A := inf_arith) None 0] _ (L "+Inf")); [apply sp_one|]; apply (pd_stack _ _ [] _ []); [apply sp_none|apply pd_end]|].
  split; [discriminate|]. apply session_returns. vm_compute. reflexivity.
Qed.
(** Halves, printed to the precision of the operands: half is printed as 0. *)
Definition half_arith : sarith :=
  SArith Z 0%Z 2%Z (-2)%Z (fun s => 2 * z_digits s)%Z (fun n => 2 * Z.of_nat n)%Z Z.opp Z.add Z.sub (fun a b => a * b / 2)%Z (fun a b => a * 2 / b)%Z Z.pow Z.modulo Z.ltb Z.eqb.
Definition half_show (p v : Z) : gostring := z_show p (let q := v / 2 in if Z.odd v then if Z.odd q then q + 1 else q else q)%Z.
Definition half_tokens : list lexeme := [tok "int" "1" 1; tok "int" "2" 3; tok "bop" "/" 5].
Definition twice_tokens : list lexeme := [tok "int" "2" 1; tok "bop" "*" 3].
Lemma leaves_half : leaves half_arith half_show ["1 2 /"; "2 *"]%string [Some [PF (A := half_arith) 1%Z 0]; Some [PF (A := half_arith) 2%Z 0]]
  (L ("> 0" ++ nl ++ "> 1" ++ nl ++ "> ")%string) (L ("> 0" ++ nl ++ "> 0" ++ nl ++ "> ")%string).
Proof.
  split.
  { eapply (ss_run _ _ _ half_tokens); [lexed| |].
    - apply m_int; [done|nd|]. apply m_int; [done|nd|]. eapply m_bop; [done|apply bv_div|]. apply m_done.
    - eapply (ss_run _ _ _ twice_tokens); [lexed| |constructor]. apply m_int; [done|nd|]. eapply m_bop; [done|apply bv_mul|]. apply m_done. }
  split; [apply (pd_stack _ _ [PF (A := half_arith) 1%Z 0] _ (L "0")); [apply sp_one|]; apply (pd_stack _ _ [PF (A := half_arith) 2%Z 0] _ (L "1")); [apply sp_one|apply pd_end]|].
  split; [discriminate|]. apply session_returns. vm_compute. reflexivity.
Qed.
(** Two lines in one Read: the second is lost, so exit is not seen. *)
Lemma end_stuck : ~ exits [].
Proof.
  intros H. remember [] as inp eqn:E. revert E. induction H as [inp r H|inp w r H _ IH]; intros ->.
  - apply asks_read in H. discriminate H.
  - apply asks_read in H. injection H as _ <-. by apply IH.
Qed.
Definition piped : list gostring := [L "1" ++ [newline] ++ exit_line].
Lemma piped_stuck : ~ exits piped.
Proof.
  intros H. inversion H as [inp r Ha|inp w r Ha Hr]; subst; apply asks_read in Ha; [discriminate Ha|]. injection Ha as _ <-. exact (end_stuck Hr).
Qed.
Lemma typed_exits : exits (lines_of four_lines ++ [exit_line]).
Proof. do 4 (eapply ex_later; [apply asks_read; reflexivity|]). eapply ex_now. apply asks_read. reflexivity. Qed.
Lemma args_ok : spaced [L "7"; L "1.5 2"; L "+ --"] (L "7 1.5 2 + --") /\ sc_tokens (L "7 1.5 2 + --") demo_tokens /\ arithmetic demo_tokens.
Proof.
  split; [|exact demo_lexes]. apply (sp_more (L "7") _ (L "1.5 2 + --")); [|done]. apply (sp_more (L "1.5 2") _ (L "+ --")); [apply sp_one|done].
Qed.
