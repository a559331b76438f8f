(** Concrete descriptions. *)
From Coq Require Import String.
From Verif.spec Require Import ReducerSpec.
From Verif.proofs Require Import Fuel LexMain RunProofs LexTableProofs RgTextWit RdParse RdEval RdText.
Local Open Scope nat_scope.
Local Open Scope list_scope.

Definition both : compiler := fun src => match table_compiler rd_table src with Some x => Some x | None => table_compiler rg_table src end.
Lemma both_rd : compiles both rd_table.
Proof.
  assert (H : compiles (table_compiler rd_table) rd_table) by (apply table_compiles; apply (bool_decide_unpack _); vm_compute; exact I).
  intros r Hr. unfold both. by rewrite (H r Hr).
Qed.
Lemma both_rg : compiles both rg_table.
Proof.
  unfold compiles. apply Forall_forall. unfold rg_table. repeat (apply List.Forall_cons; [reflexivity|]). apply List.Forall_nil.
Qed.
Definition run_lex (s : gostring) : option (list lexeme) :=
  match rd_lexer both with
  | Some l => match slex l s 200 with
      | Ok (xs, _) => match lex_errors xs with [] => Some (map olex_lx xs) | _ => None end
      | _ => None end
  | None => None end.
Lemma run_tokens s lxs : run_lex s = Some lxs -> lexes_to (rd_calls []) s lxs.
Proof.
  unfold run_lex. destruct (rd_lexer_some both both_rd) as (l & -> & Hl). intros H.
  destruct (slex l s 200) as [[ys l2]| |] eqn:E; [|discriminate H|discriminate H].
  destruct (lex_errors ys) as [|e es] eqn:He; [|discriminate H]. injection H as <-.
  exact (table_run rd_table [] rd_more rd_length l s 200 ys l2 Hl E He).
Qed.

Definition qq : gostring := [34%N].
(** E  If(ChildIs(1, "op"), PromoteChild(1).RemoveAll("lp","rp"), Nil).RemoveChildren(0,-1)
    F  PromoteSingleChild() *)
Definition demo_text : gostring :=
  L "E  If(ChildIs(1, " ++ quoted (L "op") ++ L "), PromoteChild(1).RemoveAll(" ++ quoted (L "lp") ++ L "," ++ quoted (L "rp")
  ++ L "), Nil).RemoveChildren(0,-1)" ++ [c_nl] ++ L "F  PromoteSingleChild() // done".
Definition demo : description := [
  (L "E", [SIf (L "1") (L "op") [SChild (L "1"); SRemoveAll [L "lp"; L "rp"]] [SNil]; SRemoveChildren [L "0"; L "-1"]]);
  (L "F", [SSingle])].
Definition tok (k : string) (v : gostring) (l c : Z) : lexeme := Lx (L k) v l c.
Definition w (k : string) (l c : Z) : lexeme := Lx (L k) (L k) l c.
Definition lp (l c : Z) := tok "lp" (L "(") l c. Definition rp (l c : Z) := tok "rp" (L ")") l c. Definition cm (l c : Z) := tok "comma" (L ",") l c.
Definition th_toks : list lexeme := [w "PromoteChild" 0 25; lp 0 37; tok "number" (L "1") 0 38; rp 0 39] ++ tok "period" (L ".") 0 40 ::
  (w "RemoveAll" 0 41 :: lp 0 50 :: [tok "string" (quoted (L "lp")) 0 51; cm 0 55; tok "string" (quoted (L "rp")) 0 56] ++ [rp 0 60]).
Definition if_toks : list lexeme := w "If" 0 4 :: lp 0 6 :: w "ChildIs" 0 7 :: lp 0 14 :: tok "number" (L "1") 0 15 :: cm 0 16
  :: tok "string" (quoted (L "op")) 0 18 :: rp 0 22 :: cm 0 23 :: th_toks ++ cm 0 61 :: [w "Nil" 0 63] ++ [rp 0 66].
Definition demo_toks : list lexeme :=
  tok "rule" (L "E") 0 1 :: (if_toks ++ tok "period" (L ".") 0 67 ::
    (w "RemoveChildren" 0 68 :: lp 0 82 :: [tok "number" (L "0") 0 83; cm 0 84; tok "number" (L "-1") 0 85] ++ [rp 0 87]))
  ++ tok "rule" (L "F") 1 1 :: [w "PromoteSingleChild" 1 4; lp 1 22; rp 1 23] ++ [].
Lemma demo_lexes : lexes_to (rd_calls []) demo_text demo_toks.
Proof. apply run_tokens. vm_compute. reflexivity. Qed.
Lemma demo_writes : writes demo demo_toks.
Proof.
  unfold demo, demo_toks. apply w_rule; [reflexivity|reflexivity| |].
  - apply wss_more; [|reflexivity|].
    + unfold if_toks. change (L "1") with (lx_val (tok "number" (L "1") 0 15)) at 1. apply ws_if; try reflexivity.
      * apply wss_more; [|reflexivity|].
        -- exact (ws_child (w "PromoteChild" 0 25) (lp 0 37) (tok "number" (L "1") 0 38) (rp 0 39) eq_refl eq_refl eq_refl eq_refl).
        -- apply wss_one, ws_remove_all; try reflexivity. apply wa_more; try reflexivity. by apply wa_one.
      * apply wss_one. by apply ws_nil.
    + apply wss_one, ws_remove_children; try reflexivity. apply wa_more; try reflexivity. by apply wa_one.
  - apply w_rule; [reflexivity|reflexivity| |constructor]. apply wss_one. by apply ws_single.
Qed.
Lemma demo_describes : describes demo_text demo.
Proof. exists demo_toks. split; [exact demo_lexes|exact demo_writes]. Qed.
Lemma demo_ints : Forall ints_only (steps_for demo (L "E")).
Proof.
  assert (H : forall v, (exists sg ds, v = sg ++ ds /\ (sg = [] \/ sg = [45%N]) /\ ds <> [] /\ Forall (fun c => (48 <= c <= 57)%N) ds) -> int_text v) by done.
  assert (H0 : int_text (L "0")) by (apply H; exists [], (L "0"); repeat split; [by left|discriminate|apply (bool_decide_unpack _); vm_compute; exact I]).
  assert (H1 : int_text (L "1")) by (apply H; exists [], (L "1"); repeat split; [by left|discriminate|apply (bool_decide_unpack _); vm_compute; exact I]).
  assert (Hm : int_text (L "-1")) by (apply H; exists [45%N], (L "1"); repeat split; [by right|discriminate|apply (bool_decide_unpack _); vm_compute; exact I]).
  change (steps_for demo (L "E")) with [SIf (L "1") (L "op") [SChild (L "1"); SRemoveAll [L "lp"; L "rp"]] [SNil]; SRemoveChildren [L "0"; L "-1"]].
  apply List.Forall_cons; [|apply List.Forall_cons; [|apply List.Forall_nil]].
  - apply ints_if. split; [exact H1|]. split; repeat constructor; exact H1.
  - cbn [ints_only]. repeat constructor; assumption.
Qed.

(** Running Parse. *)
Definition run_with (s : gostring) (k : gostring) (n : pn) : option (pn + run_error) :=
  match rd_lexer both with
  | Some l => match rd_parse l rd_gr rd_red s 300 with
      | Ok (inl r, _) => Some (inl (run_red (reduction_for r k) n))
      | Ok (inr e, _) => Some (inr e)
      | _ => None end
  | None => None end.
Definition nd (k : string) (cs : list pn) : pn := PN (Lx (L k) [] 0 0) cs.
Lemma demo_runs :
  run_with demo_text (L "E") (nd "E" [nd "a" []; nd "op" [nd "lp" []; nd "x" []; nd "rp" []]; nd "b" []]) = Some (inl (nd "op" [nd "x" []]))
  /\ run_with demo_text (L "E") (nd "E" [nd "a" []; nd "q" []; nd "b" []]) = Some (inl (nd "E" [nd "q" []]))
  /\ run_with demo_text (L "F") (nd "F" [nd "a" [nd "b" []]]) = Some (inl (nd "a" [nd "b" []]))
  /\ run_with demo_text (L "G") (nd "G" [nd "a" []]) = Some (inl (nd "G" [nd "a" []]))
  /\ run_with (L "A RemoveChild(1.5)") (L "A") (nd "A" [nd "a" []; nd "b" []]) = Some (inl (nd "A" [nd "b" []]))
  /\ run_with (L "A RemoveAll()") (L "A") (nd "A" []) = Some (inr ErrCouldNotParse)
  /\ run_with (L "Nil RemoveChild(1)") (L "A") (nd "A" []) = Some (inr ErrCouldNotParse)
  /\ run_with (L "A Nil ?") (L "A") (nd "A" []) = Some (inr (ErrLex (Lx (L "Error") (L "?") (-1) 0))).
Proof. vm_compute. repeat split; reflexivity. Qed.

(** An argument that is no index is read as 0, and escapes are not undone. *)
Lemma fraction_run n : run_with (L "A RemoveChild(1.5)") (L "A") n = Some (inl (fst (remove_child 0 n))).
Proof. vm_compute. reflexivity. Qed.
Lemma parse_mono l g rd s : fuel_mono (rd_parse l g rd s).
Proof.
  intros n m Hle. unfold rd_parse, pipeline, run, simple_lexer.
  assert (Hs : rle (slex l s n) (slex l s m)) by (replace m with (n + (m - n)) by lia; apply slex_mono).
  destruct Hs as [Hs|Hs]; [rewrite Hs; left; reflexivity|]. rewrite <- Hs.
  destruct (slex l s n) as [[xs l1]| |]; cbn [rbind]; [|right; reflexivity|right; reflexivity].
  destruct (lex_errors xs) as [|e es]; cbn [rbind]; [|right; reflexivity].
  unfold packrat_parser.
  destruct (PackratFuel.packrat_parse_mono (gr_view g) (map olex_lx xs) n m Hle) as [Hp|Hp]; [rewrite Hp; left; reflexivity|].
  rewrite <- Hp. right. reflexivity.
Qed.
Lemma run_gives s k n m : run_with s k n = Some (inl m) -> exists l r l', rd_package both l rd_gr rd_red
  /\ returns (rd_parse l rd_gr rd_red s) (inl r, l') /\ (forall n' m', run_with s k n' = Some (inl m') -> run_red (reduction_for r k) n' = m').
Proof.
  intros H. destruct (package_ready both both_rg both_rd) as (l & g & rd & HP).
  pose proof (package_is both l g rd HP) as (_ & Hl & -> & ->).
  unfold run_with in *. rewrite Hl in *.
  destruct (rd_parse l rd_gr rd_red s 300) as [[[r|e] l']| |] eqn:E; [|discriminate H|discriminate H|discriminate H].
  exists l, r, l'. split; [exact HP|]. split.
  - apply (returns_at _ 300); [apply parse_mono|exact E].
  - intros n' m' E'. congruence.
Qed.
Definition frac_toks : list lexeme := tok "rule" (L "A") 0 1 :: [w "RemoveChild" 0 3; lp 0 14; tok "number" (L "1.5") 0 15; rp 0 18] ++ [].
Lemma frac_describes : describes (L "A RemoveChild(1.5)") [(L "A", [SRemoveChild (L "1.5")])].
Proof.
  exists frac_toks. split; [apply run_tokens; vm_compute; reflexivity|]. unfold frac_toks. apply w_rule; [reflexivity|reflexivity| |constructor].
  apply wss_one. exact (ws_remove_child (w "RemoveChild" 0 3) (lp 0 14) (tok "number" (L "1.5") 0 15) (rp 0 18) eq_refl eq_refl eq_refl eq_refl).
Qed.
Lemma fraction_refuted : exists compile l g rd s D r l', rd_package compile l g rd /\ describes s D
  /\ D = [(L "A", [SRemoveChild (L "1.5")])]
  /\ returns (rd_parse l g rd s) (inl r, l') /\ forall n, run_red (reduction_for r (L "A")) n = fst (remove_child 0 n).
Proof.
  destruct (run_gives _ _ (nd "A" []) _ (fraction_run _)) as (l & r & l' & HP & Hr & Hm).
  exists both, l, rd_gr, rd_red, (L "A RemoveChild(1.5)"), [(L "A", [SRemoveChild (L "1.5")])], r, l'.
  split; [exact HP|]. split; [exact frac_describes|]. split; [reflexivity|]. split; [exact Hr|]. intros n. apply Hm. apply fraction_run.
Qed.
(** RemoveAll of a string with an escaped quote keeps the kind with the quote. *)
Definition esc_text : gostring := L "A RemoveAll(" ++ quoted (L "a\" ++ [34%N] ++ L "b") ++ L ")".
Definition esc_kind : gostring := L "a" ++ [34%N] ++ L "b".
Definition esc_raw : gostring := L "a\" ++ [34%N] ++ L "b".
Definition esc_toks : list lexeme := tok "rule" (L "A") 0 1 :: (w "RemoveAll" 0 3 :: lp 0 12 :: [tok "string" (quoted esc_raw) 0 13] ++ [rp 0 19]) ++ [].
Lemma esc_describes : describes esc_text [(L "A", [SRemoveAll [esc_raw]])].
Proof.
  exists esc_toks. split; [apply run_tokens; vm_compute; reflexivity|]. unfold esc_toks. apply w_rule; [reflexivity|reflexivity| |constructor].
  apply wss_one, ws_remove_all; try reflexivity. by apply wa_one.
Qed.
Definition esc_node : pn := nd "A" [PN (Lx esc_kind [] 0 0) []].
Lemma esc_run : run_with esc_text (L "A") esc_node = Some (inl esc_node).
Proof. vm_compute. reflexivity. Qed.
Lemma escape_refuted : exists compile l g rd r l', rd_package compile l g rd
  /\ describes esc_text [(L "A", [SRemoveAll [esc_raw]])]
  /\ returns (rd_parse l g rd esc_text) (inl r, l') /\ run_red (reduction_for r (L "A")) esc_node = esc_node.
Proof.
  destruct (run_gives _ _ _ _ esc_run) as (l & r & l' & HP & Hr & Hm).
  exists both, l, rd_gr, rd_red, r, l'. split; [exact HP|]. split; [exact esc_describes|]. split; [exact Hr|]. apply Hm, esc_run.
Qed.
(** Not a description. *)
Definition bad_toks : list lexeme := [tok "rule" (L "A") 0 1; w "RemoveAll" 0 3; lp 0 12; rp 0 13].
Lemma bad_lexes : lexes_to (rd_calls []) (L "A RemoveAll()") bad_toks /\ forall D, ~ writes D bad_toks.
Proof.
  split; [apply run_tokens; vm_compute; reflexivity|]. intros D H.
  remember bad_toks as B eqn:EB. destruct H as [|k ss D x u v Hx Hv Hs HD]; [discriminate EB|]. unfold bad_toks in EB. injection EB as -> E2.
  assert (Hu : exists s y z, writes_step s y /\ u = y ++ z).
  { destruct Hs as [s u Hs|s u p ss v' Hs Hp Hss]; [exists s, u, []; by rewrite app_nil_r|]. exists s, u, (p :: v'). done. }
  destruct Hu as (s & y & z & Hw & ->). rewrite <- app_assoc in E2. destruct (step_shape _ _ Hw) as (x' & r & -> & Hk & Hr).
  cbn [app] in E2. injection E2 as -> E2.
  destruct s; try (exfalso; revert Hk; notin). cbn [rest_of] in Hr. destruct Hr as (o & u & c & Ho & Hc & Hu & ->).
  cbn [app] in E2. injection E2 as -> E2.
  destruct Hu as [v0 x0 Hx0 _|v0 vs x0 c0 u Hx0 _ _ _]; cbn [app] in E2; injection E2 as -> E2; vm_compute in Hx0; discriminate Hx0.
Qed.
