(** Concrete grammars for RemoveLeftRecursion. *)
From Coq Require Import String Lia.
From Verif.model Require Import LrRemove Topdown Packrat.
From Verif.spec Require Import LrSpec Outcome PackratSpec.
From Verif.proofs Require Import Fuel PackratFuel PackratThms PackratWit LrLang LrThms LrUnfold GrammarProofs LrRemoveProofs SetProofs.
Local Open Scope nat_scope.
Local Open Scope list_scope.

Lemma gram_of_in M A ps : g_prods (gram_of M) A = Some ps -> (A, ps) ∈ M.
Proof.
  unfold gram_of. cbn [g_prods]. induction M as [|[k q] M IH]; cbn [assoc_prods]; [discriminate|].
  case_decide as E; [intros [= ->]; subst k; apply elem_of_list_here|intros H; apply elem_of_list_further; auto].
Qed.

(** The hypotheses as tests on the list of non-terminals and productions. *)
Definition names (M : amap) : list gostring := map fst M ++ List.concat (map (fun kp => List.concat (snd kp)) M).
Definition tame_b (M : amap) : bool :=
  bool_decide (NoDup (map fst M)) && forallb (fun kp => negb (bool_decide (snd kp = []))) M &&
  forallb (fun k => negb (bool_decide (prime k ∈ names M))) (map fst M).
Definition no_empty_b (M : amap) : bool := forallb (fun kp => negb (bool_decide ([] ∈ snd kp))) M.
Fixpoint forward_b (pre : list gostring) (M : amap) : bool :=
  match M with
  | [] => true
  | (k, ps) :: r =>
      forallb (fun p => match p with [] => true | x :: _ => negb (bool_decide (x ∈ pre)) end) ps && forward_b (pre ++ [k]) r
  end.
Definition not_twice_b (M : amap) : bool :=
  forallb (fun kp => forallb (fun p => match p with x :: y :: _ => negb (bool_decide (x = fst kp /\ y = fst kp)) | _ => true end) (snd kp)) M.

Lemma forallb_elem {A} (f : A -> bool) l x : forallb f l = true -> x ∈ l -> f x = true.
Proof. intros H Hx. apply (proj1 (forallb_forall f l) H x). apply elem_of_list_In. exact Hx. Qed.

Lemma names_mentions M s : mentions (gram_of M) s -> s ∈ names M.
Proof.
  unfold names. intros [H|(A & ps & p & H1 & H2 & H3)]; apply elem_of_app; [left; exact H|right].
  apply gram_of_in in H1. apply elem_of_list_In, in_concat. exists (List.concat ps). split.
  - apply in_map_iff. exists (A, ps). split; [reflexivity|apply elem_of_list_In; exact H1].
  - apply in_concat. exists p. split; apply elem_of_list_In; assumption.
Qed.
Lemma tame_ok M : tame_b M = true -> lr_tame (gram_of M).
Proof.
  unfold tame_b. intros H. apply andb_prop in H as [H H3]. apply andb_prop in H as [H1 H2]. apply bool_decide_eq_true in H1.
  split; [apply gram_of_wf|]. split; [exact H1|]. split.
  - intros A ps Hps ->. apply gram_of_in in Hps. pose proof (forallb_elem _ _ _ H2 Hps) as Hx. cbn [snd] in Hx.
    apply negb_true_iff, bool_decide_eq_false in Hx. exact (Hx eq_refl).
  - intros A HA Hm. apply names_mentions in Hm. pose proof (forallb_elem _ _ _ H3 HA) as Hx. cbn beta in Hx.
    apply negb_true_iff, bool_decide_eq_false in Hx. exact (Hx Hm).
Qed.
Lemma no_empty_ok M : no_empty_b M = true -> no_empty_productions (gram_of M).
Proof.
  intros H A ps Hps. apply gram_of_in in Hps. pose proof (forallb_elem _ _ _ H Hps) as Hx. cbn beta in Hx. cbn [snd] in Hx.
  apply negb_true_iff, bool_decide_eq_false in Hx. exact Hx.
Qed.
Lemma not_twice_ok M : not_twice_b M = true -> forall A ps t, g_prods (gram_of M) A = Some ps -> A :: A :: t ∉ ps.
Proof.
  intros H A ps t Hps Hin. apply gram_of_in in Hps. pose proof (forallb_elem _ _ _ H Hps) as Hx. cbn beta in Hx. cbn [snd fst] in Hx.
  pose proof (forallb_elem _ _ _ Hx Hin) as Hy. cbn beta iota in Hy. apply negb_true_iff, bool_decide_eq_false in Hy. apply Hy. auto.
Qed.
Lemma forward_ok_gen M : forall pre0, forward_b pre0 M = true ->
  forall pre A post ps B t, map fst M = pre ++ A :: post -> (A, ps) ∈ M -> NoDup (map fst M) -> B :: t ∈ ps -> B ∉ pre0 ++ pre.
Proof.
  induction M as [|[k q] M IH]; intros pre0 H pre A post ps B t E Hin ND HB; [destruct pre; discriminate E|].
  cbn [forward_b] in H. apply andb_prop in H as [H1 H2]. cbn [map fst] in E, ND. apply NoDup_cons in ND as [Hk ND].
  destruct pre as [|k' pre].
  - injection E as -> _. apply elem_of_cons in Hin as [Hin|Hin].
    + injection Hin as <-. pose proof (forallb_elem _ _ _ H1 HB) as Hx. cbn beta iota in Hx.
      apply negb_true_iff, bool_decide_eq_false in Hx. rewrite app_nil_r. exact Hx.
    + exfalso. apply Hk. apply elem_of_list_fmap. exists (A, ps). auto.
  - injection E as -> E. apply elem_of_cons in Hin as [Hin|Hin].
    + injection Hin as -> _. exfalso. apply Hk. rewrite E. apply elem_of_app. right. apply elem_of_list_here.
    + replace (pre0 ++ k' :: pre) with ((pre0 ++ [k']) ++ pre) by (rewrite <- app_assoc; reflexivity).
      apply (IH (pre0 ++ [k']) H2 pre A post ps B t E Hin ND HB).
Qed.
Lemma forward_ok M : NoDup (map fst M) -> forward_b [] M = true -> forward_starts (gram_of M).
Proof.
  intros ND H pre A post ps B t E Hps HB. apply gram_of_in in Hps.
  apply (forward_ok_gen M [] H pre A post ps B t E Hps ND HB).
Qed.

(** Derivations of single productions of terminals and of given words. *)
Lemma der1 M A ps p w : g_prods (gram_of M) A = Some ps -> p ∈ ps -> derives_seq (gram_of M) p w -> derives (gram_of M) A w.
Proof. intros. eapply der_nt; eassumption. Qed.
Lemma dseq_term g x p w : g_prods g x = None -> derives_seq g p w -> derives_seq g (x :: p) (x :: w).
Proof. intros Hx H. apply (der_cons g x p [x] w); [apply der_term; exact Hx|exact H]. Qed.

Ltac mem := apply (bool_decide_unpack _); vm_compute; exact I.

(** The expression grammar of three levels. *)
Definition arith_m : amap :=
  [(L "E", [[L "E"; L "+"; L "T"]; [L "T"]]);
   (L "T", [[L "T"; L "*"; L "F"]; [L "F"]]);
   (L "F", [[L "("; L "E"; L ")"]; [L "int"]])].
Definition arith := gram_of arith_m.
Lemma arith_tame : lr_tame arith.
Proof. apply tame_ok. vm_compute. reflexivity. Qed.
Lemma arith_no_empty : no_empty_productions arith.
Proof. apply no_empty_ok. vm_compute. reflexivity. Qed.
Lemma arith_forward : forward_starts arith.
Proof. apply forward_ok; [mem|vm_compute; reflexivity]. Qed.
Lemma arith_not_twice : forall A ps t, g_prods arith A = Some ps -> A :: A :: t ∉ ps.
Proof. apply not_twice_ok. vm_compute. reflexivity. Qed.
Lemma arith_productive : productive arith.
Proof.
  assert (HF : derives arith (L "F") [L "int"]).
  { eapply (der1 _ _ _ [L "int"]); [reflexivity|mem|]. apply dseq_term; [reflexivity|constructor]. }
  assert (HT : derives arith (L "T") [L "int"]).
  { eapply (der1 _ _ _ [L "F"]); [reflexivity|mem|]. apply (der_cons _ _ [] [L "int"] []); [exact HF|constructor]. }
  intros A HA. exists [L "int"]. unfold arith, arith_m, gram_of in HA. cbn [g_nts map fst] in HA.
  repeat (apply elem_of_cons in HA as [->|HA]); [| | |inversion HA].
  - eapply (der1 _ _ _ [L "T"]); [reflexivity|mem|]. apply (der_cons _ _ [] [L "int"] []); [exact HT|constructor].
  - exact HT.
  - exact HF.
Qed.
Lemma arith_left_recursive : left_recursive arith.
Proof.
  exists (L "E"). apply tc_once. eexists _, [L "E"; L "+"; L "T"], [], _. split; [reflexivity|]. split; [mem|]. split; [reflexivity|constructor].
Qed.
Definition arith_result : amap :=
  [(L "E", [[L "T"; L "E'"]]); (L "E'", [[L "+"; L "T"; L "E'"]; []]);
   (L "T", [[L "F"; L "T'"]]); (L "T'", [[L "*"; L "F"; L "T'"]; []]);
   (L "F", [[L "("; L "E"; L ")"]; [L "int"]])].
Lemma arith_text : (fun r => match r with Ok G => gr_string G | _ => [] end) (remove_left_recursion 10 arith) = am_text arith_result.
Proof. vm_compute. reflexivity. Qed.

(** [A -> B b | a ; B -> A c]: left recursion through two non-terminals. *)
Definition indirect_m : amap := [(L "A", [[L "B"; L "b"]; [L "a"]]); (L "B", [[L "A"; L "c"]])].
Definition indirect := gram_of indirect_m.
Lemma indirect_tame : lr_tame indirect.
Proof. apply tame_ok. vm_compute. reflexivity. Qed.
Lemma indirect_no_empty : no_empty_productions indirect.
Proof. apply no_empty_ok. vm_compute. reflexivity. Qed.
Lemma indirect_productive : productive indirect.
Proof.
  assert (HA : derives indirect (L "A") [L "a"]).
  { eapply (der1 _ _ _ [L "a"]); [reflexivity|mem|]. apply dseq_term; [reflexivity|constructor]. }
  intros X HX. unfold indirect, indirect_m, gram_of in HX. cbn [g_nts map fst] in HX.
  repeat (apply elem_of_cons in HX as [->|HX]); [| |inversion HX].
  - exists [L "a"]. exact HA.
  - exists ([L "a"] ++ [L "c"]). eapply (der1 _ _ _ [L "A"; L "c"]); [reflexivity|mem|].
    apply der_cons; [exact HA|]. apply dseq_term; [reflexivity|constructor].
Qed.

(** How the order splits for two non-terminals. *)
Lemma split2 (a b : gostring) pre A post : [a; b] = pre ++ A :: post ->
  (pre = [] /\ A = a) \/ (pre = [a] /\ A = b).
Proof.
  destruct pre as [|x [|y pre]]; cbn [app]; intros [=]; subst; auto.
  destruct pre; discriminate.
Qed.

Lemma indirect_ends : unfolding_ends indirect.
Proof.
  assert (Hdead : forall x t pre, x ∉ pre -> Acc (fun q p => unfold_step indirect pre p q) (x :: t)).
  { intros x t pre Hx. constructor. intros q (B & t' & ps & lead & E & HB & _). injection E as -> ->. destruct (Hx HB). }
  intros pre A post ps p E Hps Hp. apply split2 in E as [[-> ->]|[-> ->]].
  - constructor. intros q (B & t' & ps' & lead & _ & HB & _). inversion HB.
  - vm_compute in Hps. injection Hps as <-. apply elem_of_list_singleton in Hp as ->.
    constructor. intros q (B & t & ps' & lead & E & HB & Hps' & Hl & ->). apply elem_of_list_singleton in HB as ->.
    injection E as <-. vm_compute in Hps'. injection Hps' as <-.
    repeat (apply elem_of_cons in Hl as [->|Hl]); [| |inversion Hl]; apply Hdead; mem.
Qed.
Lemma indirect_no_double : no_double indirect.
Proof.
  intros pre A post ps p t E Hps Hp Hr. apply split2 in E as [[-> ->]|[-> ->]]; vm_compute in Hps; injection Hps as <-.
  - apply rtc_inv in Hr as [->|(y & (B & t' & ps' & lead & Ep & HB & _) & _)]; [|inversion HB].
    repeat (apply elem_of_cons in Hp as [Hp|Hp]; [discriminate Hp|]). inversion Hp.
  - apply elem_of_list_singleton in Hp as ->.
    apply rtc_inv in Hr as [E|(y & (B & t' & ps' & lead & Ep & HB & Hps' & Hl & ->) & Hr)]; [discriminate E|].
    apply elem_of_list_singleton in HB as ->. injection Ep as <-. vm_compute in Hps'. injection Hps' as <-.
    repeat (apply elem_of_cons in Hl as [->|Hl]); [| |inversion Hl];
      (apply rtc_inv in Hr as [E|(y & (B & t'' & ps' & lead & Ep & HB & _) & _)]; [discriminate E|]; injection Ep as <- <-;
       apply elem_of_list_singleton in HB; discriminate HB).
Qed.
Lemma indirect_left_recursive : left_recursive indirect.
Proof.
  exists (L "A"). apply (tc_l _ _ (L "B")); [|apply tc_once].
  - eexists _, [L "B"; L "b"], [], _. split; [reflexivity|]. split; [mem|]. split; [reflexivity|constructor].
  - eexists _, [L "A"; L "c"], [], _. split; [reflexivity|]. split; [mem|]. split; [reflexivity|constructor].
Qed.

(** The language changes: [E -> E E x | y] loses [y y x]. *)
Definition twice_m : amap := [(L "E", [[L "E"; L "E"; L "x"]; [L "y"]])].
Definition twice := gram_of twice_m.
Lemma twice_tame : lr_tame twice.
Proof. apply tame_ok. vm_compute. reflexivity. Qed.
Lemma twice_no_empty : no_empty_productions twice.
Proof. apply no_empty_ok. vm_compute. reflexivity. Qed.
Lemma twice_forward : forward_starts twice.
Proof. apply forward_ok; [mem|vm_compute; reflexivity]. Qed.
Lemma twice_y : derives twice (L "E") [L "y"].
Proof. eapply (der1 _ _ _ [L "y"]); [reflexivity|mem|]. apply dseq_term; [reflexivity|constructor]. Qed.
Lemma twice_productive : productive twice.
Proof. intros X HX. unfold twice, twice_m, gram_of in HX. apply elem_of_list_singleton in HX as ->. eexists. exact twice_y. Qed.
Definition yyx : list gostring := [L "y"; L "y"; L "x"].
Lemma twice_yyx : generates twice yyx.
Proof.
  exists (L "E"), []. split; [reflexivity|]. eapply (der1 _ _ _ [L "E"; L "E"; L "x"]); [reflexivity|mem|].
  apply (der_cons _ _ _ [L "y"] [L "y"; L "x"] twice_y). apply (der_cons _ _ _ [L "y"] [L "x"] twice_y).
  apply dseq_term; [reflexivity|constructor].
Qed.
Definition result_of (g : grammar) : gr := match remove_left_recursion 10 g with Ok G => G | _ => gr_empty end.
Lemma twice_returns : returns (fun n => remove_left_recursion n twice) (result_of twice).
Proof. apply (returns_at _ 10); [apply rlr_mono|vm_compute; reflexivity]. Qed.
Definition toks (w : list gostring) : list lexeme := map (fun k => Lx k k 0 0) w.
Lemma twice_lost : ~ generates (gr_view (result_of twice)) yyx.
Proof.
  intros H. assert (Hwf : g_wf (gr_view (result_of twice))) by (apply (rlr_wf twice _ twice_tame twice_productive twice_returns)).
  destruct (packrat_complete (gr_view (result_of twice)) (toks yyx) Hwf) as [t Ht].
  - assert (HF : Forall (fun l => g_prods (gr_view (result_of twice)) (lx_kind l) = None) (toks yyx)).
    { repeat constructor; vm_compute; reflexivity. }
    intros lx Hlx. apply (proj1 (Forall_forall _ _) HF lx Hlx).
  - exact H.
  - assert (HN : returns (fun n => packrat_parse n (gr_view (result_of twice)) (toks yyx)) None).
    { apply (returns_at _ 60); [apply packrat_parse_mono|vm_compute; reflexivity]. }
    discriminate (returns_fun _ _ _ Ht HN).
Qed.

(** Still left recursive: [A -> B A | a ; B -> b | ]. *)
Definition behind_m : amap := [(L "A", [[L "B"; L "A"]; [L "a"]]); (L "B", [[L "b"]; []])].
Definition behind := gram_of behind_m.
Lemma behind_tame : lr_tame behind.
Proof. apply tame_ok. vm_compute. reflexivity. Qed.
Lemma behind_forward : forward_starts behind.
Proof. apply forward_ok; [mem|vm_compute; reflexivity]. Qed.
Lemma behind_not_twice : forall A ps t, g_prods behind A = Some ps -> A :: A :: t ∉ ps.
Proof. apply not_twice_ok. vm_compute. reflexivity. Qed.
Lemma behind_productive : productive behind.
Proof.
  intros X HX. unfold behind, behind_m, gram_of in HX. cbn [g_nts map fst] in HX.
  repeat (apply elem_of_cons in HX as [->|HX]); [| |inversion HX].
  - exists [L "a"]. eapply (der1 _ _ _ [L "a"]); [reflexivity|mem|]. apply dseq_term; [reflexivity|constructor].
  - exists [L "b"]. eapply (der1 _ _ _ [L "b"]); [reflexivity|mem|]. apply dseq_term; [reflexivity|constructor].
Qed.
Lemma behind_returns : returns (fun n => remove_left_recursion n behind) (result_of behind).
Proof. apply (returns_at _ 10); [apply rlr_mono|vm_compute; reflexivity]. Qed.
Lemma behind_still : left_recursive (gr_view (result_of behind)).
Proof.
  exists (L "A"). apply tc_once. exists [[L "B"; L "A"]; [L "a"]], [L "B"; L "A"], [L "B"], [].
  split; [vm_compute; reflexivity|]. split; [mem|]. split; [reflexivity|].
  apply (der_cons _ _ _ [] []); [|constructor].
  apply (der_nt _ _ [[L "b"]; []] []); [vm_compute; reflexivity|mem|constructor].
Qed.

(** Runs forever: [A -> A x | y ; B -> A z]. *)
Definition spin_m : amap := [(L "A", [[L "A"; L "x"]; [L "y"]]); (L "B", [[L "A"; L "z"]])].
Definition spin := gram_of spin_m.
Lemma spin_tame : lr_tame spin.
Proof. apply tame_ok. vm_compute. reflexivity. Qed.
Lemma spin_no_empty : no_empty_productions spin.
Proof. apply no_empty_ok. vm_compute. reflexivity. Qed.
Lemma spin_productive : productive spin.
Proof.
  assert (HA : derives spin (L "A") [L "y"]).
  { eapply (der1 _ _ _ [L "y"]); [reflexivity|mem|]. apply dseq_term; [reflexivity|constructor]. }
  intros X HX. unfold spin, spin_m, gram_of in HX. cbn [g_nts map fst] in HX.
  repeat (apply elem_of_cons in HX as [->|HX]); [| |inversion HX].
  - exists [L "y"]. exact HA.
  - exists ([L "y"] ++ [L "z"]). eapply (der1 _ _ _ [L "A"; L "z"]); [reflexivity|mem|].
    apply der_cons; [exact HA|]. apply dseq_term; [reflexivity|constructor].
Qed.
Lemma spin_endless : ~ unfolding_ends spin.
Proof.
  intros H. specialize (H [L "A"] (L "B") [] [[L "A"; L "z"]] [L "A"; L "z"] eq_refl eq_refl).
  assert (Hi : [L "A"; L "z"] ∈ [[L "A"; L "z"]]) by mem. specialize (H Hi).
  assert (Hn : forall p, Acc (fun q p => unfold_step spin [L "A"] p q) p -> forall t, p = L "A" :: t -> False).
  { intros p HA. induction HA as [p _ IH]. intros t ->. apply (IH (L "A" :: L "x" :: t)) with (t := L "x" :: t); [|reflexivity].
    exists (L "A"), t, [[L "A"; L "x"]; [L "y"]], [L "A"; L "x"]. split; [reflexivity|]. split; [mem|]. split; [reflexivity|]. split; [mem|reflexivity]. }
  apply (Hn _ H [L "z"] eq_refl).
Qed.
Lemma spin_no_double : no_double spin.
Proof.
  intros pre A post ps p t E Hps Hp Hr. apply split2 in E as [[-> ->]|[-> ->]]; vm_compute in Hps; injection Hps as <-.
  - apply rtc_inv in Hr as [->|(y & (B & t' & ps' & lead & Ep & HB & _) & _)]; [|inversion HB].
    repeat (apply elem_of_cons in Hp as [Hp|Hp]; [discriminate Hp|]). inversion Hp.
  - assert (HI : forall p q, rtc (unfold_step spin [L "A"]) p q -> L "B" ∉ p -> L "B" ∉ q).
    { intros a b Hab. induction Hab as [|a b c (B & t' & ps' & lead & -> & HB & Hps' & Hl & ->) _ IH]; [auto|].
      intros Hn. apply IH. apply elem_of_list_singleton in HB as ->. vm_compute in Hps'. injection Hps' as <-.
      intros Hin. apply elem_of_app in Hin as [Hin|Hin].
      - repeat (apply elem_of_cons in Hl as [->|Hl]); [| |inversion Hl];
          repeat (apply elem_of_cons in Hin as [Hin|Hin]; [discriminate Hin|]); inversion Hin.
      - apply Hn. apply elem_of_list_further. exact Hin. }
    apply (HI _ _ Hr); [|apply elem_of_list_here]. apply elem_of_list_singleton in Hp as ->. mem.
Qed.

(** An unusable result: [A -> A]. *)
Definition self_m : amap := [(L "A", [[L "A"]])].
Definition self := gram_of self_m.
Lemma self_tame : lr_tame self.
Proof. apply tame_ok. vm_compute. reflexivity. Qed.
Lemma self_no_empty : no_empty_productions self.
Proof. apply no_empty_ok. vm_compute. reflexivity. Qed.
Lemma self_forward : forward_starts self.
Proof. apply forward_ok; [mem|vm_compute; reflexivity]. Qed.
Lemma self_not_twice : forall A ps t, g_prods self A = Some ps -> A :: A :: t ∉ ps.
Proof. apply not_twice_ok. vm_compute. reflexivity. Qed.
Lemma self_returns : returns (fun n => remove_left_recursion n self) (result_of self).
Proof. apply (returns_at _ 10); [apply rlr_mono|vm_compute; reflexivity]. Qed.
Lemma self_unusable :
  gr_nonterminals (result_of self) !! 1 = Some 1 /\
  by_idx (gr_set (result_of self)) 1 = Some 1%Z /\ sym_string (gr_set (result_of self)) 1 = Panic.
Proof. vm_compute. auto. Qed.

(** A name made up is already in use: [A -> A x | y ; A' -> z]. *)
Definition clash_m : amap := [(L "A", [[L "A"; L "x"]; [L "y"]]); (L "A'", [[L "z"]])].
Definition clash := gram_of clash_m.
Lemma clash_no_empty : no_empty_productions clash.
Proof. apply no_empty_ok. vm_compute. reflexivity. Qed.
Lemma clash_nodup : NoDup (g_nts clash).
Proof. mem. Qed.
Lemma clash_forward : forward_starts clash.
Proof. apply forward_ok; [mem|vm_compute; reflexivity]. Qed.
Lemma clash_not_twice : forall A ps t, g_prods clash A = Some ps -> A :: A :: t ∉ ps.
Proof. apply not_twice_ok. vm_compute. reflexivity. Qed.
Lemma clash_productive : productive clash.
Proof.
  intros X HX. unfold clash, clash_m, gram_of in HX. cbn [g_nts map fst] in HX.
  repeat (apply elem_of_cons in HX as [->|HX]); [| |inversion HX].
  - exists [L "y"]. eapply (der1 _ _ _ [L "y"]); [reflexivity|mem|]. apply dseq_term; [reflexivity|constructor].
  - exists [L "z"]. eapply (der1 _ _ _ [L "z"]); [reflexivity|mem|]. apply dseq_term; [reflexivity|constructor].
Qed.
Lemma clash_returns : returns (fun n => remove_left_recursion n clash) (result_of clash).
Proof. apply (returns_at _ 10); [apply rlr_mono|vm_compute; reflexivity]. Qed.
Definition yz : list gostring := [L "y"; L "z"].
Lemma clash_new : generates (gr_view (result_of clash)) yz.
Proof.
  exists (L "A"), [L "A'"]. split; [vm_compute; reflexivity|].
  apply (der_nt _ _ [[L "y"; L "A'"]] [L "y"; L "A'"]); [vm_compute; reflexivity|mem|].
  apply (der_cons _ _ _ [L "y"] [L "z"]); [apply der_term; vm_compute; reflexivity|].
  apply (der_cons _ _ _ [L "z"] []); [|constructor].
  apply (der_nt _ _ [[L "x"; L "A'"]; []; [L "z"]] [L "z"]); [vm_compute; reflexivity|mem|].
  apply dseq_term; [vm_compute; reflexivity|constructor].
Qed.
Lemma clash_old : ~ generates clash yz.
Proof.
  intros H. destruct (packrat_complete clash (toks yz) (gram_of_wf _)) as [t Ht].
  - assert (HF : Forall (fun l => g_prods clash (lx_kind l) = None) (toks yz)) by (repeat constructor).
    intros lx Hlx. apply (proj1 (Forall_forall _ _) HF lx Hlx).
  - exact H.
  - assert (HN : returns (fun n => packrat_parse n clash (toks yz)) None).
    { apply (returns_at _ 60); [apply packrat_parse_mono|vm_compute; reflexivity]. }
    discriminate (returns_fun _ _ _ Ht HN).
Qed.
