(** Concrete grammars for the packrat properties. *)
From Coq Require Import Lia String.
From Verif.proofs Require Import Fuel PackratFuel PackratThms.
From Verif.model Require Import Packrat.
From Verif.spec Require Import PackratSpec.

Definition tok (k : gostring) (c : Z) : lexeme := Lx k k 0 c.

(** Grammars given by association lists with distinct keys are well formed. *)
Lemma gram_of_wf l : g_wf (gram_of l).
Proof.
  intros s. unfold gram_of. simpl. induction l as [|[k ps] l IH]; simpl.
  - split; [intros H; inversion H|intros [? H]; discriminate].
  - rewrite elem_of_cons. destruct (decide (k = s)) as [->|Hne].
    + split; [eauto|auto].
    + rewrite <- IH. split; [intros [->|?]; [done|done]|auto].
Qed.

Definition expr : grammar :=
  gram_of [(L "E", [[L "E"; L "+"; L "E"]; [L "E"; L "*"; L "E"]; [L "n"]])].
Definition n_plus_n_times_n : list lexeme :=
  [tok (L "n") 1; tok (L "+") 2; tok (L "n") 3; tok (L "*") 4; tok (L "n") 5].
Definition E_at c : lexeme := Lx (L "E") [] 0 c.
Definition lf (k : gostring) (c : Z) : pn := PN (tok k c) [].
Definition expr_tree : pn :=
  PN (E_at 1) [PN (E_at 1) [lf (L "n") 1]; lf (L "+") 2;
    PN (E_at 3) [PN (E_at 3) [lf (L "n") 3]; lf (L "*") 4; PN (E_at 5) [lf (L "n") 5]]].

Definition nonnull (g : grammar) : Prop :=
  forall s w, derives g s w -> w <> [].

Lemma epsfree_nonnull g : (forall s ps, g_prods g s = Some ps -> [] ∉ ps) -> forall s w, derives g s w -> w <> [].
Proof.
  intros He s w H.
  refine (derives_mut g (fun s w _ => w <> []) (fun p w _ => p <> [] -> w <> []) _ _ _ _ s w H).
  - done.
  - intros s' ps p w' Hp Hin _ IH. apply IH. intros ->. apply (He s' ps Hp Hin).
  - done.
  - intros s' r u v _ Hu _ _ _ Happ. apply app_nil in Happ as [-> _]. done.
Qed.

Lemma expr_prods s ps : g_prods expr s = Some ps -> s = L "E" /\ ps = [[L "E"; L "+"; L "E"]; [L "E"; L "*"; L "E"]; [L "n"]].
Proof. unfold expr, gram_of, g_prods, assoc_prods. repeat case_decide; try discriminate. intros [= <-]. done. Qed.

Lemma expr_epsfree s w : derives expr s w -> w <> [].
Proof.
  apply epsfree_nonnull. intros s' ps H. apply expr_prods in H as [-> ->]. intros HI.
  repeat (apply elem_of_cons in HI as [HI|HI]; [discriminate|]). inversion HI.
Qed.

Lemma derives_seq_nonempty g p : (forall s w, derives g s w -> w <> []) -> derives_seq g p [] -> p = [].
Proof.
  intros He H. inversion H as [|s r u v Hd Hs Ep Ew]; [done|].
  apply app_nil in Ew as [-> _]. exfalso. eapply He; eauto.
Qed.


Lemma tc_last {X} (R : X -> X -> Prop) a b : tc R a b -> exists c, R c b.
Proof. induction 1; eauto. Qed.
Lemma tc_first {X} (R : X -> X -> Prop) a b : tc R a b -> exists c, R a c.
Proof. destruct 1; eauto. Qed.

Lemma expr_acyclic : acyclic_grammar expr.
Proof.
  assert (HU : forall A B, unit_step expr A B -> A = L "E" /\ B = L "n").
  { intros A B (ps & p & a & b & Hp & Hin & -> & Ha & Hb).
    apply derives_seq_nonempty in Ha as ->; [|apply expr_epsfree].
    apply derives_seq_nonempty in Hb as ->; [|apply expr_epsfree].
    apply expr_prods in Hp as [-> ->]. simpl in Hin. split; [done|].
    repeat (apply elem_of_cons in Hin as [Hin|Hin]; [simplify_eq; done|]). inversion Hin. }
  intros A H. destruct (tc_first _ _ _ H) as [? H1%HU], (tc_last _ _ _ H) as [? H2%HU].
  destruct H1 as [-> _], H2 as [_ H2]. discriminate.
Qed.

Ltac tkinds := let lx := fresh in let H := fresh in intros lx H;
  repeat (apply elem_of_cons in H as [->|H]; [reflexivity|]); inversion H.

Lemma derives_cons g s r u v w : w = u ++ v -> derives g s u -> derives_seq g r v -> derives_seq g (s :: r) w.
Proof. intros ->. apply der_cons. Qed.

Ltac pick := first [apply elem_of_list_here | apply elem_of_list_further; pick].

Lemma expr_gen : generates expr (map lx_kind n_plus_n_times_n).
Proof.
  exists (L "E"), []. split; [done|].
  assert (Hn : derives expr (L "E") [L "n"]).
  { eapply der_nt with (p := [L "n"]); [reflexivity|pick|]. eapply derives_cons with (u := [L "n"]) (v := []); [done| |constructor]. apply der_term; done. }
  eapply der_nt with (p := [L "E"; L "+"; L "E"]); [reflexivity|pick|].
  eapply derives_cons with (u := [L "n"]); [reflexivity|done|].
  eapply derives_cons with (u := [L "+"]); [reflexivity|apply der_term; done|].
  eapply derives_cons with (v := []); [rewrite app_nil_r; reflexivity| |constructor].
  eapply der_nt with (p := [L "E"; L "*"; L "E"]); [reflexivity|pick|].
  eapply derives_cons with (u := [L "n"]); [reflexivity|done|].
  eapply derives_cons with (u := [L "*"]); [reflexivity|apply der_term; done|].
  eapply derives_cons with (v := []); [rewrite app_nil_r; reflexivity| |constructor]. done.
Qed.

Lemma expr_ok : g_wf expr /\ acyclic_grammar expr /\ terminal_kinds expr n_plus_n_times_n
  /\ generates expr (map lx_kind n_plus_n_times_n)
  /\ packrat_parse 40 expr n_plus_n_times_n = Ok (Some expr_tree).
Proof.
  split_and!; [apply gram_of_wf|apply expr_acyclic|tkinds|apply expr_gen|vm_compute; reflexivity].
Qed.

Definition cyc : grammar := gram_of [(L "A", [[L "A"]; [L "A"; L "A"]; [L "a"]; []])].
Definition aa : list lexeme := [tok (L "a") 1; tok (L "a") 2].
Lemma cyc_ok : g_wf cyc /\ terminal_kinds cyc aa /\ generates cyc (map lx_kind aa)
  /\ exists t, packrat_parse 60 cyc aa = Ok (Some t).
Proof.
  split_and!; [apply gram_of_wf|tkinds| |eexists; vm_compute; reflexivity].
  exists (L "A"), []. split; [done|].
  assert (Hn : derives cyc (L "A") [L "a"]).
  { eapply der_nt with (p := [L "a"]); [reflexivity|pick|]. eapply derives_cons with (u := [L "a"]) (v := []); [done| |constructor]. apply der_term; done. }
  eapply der_nt with (p := [L "A"; L "A"]); [reflexivity|pick|].
  eapply derives_cons with (u := [L "a"]); [reflexivity|done|].
  eapply derives_cons with (v := []); [rewrite app_nil_r; reflexivity|done|constructor].
Qed.

Lemma empty_refuted : exists g s0 rest t, g_wf g /\ g_nts g = s0 :: rest /\ ~ derives g s0 []
  /\ returns (fun n => packrat_parse n g []) (Some t).
Proof.
  exists (gram_of [(L "S", [[L "a"]])]), (L "S"), [], (PN (lexeme_new (L "S")) []).
  split_and!; [apply gram_of_wf|done| |].
  - intros H. eapply epsfree_nonnull in H; [done|]. intros s ps. unfold gram_of, g_prods, assoc_prods.
    case_decide; [|discriminate]. intros [= <-] HI. apply elem_of_list_singleton in HI. discriminate.
  - apply (returns_at _ 10); [intros ???; apply packrat_parse_mono; done|vm_compute; reflexivity].
Qed.

Lemma shapes g l1 l2 r1 : map lx_kind l1 = map lx_kind l2 ->
  returns (fun n => packrat_parse n g l1) r1 ->
  exists r2, returns (fun n => packrat_parse n g l2) r2 /\ option_map shape r1 = option_map shape r2.
Proof.
  intros H H1. destruct (packrat_returns_shape g l1 l2 r1 H H1) as [r2 H2]. exists r2. split; [done|].
  eapply packrat_shapes; eauto.
Qed.

Lemma shapes_ex : exists l1 l2 t1 t2,
  l1 <> l2 /\ map lx_kind l1 = map lx_kind l2 /\ t1 <> t2
  /\ packrat_parse 40 expr l1 = Ok (Some t1) /\ packrat_parse 40 expr l2 = Ok (Some t2).
Proof.
  exists [tok (L "n") 1; tok (L "+") 2; tok (L "n") 3], [Lx (L "n") (L "7") 0 1; tok (L "+") 2; tok (L "n") 3].
  eexists _, _. split; [discriminate|]. split; [reflexivity|].
  cut (forall x y : res (option pn), forall a b : pn, x = Ok (Some a) -> y = Ok (Some b) -> a <> b -> a <> b /\ x = Ok (Some a) /\ y = Ok (Some b)); [|auto].
  intros HC. apply HC; [vm_compute; reflexivity|vm_compute; reflexivity|]. discriminate.
Qed.

Lemma panic_refuted : exists g lexemes, g_wf g /\ panics (fun n => packrat_parse n g lexemes).
Proof.
  exists (gram_of [(L "S", [[L "N"; L "x"]]); (L "N", [[]])]), [tok (L "S") 1].
  split; [apply gram_of_wf|]. apply (panics_at _ 10); [intros ???; apply packrat_parse_mono; done|vm_compute; reflexivity].
Qed.

Lemma wrong_tree_refuted : exists g s0 rest lexemes t,
  g_wf g /\ g_nts g = s0 :: rest /\ lexemes <> []
  /\ returns (fun n => packrat_parse n g lexemes) (Some t) /\ ~ is_tree g s0 t lexemes.
Proof.
  exists (gram_of [(L "S", [[L "q"]; [L "N"; L "x"]]); (L "N", [[]])]), (L "S"), [L "N"], [tok (L "S") 1], (PN (tok (L "S") 1) []).
  split_and!; [apply gram_of_wf|done|done| |].
  - apply (returns_at _ 10); [intros ???; apply packrat_parse_mono; done|vm_compute; reflexivity].
  - intros H. inversion H as [lx Hn|lx ps p cs lxs Hp Hin Ht]; subst; [discriminate|].
    inversion Ht.
Qed.

(** Left associativity: the best split of [E + E] on n + n + n. *)
Definition n_plus_n_plus_n : list lexeme :=
  [tok (L "n") 1; tok (L "+") 2; tok (L "n") 3; tok (L "+") 4; tok (L "n") 5].
Definition left_tree : pn :=
  PN (E_at 1) [PN (E_at 1) [PN (E_at 1) [lf (L "n") 1]; lf (L "+") 2; PN (E_at 3) [lf (L "n") 3]]; lf (L "+") 4;
    PN (E_at 5) [lf (L "n") 5]].
Lemma term_only s w : g_prods expr s = None -> derives expr s w -> w = [s].
Proof. intros Hn H. inversion H; [done|congruence]. Qed.
Lemma expr_n_E : derives expr (L "E") [L "n"].
Proof.
  eapply der_nt with (p := [L "n"]); [reflexivity|pick|]. eapply derives_cons with (u := [L "n"]) (v := []); [done| |constructor]. apply der_term; done.
Qed.
Lemma expr_mid m a b : m = L "+" \/ m = L "*" -> derives expr (L "E") a -> derives expr (L "E") b -> derives expr (L "E") (a ++ [m] ++ b).
Proof.
  intros Hm Ha Hb. eapply der_nt with (p := [L "E"; m; L "E"]); [reflexivity|destruct Hm as [->| ->]; pick|].
  eapply derives_cons; [done|exact Ha|]. eapply derives_cons with (u := [m]); [done|apply der_term; destruct Hm as [->| ->]; done|].
  eapply derives_cons with (v := []); [by rewrite app_nil_r|exact Hb|constructor].
Qed.
Lemma left_split : best_split expr [L "E"; L "+"; L "E"] (map lx_kind n_plus_n_plus_n) [[L "n"; L "+"; L "n"]; [L "+"]; [L "n"]].
Proof.
  assert (Hp : derives expr (L "+") [L "+"]) by (by apply der_term).
  assert (H3 : derives expr (L "E") [L "n"; L "+"; L "n"]) by (apply (expr_mid (L "+") [L "n"] [L "n"]); auto using expr_n_E).
  split; [split; [done|]; constructor; [done|constructor; [done|constructor; [apply expr_n_E|constructor]]]|].
  intros parts2 [HC HF]. apply Forall2_cons_inv_l in HF as (u & r & Hu & HF & ->).
  apply Forall2_cons_inv_l in HF as (x & r2 & Hx & HF & ->). apply Forall2_cons_inv_l in HF as (v & r3 & Hv & HF & ->).
  apply Forall2_nil_inv_l in HF as ->. apply term_only in Hx as ->; [|done]. pose proof (expr_epsfree _ _ Hu) as Nu. pose proof (expr_epsfree _ _ Hv) as Nv.
  cbn in HC. rewrite app_nil_r in HC. destruct u as [|a [|b [|c [|d [|e u]]]]]; [done| |discriminate HC| |discriminate HC|].
  - right. injection HC as -> ->. exists [], (L "E"), [L "+"; L "E"], [], [L "n"; L "+"; L "n"], [L "n"], [[L "+"]; [L "n"]], [[L "+"]; [L "n"; L "+"; L "n"]].
    split_and!; try done. eexists. split; [reflexivity|]. intros q q2 p p2 Eq Eq2 D D2.
    assert (Hmid : forall m, m = L "+" \/ m = L "*" -> ~ derives_seq expr [L "E"; m; L "E"] [L "n"]).
    { intros m Hm H. inversion H as [|s r u' v' Hs Hr Es Ew]; subst. inversion Hr as [|s2 r2 u2 v2 Hs2 Hr2 Es2 Ew2]; subst.
      apply term_only in Hs2 as ->; [|destruct Hm as [->| ->]; done]. pose proof (expr_epsfree _ _ Hs) as Ns.
      destruct u' as [|z [|z2 u']]; [done|discriminate Ew|discriminate Ew]. }
    assert (q2 = 2).
    { destruct q2 as [|[|[|q2]]]; cbn in Eq2; [injection Eq2 as <-; destruct (Hmid (L "+")); auto|injection Eq2 as <-; destruct (Hmid (L "*")); auto|done|discriminate Eq2]. }
    subst q2. destruct q as [|[|[|q]]]; cbn in Eq; [lia|lia| |discriminate Eq].
    injection Eq as <-. inversion D as [|s r u' v' Hs Hr Es Ew]; subst. apply term_only in Hs as ->; [|done]. inversion Hr; subst. discriminate Ew.
  - left. by injection HC as -> -> -> ->.
  - injection HC as _ _ _ _ _ E. by apply app_nil in E as [_ ?].
Qed.
Lemma left_ok : g_wf expr /\ acyclic_grammar expr /\ terminal_kinds expr n_plus_n_plus_n
  /\ derives expr (L "E") (map lx_kind n_plus_n_plus_n)
  /\ best_split expr [L "E"; L "+"; L "E"] (map lx_kind n_plus_n_plus_n) [[L "n"; L "+"; L "n"]; [L "+"]; [L "n"]]
  /\ packrat_parse 40 expr n_plus_n_plus_n = Ok (Some left_tree).
Proof.
  split_and!; [apply gram_of_wf|apply expr_acyclic|tkinds| |apply left_split|vm_compute; reflexivity].
  apply (expr_mid (L "+") [L "n"; L "+"; L "n"] [L "n"]); [by left| |apply expr_n_E]. apply (expr_mid (L "+") [L "n"] [L "n"]); auto using expr_n_E.
Qed.

(** ** Lexemes named like non-terminals that do no harm *)
Definition n_plus_E : list lexeme := [tok (L "n") 1; tok (L "+") 2; tok (L "E") 3].
Lemma n_plus_E_fine : g_wf expr /\ not_mistaken expr n_plus_E /\ tok (L "E") 3 ∈ n_plus_E /\ g_prods expr (lx_kind (tok (L "E") 3)) <> None.
Proof.
  split_and!; [apply gram_of_wf| |pick|discriminate].
  intros u lx r ps X Y p _ _ _ _ Hd. by apply expr_epsfree in Hd.
Qed.
(** Here the first symbol of [A]'s production may be empty, but [A] may not begin at the start. *)
Definition late : grammar := gram_of [(L "S", [[L "a"; L "A"]]); (L "A", [[L "B"; L "b"]]); (L "B", [[]; [L "c"]])].
Definition A_b : list lexeme := [tok (L "A") 1; tok (L "b") 2].
Lemma late_begin x u : may_begin late x u -> x = L "S" \/ x = L "a" \/ u <> [].
Proof.
  intros H. induction H as [s0 rest E|A u ps l B r v _ IH Hp Hin Hd].
  - cbn in E. injection E as <- _. by left.
  - destruct IH as [->|[->|Hu]].
    + cbn in Hp. injection Hp as <-. apply elem_of_list_singleton in Hin. destruct l as [|y l]; cbn [app] in Hin.
      * right. left. by injection Hin.
      * right. right. assert (y = L "a") as -> by (injection Hin; auto). inversion Hd as [|? ? u1 v1 H1 H2]; subst.
        intros E. apply app_nil in E as [_ E]. apply app_nil in E as [-> _]. inversion H1 as [|? ? ? ? Hq]. discriminate Hq.
    + discriminate Hp.
    + right. right. destruct u; [done|discriminate].
Qed.
Lemma late_fine : g_wf late /\ not_mistaken late A_b /\ tok (L "A") 1 ∈ A_b /\ g_prods late (lx_kind (tok (L "A") 1)) <> None.
Proof.
  split_and!; [apply gram_of_wf| |pick|discriminate].
  intros u lx r ps X Y p E Hb Hp Hin _. destruct u as [|x u]; cbn [app] in E.
  - injection E as <- _. apply late_begin in Hb as [H|[H|H]]; [discriminate H|discriminate H|by apply H].
  - injection E as _ E. destruct u as [|y u]; cbn [app] in E.
    + injection E as <- _. discriminate Hp.
    + injection E as _ E. destruct u; discriminate E.
Qed.
