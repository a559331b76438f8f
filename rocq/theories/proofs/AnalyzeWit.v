From Coq Require Import String.
From Verif.spec Require Import AnalyzeSpec.
From Verif.proofs Require Import Fuel AnalyzeProofs AnalyzeThms PackratWit.
From Coq Require Import Lia.
Local Open Scope nat_scope.
Local Open Scope list_scope.

(** ** Consequences *)
Section T.
  Variables (g : grammar) (a : analytics).
  Hypothesis Hg : g_wf g.
  Hypothesis Ha : returns (fun n => analyze n g) a.

  Lemma first_sound x t : skips_empty g -> is_Some (g_prods g x) -> terminal g t ->
    an_has_first a x t = Ok true -> first_of g x t.
  Proof using All.
    intros Hn Hx Ht H. destruct (has_first g a Hg Ha x t Hx Ht) as (b & Hb & H1 & _).
    apply leftmost_first; [done|]. apply H1. congruence.
  Qed.
  Lemma first_complete x t : left_acyclic g -> is_Some (g_prods g x) -> terminal g t ->
    first_of g x t -> an_has_first a x t = Ok true.
  Proof using All.
    intros Hac Hx Ht H. destruct (has_first g a Hg Ha x t Hx Ht) as (b & Hb & _ & H2).
    rewrite H2 in Hb; [done|done|]. by apply first_leftmost.
  Qed.
  Lemma first_exact x t : left_acyclic g -> skips_empty g -> is_Some (g_prods g x) -> terminal g t ->
    exists b, an_has_first a x t = Ok b /\ (b = true <-> first_of g x t).
  Proof using All.
    intros Hac Hn Hx Ht. destruct (has_first g a Hg Ha x t Hx Ht) as (b & Hb & H1 & H2). exists b. split; [done|]. split.
    - intros E. apply leftmost_first; auto.
    - intros E. apply H2; [done|]. by apply first_leftmost.
  Qed.
  Lemma first_exact_left x t : left_acyclic g -> is_Some (g_prods g x) -> terminal g t ->
    exists b, an_has_first a x t = Ok b /\ (b = true <-> leftmost g x t).
  Proof using All.
    intros Hac Hx Ht. destruct (has_first g a Hg Ha x t Hx Ht) as (b & Hb & H1 & H2). exists b. split; [done|]. split; auto.
  Qed.
  Lemma nil_exact x : left_acyclic g -> exists b, an_has_nil a x = Ok b /\ (b = true <-> left_empty g x).
  Proof using All.
    intros Hac. destruct (has_nil g a Hg Ha x) as (b & Hb & H1 & H2). exists b. split; [done|]. split; auto.
  Qed.
  Lemma nil_sound x : an_has_nil a x = Ok true -> left_empty g x.
  Proof using All. intros H. destruct (has_nil g a Hg Ha x) as (b & Hb & H1 & H2). apply H1. congruence. Qed.

  Lemma some_first : left_acyclic g -> no_blank g -> forall x, is_Some (g_prods g x) -> exists t, terminal g t /\ leftmost g x t.
  Proof using Hg.
    intros Hac Hb.
    assert (H : forall n V x, NoDup V -> (forall v, v ∈ V -> v ∈ g_nts g /\ tc (left_child g) v x) ->
      length (g_nts g) < n + length V -> is_Some (g_prods g x) -> exists t, terminal g t /\ leftmost g x t).
    { induction n as [|n IH]; intros V x Hnd HV Hn [ps Hx].
      { exfalso. assert (length V <= length (g_nts g)); [|lia]. apply submseteq_length, NoDup_submseteq; [done|].
        intros v Hv. by apply HV. }
      assert (x ∉ V) as HxV. { intros Hin. destruct (HV x Hin) as [_ Hc]. by apply Hac in Hc. }
      destruct (Hb x ps Hx) as (y & r & Hin). assert (left_child g x y) as Hc by (exists ps, [], r; done).
      destruct (g_prods g y) as [qs|] eqn:Hy.
      - destruct (IH (x :: V) y) as (t & Ht & Hlm).
        + by apply NoDup_cons.
        + intros v Hv. apply elem_of_cons in Hv as [->|Hv].
          * split; [apply Hg; rewrite Hx; eauto|by apply tc_once].
          * destruct (HV v Hv) as [? Hvx]. split; [done|]. by eapply tc_r.
        + cbn [length]. lia.
        + rewrite Hy. eauto.
        + exists t. split; [done|]. by eapply tc_l.
      - exists y. split; [done|]. by apply tc_once. }
    intros x Hx. apply (H (S (length (g_nts g))) [] x); [constructor| |cbn; lia|done].
    intros v Hv. by apply elem_of_nil in Hv.
  Qed.

  Lemma nonterminal_sound x : an_nonterminal a x = Ok true -> x ∈ g_nts g.
  Proof using All.
    intros H. destruct (nonterminal g a Hg Ha x) as (b & Hb & H1 & _). destruct H1 as (t & _ & Hlm); [congruence|].
    apply Hg. by eapply leftmost_nt.
  Qed.
  Lemma nonterminal_exact x : left_acyclic g -> no_blank g -> exists b, an_nonterminal a x = Ok b /\ (b = true <-> x ∈ g_nts g).
  Proof using All.
    intros Hac Hb. destruct (nonterminal g a Hg Ha x) as (b & Hb' & H1 & H2). exists b. split; [done|]. split.
    - intros ->. by apply nonterminal_sound.
    - intros Hx. apply H2; [done|]. apply some_first; [done|done|]. by apply Hg.
  Qed.
  Lemma contains_sound x : an_contains a x = Ok true -> occurs g x.
  Proof using All.
    intros H. destruct (contains g a Hg Ha x) as (b & Hb & H1 & _). apply H1. congruence.
  Qed.
  Lemma contains_exact x : left_acyclic g -> no_blank g ->
    exists b, an_contains a x = Ok b /\ (b = true <-> x ∈ g_nts g \/ (terminal g x /\ exists z, leftmost g z x)).
  Proof using All.
    intros Hac Hb. destruct (contains g a Hg Ha x) as (b & Hb' & H1 & H2). exists b. split; [done|]. split.
    - intros E. destruct (H1 E) as (_ & [(t & _ & Ht)|?]); [left|by right]. apply Hg. by eapply leftmost_nt.
    - intros [Hx|?]; apply H2; auto. left. apply some_first; [done|done|]. by apply Hg.
  Qed.
End T.

(** ** Witnesses *)
Lemma analyze_at g n a : analyze n g = Ok a -> returns (fun n => analyze n g) a.
Proof. exact (returns_at (fun n => analyze n g) n a (analyze_mono g)). Qed.
Definition made (g : grammar) : analytics :=
  match analyze 9 g with Ok a => a | _ => Analytics set_new [] [] [] [] end.

(** X -> A q;  A -> B z;  B ->  *)
Definition loose : grammar := gram_of [(L "X", [[L "A"; L "q"]]); (L "A", [[L "B"; L "z"]]); (L "B", [[]])].
Definition loose_forms : list (list gostring) :=
  [[L "X"]; [L "A"; L "q"]; [L "B"; L "z"; L "q"]; [L "z"; L "q"]].
Definition next_forms (g : grammar) : list gostring -> list (list gostring) :=
  fix go w := match w with
  | [] => []
  | x :: r => map (fun p => p ++ r) (default [] (g_prods g x)) ++ map (cons x) (go r)
  end.
Lemma next_forms_all g u v : rewrites g u v -> v ∈ next_forms g u.
Proof.
  intros [a x b ps p Hx Hp]. induction a as [|y a IH]; cbn [app next_forms]; apply elem_of_app.
  - left. rewrite Hx. cbn. by apply (elem_of_list_fmap_1 (fun p => p ++ b)).
  - right. by apply elem_of_list_fmap_1.
Qed.
Lemma closed_forms g F u : Forall (fun w => Forall (fun v => v ∈ F) (next_forms g w)) F -> u ∈ F -> forall v, rtc (rewrites g) u v -> v ∈ F.
Proof.
  intros HF Hu v H. induction H as [|u v w H _ IH]; [done|]. apply IH.
  rewrite Forall_forall in HF. specialize (HF u Hu). rewrite Forall_forall in HF. apply HF. by apply next_forms_all.
Qed.
Lemma has_first_refuted : exists g a x t, g_wf g /\ returns (fun n => analyze n g) a /\ terminal g t
  /\ left_acyclic g /\ an_has_first a x t = Ok true /\ ~ first_of g x t.
Proof.
  exists loose, (made loose), (L "X"), (L "q"). split; [apply gram_of_wf|].
  split; [apply (analyze_at _ 9); vm_compute; reflexivity|]. split; [done|]. split; [|split; [vm_compute; reflexivity|]].
  - intros x Hx.
    assert (Hr : forall x y, left_child loose x y ->
      (if decide (x = L "X") then 3 else if decide (x = L "A") then 2 else if decide (x = L "B") then 1 else 0) >
      (if decide (y = L "X") then 3 else if decide (y = L "A") then 2 else if decide (y = L "B") then 1 else 0)).
    { clear. intros x y (ps & a & b & Hx & Hp & Ha). unfold loose, gram_of, g_prods, assoc_prods in Hx.
      repeat case_decide; try discriminate; subst; try discriminate; try lia; injection Hx as <-;
        rewrite !elem_of_cons, elem_of_nil in Hp; repeat destruct Hp as [Hp|Hp]; try done;
        repeat (destruct a as [|? a]; try discriminate); try (injection Hp; intros; subst; discriminate);
        try (injection Hp; intros; subst; done). }
    assert (Ht : forall x y, tc (left_child loose) x y ->
      (if decide (x = L "X") then 3 else if decide (x = L "A") then 2 else if decide (x = L "B") then 1 else 0) >
      (if decide (y = L "X") then 3 else if decide (y = L "A") then 2 else if decide (y = L "B") then 1 else 0)).
    { induction 1 as [u v H|u v w H _ IH]; [by apply Hr|]. apply Hr in H. unfold gt in *. etransitivity; eauto. }
    apply Ht in Hx. unfold gt in Hx. by apply Nat.lt_irrefl in Hx.
  - intros [r Hr]. assert ((L "q" :: r) ∈ loose_forms) as H.
    { eapply (closed_forms loose loose_forms [L "X"]); [|left|exact Hr].
      apply (bool_decide_unpack _). vm_compute. exact I. }
    unfold loose_forms in H. rewrite !elem_of_cons, elem_of_nil in H. repeat destruct H as [H|H]; done.
Qed.

(** A -> B | a;  B -> A c | b *)
Definition looping : grammar := gram_of [(L "A", [[L "B"]; [L "a"]]); (L "B", [[L "A"; L "c"]; [L "b"]])].
Lemma has_first_missing : exists g a x t, g_wf g /\ returns (fun n => analyze n g) a /\ terminal g t
  /\ (forall y, ~ left_empty g y) /\ first_of g x t /\ an_has_first a x t = Ok false.
Proof.
  exists looping, (made looping), (L "B"), (L "a"). split; [apply gram_of_wf|].
  split; [apply (analyze_at _ 9); vm_compute; reflexivity|]. split; [done|]. split; [|split; [|vm_compute; reflexivity]].
  - intros y H. induction H as [y ps Hp Hq|y ps z r Hp Hq _ IH]; [|done].
    unfold looping, gram_of, g_prods, assoc_prods in Hp. repeat case_decide; try discriminate; injection Hp as <-;
      rewrite !elem_of_cons, elem_of_nil in Hq; repeat destruct Hq as [Hq|Hq]; done.
  - exists [L "c"]. eapply rtc_l; [|apply rtc_once].
    + apply (rw_step looping [] (L "B") [] [[L "A"; L "c"]; [L "b"]] [L "A"; L "c"]); [reflexivity|left].
    + apply (rw_step looping [] (L "A") [L "c"] [[L "B"]; [L "a"]] [L "a"]); [reflexivity|right; left].
Qed.

(** A terminal is not its own first once it starts something. *)
Lemma has_first_terminal : exists g a t, g_wf g /\ returns (fun n => analyze n g) a /\ terminal g t
  /\ left_acyclic g /\ first_of g t t /\ an_has_first a t t = Ok false.
Proof.
  exists (gram_of [(L "S", [[L "a"]])]), (made (gram_of [(L "S", [[L "a"]])])), (L "a"). split; [apply gram_of_wf|].
  split; [apply (analyze_at _ 9); vm_compute; reflexivity|]. split; [done|]. split; [|split; [|vm_compute; reflexivity]].
  - assert (Hc : forall x y, left_child (gram_of [(L "S", [[L "a"]])]) x y -> x = L "S" /\ y = L "a").
    { intros x y (ps & a & b & Hx & Hp & _). unfold gram_of, g_prods, assoc_prods in Hx. case_decide; [|done].
      subst x. injection Hx as <-. rewrite elem_of_list_singleton in Hp. destruct a as [|z [|? a]]; try done.
      injection Hp as -> _. done. }
    intros x Hx. destruct (tc_first _ _ _ Hx) as [y Hy]. apply Hc in Hy as [-> _].
    destruct (tc_last _ _ _ Hx) as [y' Hy']. by apply Hc in Hy' as [_ ?].
  - exists []. constructor.
Qed.

Lemma nonterminal_refuted : exists g a x, g_wf g /\ returns (fun n => analyze n g) a /\ x ∈ g_nts g /\ an_nonterminal a x = Ok false.
Proof.
  exists (gram_of [(L "S", [[L "N"; L "a"]]); (L "N", [[]])]), (made (gram_of [(L "S", [[L "N"; L "a"]]); (L "N", [[]])])), (L "N").
  split; [apply gram_of_wf|]. split; [apply (analyze_at _ 9); vm_compute; reflexivity|]. split; [|vm_compute; reflexivity].
  right; left.
Qed.
Lemma contains_refuted : exists g a x, g_wf g /\ returns (fun n => analyze n g) a /\ occurs g x /\ an_contains a x = Ok false.
Proof.
  exists (gram_of [(L "S", [[L "a"; L "x"]])]), (made (gram_of [(L "S", [[L "a"; L "x"]])])), (L "x").
  split; [apply gram_of_wf|]. split; [apply (analyze_at _ 9); vm_compute; reflexivity|]. split; [|vm_compute; reflexivity].
  right. exists (L "S"), [[L "a"; L "x"]], [L "a"; L "x"]. split; [reflexivity|]. split; [left|]. right; left.
Qed.
Definition nils : grammar := gram_of [(L "A", [[L "B"]; []]); (L "B", [[L "A"]])].
Lemma nil_refuted : exists g a x, g_wf g /\ returns (fun n => analyze n g) a /\ left_empty g x /\ an_has_nil a x = Ok false.
Proof.
  exists nils, (made nils), (L "B").
  split; [apply gram_of_wf|]. split; [apply (analyze_at _ 9); vm_compute; reflexivity|]. split; [|vm_compute; reflexivity].
  eapply le_left; [reflexivity|left|]. eapply le_here; [reflexivity|]. right; left.
Qed.

(** S -> N a | b;  N -> c |  *)
Definition fine : grammar := gram_of [(L "S", [[L "N"; L "a"]; [L "b"]]); (L "N", [[L "c"]; []])].
Lemma fine_child x y : left_child fine x y -> (x = L "S" /\ y <> L "S") \/ (x = L "N" /\ y = L "c").
Proof.
  intros (ps & a & b & Hx & Hp & Ha). unfold fine, gram_of, g_prods, assoc_prods in Hx.
  repeat case_decide; try discriminate; injection Hx as <-; subst.
  - left. split; [done|]. intros ->. rewrite !elem_of_cons, elem_of_nil in Hp.
    repeat destruct Hp as [Hp|Hp]; try done; repeat (destruct a as [|? a]; try discriminate).
  - right. split; [done|]. rewrite !elem_of_cons, elem_of_nil in Hp.
    repeat destruct Hp as [Hp|Hp]; try done; repeat (destruct a as [|? a]; try discriminate). by injection Hp as -> _.
Qed.
Lemma fine_acyclic : left_acyclic fine.
Proof.
  intros x Hx. destruct (tc_last _ _ _ Hx) as [z Hz].
  assert (H : forall x y, tc (left_child fine) x y -> (x = L "S" -> y <> L "S") /\ (x = L "N" -> y = L "c")).
  { clear. induction 1 as [x y H|x y z H Ht [IH1 IH2]].
    - apply fine_child in H as [[-> H]|[-> H]]; split; done.
    - apply fine_child in H as [[-> H]|[-> ->]]; split; try done.
      + intros _ ->. destruct (tc_last _ _ _ Ht) as [u Hu]. apply fine_child in Hu as [[_ ?]|[_ ?]]; done.
      + intros _. destruct (tc_first _ _ _ Ht) as [u Hu]. apply fine_child in Hu as [[? _]|[? _]]; done. }
  destruct (tc_first _ _ _ Hx) as [u Hu]. apply H in Hx as [H1 H2].
  apply fine_child in Hu as [[-> _]|[-> _]]; [by apply H1|]. by specialize (H2 eq_refl).
Qed.
Lemma fine_skips : skips_empty fine.
Proof.
  intros nt ps a y b z Hx Hp Hz _. assert (z = L "N") as ->.
  { unfold fine, gram_of, g_prods, assoc_prods in Hx.
    repeat case_decide; try discriminate; injection Hx as <-; rewrite !elem_of_cons, elem_of_nil in Hp;
    repeat destruct Hp as [Hp|Hp]; try done; repeat (destruct a as [|? a]; try discriminate);
    try (by apply elem_of_nil in Hz). apply elem_of_list_singleton in Hz as ->. by injection Hp as -> _. }
  eapply der_nt; [reflexivity|right; left|constructor].
Qed.
Lemma fine_blank : no_blank fine.
Proof.
  intros nt ps Hx. unfold fine, gram_of, g_prods, assoc_prods in Hx.
  repeat case_decide; try discriminate; injection Hx as <-; eexists _, _; left.
Qed.
Lemma fine_ok : g_wf fine /\ left_acyclic fine /\ skips_empty fine /\ no_blank fine
  /\ returns (fun n => analyze n fine) (made fine)
  /\ an_has_first (made fine) (L "S") (L "a") = Ok true /\ an_has_first (made fine) (L "S") (L "c") = Ok true
  /\ an_has_first (made fine) (L "N") (L "a") = Ok false /\ an_has_nil (made fine) (L "S") = Ok true
  /\ an_nonterminal (made fine) (L "N") = Ok true /\ an_contains (made fine) (L "c") = Ok true
  /\ an_contains (made fine) (L "q") = Ok false.
Proof.
  split; [apply gram_of_wf|]. split; [apply fine_acyclic|]. split; [apply fine_skips|]. split; [apply fine_blank|].
  split; [apply (analyze_at _ 9); vm_compute; reflexivity|]. vm_compute. split_and!; reflexivity.
Qed.
