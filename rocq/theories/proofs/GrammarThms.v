From Coq Require Import String.
From Verif.model Require Import GrammarClient SetSym.
From Verif.spec Require Import GrammarSpec CFG.
From Verif.proofs Require Import SetProofs StringProofs GrammarProofs GrammarText.
From Coq Require Import Lia.

Lemma built_RO g : built g -> exists A, RO g A.
Proof.
  intros (g0 & cs & [->|[def Hd]] & ->).
  - eexists. apply gr_state_R. split; [apply gr_empty_R|apply am_ok_nil].
  - destruct (gr_new_means _ _ Hd) as (A & _ & HR). eexists. apply gr_state_R. exact HR.
Qed.
Lemma RO_gram g A : RO g A -> same_grammar (gr_view g) (gram_of A).
Proof. intros [HR _]. apply gr_view_R; done. Qed.

Lemma new_history def A g cs : text_means def A -> gr_new def = Some g -> gr_run g cs = am_run A cs.
Proof.
  intros Hm Hg. destruct (text_means_new _ _ Hm) as (g' & Hg' & HR). assert (g' = g) as -> by congruence.
  apply gr_run_R; done.
Qed.
Lemma built_wf g : built g -> g_wf (gr_view g).
Proof. intros H. destruct (built_RO _ H) as (A & HR & _). eapply gr_view_wf; eauto. Qed.

Lemma built_lookup g pre l post : built g -> lookup_call l = true ->
  exists a, gr_run g (pre ++ l :: post)
    = take (length pre) (gr_run g (pre ++ post)) ++ a :: drop (length pre) (gr_run g (pre ++ post)).
Proof. intros H Hl. destruct (built_RO _ H) as [A HR]. eapply lookup_insert_history; eauto. Qed.
Lemma built_no_write g c : built g -> lookup_call c = true ->
  (forall s own, c = CProductions (s, own) -> mentions (gr_view g) s) -> snd (gr_call g c) = g.
Proof.
  intros H Hl Hm. destruct (built_RO _ H) as [A HR]. destruct c as [f to|[s own]| |]; try done.
  eapply lookup_no_write; eauto.
Qed.

Lemma split1_head sep m c : sep ∉ m -> exists y r, split1 sep (m ++ c) = (m ++ y) :: r.
Proof.
  induction m as [|a m IH]; intros Hm; simpl.
  - destruct (split1 sep c) as [|y r] eqn:E; [by apply split1_ne in E|eauto].
  - destruct (N.eqb_spec a sep) as [->|_]; [exfalso; apply Hm; left|].
    destruct IH as (y & r & ->); [intros H; apply Hm; right; done|]. simpl. eauto.
Qed.
Lemma split1_infix sep a m c : sep ∉ m -> exists l x y, l ∈ split1 sep (a ++ m ++ c) /\ l = x ++ m ++ y.
Proof.
  intros Hm. induction a as [|d a (l & x & y & Hin & ->)].
  - destruct (split1_head sep m c Hm) as (y & r & E). exists (m ++ y), [], y. split; [|done].
    simpl. rewrite E. left.
  - simpl. destruct (N.eqb_spec d sep).
    + exists (x ++ m ++ y), x, y. split; [right; done|done].
    + destruct (split1 sep (a ++ m ++ c)) as [|z r] eqn:E; [inversion Hin|]. simpl.
      apply elem_of_cons in Hin as [<-|Hin].
      * exists (d :: x ++ m ++ y), (d :: x), y. split; [left|done].
      * exists (x ++ m ++ y), x, y. split; [right; done|done].
Qed.
Lemma bad_line_text def : (exists l, l ∈ split1 c_nl def /\ line_bad l)
  <-> exists a b c, def = a ++ L "->" ++ b ++ L "->" ++ c /\ c_nl ∉ b.
Proof.
  split.
  - intros (l & Hin & (a & b & c & ->)).
    assert (Hb : c_nl ∉ b).
    { pose proof (split1_pieces c_nl def) as HF. rewrite Forall_forall in HF. apply HF in Hin.
      intros H. apply Hin. rewrite !elem_of_app. auto. }
    apply in_split_infix in Hin as (x & y & ->). exists (x ++ a), b, (c ++ y). split; [|done].
    rewrite <- !app_assoc. done.
  - intros (a & b & c & -> & Hb).
    destruct (split1_infix c_nl a (L "->" ++ b ++ L "->") c) as (l & x & y & Hin & ->).
    { rewrite !not_elem_of_app. split_and!; [|done|]; intros H; repeat (apply elem_of_cons in H as [H|H]; [discriminate|]); inversion H. }
    exists (x ++ (L "->" ++ b ++ L "->") ++ y). split.
    + rewrite <- !(app_assoc _ _ c) in Hin. exact Hin.
    + exists x, b, y. rewrite <- !app_assoc. done.
Qed.

Lemma new_meaning def :
  (gr_new def = None <-> exists a b c, def = a ++ L "->" ++ b ++ L "->" ++ c /\ c_nl ∉ b)
  /\ forall g, gr_new def = Some g -> exists A, text_means def A /\ same_grammar (gr_view g) (gram_of A)
       /\ forall A', text_means def A' -> A' = A.
Proof.
  split; [rewrite gr_new_None; apply bad_line_text|]. intros g Hg. destruct (gr_new_means _ _ Hg) as (A & Hm & HR).
  exists A. split_and!; [done|apply RO_gram; done|]. intros A' HA. apply text_means_fun in Hm, HA. congruence.
Qed.

(** A grammar built by Add whose printed form reads back as another grammar: the
    symbol "a b" holds a space. *)
Definition spaced : gr := gr_state gr_empty [CAdd (L "S", false) (Some [(L "a b", false)])].
Lemma add_round_trip_refuted : exists g g', built g /\ gr_new (gr_string g) = Some g' /\ ~ same_grammar (gr_view g') (gr_view g).
Proof.
  exists spaced. eexists. split_and!.
  - exists gr_empty, [CAdd (L "S", false) (Some [(L "a b", false)])]. auto.
  - vm_compute. reflexivity.
  - intros [_ H]. specialize (H (L "S")). vm_compute in H. discriminate.
Qed.


Lemma am_in_get (A : amap) k ps : assoc_prods A k = Some ps -> (k, ps) ∈ A.
Proof.
  induction A as [|[k' ps'] A IH]; simpl; [done|]. case_decide as H.
  - intros [= ->]. subst. left.
  - intros E. right. auto.
Qed.
Lemma trimmed_trim s : trimmed (trim s).
Proof. destruct (trim_spec s) as (a & b & _ & _ & _ & H). done. Qed.

Lemma printable_good A : am_ok A -> Forall good_entry A <-> printable (gram_of A).
Proof.
  intros [Hnd _]. rewrite Forall_forall. split.
  - intros H. split.
    + intros nt Hnt. simpl in Hnt. apply elem_of_list_fmap in Hnt as ([k ps] & -> & Hin).
      destruct (H _ Hin) as [(H1 & H2 & H3 & H4) _]. simpl. split_and!; auto. apply trim_trimmed; done.
    + intros nt ps p x Hp Hin Hx. simpl in Hp. apply am_in_get in Hp. destruct (H _ Hp) as [_ HF]. simpl in HF.
      rewrite Forall_forall in HF. specialize (HF p Hin). rewrite Forall_forall in HF.
      destruct (HF x Hx) as [(? & ? & ?) [? ?]]. split_and!; auto. apply trim_trimmed; done.
  - intros [H1 H2] [k ps] Hin. split; simpl.
    + destruct (H1 k) as (? & Ht & ? & ?); [simpl; apply elem_of_list_fmap; exists (k, ps); done|].
      split_and!; [done| |split; done]. rewrite <- Ht. apply trimmed_trim.
    + rewrite Forall_forall. intros p Hp. rewrite Forall_forall. intros x Hx.
      destruct (H2 k ps p x) as (? & Ht & ? & ? & ?); [simpl; apply am_get_in; done|done|done|].
      split; [|split; done]. split_and!; [done| |done]. rewrite <- Ht. apply trimmed_trim.
Qed.
Lemma same_printable g h : same_grammar g h -> printable g -> printable h.
Proof.
  intros [E1 E2] [H1 H2]. split.
  - intros nt. rewrite <- E1. auto.
  - intros nt ps p x. rewrite <- E2. eauto.
Qed.
Lemma same_sym g h : same_grammar g h -> same_grammar h g.
Proof. intros [? H]. split; [done|]. intros s. rewrite H. done. Qed.
Lemma same_trans g h k : same_grammar g h -> same_grammar h k -> same_grammar g k.
Proof. intros [? H] [? H']. split; [congruence|]. intros s. rewrite H. done. Qed.

Lemma built_round_trip g : built g ->
  ((exists g', gr_new (gr_string g) = Some g' /\ same_grammar (gr_view g') (gr_view g)) <-> printable (gr_view g)).
Proof.
  intros Hb. destruct (built_RO _ Hb) as (A & HR & Hok). split.
  - intros (g' & Hn & Hs). eapply same_printable; [exact Hs|].
    destruct (gr_new_means _ _ Hn) as (A' & Hm & HR'). eapply same_printable; [apply same_sym, RO_gram; exact HR'|].
    apply printable_good; [apply HR'|]. apply text_means_fun in Hm.
    eapply lines_fun_good; [| | |exact Hm]; [apply split1_pieces|constructor|done].
  - intros Hp. eapply same_printable in Hp; [|apply gr_view_R; exact HR]. apply printable_good in Hp; [|done].
    destruct (text_means_new (am_text A) A) as (g' & Hg' & HR').
    { apply text_means_fun. apply text_round_trip; done. }
    exists g'. rewrite (gr_string_R _ _ HR Hok). split; [done|].
    eapply same_trans; [apply RO_gram; exact HR'|]. apply same_sym, gr_view_R; done.
Qed.

(** Examples *)
Definition ex_def : gostring := L "E -> E + E
    | n
  ->  n   x

T->".
Definition ex_A : amap := [(L "E", [[L "E"; L "+"; L "E"]; [L "|"; L "n"]; [L "n"; L "x"]]); (L "T", [[]])].
Lemma ex_means : text_means ex_def ex_A.
Proof. apply text_means_fun. vm_compute. reflexivity. Qed.
Lemma ex_new : exists g, gr_new ex_def = Some g /\ g_nts (gr_view g) = [L "E"; L "T"]
  /\ g_prods (gr_view g) (L "E") = Some [[L "E"; L "+"; L "E"]; [L "|"; L "n"]; [L "n"; L "x"]].
Proof. eexists. split; [vm_compute; reflexivity|]. split; vm_compute; reflexivity. Qed.
Lemma ex_bad : gr_new (L "A -> b -> c") = None.
Proof. vm_compute. reflexivity. Qed.
Lemma ex_built : exists g, built g /\ printable (gr_view g) /\ mentions (gr_view g) (L "+").
Proof.
  destruct ex_new as (g & Hg & Hn & Hp). exists g.
  assert (Hb : built g) by (exists g, []; eauto).
  split_and!; [done| |].
  - apply built_round_trip; [done|]. destruct (gr_new_round_trip _ _ Hg) as (g' & ? & ? & _). eauto.
  - right. eexists (L "E"), _, [L "E"; L "+"; L "E"]. split; [exact Hp|]. split; [left|right; left].
Qed.
Lemma ex_run : gr_run gr_empty [CProductions (L "A", false); CAdd (L "B", false) (Some [(L "A", true)]);
    CAdd (L "A", true) None; CAdd (L "B", true) (Some [(L "c", false)]); CProductions (L "B", false); CNonTerminals]
  = [AProds None; AUnit; AUnit; AUnit; AProds (Some [[L "A"]; [L "c"]]); ANames [L "B"; L "A"]].
Proof. vm_compute. reflexivity. Qed.
