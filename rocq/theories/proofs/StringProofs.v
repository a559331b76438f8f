(** Facts about split, trim and join. *)
From Coq Require Import String Lia.
From Verif.model Require Import GoStrings.
From Verif.spec Require Import GrammarSpec.

Notation spaces := (Forall (fun c => is_space c = true)).
Definition starts_ok (s : gostring) : Prop := match s with [] => True | c :: _ => is_space c = false end.
Definition trimmed (s : gostring) : Prop := starts_ok s /\ starts_ok (reverse s).

Lemma trim_left_spec s : exists a, s = a ++ trim_left s /\ spaces a /\ starts_ok (trim_left s).
Proof.
  induction s as [|c s (a & Ha & Hs & Ho)]; simpl.
  - exists []. done.
  - destruct (is_space c) eqn:E.
    + exists (c :: a). split_and!; [simpl; congruence|by constructor|done].
    + exists []. split_and!; done.
Qed.
Lemma trim_left_ok s : starts_ok s -> trim_left s = s.
Proof. destruct s as [|c s]; simpl; [done|]. intros ->. done. Qed.
Lemma trim_left_spaces a s : spaces a -> trim_left (a ++ s) = trim_left s.
Proof. induction 1 as [|c a Hc Ha IH]; simpl; [done|]. rewrite Hc. done. Qed.
Lemma spaces_reverse a : spaces a -> spaces (reverse a).
Proof. intros H. apply Forall_reverse. done. Qed.
Lemma trim_right_spec s : exists b, s = trim_right s ++ b /\ spaces b /\ starts_ok (reverse (trim_right s)).
Proof.
  destruct (trim_left_spec (reverse s)) as (a & Ha & Hs & Ho). exists (reverse a). unfold trim_right.
  rewrite reverse_involutive. split_and!; auto using spaces_reverse.
  rewrite <- reverse_app, <- Ha, reverse_involutive. done.
Qed.
Lemma trim_right_spaces s b : spaces b -> trim_right (s ++ b) = trim_right s.
Proof. intros H. unfold trim_right. rewrite reverse_app, trim_left_spaces; auto using spaces_reverse. Qed.
Lemma trim_right_ok s : starts_ok (reverse s) -> trim_right s = s.
Proof. intros H. unfold trim_right. rewrite trim_left_ok by done. apply reverse_involutive. Qed.
Lemma starts_ok_app_l s t : starts_ok (s ++ t) -> starts_ok s.
Proof. destruct s; done. Qed.

Lemma trim_spec s : exists a b, s = a ++ trim s ++ b /\ spaces a /\ spaces b /\ trimmed (trim s).
Proof.
  destruct (trim_left_spec s) as (a & Ha & Hsa & Ho).
  destruct (trim_right_spec (trim_left s)) as (b & Hb & Hsb & Ho').
  exists a, b. unfold trim. split_and!; auto.
  - rewrite <- Hb. done.
  - split; [|done]. rewrite Hb in Ho. eapply starts_ok_app_l; eauto.
Qed.

Lemma trim_trimmed s : trimmed s -> trim s = s.
Proof. intros [H1 H2]. unfold trim. rewrite trim_left_ok, trim_right_ok; done. Qed.
Lemma trim_idem s : trim (trim s) = trim s.
Proof. destruct (trim_spec s) as (a & b & _ & _ & _ & H). by apply trim_trimmed. Qed.
Lemma trim_spaces_l a s : spaces a -> trim (a ++ s) = trim s.
Proof. intros H. unfold trim. rewrite trim_left_spaces; done. Qed.

Lemma trim_left_app_r s b : spaces b -> trim_left s = [] -> trim_left (s ++ b) = [].
Proof.
  intros Hb. induction s as [|c s IH]; simpl.
  - intros _. rewrite <- (app_nil_r b). rewrite trim_left_spaces; done.
  - destruct (is_space c); [auto|discriminate].
Qed.
Lemma trim_left_app s b : trim_left s <> [] -> trim_left (s ++ b) = trim_left s ++ b.
Proof. induction s as [|c s IH]; simpl; [done|]. destruct (is_space c); [auto|done]. Qed.

Lemma trim_spaces_r s b : spaces b -> trim (s ++ b) = trim s.
Proof.
  intros Hb. unfold trim. destruct (trim_left s) as [|c r] eqn:E.
  - rewrite trim_left_app_r by done. done.
  - rewrite trim_left_app by congruence. rewrite E. apply trim_right_spaces; done.
Qed.
Lemma trim_around a s b : spaces a -> spaces b -> trimmed s -> trim (a ++ s ++ b) = s.
Proof. intros. rewrite trim_spaces_l, trim_spaces_r, trim_trimmed; done. Qed.

Lemma trim_nil_iff s : trim s = [] <-> blank s.
Proof.
  split.
  - intros H. destruct (trim_spec s) as (a & b & E & Ha & Hb & _). rewrite H in E. rewrite E.
    unfold blank. apply Forall_app. split; [done|]. done.
  - intros H. rewrite <- (app_nil_r s). rewrite trim_spaces_l; done.
Qed.

Lemma trim_sub s : forall c, c ∈ trim s -> c ∈ s.
Proof.
  intros c H. destruct (trim_spec s) as (a & b & E & _). rewrite E. rewrite !elem_of_app. auto.
Qed.

(** ** split1 *)
Lemma cons_head_cons c l : l <> [] -> cons_head c l = (c :: hd [] l) :: tl l.
Proof. destruct l; done. Qed.
Lemma split1_ne sep s : split1 sep s <> [].
Proof. destruct s as [|c s]; simpl; [done|]. case_match; [done|]. unfold cons_head. case_match; done. Qed.

Lemma split1_free sep s : sep ∉ s -> split1 sep s = [s].
Proof.
  induction s as [|c s IH]; simpl; [done|]. intros H. apply not_elem_of_cons in H as [Hc Hs].
  rewrite (proj2 (N.eqb_neq c sep)) by congruence. rewrite IH by done. done.
Qed.
Lemma split1_app sep s r : sep ∉ s -> split1 sep (s ++ sep :: r) = s :: split1 sep r.
Proof.
  induction s as [|c s IH]; simpl.
  - intros _. rewrite N.eqb_refl. done.
  - intros H. apply not_elem_of_cons in H as [Hc Hs].
    rewrite (proj2 (N.eqb_neq c sep)) by congruence. rewrite IH by done. done.
Qed.
Lemma split1_join sep l : l <> [] -> Forall (fun x => sep ∉ x) l -> split1 sep (strjoin [sep] l) = l.
Proof.
  induction l as [|x l IH]; [done|]. intros _ H. apply Forall_cons_1 in H as [Hx Hl].
  destruct l as [|y l].
  - simpl. apply split1_free; done.
  - change (strjoin [sep] (x :: y :: l)) with (x ++ [sep] ++ strjoin [sep] (y :: l)).
    cbn [app]. rewrite split1_app by done. rewrite IH; done.
Qed.
Lemma join_split1 sep s : strjoin [sep] (split1 sep s) = s.
Proof.
  induction s as [|c s IH]; simpl; [done|]. pose proof (split1_ne sep s) as Hn.
  destruct (N.eqb_spec c sep) as [->|Hne].
  - destruct (split1 sep s) as [|h t] eqn:E; [done|]. simpl in *. rewrite IH. done.
  - destruct (split1 sep s) as [|h t] eqn:E; [done|]. simpl in *. destruct t; simpl in *; congruence.
Qed.
Lemma split1_pieces sep s : Forall (fun x => sep ∉ x) (split1 sep s).
Proof.
  induction s as [|c s IH]; simpl.
  - constructor; [apply not_elem_of_nil|done].
  - pose proof (split1_ne sep s) as Hn. destruct (N.eqb_spec c sep) as [->|Hne].
    + constructor; [apply not_elem_of_nil|done].
    + destruct (split1 sep s) as [|h t]; [done|]. apply Forall_cons_1 in IH as [Hh Ht].
      constructor; [|done]. apply not_elem_of_cons. split; [congruence|done].
Qed.

(** ** split2 *)
Lemma split2_cons2 a b c d r : split2 a b (c :: d :: r) =
  if (c =? a)%N && (d =? b)%N then [] :: split2 a b r else cons_head c (split2 a b (d :: r)).
Proof. done. Qed.
Lemma split2_ne a b s : split2 a b s <> [].
Proof.
  destruct s as [|c [|d s]]; simpl; try done. case_match; [done|].
  unfold cons_head. case_match; done.
Qed.

Section Two.
  Variables a b : N.
  Hypothesis Hab : a <> b.
  Definition sep_free (s : gostring) : Prop := ~ exists x y, s = x ++ [a; b] ++ y.

  Lemma sep_free_tail c s : sep_free (c :: s) -> sep_free s.
  Proof. intros H (x & y & ->). apply H. exists (c :: x), y. done. Qed.

  Lemma split2_free s : sep_free s -> split2 a b s = [s].
  Proof.
    induction s as [|c s IH]; intros H; [done|].
    destruct s as [|d s']; [done|]. rewrite split2_cons2.
    destruct (N.eqb_spec c a) as [->|]; cbn [andb]; [destruct (N.eqb_spec d b) as [->|]|].
    - exfalso. apply H. exists [], s'. done.
    - rewrite IH by (eapply sep_free_tail; eauto). done.
    - rewrite IH by (eapply sep_free_tail; eauto). done.
  Qed.

  Lemma split2_app s r : sep_free s -> split2 a b (s ++ [a; b] ++ r) = s :: split2 a b r.
  Proof using Hab.
    induction s as [|c s IH]; intros H.
    - cbn [app split2]. rewrite !N.eqb_refl. done.
    - specialize (IH (sep_free_tail _ _ H)). cbn [app] in *.
      destruct (s ++ a :: b :: r) as [|d s'] eqn:E; [destruct s; done|]. rewrite split2_cons2.
      destruct ((c =? a)%N && (d =? b)%N) eqn:Ec.
      + exfalso. apply andb_true_iff in Ec as [E1 E2].
        apply N.eqb_eq in E1 as ->. apply N.eqb_eq in E2 as ->.
        destruct s as [|e s].
        * cbn [app] in E. injection E as E _. done.
        * cbn [app] in E. injection E as -> _. apply H. exists [], s. done.
      + rewrite IH. done.
  Qed.

  (** Every text is separator-free, or begins with a separator-free part and a separator. *)
  Lemma sep_cases s : sep_free s \/ exists x y, s = x ++ [a; b] ++ y /\ sep_free x.
  Proof using Hab.
    induction s as [|c s [IH|(x & y & -> & Hx)]].
    - left. intros (x & y & E). destruct x; discriminate.
    - destruct (decide (c = a /\ head s = Some b)) as [[-> Hd]|Hn].
      + right. destruct s as [|d s]; [done|]. injection Hd as ->. exists [], s. split; [done|].
        intros (x & y & E). destruct x; discriminate.
      + left. intros (x & y & E). destruct x as [|e x].
        * cbn [app] in E. injection E as -> ->. apply Hn. done.
        * cbn [app] in E. injection E as -> E. apply IH. exists x, y. done.
    - destruct (decide (c = a /\ head (x ++ [a; b] ++ y) = Some b)) as [[-> Hd]|Hn].
      + right. destruct x as [|d x]; [injection Hd as Hd; done|]. injection Hd as ->.
        exists [], (x ++ [a; b] ++ y). split; [done|]. intros (u & v & E). destruct u; discriminate.
      + right. exists (c :: x), y. split; [done|]. intros (u & v & E). destruct u as [|e u].
        * cbn [app] in E. injection E as -> ->. apply Hn. split; [done|]. destruct v; done.
        * cbn [app] in E. injection E as -> E. apply Hx. exists u, v. done.
  Qed.
End Two.

(** ** words *)
Lemma words_cons_space c s : is_space c = true -> words (c :: s) = words s.
Proof.
  intros Hc. unfold words. simpl. destruct (c =? c_sp)%N.
  - cbn [map]. rewrite filter_cons_False; [done|]. intros H; apply H; reflexivity.
  - pose proof (split1_ne c_sp s). destruct (split1 c_sp s) as [|h t]; [done|]. cbn [cons_head map].
    assert (trim (c :: h) = trim h) as ->; [|done].
    apply (trim_spaces_l [c]). constructor; [done|constructor].
Qed.
Lemma words_spaces_l a s : spaces a -> words (a ++ s) = words s.
Proof. induction 1 as [|c a Hc Ha IH]; [done|]. cbn [app]. rewrite words_cons_space; done. Qed.

Lemma split1_snoc sep s c : split1 sep (s ++ [c]) =
  if (c =? sep)%N then split1 sep s ++ [[]]
  else match last (split1 sep s) with Some h => removelast (split1 sep s) ++ [h ++ [c]] | None => [] end.
Proof.
  induction s as [|d s IH]; cbn [app split1].
  - destruct (c =? sep)%N; done.
  - rewrite IH. pose proof (split1_ne sep s) as Hn. destruct (c =? sep)%N.
    + destruct (d =? sep)%N; [done|]. destruct (split1 sep s) as [|h t]; done.
    + destruct (d =? sep)%N.
      * destruct (split1 sep s) as [|h t] eqn:E; [done|].
        rewrite last_cons_cons || idtac. simpl. destruct (last (h :: t)) eqn:El; [|apply last_None in El; done].
        destruct t; simpl in *; done.
      * destruct (split1 sep s) as [|h t] eqn:E; [done|]. cbn [cons_head].
        destruct t as [|h' t]; [done|].
        rewrite !last_cons_cons. destruct (last (h' :: t)) eqn:El; [|apply last_None in El; done].
        done.
Qed.

Lemma words_snoc_space s c : is_space c = true -> words (s ++ [c]) = words s.
Proof.
  intros Hc. unfold words. rewrite split1_snoc. destruct (c =? c_sp)%N.
  - rewrite map_app, filter_app. cbn [map]. rewrite filter_cons_False; [apply app_nil_r|]. intros H; apply H; reflexivity.
  - destruct (last (split1 c_sp s)) as [h|] eqn:El.
    + apply last_Some in El as [l El]. rewrite El. rewrite removelast_last, !map_app. cbn [map].
      assert (trim (h ++ [c]) = trim h) as ->; [|done]. apply trim_spaces_r. constructor; [done|constructor].
    + apply last_None in El. exfalso. eapply split1_ne; eauto.
Qed.
Lemma words_spaces_r s b : spaces b -> words (s ++ b) = words s.
Proof.
  intros H. revert s. induction H as [|c b Hc Hb IH]; intros s; [rewrite app_nil_r; done|].
  rewrite (cons_middle c s b), app_assoc, IH. apply words_snoc_space; done.
Qed.
Lemma words_trim s : words (trim s) = words s.
Proof.
  destruct (trim_spec s) as (a & b & E & Ha & Hb & _). rewrite E at 2.
  rewrite words_spaces_l, words_spaces_r; done.
Qed.

(** A word that survives printing and reading back. *)
Definition good_word (w : gostring) : Prop := w <> [] /\ trimmed w /\ c_sp ∉ w.

Lemma words_good s : Forall good_word (words s).
Proof.
  unfold words. apply Forall_forall. intros w Hw. apply elem_of_list_filter in Hw as [Hn Hw].
  apply elem_of_list_fmap in Hw as (x & -> & Hx). split_and!; [done| |].
  - destruct (trim_spec x) as (? & ? & _ & _ & _ & H). done.
  - intros H. apply trim_sub in H. pose proof (split1_pieces c_sp s) as HF.
    rewrite Forall_forall in HF. apply (HF _ Hx H).
Qed.
Lemma words_sub s w c : w ∈ words s -> c ∈ w -> c ∈ s.
Proof.
  unfold words. intros Hw Hc. apply elem_of_list_filter in Hw as [_ Hw].
  apply elem_of_list_fmap in Hw as (x & -> & Hx). apply trim_sub in Hc.
  rewrite <- (join_split1 c_sp s). revert Hx. generalize (split1 c_sp s). intros l.
  induction l as [|y l IH]; intros Hx; [inversion Hx|]. destruct l as [|z l].
  - apply elem_of_list_singleton in Hx as ->. done.
  - change (strjoin [c_sp] (y :: z :: l)) with (y ++ [c_sp] ++ strjoin [c_sp] (z :: l)).
    apply elem_of_cons in Hx as [->|Hx]; rewrite !elem_of_app; auto.
Qed.

Lemma words_join ws : Forall good_word ws -> words (strjoin [c_sp] ws) = ws.
Proof.
  intros H. unfold words. destruct ws as [|w ws]; [done|].
  rewrite split1_join; [|done|eapply Forall_impl; [exact H|intros x Hx; apply Hx]].
  revert H. generalize (w :: ws). intros l H. induction H as [|x l (Hn & Ht & _) Hl IH]; [done|].
  cbn [map]. rewrite trim_trimmed by done. rewrite filter_cons_True by done. congruence.
Qed.
