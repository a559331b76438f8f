(** The position matcher meets the contract of the stack lexer. *)
From Coq Require Import Lia.
From Verif.model Require Import RegexPos.
From Verif.spec Require Import StackSpec.

Definition within (s s' : gostring) (c c' : pcaps) : Prop :=
  length s' <= length s /\ exists more, c' = more ++ c /\ forall n a b, (n, (a, b)) ∈ more -> b <= a <= length s.
Lemma within_refl s c : within s s c c.
Proof. split; [done|]. exists []. split; [done|]. intros n a b H. by apply elem_of_nil in H. Qed.
Lemma within_trans s s1 s2 c c1 c2 : within s s1 c c1 -> within s1 s2 c1 c2 -> within s s2 c c2.
Proof.
  intros [H1 (m1 & -> & H2)] [H3 (m2 & -> & H4)]. split; [lia|]. exists (m2 ++ m1). split; [by rewrite app_assoc|].
  intros n a b [H|H]%elem_of_app; [|by eapply H2]. apply H4 in H. lia.
Qed.
Lemma pstar_within step : (forall s c s' c', (s', c') ∈ step s c -> within s s' c c') ->
  forall fuel s c s' c', (s', c') ∈ pstar_match step fuel s c -> within s s' c c'.
Proof.
  intros Hs. induction fuel as [|f IH]; intros s c s' c'; cbn [pstar_match].
  - intros [= -> ->]%elem_of_list_singleton. apply within_refl.
  - intros [H|H]%elem_of_app; [|apply elem_of_list_singleton in H as [= -> ->]; apply within_refl].
    apply elem_of_list_In, in_flat_map in H as ([s1 c1] & H1 & H2). apply elem_of_list_In in H1.
    destruct (length s1 <? length s); [|done]. apply elem_of_list_In in H2.
    eapply within_trans; [by apply Hs|by apply IH].
Qed.
Lemma pmatch_within r : forall s c s' c', (s', c') ∈ pmatch r s c -> within s s' c c'.
Proof.
  induction r as [|p|a IHa b IHb|a IHa b IHb|a IHa|n a IHa|]; intros s c s' c'; cbn [pmatch].
  - intros [= -> ->]%elem_of_list_singleton. apply within_refl.
  - destruct s as [|x t]; [by intros ?%elem_of_nil|]. destruct (p x); [|by intros ?%elem_of_nil].
    intros [= -> ->]%elem_of_list_singleton. split; [cbn; lia|]. exists []. split; [done|]. intros ? ? ? H. by apply elem_of_nil in H.
  - intros H. apply elem_of_list_In, in_flat_map in H as ([s1 c1] & H1 & H2). apply elem_of_list_In in H1, H2.
    eapply within_trans; [by apply IHa|by apply IHb].
  - intros [H|H]%elem_of_app; [by apply IHa|by apply IHb].
  - apply pstar_within. done.
  - intros H. apply elem_of_list_In, in_map_iff in H as ([s1 c1] & [= <- <-] & H). apply elem_of_list_In in H.
    destruct (IHa _ _ _ _ H) as [H1 (more & -> & H2)]. split; [done|]. exists ((n, (length s, length s1)) :: more). split; [done|].
    intros k x y [[= -> -> ->]|H3]%elem_of_cons; [done|]. by eapply H2.
  - destruct s; [|by intros ?%elem_of_nil]. intros [= -> ->]%elem_of_list_singleton. apply within_refl.
Qed.

Lemma find_pos_spec r s :
  match find_pos r s with
  | Some (i, e, c) => i <= length s /\ (exists s' rest, pmatch r (drop i s) [] = (s', c) :: rest /\ length s' = e)
      /\ forall k, k < i -> pmatch r (drop k s) [] = []
  | None => forall k, k <= length s -> pmatch r (drop k s) [] = []
  end.
Proof.
  induction s as [|x t IH]; cbn [find_pos].
  - destruct (pmatch r [] []) as [|[s' c] rest] eqn:E.
    + intros k Hk. by rewrite drop_nil.
    + split; [done|]. split; [exists s', rest; done|]. intros k Hk. lia.
  - destruct (pmatch r (x :: t) []) as [|[s' c] rest] eqn:E.
    + destruct (find_pos r t) as [[[i e] c]|].
      * destruct IH as (H1 & H2 & H3). split; [cbn; lia|]. split; [done|]. intros [|k] Hk; [done|]. apply H3. lia.
      * intros [|k] Hk; [done|]. apply IH. cbn in Hk. lia.
    + split; [lia|]. split; [exists s', rest; done|]. intros k Hk. lia.
Qed.
Lemma pgroup_in n c a b : pgroup n c = Some (a, b) -> (n, (a, b)) ∈ c.
Proof.
  induction c as [|[k v] c IH]; [done|]. cbn [pgroup]. destruct (Nat.eqb_spec n k) as [->|].
  - intros [= ->]. left.
  - intros H. right. by apply IH.
Qed.
Definition pos_groups (len n : nat) (c : pcaps) : list (option (nat * nat)) :=
  map (fun k => match pgroup k c with Some (a, b) => Some (len - a, len - b) | None => None end) (seq 1 n).
Lemma srx_at r n s : at_match (srx_of r n) s =
  match pmatch r s [] with
  | [] => None
  | (s', c) :: _ => Some (SMatch 0 (length s - length s') (pos_groups (length s) n c))
  end.
Proof.
  unfold at_match. cbn [sx_find srx_of]. pose proof (find_pos_spec r s) as H. destruct (find_pos r s) as [[[i e] c]|].
  - destruct H as (H1 & (s' & rest & H2 & <-) & H3). cbn [sm_i]. destruct i as [|i].
    + rewrite drop_0 in H2. rewrite H2. done.
    + specialize (H3 0 ltac:(lia)). rewrite drop_0 in H3. by rewrite H3.
  - specialize (H 0 ltac:(lia)). rewrite drop_0 in H. by rewrite H.
Qed.
Lemma srx_of_ok r n : s_no_lookbehind (srx_of r n).
Proof.
  split.
  - intros s m. cbn [sx_find srx_of]. pose proof (find_pos_spec r s) as H. destruct (find_pos r s) as [[[i e] c]|]; [|done].
    destruct H as (H1 & (s' & rest & H2 & <-) & _). intros [= <-].
    destruct (pmatch_within r (drop i s) [] s' c) as [H3 (more & E & H4)]; [rewrite H2; left|]. rewrite app_nil_r in E. subst more.
    rewrite drop_length in *. split; cbn; [lia|]. intros a b Hab.
    apply elem_of_list_In, in_map_iff in Hab as (k & Hk & _). destruct (pgroup k c) as [[x y]|] eqn:Eg; [|done].
    injection Hk as <- <-. apply pgroup_in in Eg. apply H4 in Eg. lia.
  - intros s. cbn [sx_find srx_of]. pose proof (find_pos_spec r s) as H. destruct (find_pos r s) as [[[i e] c]|].
    + destruct H as (H1 & (s' & rest & H2 & <-) & H3). cbn [sm_i]. split.
      * rewrite srx_at, H2. eexists. split; [done|].
        destruct (pmatch_within r (drop i s) [] s' c) as [H4 (more & E & H5)]; [rewrite H2; left|]. rewrite app_nil_r in E. subst more.
        unfold sshift. cbn [sm_i sm_j sm_groups]. rewrite drop_length in *. f_equal; [lia|lia|].
        unfold pos_groups. rewrite map_map. apply map_ext. intros k. destruct (pgroup k c) as [[x y]|] eqn:Eg; [|done].
        apply pgroup_in in Eg. apply H5 in Eg. do 2 f_equal; lia.
      * intros k Hk. rewrite srx_at, H3 by done. done.
    + intros k Hk. rewrite srx_at, H by done. done.
Qed.
