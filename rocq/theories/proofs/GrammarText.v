(** grammar.New: meaning of the text, and round trip with String. *)
From Coq Require Import String Lia.
From Verif.model Require Import GrammarGo.
From Verif.spec Require Import GrammarSpec.
From Verif.proofs Require Import SetProofs StringProofs GrammarProofs.

Notation sp2 := (split2 c_minus c_gt).

Lemma ab_ne : c_minus <> c_gt.
Proof. done. Qed.
Lemma arrow_free_sep s : arrow_free s <-> sep_free c_minus c_gt s.
Proof. done. Qed.

Lemma sp2_app x y : sp2 (x ++ L "->" ++ y) = sp2 x ++ sp2 y.
Proof.
  remember (length x) as n eqn:Hn. assert (Hle : length x <= n) by lia. clear Hn. revert x Hle.
  induction n as [|n IH]; intros x Hle.
  - destruct x; [done|simpl in Hle; lia].
  - destruct x as [|c [|d x]]; [done| |].
    + change ([c] ++ L "->" ++ y) with (c :: c_minus :: c_gt :: y). rewrite split2_cons2.
      assert (((c =? c_minus) && (c_minus =? c_gt))%N = false) as -> by (rewrite andb_comm; done). done.
    + change ((c :: d :: x) ++ L "->" ++ y) with (c :: d :: (x ++ L "->" ++ y)). rewrite !split2_cons2.
      destruct ((c =? c_minus) && (d =? c_gt))%N.
      * rewrite IH; [done|]. simpl in Hle. lia.
      * change (d :: x ++ L "->" ++ y) with ((d :: x) ++ L "->" ++ y). rewrite IH by (simpl in *; lia).
        pose proof (split2_ne c_minus c_gt (d :: x)). destruct (sp2 (d :: x)); done.
Qed.

Lemma nonspace_minus : is_space c_minus = false. Proof. done. Qed.
Lemma nonspace_gt : is_space c_gt = false. Proof. done. Qed.

Lemma arrow_free_sub x s y : arrow_free (x ++ s ++ y) -> arrow_free s.
Proof.
  intros H (a & b & ->). apply H. exists (x ++ a), (b ++ y). rewrite <- !app_assoc. done.
Qed.
(** Arrows cannot straddle a code point that is neither - nor >. *)
Lemma arrow_free_mid u c v : c <> c_minus -> c <> c_gt -> arrow_free u -> arrow_free v -> arrow_free (u ++ c :: v).
Proof.
  intros Hm Hg. induction u as [|d u IH]; intros Hu Hv (a & b & E).
  - destruct a as [|e a]; simpl in E.
    + injection E as E _. done.
    + injection E as _ E. apply Hv. exists a, b. done.
  - destruct a as [|e a]; cbn [app] in E.
    + injection E as -> E. destruct u as [|f u].
      * cbn [app] in E. injection E as E _. done.
      * cbn [app] in E. injection E as -> E. apply Hu. exists [], u. done.
    + injection E as _ E. apply IH; [|done|exists a, b; done].
      intros (a' & b' & ->). apply Hu. exists (d :: a'), b'. done.
Qed.
Lemma arrow_free_nil : arrow_free [].
Proof. intros (a & b & E). destruct a; discriminate. Qed.
Lemma space_not c : is_space c = true -> c <> c_minus /\ c <> c_gt.
Proof. intros H. split; intros ->; discriminate. Qed.
Lemma arrow_free_spaces_l x s : spaces x -> arrow_free s -> arrow_free (x ++ s).
Proof.
  induction 1 as [|c x Hc Hx IH]; [done|]. intros Hs. apply space_not in Hc as [H1 H2].
  apply (arrow_free_mid [] c); auto using arrow_free_nil.
Qed.
Lemma arrow_free_spaces_r s y : spaces y -> arrow_free s -> arrow_free (s ++ y).
Proof.
  intros Hy. revert s. induction Hy as [|c y Hc Hy IH]; intros s Hs; [rewrite app_nil_r; done|].
  apply space_not in Hc as [H1 H2]. apply arrow_free_mid; auto.
  apply (IH []). apply arrow_free_nil.
Qed.
Lemma arrow_free_trim s : arrow_free s -> arrow_free (trim s).
Proof. destruct (trim_spec s) as (x & y & E & _). rewrite E at 1. apply arrow_free_sub. Qed.

Lemma trim_arrow a b : trim (a ++ L "->" ++ b) = trim_left a ++ L "->" ++ trim_right b.
Proof.
  destruct (trim_left_spec a) as (x & Ha & Hx & Ho). destruct (trim_right_spec b) as (y & Hb & Hy & Ho').
  rewrite Ha at 1. rewrite Hb at 1.
  replace ((x ++ trim_left a) ++ L "->" ++ trim_right b ++ y)
    with (x ++ (trim_left a ++ L "->" ++ trim_right b) ++ y) by (rewrite <- !app_assoc; done).
  apply trim_around; auto. split.
  - destruct (trim_left a); done.
  - rewrite !reverse_app. destruct (reverse (trim_right b)); done.
Qed.

(** The meaning of a line as a function; [None]: bad. *)
Definition line_fun (line : gostring) : option (option (option gostring * list gostring)) :=
  match trim line with
  | [] => Some None
  | _ =>
      match sp2 (trim line) with
      | [p0] => Some (Some (None, words p0))
      | [p0; p1] => Some (Some (match trim p0 with [] => None | t => Some t end, words p1))
      | _ => None
      end
  end.

Lemma line_fun_means line r : line_means line r -> line_fun line = Some r.
Proof.
  unfold line_fun. intros H. destruct H as [s Hb|s Hb Hf|a b Ha Hb Hbl|a b Ha Hb Hbl].
  - apply trim_nil_iff in Hb. rewrite Hb. done.
  - rewrite <- trim_nil_iff in Hb. pose proof (arrow_free_trim s Hf) as Hf'. apply arrow_free_sep in Hf'.
    rewrite (split2_free c_minus c_gt _ Hf'). rewrite words_trim. destruct (trim s); done.
  - rewrite trim_arrow, sp2_app.
    destruct (trim_left_spec a) as (x & Hx & _). destruct (trim_right_spec b) as (y & Hy & Hys & _).
    assert (arrow_free (trim_left a)) by (apply (arrow_free_sub x _ []); rewrite app_nil_r, <- Hx; done).
    assert (arrow_free (trim_right b)) by (apply (arrow_free_sub [] _ y); simpl; rewrite <- Hy; done).
    rewrite !(split2_free c_minus c_gt) by (apply arrow_free_sep; done). cbn [app].
    assert (trim (trim_left a) = []) as ->.
    { apply trim_nil_iff. apply trim_nil_iff in Hbl. unfold trim in Hbl.
      destruct (trim_right_spec (trim_left a)) as (z & Hz & Hzs & _). rewrite Hbl in Hz. rewrite Hz. done. }
    assert (words (trim_right b) = words b) as ->.
    { rewrite Hy at 2. rewrite words_spaces_r; done. }
    destruct (trim_left a); done.
  - rewrite trim_arrow, sp2_app.
    destruct (trim_left_spec a) as (x & Hx & Hxs & _). destruct (trim_right_spec b) as (y & Hy & Hys & _).
    assert (arrow_free (trim_left a)) by (apply (arrow_free_sub x _ []); rewrite app_nil_r, <- Hx; done).
    assert (arrow_free (trim_right b)) by (apply (arrow_free_sub [] _ y); simpl; rewrite <- Hy; done).
    rewrite !(split2_free c_minus c_gt) by (apply arrow_free_sep; done). cbn [app].
    assert (trim (trim_left a) = trim a) as ->.
    { rewrite Hx at 2. rewrite trim_spaces_l; done. }
    assert (words (trim_right b) = words b) as ->.
    { rewrite Hy at 2. rewrite words_spaces_r; done. }
    rewrite <- trim_nil_iff in Hbl. cbn [app].
    destruct (trim_left a) as [|? ?] eqn:E; destruct (trim a) eqn:E'; done.
Qed.

Lemma line_fun_bad line : line_bad line -> line_fun line = None.
Proof.
  intros (a & b & c & ->). unfold line_fun. rewrite trim_arrow.
  assert (Hr : exists c', trim_right (b ++ L "->" ++ c) = b ++ L "->" ++ c').
  { exists (trim_right c). destruct (trim_right_spec c) as (y & Hy & Hys & Ho). rewrite Hy at 1.
    replace (b ++ L "->" ++ trim_right c ++ y) with ((b ++ L "->" ++ trim_right c) ++ y) by (rewrite <- !app_assoc; done).
    rewrite trim_right_spaces by done. apply trim_right_ok. rewrite !reverse_app.
    destruct (reverse (trim_right c)); done. }
  destruct Hr as [c' ->]. rewrite !sp2_app.
  pose proof (split2_ne c_minus c_gt (trim_left a)). pose proof (split2_ne c_minus c_gt b). pose proof (split2_ne c_minus c_gt c').
  destruct (trim_left a ++ L "->" ++ b ++ L "->" ++ c') eqn:E; [destruct (trim_left a); discriminate|].
  assert (Hl : 3 <= length (sp2 (trim_left a) ++ sp2 b ++ sp2 c')).
  { rewrite !app_length. destruct (sp2 (trim_left a)); [done|]. destruct (sp2 b); [done|]. destruct (sp2 c'); [done|]. simpl. lia. }
  destruct (sp2 (trim_left a) ++ sp2 b ++ sp2 c') as [|? [|? [|? ?]]]; simpl in Hl; try lia. done.
Qed.

(** Each line is bad or has a meaning. *)
Lemma line_cases line : line_bad line \/ exists r, line_means line r.
Proof.
  destruct (decide (blank line)) as [Hb|Hb]; [right; exists None; constructor; done|].
  destruct (sep_cases c_minus c_gt ab_ne line) as [Hf|(x & y & -> & Hx)].
  - right. eexists. apply lm_plain; done.
  - destruct (sep_cases c_minus c_gt ab_ne y) as [Hy|(y1 & y2 & -> & Hy)].
    + right. destruct (decide (blank x)); eexists; [apply lm_more|apply lm_rule]; done.
    + left. exists x, y1, y2. done.
Qed.

Lemma line_fun_spec line :
  match line_fun line with None => line_bad line | Some r => line_means line r end.
Proof.
  destruct (line_cases line) as [H|[r H]].
  - rewrite (line_fun_bad _ H). done.
  - rewrite (line_fun_means _ _ H). done.
Qed.

(** Interning a text's words. *)
Lemma intern_words_spec strs : forall s vs s', set_wf s -> intern_words s strs = (vs, s') ->
  set_wf s' /\ set_le s s' /\ Forall (fun v => v < sym_count s') vs
  /\ prod_names s' vs = filter (fun w => w <> []) (map trim strs).
Proof.
  induction strs as [|x strs IH]; intros s vs s' Hw; cbn [intern_words map].
  - intros [= <- <-]. auto using set_le_refl.
  - destruct (trim x) as [|c t] eqn:Et.
    + intros E. rewrite filter_cons_False by (intros H; apply H; done). apply IH; done.
    + rewrite <- Et. destruct (set_str s (trim x)) as [v s1] eqn:E1.
      destruct (intern_words s1 strs) as [vs' s2] eqn:E2. intros [= <- <-].
      destruct (set_str_spec _ _ _ _ Hw E1) as (Hw1 & Hl1 & Hv & _).
      destruct (IH _ _ _ Hw1 E2) as (Hw2 & Hl2 & Hr & Hn).
      pose proof (set_le_lookup _ _ _ _ Hl2 Hv) as Hv2.
      split_and!; auto.
      * eapply set_le_trans; eauto.
      * constructor; [|done]. apply lookup_lt_Some in Hv2. done.
      * rewrite filter_cons_True by congruence. simpl. rewrite Hn. f_equal.
        unfold sym_name. rewrite Hv2. done.
Qed.

Lemma trim_and_split_spec s str vs s' : set_wf s -> trim_and_split s str = (vs, s') ->
  set_wf s' /\ set_le s s' /\ Forall (fun v => v < sym_count s') vs /\ prod_names s' vs = words str.
Proof. intros Hw H. rewrite <- words_trim. apply intern_words_spec; done. Qed.

Definition nt_is (s : set) (nt : option nat) (o : option gostring) : Prop :=
  match nt, o with
  | Some i, Some nm => symb2str s !! i = Some nm
  | None, None => True
  | _, _ => False
  end.
Lemma nt_is_le s s' nt o : set_le s s' -> nt_is s nt o -> nt_is s' nt o.
Proof. intros H. destruct nt, o; simpl; auto. apply set_le_lookup; done. Qed.

Lemma pfl_spec s line : set_wf s ->
  match line_fun line with
  | None => production_from_line s line = None
  | Some None => production_from_line s line = Some (None, None, s)
  | Some (Some (o, p)) => exists nt vs s', production_from_line s line = Some (nt, Some vs, s')
      /\ set_wf s' /\ set_le s s' /\ nt_is s' nt o /\ Forall (fun v => v < sym_count s') vs
      /\ prod_names s' vs = p
  end.
Proof.
  intros Hw. unfold line_fun, production_from_line. destruct (trim line) as [|c t]; [done|].
  destruct (sp2 (c :: t)) as [|p0 [|p1 [|? ?]]]; try done.
  - destruct (trim_and_split s p0) as [vs s'] eqn:E. destruct (trim_and_split_spec _ _ _ _ Hw E) as (? & ? & ? & ?).
    exists None, vs, s'. done.
  - destruct (trim p0) as [|d u] eqn:Et.
    + destruct (trim_and_split s p1) as [vs s'] eqn:E. destruct (trim_and_split_spec _ _ _ _ Hw E) as (? & ? & ? & ?).
      exists None, vs, s'. done.
    + destruct (set_str s (d :: u)) as [v s1] eqn:E1.
      destruct (set_str_spec _ _ _ _ Hw E1) as (Hw1 & Hl1 & Hv & _).
      destruct (trim_and_split s1 p1) as [vs s'] eqn:E. destruct (trim_and_split_spec _ _ _ _ Hw1 E) as (? & ? & ? & ?).
      exists (Some v), vs, s'. split_and!; auto.
      * eapply set_le_trans; eauto.
      * simpl. eapply set_le_lookup; eauto.
Qed.

Fixpoint lines_fun (lines : list gostring) (cur : option gostring) (A : amap) : option amap :=
  match lines with
  | [] => Some A
  | line :: r =>
      match line_fun line with
      | None => None
      | Some None => lines_fun r cur A
      | Some (Some (o, p)) =>
          let nt := match o with Some n => n | None => default (L "START") cur end in
          lines_fun r (Some nt) (am_add A nt p)
      end
  end.

Lemma new_loop_R lines : forall cur g A o, RO g A -> nt_is (gr_set g) cur o ->
  match lines_fun lines o A with
  | None => new_loop lines cur g = None
  | Some A' => exists g', new_loop lines cur g = Some g' /\ RO g' A'
  end.
Proof.
  induction lines as [|line lines IH]; intros cur g A o HR Hcur; cbn [lines_fun new_loop].
  - eauto.
  - destruct HR as [HR Hok]. pose proof (pfl_spec (gr_set g) line (R_set _ _ HR)) as Hp.
    destruct (line_fun line) as [[[no p]|]|].
    + destruct Hp as (nt & vs & s1 & -> & Hw1 & Hl1 & Hnt & Hr & Hn).
      destruct (match nt, cur with
                | Some v, _ => (v, s1)
                | None, Some c => (c, s1)
                | None, None => set_str s1 (L "START")
                end) as [c s2] eqn:Ec.
      assert (H : set_wf s2 /\ set_le s1 s2 /\ symb2str s2 !! c = Some (match no with Some n => n | None => default (L "START") o end)).
      { destruct nt as [v|], no as [n|]; try done.
        - injection Ec as <- <-. auto using set_le_refl.
        - destruct cur as [c'|], o as [n'|]; try done.
          + injection Ec as <- <-. split_and!; auto using set_le_refl. simpl. eapply set_le_lookup; [exact Hl1|exact Hcur].
          + destruct (set_str_spec _ _ _ _ Hw1 Ec) as (? & ? & ? & _). done. }
      destruct H as (Hw2 & Hl2 & Hc).
      pose proof (R_grow g A s2 HR Hw2 (set_le_trans _ _ _ Hl1 Hl2)) as HR2.
      assert (Hr2 : Forall (fun v => v < sym_count s2) vs).
      { eapply Forall_impl; [exact Hr|]. simpl. intros v Hv. pose proof (set_le_count _ _ Hl2). lia. }
      destruct (gr_add_idx_R _ A c _ vs HR2 Hc Hr2) as [HR3 Hs3]. simpl in HR3, Hs3.
      rewrite (prod_names_le s1 s2 vs Hl2 Hr), Hn in HR3.
      apply IH; [split; [exact HR3|apply am_add_ok; done]|]. rewrite Hs3. exact Hc.
    + rewrite Hp. apply IH; [|done]. split; [|done]. rewrite set_le_eq. done.
    + rewrite Hp. done.
Qed.

Lemma gr_new_R def :
  match lines_fun (split1 c_nl def) None [] with
  | None => gr_new def = None
  | Some A => exists g, gr_new def = Some g /\ RO g A
  end.
Proof. apply new_loop_R; [split; [apply gr_empty_R|apply am_ok_nil]|done]. Qed.

Lemma lines_fun_mean lines : forall cur A A', lines_fun lines cur A = Some A' <-> lines_mean lines cur A A'.
Proof.
  induction lines as [|s r IH]; intros cur A A'; cbn [lines_fun].
  - split; [intros [= <-]; constructor|]. intros H. inversion H; done.
  - split.
    + pose proof (line_fun_spec s) as Hs. destruct (line_fun s) as [[[[n|] p]|]|]; intros H.
      * eapply lsm_rule; [exact Hs|]. apply IH; done.
      * eapply lsm_more; [exact Hs|]. apply IH; done.
      * eapply lsm_blank; [exact Hs|]. apply IH; done.
      * discriminate.
    + intros H. inversion H as [|? ? ? ? ? Hl Hr|? ? ? ? ? ? Hl ? Hr|? ? ? ? ? ? ? Hl Hr]; subst;
        rewrite (line_fun_means _ _ Hl); apply IH; done.
Qed.
Lemma lines_fun_None lines : forall cur A, lines_fun lines cur A = None <-> exists l, l ∈ lines /\ line_bad l.
Proof.
  induction lines as [|s r IH]; intros cur A; cbn [lines_fun].
  - split; [done|]. intros (l & H & _). inversion H.
  - pose proof (line_fun_spec s) as Hs. destruct (line_fun s) as [[[n p]|]|] eqn:E.
    + rewrite IH. split; intros (l & Hin & Hb); exists l; (split; [|done]); [right; done|].
      apply elem_of_cons in Hin as [->|]; [|done]. apply line_fun_bad in Hb. congruence.
    + rewrite IH. split; intros (l & Hin & Hb); exists l; (split; [|done]); [right; done|].
      apply elem_of_cons in Hin as [->|]; [|done]. apply line_fun_bad in Hb. congruence.
    + split; [|done]. intros _. exists s. split; [left|done].
Qed.

Lemma text_means_fun def A : text_means def A <-> lines_fun (split1 c_nl def) None [] = Some A.
Proof.
  split.
  - intros (lines & -> & Hne & HF & Hm). rewrite split1_join by done. apply lines_fun_mean; done.
  - intros H. exists (split1 c_nl def). rewrite join_split1. split_and!;
      [done|apply split1_ne|apply split1_pieces|apply lines_fun_mean; done].
Qed.

Lemma gr_new_means def g : gr_new def = Some g -> exists A, text_means def A /\ RO g A.
Proof.
  intros H. pose proof (gr_new_R def) as HN. destruct (lines_fun (split1 c_nl def) None []) as [A|] eqn:E.
  - destruct HN as (g' & Hg & HR). assert (g' = g) as -> by congruence. exists A. split; [|done].
    apply text_means_fun; done.
  - congruence.
Qed.
Lemma gr_new_None def : gr_new def = None <-> exists l, l ∈ split1 c_nl def /\ line_bad l.
Proof.
  rewrite <- (lines_fun_None _ None []). pose proof (gr_new_R def) as HN.
  destruct (lines_fun (split1 c_nl def) None []) as [A|]; [|done].
  destruct HN as (g & -> & _). done.
Qed.
Lemma text_means_new def A : text_means def A -> exists g, gr_new def = Some g /\ RO g A.
Proof. intros H. apply text_means_fun in H. pose proof (gr_new_R def) as HN. rewrite H in HN. done. Qed.

(** ** Round trip *)
Definition clean (w : gostring) : Prop := c_nl ∉ w /\ arrow_free w.
Definition good_sym (w : gostring) : Prop := good_word w /\ clean w.
Definition good_nt (k : gostring) : Prop := k <> [] /\ trimmed k /\ clean k.
Definition good_entry (kp : gostring * list (list gostring)) : Prop :=
  good_nt (fst kp) /\ Forall (Forall good_sym) (snd kp).

Lemma clean_trim s : clean s -> clean (trim s).
Proof. intros [H1 H2]. split; [intros H; apply trim_sub in H; done|apply arrow_free_trim; done]. Qed.

Lemma in_split_infix c s x : x ∈ split1 c s -> exists a b, s = a ++ x ++ b.
Proof.
  intros Hx. cut (exists a b, strjoin [c] (split1 c s) = a ++ x ++ b); [rewrite join_split1; done|].
  revert Hx. generalize (split1 c s). intros l Hx.
  induction l as [|y l IH]; [inversion Hx|]. destruct l as [|z l].
  - apply elem_of_list_singleton in Hx as ->. exists [], []. simpl. rewrite app_nil_r. done.
  - change (strjoin [c] (y :: z :: l)) with (y ++ [c] ++ strjoin [c] (z :: l)).
    apply elem_of_cons in Hx as [->|Hx].
    + exists [], ([c] ++ strjoin [c] (z :: l)). done.
    + destruct (IH Hx) as (a & b & ->). exists (y ++ [c] ++ a), b. rewrite <- !app_assoc. done.
Qed.

Lemma words_clean s : clean s -> Forall good_sym (words s).
Proof.
  intros [H1 H2]. pose proof (words_good s) as Hg. rewrite Forall_forall in Hg |- *.
  intros w Hw. split; [auto|]. split.
  - intros H. apply H1. eapply words_sub; eauto.
  - unfold words in Hw. apply elem_of_list_filter in Hw as [_ Hw].
    apply elem_of_list_fmap in Hw as (x & -> & Hx). apply arrow_free_trim.
    apply in_split_infix in Hx as (a & b & ->). eapply arrow_free_sub; eauto.
Qed.

Lemma am_add_good A nt p : Forall good_entry A -> good_nt nt -> Forall good_sym p -> Forall good_entry (am_add A nt p).
Proof.
  intros HA Hn Hp. induction HA as [|[k ps] A [Hk Hps] HA IH]; simpl.
  - constructor; [|done]. split; [done|]. simpl. constructor; done.
  - destruct (decide (k = nt)) as [->|]; constructor; auto.
    split; [done|]. simpl in *. apply Forall_app. split; [done|]. constructor; done.
    split; done.
Qed.

Lemma START_good : good_nt (L "START").
Proof.
  split_and!; [done|split; done|split].
  - intros H. repeat (apply elem_of_cons in H as [H|H]; [discriminate|]). inversion H.
  - intros (a & b & E). assert (H : c_minus ∈ L "START") by (rewrite E, elem_of_app; right; left).
    repeat (apply elem_of_cons in H as [H|H]; [discriminate|]). inversion H.
Qed.

Lemma lines_fun_good lines : forall cur A A', Forall (fun l => c_nl ∉ l) lines ->
  Forall good_entry A -> (forall n, cur = Some n -> good_nt n) ->
  lines_fun lines cur A = Some A' -> Forall good_entry A'.
Proof.
  induction lines as [|s r IH]; intros cur A A' HF HA Hc; cbn [lines_fun].
  - intros [= <-]. done.
  - apply Forall_cons_1 in HF as [Hs HF]. pose proof (line_fun_spec s) as Hm.
    destruct (line_fun s) as [[[o p]|]|]; [|apply IH; done|done].
    assert (H : Forall good_sym p /\ forall n, o = Some n -> good_nt n).
    { inversion Hm as [|s' Hb Hf|a b Ha Hb Hbl|a b Ha Hb Hbl]; subst.
      - split; [|done]. apply words_clean. split; done.
      - split; [|done]. apply words_clean. split; [|done]. intros H. apply Hs. rewrite !elem_of_app. auto.
      - split.
        + apply words_clean. split; [|done]. intros H. apply Hs. rewrite !elem_of_app. auto.
        + intros n [= <-]. rewrite <- trim_nil_iff in Hbl. split_and!; [done| |].
          * destruct (trim_spec a) as (? & ? & _ & _ & _ & H). done.
          * apply clean_trim. split; [|done]. intros H. apply Hs. rewrite !elem_of_app. auto. }
    destruct H as [Hp Hn].
    assert (Hg : good_nt (match o with Some n => n | None => default (L "START") cur end)).
    { destruct o as [n|]; [auto|]. destruct cur as [n|]; [simpl; auto|apply START_good]. }
    apply IH; [done|apply am_add_good; done|]. intros n [= <-]. done.
Qed.

Lemma spaces_replicate n : spaces (replicate n c_sp).
Proof. induction n; simpl; constructor; done. Qed.

Lemma arrow_free_join ws : Forall good_sym ws -> arrow_free (strjoin [c_sp] ws).
Proof.
  induction 1 as [|w ws [_ [_ Hw]] Hws IH]; [apply arrow_free_nil|].
  destruct ws as [|x ws]; [done|].
  change (strjoin [c_sp] (w :: x :: ws)) with (w ++ c_sp :: strjoin [c_sp] (x :: ws)).
  apply arrow_free_mid; done.
Qed.
Lemma nl_join sep ws : c_nl ∉ sep -> Forall (fun w => c_nl ∉ w) ws -> c_nl ∉ strjoin sep ws.
Proof.
  intros Hs. induction 1 as [|w ws Hw Hws IH]; [apply not_elem_of_nil|].
  destruct ws as [|x ws]; [done|].
  change (strjoin sep (w :: x :: ws)) with (w ++ sep ++ strjoin sep (x :: ws)).
  rewrite !not_elem_of_app. done.
Qed.

Section Row.
  Variable w : nat.
  Definition row (nm : gostring) (p : list gostring) : gostring :=
    pad_right w nm ++ L " -> " ++ strjoin [c_sp] p.

  Lemma row_split nm p : row nm p = (pad_right w nm ++ [c_sp]) ++ L "->" ++ ([c_sp] ++ strjoin [c_sp] p).
  Proof. unfold row. rewrite <- !app_assoc. done. Qed.

  Lemma row_spaces n : spaces (replicate n c_sp ++ [c_sp]).
  Proof. apply Forall_app. split; [apply spaces_replicate|constructor; [done|constructor]]. Qed.

  Lemma row_rule nm p : good_nt nm -> Forall good_sym p -> line_means (row nm p) (Some (Some nm, p)).
  Proof.
    intros (Hne & Ht & _ & Haf) Hp. rewrite row_split.
    set (a := pad_right w nm ++ [c_sp]). set (b := [c_sp] ++ strjoin [c_sp] p).
    assert (Ea : a = nm ++ (replicate (w - length nm) c_sp ++ [c_sp])) by (unfold a, pad_right; rewrite <- app_assoc; done).
    assert (Hta : trim a = nm) by (rewrite Ea, trim_spaces_r, trim_trimmed; auto using row_spaces).
    assert (Hwb : words b = p).
    { unfold b. rewrite words_spaces_l by (constructor; [done|constructor]). apply words_join.
      eapply Forall_impl; [exact Hp|]. intros x Hx; apply Hx. }
    replace (Some (Some nm, p)) with (Some (Some (trim a), words b)) by congruence. apply lm_rule.
    - rewrite Ea. apply arrow_free_spaces_r; [apply row_spaces|done].
    - apply (arrow_free_mid [] c_sp); auto using arrow_free_nil, arrow_free_join.
    - rewrite <- trim_nil_iff, Hta. done.
  Qed.

  Lemma row_more p : Forall good_sym p -> line_means (row [] p) (Some (None, p)).
  Proof.
    intros Hp. rewrite row_split.
    set (a := pad_right w [] ++ [c_sp]). set (b := [c_sp] ++ strjoin [c_sp] p).
    assert (Hsa : spaces a) by (apply (row_spaces _)).
    assert (Hwb : words b = p).
    { unfold b. rewrite words_spaces_l by (constructor; [done|constructor]). apply words_join.
      eapply Forall_impl; [exact Hp|]. intros x Hx; apply Hx. }
    replace (Some (@None gostring, p)) with (Some (@None gostring, words b)) by congruence. apply lm_more.
    - rewrite <- (app_nil_r a). apply arrow_free_spaces_l; [done|apply arrow_free_nil].
    - apply (arrow_free_mid [] c_sp); auto using arrow_free_nil, arrow_free_join.
    - done.
  Qed.

  Lemma row_nl nm p : c_nl ∉ nm -> Forall good_sym p -> c_nl ∉ row nm p.
  Proof.
    intros Hn Hp. unfold row, pad_right. rewrite !not_elem_of_app. split_and!.
    - done.
    - intros H. apply elem_of_replicate in H as [H _]. discriminate.
    - intros H. repeat (apply elem_of_cons in H as [H|H]; [discriminate|]). inversion H.
    - apply nl_join.
      + intros H. apply elem_of_list_singleton in H. discriminate.
      + eapply Forall_impl; [exact Hp|]. intros x Hx. apply Hx.
  Qed.

  Definition rows (kp : gostring * list (list gostring)) : list gostring :=
    match snd kp with [] => [] | p :: r => row (fst kp) p :: map (row []) r end.

  Lemma am_add_snoc A k ps p : k ∉ map fst A -> am_add (A ++ [(k, ps)]) k p = A ++ [(k, ps ++ [p])].
  Proof.
    induction A as [|[k' qs] A IH]; simpl; intros H.
    - rewrite decide_True; done.
    - apply not_elem_of_cons in H as [H1 H2]. rewrite decide_False by congruence. rewrite IH; done.
  Qed.
  Lemma am_add_new A k p : k ∉ map fst A -> am_add A k p = A ++ [(k, [p])].
  Proof.
    induction A as [|[k' qs] A IH]; simpl; intros H; [done|].
    apply not_elem_of_cons in H as [H1 H2]. rewrite decide_False by congruence. rewrite IH; done.
  Qed.

  Lemma more_rows k A rest : k ∉ map fst A -> forall r ps, Forall (Forall good_sym) r ->
    lines_fun (map (row []) r ++ rest) (Some k) (A ++ [(k, ps)]) = lines_fun rest (Some k) (A ++ [(k, ps ++ r)]).
  Proof.
    intros Hk. induction r as [|p r IH]; intros ps HF; cbn [map app].
    - rewrite app_nil_r. done.
    - apply Forall_cons_1 in HF as [Hp HF]. cbn [lines_fun].
      rewrite (line_fun_means _ _ (row_more p Hp)). cbn [default from_option id].
      rewrite am_add_snoc by done. rewrite IH by done. rewrite <- app_assoc. done.
  Qed.

  Lemma all_rows B : forall A cur, NoDup (map fst A ++ map fst B) -> Forall good_entry B -> Forall (fun kp => snd kp <> []) B ->
    lines_fun (List.concat (map rows B)) cur A = Some (A ++ B).
  Proof.
    induction B as [|[k ps] B IH]; intros A cur Hnd Hg Hne; cbn [map List.concat].
    - rewrite app_nil_r. done.
    - apply Forall_cons_1 in Hg as [[Hk Hps] Hg]. apply Forall_cons_1 in Hne as [Hn Hne]. simpl in *.
      destruct ps as [|p r]; [done|]. apply Forall_cons_1 in Hps as [Hp Hr].
      unfold rows at 1. cbn [fst snd app lines_fun].
      rewrite (line_fun_means _ _ (row_rule k p Hk Hp)).
      assert (HkA : k ∉ map fst A).
      { intros H. apply NoDup_app in Hnd as (_ & Hd & _). apply (Hd k H). left. }
      rewrite am_add_new by done. rewrite more_rows by done. rewrite IH.
      + rewrite <- app_assoc. done.
      + rewrite map_app, <- app_assoc. done.
      + done.
      + done.
  Qed.
End Row.

Lemma am_text_rows A : am_text A = strjoin [c_nl] (List.concat (map (rows (fold_left (fun m kp => Nat.max m (length (fst kp))) A 0)) A)).
Proof. done. Qed.

Lemma text_round_trip A : am_ok A -> Forall good_entry A -> lines_fun (split1 c_nl (am_text A)) None [] = Some A.
Proof.
  intros [Hnd Hne] Hg. rewrite am_text_rows. set (w := fold_left _ A 0). clearbody w.
  destruct A as [|kp A]; [done|].
  rewrite split1_join.
  - rewrite all_rows; done.
  - destruct kp as [k [|p r]]; [apply Forall_cons_1 in Hne as [H _]; done|]. done.
  - apply Forall_concat. apply Forall_forall. intros l Hl.
    apply elem_of_list_fmap in Hl as ([k ps] & -> & Hin).
    rewrite Forall_forall in Hg. destruct (Hg _ Hin) as [Hk Hps]. simpl in *.
    destruct ps as [|p r]; [constructor|]. apply Forall_cons_1 in Hps as [Hp Hr].
    unfold rows. simpl. constructor.
    + apply row_nl; [apply Hk|done].
    + apply Forall_forall. intros x Hx. apply elem_of_list_fmap in Hx as (q & -> & Hq).
      apply row_nl; [apply not_elem_of_nil|]. rewrite Forall_forall in Hr. auto.
Qed.

Lemma gr_new_round_trip def g : gr_new def = Some g ->
  exists g', gr_new (gr_string g) = Some g' /\ same_grammar (gr_view g') (gr_view g) /\ gr_string g' = gr_string g.
Proof.
  intros H. destruct (gr_new_means _ _ H) as (A & Hm & HR & Hok).
  apply text_means_fun in Hm.
  assert (Hg : Forall good_entry A).
  { eapply lines_fun_good; [| | |exact Hm]; [apply split1_pieces|constructor|done]. }
  pose proof (gr_string_R _ _ HR Hok) as Hs.
  destruct (text_means_new (am_text A) A) as (g' & Hg' & HR' & _).
  { apply text_means_fun. apply text_round_trip; done. }
  exists g'. rewrite Hs. split_and!; [done| |].
  - destruct (gr_view_R _ _ HR) as [V1 V2], (gr_view_R _ _ HR') as [W1 W2].
    split; [congruence|]. intros s. rewrite V2, W2. done.
  - rewrite (gr_string_R _ _ HR' Hok). done.
Qed.
