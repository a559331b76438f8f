(** Generated names can be read back when no symbol holds an underscore. *)
From Coq Require Import String Lia.
From Verif.spec Require Import RegexGramSpec.
From Verif.proofs Require Import RegexGramProofs.
Local Open Scope nat_scope.
Local Open Scope list_scope.

Definition letter (c : N) : Prop := word_char c = true /\ c <> 95%N.
Definition ok (e : rx) : Prop := proper e /\ forall s, s ∈ symbols e -> 95%N ∉ s.
Definition starts (P : N -> Prop) (k : gostring) : Prop := match k with [] => False | c :: _ => P c end.
Definition f_atom (k : gostring) : Prop := ~ starts letter k.
Definition f_simple (k : gostring) : Prop := ~ starts letter k /\ ~ starts (fun c => c = 63%N \/ c = 42%N) k.
Definition f_item (k : gostring) : Prop := f_simple k /\ ~ starts (fun c => c = 124%N) k.

Lemma letters_inj v : forall v' k k', Forall letter v -> Forall letter v' -> f_atom k -> f_atom k' ->
  v ++ k = v' ++ k' -> v = v' /\ k = k'.
Proof.
  induction v as [|c v IH]; intros [|c' v'] k k' H H' Hk Hk' E.
  - done.
  - cbn in E. subst k. inversion H'; subst. destruct Hk. done.
  - cbn in E. subst k'. inversion H; subst. destruct Hk'. done.
  - cbn in E. injection E as -> E. inversion H; inversion H'; subst. destruct (IH v' k k') as [-> ->]; done.
Qed.
Lemma ok_sym v : ok (XSym v) -> v <> [] /\ Forall letter v.
Proof.
  intros [[Hn Hw] Hu]. split; [done|]. specialize (Hu v ltac:(left)). rewrite Forall_forall in *. intros c Hc.
  split; [auto|]. intros ->. done.
Qed.
Lemma ok_sub_opt e : ok (XOpt e) -> atom e /\ ok e.
Proof. intros [[H1 H2] H3]. split; [done|split; done]. Qed.
Lemma ok_sub_rep e : ok (XRep e) -> atom e /\ ok e.
Proof. intros [[H1 H2] H3]. split; [done|split; done]. Qed.
Lemma foldr_and {A} (Q : A -> Prop) l : foldr (fun e P => Q e /\ P) True l <-> Forall Q l.
Proof. induction l as [|x l IH]; cbn; [split; [constructor|done]|]. rewrite IH, Forall_cons. done. Qed.
Lemma ok_sub_group l : ok (XGroup l) -> Forall ok l.
Proof.
  intros [H1 H2]. cbn [proper] in H1. rewrite foldr_and in H1. rewrite Forall_forall in *. intros x Hx. split; [auto|].
  intros s Hs. apply H2. cbn [symbols]. apply in_fm. eauto.
Qed.
Lemma ok_sub_or l : ok (XOr l) -> 2 <= length l /\ Forall (fun e => no_bar e /\ ok e) l.
Proof.
  intros [H1 H2]. cbn [proper] in H1. rewrite (foldr_and (fun e => no_bar e /\ proper e)) in H1. destruct H1 as [Hl H1]. split; [done|].
  rewrite Forall_forall in *. intros x Hx. destruct (H1 x Hx). split; [done|split; [done|]].
  intros s Hs. apply H2. cbn [symbols]. apply in_fm. eauto.
Qed.

Definition PA (e : rx) : Prop := atom e -> ok e -> forall e' k k', atom e' -> ok e' -> f_atom k -> f_atom k' ->
  written e ++ k = written e' ++ k' -> e = e' /\ k = k'.
Definition PS (e : rx) : Prop := no_bar e -> ok e -> forall e' k k', no_bar e' -> ok e' -> f_simple k -> f_simple k' ->
  written e ++ k = written e' ++ k' -> e = e' /\ k = k'.
Definition PI (e : rx) : Prop := ok e -> forall e' k k', ok e' -> f_item k -> f_item k' ->
  written e ++ k = written e' ++ k' -> e = e' /\ k = k'.

Lemma word_not c : word_char c = true -> c <> 40%N /\ c <> 41%N /\ c <> 42%N /\ c <> 63%N /\ c <> 124%N.
Proof. intros H. split_and!; intros ->; vm_compute in H; done. Qed.

(** An expression without | is an atom and an operator. *)
Definition split_op (e : rx) : rx * gostring :=
  match e with XOpt a => (a, L "?") | XRep a => (a, L "*") | a => (a, []) end.
Lemma split_op_spec e : no_bar e -> ok e -> atom (fst (split_op e)) /\ ok (fst (split_op e))
  /\ written e = written (fst (split_op e)) ++ snd (split_op e)
  /\ (snd (split_op e) = [] \/ snd (split_op e) = L "?" \/ snd (split_op e) = L "*").
Proof.
  destruct e as [v|e|e|l|l]; intros Hb Hok; cbn [split_op fst snd]; [| | |done|].
  - rewrite app_nil_r. split_and!; auto; done.
  - apply ok_sub_opt in Hok as [Ha Ho]. split_and!; auto.
  - apply ok_sub_rep in Hok as [Ha Ho]. split_and!; auto.
  - rewrite app_nil_r. split_and!; auto; done.
Qed.
Lemma split_op_inj e e' : split_op e = split_op e' -> no_bar e -> no_bar e' ->
  atom (fst (split_op e)) -> e = e'.
Proof. destruct e, e'; cbn; intros [=] ? ? ?; subst; try done. Qed.
Lemma letter_op c : letter c -> c <> 63%N /\ c <> 42%N /\ c <> 124%N.
Proof. intros [H _]. apply word_not in H. tauto. Qed.
Lemma f_after_op m k : (m = [] \/ m = L "?" \/ m = L "*") -> f_simple k -> f_atom (m ++ k).
Proof.
  intros [->|[->| ->]] [H _]; [done| |]; cbn; intros Hl; apply letter_op in Hl; tauto.
Qed.
Lemma simple_from_atom e : PA (fst (split_op e)) -> PS e.
Proof.
  intros HA Hb Hok e' k k' Hb' Hok' Hk Hk' E.
  destruct (split_op_spec e Hb Hok) as (A1 & O1 & W1 & M1). destruct (split_op_spec e' Hb' Hok') as (A2 & O2 & W2 & M2).
  rewrite W1, W2, <- !app_assoc in E.
  destruct (HA A1 O1 _ _ _ A2 O2 (f_after_op _ _ M1 Hk) (f_after_op _ _ M2 Hk') E) as [Ea Em].
  assert (snd (split_op e) = snd (split_op e') /\ k = k') as [Eo ->].
  { destruct Hk as [_ Hk], Hk' as [_ Hk'].
    destruct M1 as [M1|[M1|M1]], M2 as [M2|[M2|M2]]; rewrite M1, M2 in *; cbn in Em;
      first [ split; [reflexivity|congruence] | exfalso; discriminate Em
            | exfalso; subst k; apply Hk; cbn; tauto | exfalso; subst k'; apply Hk'; cbn; tauto ]. }
  split; [|done]. apply split_op_inj; [|done..]. destruct (split_op e), (split_op e'); cbn in *; congruence.
Qed.

Definition flat (e : rx) : list rx := match e with XOr l => l | e => [e] end.
Lemma flat_spec e : ok e -> flat e <> [] /\ Forall (fun e => no_bar e /\ ok e) (flat e) /\ written e = strjoin (L "|") (map written (flat e)).
Proof.
  destruct e as [v|e|e|l|l]; intros Hok; cbn [flat].
  1-3,5: split_and!; [done|constructor; [split; [done|done]|constructor]|done].
  apply ok_sub_or in Hok as [Hl HF]. split_and!; [destruct l; [cbn in Hl; lia|done]|done|done].
Qed.
Lemma flat_inj e e' : flat e = flat e' -> ok e -> ok e' -> e = e'.
Proof.
  intros E Hok Hok'. destruct e as [v|e|e|l|l], e' as [v'|e'|e'|l'|l']; cbn [flat] in E; try congruence;
    exfalso; subst; (apply ok_sub_or in Hok as [H _] || apply ok_sub_or in Hok' as [H _]); cbn in H; lia.
Qed.
Lemma strjoin_cons sep x r : strjoin sep (x :: r) = x ++ match r with [] => [] | _ => sep ++ strjoin sep r end.
Proof. destruct r; cbn; [rewrite app_nil_r|]; done. Qed.
Lemma bar_lists l : Forall PS l -> forall l' k k', l <> [] -> l' <> [] ->
  Forall (fun e => no_bar e /\ ok e) l -> Forall (fun e => no_bar e /\ ok e) l' -> f_item k -> f_item k' ->
  strjoin (L "|") (map written l) ++ k = strjoin (L "|") (map written l') ++ k' -> l = l' /\ k = k'.
Proof.
  induction 1 as [|x l Hx _ IH]; intros [|x' l'] k k' Hl Hl' HF HF' Hk Hk' E; try done.
  cbn [map] in E. rewrite !strjoin_cons, <- !app_assoc in E.
  apply Forall_cons in HF as [[B1 O1] HF]. apply Forall_cons in HF' as [[B2 O2] HF'].
  assert (Hf : forall l k, f_item k -> f_simple ((match map written l with [] => [] | _ => L "|" ++ strjoin (L "|") (map written l) end) ++ k)).
  { intros [|y m] j [Hj _]; cbn [map]; [done|]. split; cbn; [intros H; apply letter_op in H; tauto|intros [H|H]; done]. }
  destruct (Hx B1 O1 _ _ _ B2 O2 (Hf l k Hk) (Hf l' k' Hk') E) as [<- E'].
  destruct l as [|y l], l' as [|y' l']; cbn [map app] in E'.
  - done.
  - exfalso. destruct Hk as [_ Hk]. apply Hk. rewrite E'. done.
  - exfalso. destruct Hk' as [_ Hk']. apply Hk'. rewrite <- E'. done.
  - rewrite <- !app_assoc in E'. apply app_inv_head in E'. change (written y :: map written l) with (map written (y :: l)) in E'.
    change (written y' :: map written l') with (map written (y' :: l')) in E'.
    destruct (IH (y' :: l') k k') as [E1 E2]; try done. rewrite E1. done.
Qed.
Lemma item_from_simple e : Forall PS (flat e) -> PI e.
Proof.
  intros HF Hok e' k k' Hok' Hk Hk' E. destruct (flat_spec e Hok) as (N1 & F1 & W1). destruct (flat_spec e' Hok') as (N2 & F2 & W2).
  rewrite W1, W2 in E. destruct (bar_lists (flat e) HF (flat e') k k' N1 N2 F1 F2 Hk Hk' E) as [El ->].
  split; [|done]. apply flat_inj; done.
Qed.

Lemma written_head e : ok e -> starts (fun c => letter c \/ c = 40%N) (written e).
Proof.
  induction e as [v|e IH|e IH|l IH|l IH] using rx_ind'; intros Hok.
  - apply ok_sym in Hok as [Hn HF]. destruct v as [|c v]; [done|]. cbn. inversion HF; subst. by left.
  - apply ok_sub_opt in Hok as [_ Hok]. apply IH in Hok. cbn [written]. destruct (written e); [done|]. done.
  - apply ok_sub_rep in Hok as [_ Hok]. apply IH in Hok. cbn [written]. destruct (written e); [done|]. done.
  - apply ok_sub_or in Hok as [Hl HF]. cbn [written]. destruct IH as [|x l Hx _]; [cbn in Hl; lia|].
    cbn [map]. rewrite strjoin_cons. apply Forall_cons in HF as [[_ Hox] _]. apply Hx in Hox. destruct (written x); [done|]. done.
  - cbn. by right.
Qed.
Lemma group_lists l : Forall PI l -> forall l' k k', Forall ok l -> Forall ok l' ->
  strjoin (L "_") (map written l) ++ 41%N :: k = strjoin (L "_") (map written l') ++ 41%N :: k' -> l = l' /\ k = k'.
Proof.
  assert (Hhead : forall x rest k, ok x -> written x ++ rest = 41%N :: k -> False).
  { intros x rest k Hx E. apply written_head in Hx. destruct (written x) as [|c w]; [done|]. cbn in *. injection E as -> _.
    destruct Hx as [[H _]|H]; vm_compute in H; done. }
  assert (Hf : forall l k, f_item ((match map written l with [] => [] | _ => L "_" ++ strjoin (L "_") (map written l) end) ++ 41%N :: k)).
  { assert (forall c k, c = 41%N \/ c = 95%N -> f_item (c :: k)) as Hc.
    { intros c j Hc. split; [split|]; cbn.
      - intros [H1 H2]. destruct Hc as [->| ->]; [vm_compute in H1|]; done.
      - intros [->| ->]; destruct Hc; done.
      - intros ->. destruct Hc; done. }
    intros [|y m] j; cbn [map app]; [apply Hc; by left|]. apply Hc. by right. }
  induction 1 as [|x l Hx _ IH]; intros [|x' l'] k k' HF HF' E.
  - cbn in E. injection E as ->. done.
  - exfalso. cbn [map] in E. rewrite strjoin_cons, <- app_assoc in E. symmetry in E. cbn [strjoin map app] in E.
    apply Forall_cons in HF' as [H _]. eapply Hhead; eauto.
  - exfalso. cbn [map] in E. rewrite strjoin_cons, <- app_assoc in E. cbn [strjoin map app] in E.
    apply Forall_cons in HF as [H _]. eapply Hhead; eauto.
  - cbn [map] in E. rewrite !strjoin_cons, <- !app_assoc in E.
    apply Forall_cons in HF as [O1 HF]. apply Forall_cons in HF' as [O2 HF'].
    destruct (Hx O1 _ _ _ O2 (Hf l k) (Hf l' k') E) as [<- E'].
    destruct l as [|y l], l' as [|y' l']; cbn [map app] in E'.
    + injection E' as ->. done.
    + cbn in E'. discriminate E'.
    + cbn in E'. discriminate E'.
    + rewrite <- !app_assoc in E'. apply app_inv_head in E'. change (written y :: map written l) with (map written (y :: l)) in E'.
      change (written y' :: map written l') with (map written (y' :: l')) in E'.
      destruct (IH (y' :: l') k k') as [E1 E2]; try done. rewrite E1. done.
Qed.

Lemma readable e : PA e /\ PS e /\ PI e.
Proof.
  assert (Hatom : forall e, atom e -> PA e -> PA e /\ PS e /\ PI e).
  { intros x Ha HA. assert (PS x) as HS by (apply simple_from_atom; destruct x; done). split_and!; [done|done|].
    apply item_from_simple. destruct x; try done; (constructor; [exact HS|constructor]). }
  induction e as [v|e IH|e IH|l IH|l IH] using rx_ind'.
  - apply Hatom; [done|]. intros _ Hok e' k k' Ha' Hok' Hk Hk' E. destruct e' as [v'| | | |l']; try done.
    + apply ok_sym in Hok as [_ H1]. apply ok_sym in Hok' as [_ H2]. destruct (letters_inj v v' k k' H1 H2 Hk Hk' E) as [-> ->]. done.
    + exfalso. apply ok_sym in Hok as [Hn H1]. destruct v as [|c v]; [done|]. cbn in E. injection E as -> _. inversion H1 as [|? ? [H _]]; subst.
      vm_compute in H. done.
  - destruct IH as (HA & _ & _). assert (PS (XOpt e)) as HS by (apply simple_from_atom; done). split_and!; [intros []|done|].
    apply item_from_simple. constructor; [exact HS|constructor].
  - destruct IH as (HA & _ & _). assert (PS (XRep e)) as HS by (apply simple_from_atom; done). split_and!; [intros []|done|].
    apply item_from_simple. constructor; [exact HS|constructor].
  - split_and!; [intros []|intros []|]. apply item_from_simple. cbn [flat]. eapply Forall_impl; [exact IH|]. intros x (_ & H & _). done.
  - apply Hatom; [done|]. intros _ Hok e' k k' Ha' Hok' Hk Hk' E. destruct e' as [v'| | | |l']; try done.
    + exfalso. apply ok_sym in Hok' as [Hn H1]. destruct v' as [|c v]; [done|]. cbn in E. injection E as <- _. inversion H1 as [|? ? [H _]]; subst.
      vm_compute in H. done.
    + cbn [written] in E. rewrite <- !app_assoc in E. apply app_inv_head in E.
      change (L ")" ++ k) with (41%N :: k) in E. change (L ")" ++ k') with (41%N :: k') in E.
      destruct (group_lists l) with (l' := l') (k := k) (k' := k') as [-> ->]; [|apply ok_sub_group; done|apply ok_sub_group; done|done|done].
      eapply Forall_impl; [exact IH|]. intros x (_ & _ & H). done.
Qed.

Lemma repeats_atoms e : proper e -> forall x, x ∈ repeats e -> atom x /\ proper x.
Proof.
  induction e as [v|e IH|e IH|l IH|l IH] using rx_ind'; cbn [proper repeats]; intros Hp x Hx; [inversion Hx| | | |].
  - apply IH; tauto.
  - apply elem_of_cons in Hx as [->|Hx]; [tauto|]. apply IH; tauto.
  - destruct Hp as [_ Hp]. rewrite (foldr_and (fun e => no_bar e /\ proper e)) in Hp.
    apply in_fm in Hx as (y & Hy & Hx). rewrite Forall_forall in *. eapply IH; eauto. apply Hp; done.
  - rewrite foldr_and in Hp. apply in_fm in Hx as (y & Hy & Hx). rewrite Forall_forall in *. eapply IH; eauto.
Qed.
Lemma repeats_symbols e x s : x ∈ repeats e -> s ∈ symbols x -> s ∈ symbols e.
Proof.
  induction e as [v|e IH|e IH|l IH|l IH] using rx_ind'; cbn [repeats symbols]; intros Hx Hs; [inversion Hx|auto| | |].
  - apply elem_of_cons in Hx as [->|Hx]; auto.
  - apply in_fm in Hx as (y & Hy & Hx). rewrite Forall_forall in IH. apply in_fm. eauto.
  - apply in_fm in Hx as (y & Hy & Hx). rewrite Forall_forall in IH. apply in_fm. eauto.
Qed.
Lemma repeats_ok R x : proper_rxs R -> no_underscores R -> x ∈ all_repeats R -> atom x /\ ok x.
Proof.
  intros Hp Hu Hx. apply in_all_repeats in Hx as (nt & es & e & Hin & He & Hx).
  destruct (repeats_atoms e (proj2 (Hp _ _ Hin) e He) x Hx) as [Ha Hpx]. split; [done|]. split; [done|].
  intros s Hs. apply Hu. unfold all_symbols. apply in_fm. exists (nt, es). split; [done|]. right. cbn. apply in_fm.
  exists e. split; [done|]. eapply repeats_symbols; eauto.
Qed.
Lemma symbols_words e s : proper e -> s ∈ symbols e -> is_word s.
Proof.
  induction e as [v|e IH|e IH|l IH|l IH] using rx_ind'; cbn [proper symbols]; intros Hp Hs.
  - apply elem_of_list_singleton in Hs as ->. done.
  - tauto.
  - tauto.
  - destruct Hp as [_ Hp]. rewrite (foldr_and (fun e => no_bar e /\ proper e)) in Hp.
    apply in_fm in Hs as (y & Hy & Hs). rewrite Forall_forall in *. apply (IH y Hy); [|done]. apply Hp; done.
  - rewrite foldr_and in Hp. apply in_fm in Hs as (y & Hy & Hs). rewrite Forall_forall in *. apply (IH y Hy); [|done]. auto.
Qed.
(** Generated names are never words. *)
Lemma generated_not_word R s : generated R s -> ~ is_word s.
Proof.
  intros (e & _ & ->) [_ H]. unfold rep_name in H. apply Forall_app in H as [_ H]. inversion H as [|? ? Hc _]; subst.
  vm_compute in Hc. done.
Qed.
Lemma words_not_generated R : proper_rxs R -> forall s, s ∈ all_symbols R -> ~ generated R s.
Proof.
  intros Hp s Hs Hg. apply (generated_not_word R s Hg). unfold all_symbols in Hs. apply in_fm in Hs as ([nt es] & Hin & Hs).
  cbn in Hs. apply elem_of_cons in Hs as [->|Hs]; [apply (Hp _ _ Hin)|]. apply in_fm in Hs as (e & He & Hs).
  eapply symbols_words; [|exact Hs]. apply (proj2 (Hp _ _ Hin)). done.
Qed.
Lemma names_distinct R : proper_rxs R -> no_underscores R -> distinct_names R.
Proof.
  intros Hp Hu. split.
  - intros e e' He He' E. destruct (repeats_ok R e Hp Hu He) as [A1 O1]. destruct (repeats_ok R e' Hp Hu He') as [A2 O2].
    apply (proj1 (readable e) A1 O1 e' (L "*") (L "*") A2 O2); [| |exact E]; intros H; cbn in H; apply letter_op in H; tauto.
  - apply words_not_generated. done.
Qed.
