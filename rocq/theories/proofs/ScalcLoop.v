(** The interactive loop. *)
From Coq Require Import String Lia.
From Verif.spec Require Import ScalcMainSpec.
From Verif.proofs Require Import Fuel LexMain LexTableProofs ScalcGram ScalcTotal ScalcMachine ScalcRpn ScalcLines ScalcWit.
Local Open Scope nat_scope.
Local Open Scope list_scope.

Lemma first_none c : first_line c = None <-> newline ∉ c.
Proof.
  induction c as [|x c IH]; cbn [first_line]; [split; [intros _; apply not_elem_of_nil|done]|]. rewrite not_elem_of_cons. destruct (decide (x = c_nl)) as [->|Hx].
  - split; [done|]. intros [H _]. by destruct H.
  - destruct (first_line c); split; [done|intros [_ H]; by apply IH in H| |done]. intros _. split; [intros E; apply Hx; by rewrite <- E|by apply IH].
Qed.
Lemma first_some a b : newline ∉ a -> first_line (a ++ newline :: b) = Some (a ++ [newline]).
Proof.
  induction a as [|x a IH]; intros Ha; cbn [app first_line]; [by rewrite decide_True|]. rewrite not_elem_of_cons in Ha. destruct Ha as [H1 H2].
  rewrite decide_False by (intros E; apply H1; by rewrite E). by rewrite (IH H2).
Qed.
Lemma asks_read inp w r : asks inp w r <-> read_line inp = (w, r).
Proof.
  split.
  - induction 1 as [|a b r Ha|c r w r' Hc _ IH]; cbn [read_line]; [done|by rewrite (first_some a b Ha)|]. apply first_none in Hc. by rewrite Hc, IH.
  - revert w r. induction inp as [|c inp IH]; intros w r E; cbn [read_line] in E; [injection E as <- <-; constructor|].
    destruct (first_line c) as [v|] eqn:Ec.
    + injection E as <- <-. destruct (decide (newline ∈ c)) as [Hin|Hn]; [|apply first_none in Hn; congruence].
      apply (elem_of_list_split_l) in Hin as (a & b & -> & Ha). rewrite (first_some a b Ha) in Ec. injection Ec as <-. by constructor.
    + apply first_none in Ec. destruct (read_line inp) as [w' r']. injection E as <- <-. constructor; [done|by apply IH].
Qed.
Lemma asks_some inp : exists w r, asks inp w r.
Proof. destruct (read_line inp) as [w r] eqn:E. exists w, r. by apply asks_read. Qed.

Section Loop.
  Variable A : sarith.
  Variable show : Z -> sf A -> gostring.
  Variable compile : compiler.
  Variable l0 : slexer.
  Variable gg : gr.
  Hypothesis HC : compiles compile sc_table.
  Hypothesis Hl0 : sc_lexer compile = Some l0.
  Hypothesis Hgg : sc_grammar = Some gg.
  Definition lexer_at (l : slexer) : Prop := exists texts, returns (sl_calls (map CLex texts) l0) l.
  Lemma eval_total l s : lexer_at l -> exists r l', returns (sc_eval A l gg s) (r, l').
  Proof using All.
    intros [texts Hl]. destruct (eval_text s) as [(v & Hv)|(lxs & Hs)].
    - destruct (eval_junk A compile l0 l gg texts HC Hl0 Hl Hgg s v Hv) as (l' & H). eauto.
    - destruct (eval_tokens A compile l0 l gg texts HC Hl0 Hl Hgg s lxs Hs) as (l' & [(_ & t & vs & F & _ & _ & _ & H)|(_ & H)]); eauto.
  Qed.
  Lemma lexer_next l s r l' : lexer_at l -> returns (sc_eval A l gg s) (r, l') -> lexer_at l'.
  Proof using. clear. intros [texts Hl] H. exists (texts ++ [s]). by eapply eval_lexer. Qed.
  Definition next_stack (stack : gostring) (r : option (list (pfloat A))) : gostring := match r with None => stack | Some vs => sc_format A show vs end.
  Definition answer (r : option (list (pfloat A))) : gostring := match r with None => L "Bad input" | Some vs => sc_format A show vs end.
  Lemma loop_exit l stack inp out r : asks inp exit_line r -> returns (sc_loop A show l gg stack inp out) (out ++ L "> ").
  Proof using. clear. intros H%asks_read. exists 1. intros n Hn. destruct n as [|n]; [lia|]. cbn [sc_loop]. rewrite H. by rewrite decide_True. Qed.
  Lemma loop_next l stack inp out w inp' r l' o : asks inp w inp' -> w <> exit_line -> returns (sc_eval A l gg (stack ++ [c_sp] ++ w)) (r, l') ->
    returns (sc_loop A show l' gg (next_stack stack r) inp' (out ++ L "> " ++ answer r ++ [c_nl])) o -> returns (sc_loop A show l gg stack inp out) o.
  Proof using.
    clear. intros H%asks_read Hw [F HF] [G HG]. exists (S (F + G)). intros n Hn. destruct n as [|n]; [lia|]. cbn [sc_loop]. rewrite H.
    rewrite decide_False by done. rewrite HF by lia. cbn [rbind]. rewrite <- (HG n) by lia. destruct r as [vs|]; cbn [next_stack answer]; by rewrite <- !app_assoc.
  Qed.
  Lemma loop_stuck l stack inp out n : lexer_at l -> ~ exits inp -> sc_loop A show l gg stack inp out n = OutOfFuel.
  Proof using All.
    revert l stack inp out. induction n as [|n IH]; intros l stack inp out Hl Hx; [done|]. cbn [sc_loop].
    destruct (read_line inp) as [w inp'] eqn:E. apply asks_read in E. rewrite decide_False by (intros ->; apply Hx; by eapply ex_now).
    assert (Hx' : ~ exits inp') by (intros H; apply Hx; by eapply ex_later).
    destruct (eval_total l (stack ++ [c_sp] ++ w) Hl) as (r & l' & HR).
    destruct (sc_eval A l gg (stack ++ [c_sp] ++ w) n) as [[r2 l2]| |] eqn:E2; cbn [rbind]; [| |done].
    - pose proof (returns_at _ n _ (eval_mono _ _ _ _) E2) as HR2. pose proof (lexer_next l _ r2 l2 Hl HR2) as Hl2.
      destruct r2; by apply IH.
    - exfalso. destruct HR as [F HF]. pose proof (eval_mono A l gg (stack ++ [c_sp] ++ w) n (F + n) ltac:(lia)) as Hm. rewrite E2, HF in Hm by lia. by destruct Hm.
  Qed.
  Lemma loop_exits inp : exits inp -> forall l stack out, lexer_at l -> exists o, returns (sc_loop A show l gg stack inp out) o.
  Proof using All.
    induction 1 as [inp r H|inp w r H _ IH]; intros l stack out Hl; [eexists; by eapply loop_exit|].
    destruct (decide (w = exit_line)) as [->|Hw]; [eexists; by eapply loop_exit|].
    destruct (eval_total l (stack ++ [c_sp] ++ w) Hl) as (x & l' & HR). destruct (IH l' (next_stack stack x) (out ++ L "> " ++ answer x ++ [c_nl])) as [o Ho]; [by eapply lexer_next|].
    exists o. by eapply loop_next.
  Qed.
  Lemma asks_line w r : is_line w -> asks (w :: r) w r.
  Proof using. clear. intros (a & -> & Ha). apply (as_line a []). done. Qed.
  Lemma format_spaced (l : list gostring) w : spaced l w <-> w = strjoin [c_sp] l.
  Proof using.
    clear. split.
    - induction 1 as [|w|w l r _ -> Hl]; [done|done|]. by destruct l.
    - intros ->. induction l as [|x l IH]; [constructor|]. destruct l as [|y l]; [apply sp_one|]. apply (sp_more x (y :: l) _ IH). done.
  Qed.
  Lemma loop_session st lines ans : session A st lines ans -> forall l out o r, lexer_at l -> Forall is_line lines -> exit_line ∉ lines ->
    Forall (line_reads A) lines -> Forall (answer_reads A show) ans -> Forall (reads_back A show) st -> printed A show ans o ->
    returns (sc_loop A show l gg (sc_format A show (rev st)) (lines ++ exit_line :: r) out) (out ++ o).
  Proof using All.
    induction 1 as [st|st w u st' lines ans Hw Hm _ IH|st w u lines ans Hw Hm _ IH|st w v lines ans Hw _ IH];
      intros l out o r Hl HL Hx HP HA Hst Ho.
    - inversion Ho; subst. eapply loop_exit. apply asks_line. exists (L "exit"). split; [done|]. apply (bool_decide_unpack _). vm_compute. exact I.
    - apply Forall_cons in HL as [HL1 HL]. apply Forall_cons in HP as [HP1 HP]. apply Forall_cons in HA as [HA1 HA]. apply not_elem_of_cons in Hx as [Hx1 Hx]. destruct Hl as [texts Hl].
      destruct (HP1 u Hw) as [Hp Hn]. destruct (turn A show compile l0 l gg texts HC Hl0 Hl Hgg (rev st) w u ltac:(by apply List.Forall_rev) Hw Hp Hn) as [(st2 & l' & Hm2 & HR)|(Hm2 & _)].
      2:{ destruct (Hm2 st'). by rewrite rev_involutive. }
      rewrite rev_involutive in Hm2. rewrite (machine_fun A st u st2 Hm2 st' Hm) in HR. clear st2 Hm2.
      inversion Ho as [| |st2 ans2 x out2 Hsp Hpr]; subst. apply format_spaced in Hsp as ->.
      eapply loop_next; [by apply asks_line|done|exact HR|]. cbn [next_stack answer].
      assert (EF : strjoin [c_sp] (rev (map (fun x => show (pf_p x) (pf_v x)) st')) = sc_format A show (rev st')) by (unfold sc_format; by rewrite map_rev).
      rewrite EF. pose proof (IH l' (out ++ L "> " ++ sc_format A show (rev st') ++ [c_nl]) out2 r ltac:(eapply lexer_next; [by exists texts|exact HR]) HL Hx HP HA HA1 Hpr) as H.
      rewrite <- !app_assoc in H. exact H.
    - apply Forall_cons in HL as [HL1 HL]. apply Forall_cons in HP as [HP1 HP]. apply Forall_cons in HA as [HA1 HA]. apply not_elem_of_cons in Hx as [Hx1 Hx]. destruct Hl as [texts Hl].
      destruct (HP1 u Hw) as [Hp Hn]. destruct (turn A show compile l0 l gg texts HC Hl0 Hl Hgg (rev st) w u ltac:(by apply List.Forall_rev) Hw Hp Hn) as [(st2 & l' & Hm2 & _)|(_ & l' & HR)].
      { destruct (Hm st2). by rewrite rev_involutive in Hm2. }
      inversion Ho as [|ans2 out2 Hpr|]; subst. eapply loop_next; [by apply asks_line|done|exact HR|]. cbn [next_stack answer].
      pose proof (IH l' (out ++ L "> " ++ L "Bad input" ++ [c_nl]) out2 r ltac:(eapply lexer_next; [by exists texts|exact HR]) HL Hx HP HA Hst Hpr) as H.
      rewrite <- !app_assoc in H. exact H.
    - apply Forall_cons in HL as [HL1 HL]. apply Forall_cons in HP as [HP1 HP]. apply Forall_cons in HA as [HA1 HA]. apply not_elem_of_cons in Hx as [Hx1 Hx]. destruct Hl as [texts Hl].
      destruct (turn_junk A show compile l0 l gg texts HC Hl0 Hl Hgg (rev st) w v ltac:(by apply List.Forall_rev) Hw) as (l' & HR).
      inversion Ho as [|ans2 out2 Hpr|]; subst. eapply loop_next; [by apply asks_line|done|exact HR|]. cbn [next_stack answer].
      pose proof (IH l' (out ++ L "> " ++ L "Bad input" ++ [c_nl]) out2 r ltac:(eapply lexer_next; [by exists texts|exact HR]) HL Hx HP HA Hst Hpr) as H.
      rewrite <- !app_assoc in H. exact H.
  Qed.
  Lemma session_runs lines ans o r : session A [] lines ans -> Forall is_line lines -> exit_line ∉ lines ->
    Forall (line_reads A) lines -> Forall (answer_reads A show) ans -> printed A show ans o ->
    returns (sc_interactive A show l0 gg (lines ++ exit_line :: r)) o.
  Proof using All.
    intros Hs HL Hx HP HA Ho. apply (loop_session [] lines ans Hs l0 [] o r); [|done|done|done|done|constructor|done]. exists []. exists 0. intros n _. reflexivity.
  Qed.
  Lemma interactive_exits inp : exits inp -> exists o, returns (sc_interactive A show l0 gg inp) o.
  Proof using All. intros H. apply (loop_exits inp H). exists [], 0. intros n _. reflexivity. Qed.
  Lemma interactive_stuck inp : ~ exits inp -> diverges (sc_interactive A show l0 gg inp).
  Proof using All. intros H n. apply loop_stuck; [|exact H]. exists [], 0. intros m _. reflexivity. Qed.
End Loop.

(** The command line. *)
Lemma parse_mono l gg s : fuel_mono (sc_parse l gg s).
Proof.
  intros n m Hle. unfold sc_parse. apply rle_bind; [replace m with (n + (m - n)) by lia; apply slex_mono|]. intros [xs l'].
  apply rle_bind; [by apply PackratFuel.packrat_parse_mono|]. intros t. apply rle_refl.
Qed.
Lemma eval_parse A l gg s r l' : returns (sc_eval A l gg s) (r, l') -> exists t, returns (sc_parse l gg s) (t, l') /\ (t = None <-> r = None).
Proof.
  intros [F HF]. specialize (HF F (le_n F)). unfold sc_eval in HF. destruct (sc_parse l gg s F) as [[t l2]| |] eqn:E; cbn [rbind] in HF; [|discriminate HF|discriminate HF].
  exists t. destruct t as [t|].
  - destruct (sc_stack A F t) as [x| |]; cbn [rbind] in HF; [|discriminate HF|discriminate HF]. injection HF as <- <-. split; [exact (returns_at _ F _ (parse_mono _ _ _) E)|done].
  - injection HF as <- <-. split; [exact (returns_at _ F _ (parse_mono _ _ _) E)|done].
Qed.
Section Action.
  Variable A : sarith.
  Variable show : Z -> sf A -> gostring.
  Variable compile : compiler.
  Variable l0 : slexer.
  Variable gg : gr.
  Hypothesis HC : compiles compile sc_table.
  Hypothesis Hl0 : sc_lexer compile = Some l0.
  Hypothesis Hgg : sc_grammar = Some gg.
  Lemma start_at : returns (sl_calls (map CLex []) l0) l0. Proof using. clear. exists 0. intros n _. reflexivity. Qed.
  Lemma action_of args inp r l' : args <> [] -> returns (sc_eval A l0 gg (strjoin [c_sp] args)) (r, l') ->
    returns (sc_action A show l0 gg args inp) (match r with None => inr sc_failed | Some vs => inl (sc_format A show vs ++ [c_nl]) end).
  Proof using. clear. intros Ha [F HF]. exists F. intros n Hn. unfold sc_action. destruct args as [|a args]; [done|]. rewrite HF by lia. reflexivity. Qed.
  Lemma parse_of print args r l' : returns (sc_parse l0 gg (strjoin [c_sp] args)) (r, l') ->
    returns (sc_parse_command print l0 gg args) (match r with None => inr sc_failed | Some t => inl (pn_string print (Some t) ++ [c_nl]) end).
  Proof using. clear. intros [F HF]. exists F. intros n Hn. unfold sc_parse_command. rewrite HF by lia. reflexivity. Qed.
  Lemma action_cases args w inp print : args <> [] -> spaced args w ->
    ((exists lxs, sc_tokens w lxs /\ program (map lx_kind lxs))
      /\ (exists vs l' out, returns (sc_eval A l0 gg w) (Some vs, l') /\ spaced (map (fun x => show (pf_p x) (pf_v x)) vs) out
        /\ returns (sc_action A show l0 gg args inp) (inl (out ++ [newline])%list))
      /\ (exists t l', returns (sc_parse l0 gg w) (Some t, l') /\ returns (sc_parse_command print l0 gg args) (inl (pn_string print (Some t) ++ [newline])%list)))
    \/ ((~ exists lxs, sc_tokens w lxs /\ program (map lx_kind lxs))
      /\ returns (sc_action A show l0 gg args inp) (inr sc_failed) /\ returns (sc_parse_command print l0 gg args) (inr sc_failed)).
  Proof using All.
    intros Ha ->%format_spaced. set (w := strjoin [c_sp] args) in *.
    assert (HD : (exists lxs, sc_tokens w lxs /\ program (map lx_kind lxs)) /\ (exists vs l', returns (sc_eval A l0 gg w) (Some vs, l'))
      \/ (~ exists lxs, sc_tokens w lxs /\ program (map lx_kind lxs)) /\ exists l', returns (sc_eval A l0 gg w) (None, l')).
    { destruct (eval_text w) as [(v & Hv)|(lxs & Hs)].
      - right. split; [|exact (eval_junk A compile l0 l0 gg [] HC Hl0 start_at Hgg w v Hv)]. intros (lxs & Hs & _).
        destruct (table_not_both sc_table [] [] sc_more w _ _ Hs Hv).
      - destruct (eval_tokens A compile l0 l0 gg [] HC Hl0 start_at Hgg w lxs Hs) as (l' & [(Hp & t & vs & F & _ & _ & _ & H)|(Hp & H)]).
        + left. split; [exists lxs; exact (conj Hs Hp)|exists vs, l'; exact H].
        + right. split; [|exists l'; exact H]. intros (lxs2 & Hs2 & Hp2). rewrite <- (table_unique sc_table [] [] sc_more w _ _ Hs Hs2) in Hp2. exact (Hp Hp2). }
    destruct HD as [(Hp & vs & l' & H)|(Hp & l' & H)]; [left|right]; (split; [exact Hp|]); pose proof (action_of args inp _ _ Ha H) as H1;
      destruct (eval_parse _ _ _ _ _ _ H) as (t & H2 & Ht); pose proof (parse_of print args _ _ H2) as H3.
    - destruct t as [t|]; [|discriminate (proj1 Ht eq_refl)]. split; [|exists t, l'; exact (conj H2 H3)].
      exists vs, l', (sc_format A show vs). split; [exact H|]. split; [by apply format_spaced|exact H1].
    - rewrite (proj2 Ht eq_refl) in H3. exact (conj H1 H3).
  Qed.
  Lemma action_arith args w inp lxs : args <> [] -> spaced args w -> sc_tokens w lxs -> arithmetic lxs ->
    (exists st out, machine A true [] lxs st /\ spaced (rev (map (fun x => show (pf_p x) (pf_v x)) st)) out
        /\ returns (sc_action A show l0 gg args inp) (inl (out ++ [newline])))
    \/ ((forall st, ~ machine A true [] lxs st) /\ returns (sc_action A show l0 gg args inp) (inr (L "Failed to parse" ++ [newline]))).
  Proof using All.
    intros Ha ->%format_spaced Hs Hu. destruct (eval_arith A compile l0 l0 gg [] HC Hl0 start_at Hgg _ lxs Hs Hu) as [(st & l' & Hm & H)|(Hm & l' & H)];
      pose proof (action_of args inp _ _ Ha H) as H1.
    - left. exists st, (sc_format A show (rev st)). split; [exact Hm|]. split; [|exact H1]. apply format_spaced. unfold sc_format. by rewrite map_rev.
    - right. exact (conj Hm H1).
  Qed.
End Action.
