(** Cutting the text of a stack followed by a line. *)
From Coq Require Import String Lia.
From Verif.spec Require Import ScalcMainSpec.
From Verif.proofs Require Import Fuel RegexProofs LexText LexMain LexTableProofs ScalcGram ScalcTotal ScalcMachine ScalcRpn ScalcWhole.
Local Open Scope nat_scope.
Local Open Scope list_scope.

Notation scD := (map row_def sc_table).
Definition kv (x : lexeme) : gostring * gostring := (lx_kind x, lx_val x).
Lemma sc_rules : rules_of (sc_calls []) = scD.
Proof. apply (table_rules sc_table [] [] sc_more sc_nodup). Qed.
Lemma sc_settings : settings_of (sc_calls []) = default_settings. Proof. apply table_settings. Qed.
Lemma cut_fun s ps ps' : tokenises scD s ps -> tokenises scD s ps' -> ps = ps'.
Proof. rewrite <- sc_rules. apply tokenises_unique, table_regexps, sc_more. Qed.
Lemma cut_some s : exists ps, tokenises scD s ps.
Proof. rewrite <- sc_rules. destruct (eval_text s) as [(v & ps & vs & H & _)|(lxs & ps & H & _)]; by exists ps. Qed.
Lemma cut_front s ps v p : tokenises scD s ps -> best scD (v ++ s) p (length v) -> tokenises scD (v ++ s) (Tok p v :: ps).
Proof.
  intros H Hb. pose proof (cut_tok (best scD) scD (v ++ s) p (length v) ps Hb) as HC. rewrite take_app, drop_app in HC. by apply HC.
Qed.

(** * Which rule is picked *)
Lemma stops_digit s c : sc_digit c = false -> stops sc_digit (c :: s). Proof. done. Qed.
Lemma digit_in x : (48 <= x <= 57)%N -> x ∈ L "0123456789".
Proof.
  intros H. assert (x ∈ map N.of_nat (seq 48 10)) as Hx.
  { apply elem_of_list_fmap. exists (N.to_nat x). split; [by rewrite N2Nat.id|]. apply elem_of_seq. lia. }
  exact Hx.
Qed.
Lemma digit_true x : (48 <= x <= 57)%N -> sc_digit x = true.
Proof. intros H. unfold sc_digit. rewrite (proj2 (N.leb_le _ _)), (proj2 (N.leb_le _ _)) by lia. done. Qed.
Lemma only_row p n s r : sc_table !! p = Some r -> hd_len (lw_re r) s = Some n -> 0 < n ->
  (forall q r' m, sc_table !! q = Some r' -> q <> p -> hd_len (lw_re r') s = Some m -> m < n) -> best scD s p n.
Proof.
  intros Hr Hn H0 HO. split; [done|]. split.
  - exists (row_def r). rewrite list_lookup_fmap, Hr. split; [done|]. cbn [row_def rd_re]. by rewrite at_start_rx.
  - intros q e m Hq Hm. rewrite list_lookup_fmap in Hq. destruct (sc_table !! q) as [r'|] eqn:E; [|done]. injection Hq as <-.
    cbn [row_def rd_re] in Hm. rewrite at_start_rx in Hm. destruct (decide (q = p)) as [->|Hne].
    + rewrite Hr in E. injection E as <-. right. split; [congruence|lia].
    + left. by eapply HO.
Qed.
Ltac other_rows :=
  let q := fresh "q" in let r' := fresh "r'" in let m := fresh "m" in let Hq := fresh "Hq" in let Hne := fresh "Hne" in let Hm := fresh "Hm" in
  intros q r' m Hq Hne Hm; do 10 (destruct q as [|q]; [first [by destruct Hne|injection Hq as <-; first [discriminate Hm|unfold hd_len in Hm; cbn -[Nat.sub length] in Hm; injection Hm as <-; cbn [length]; lia]]|]); try discriminate Hq.
Lemma space_row w s : w <> [] -> (forall x, x ∈ w -> lx_space x = true) -> stops lx_space s -> best scD (w ++ s) 0 (length w).
Proof.
  intros Hne Hw Hs. destruct w as [|c w]; [done|]. eapply only_row; [reflexivity| |cbn; lia|].
  - eapply (hd_is_len _ _ s); [reflexivity|]. cbn [lw_re]. apply (hd_plus lx_space c w); done.
  - assert (Hc : lx_space c = true) by (apply Hw; left). assert (c ∈ [9; 10; 12; 13; 32]%N) as Hin.
    { unfold lx_space in Hc. revert Hc. clear. rewrite !orb_true_iff, !N.eqb_eq, !elem_of_cons. tauto. }
    clear Hw Hc. cbn [app]. generalize (length (c :: w)). generalize (w ++ s). clear w s Hs Hne. intros s n. revert c Hin. refine (proj1 (list.Forall_forall _ _) _).
    repeat (apply List.Forall_cons; [other_rows|]). constructor.
Qed.
Lemma digit_row d ds s : digits (d :: ds) -> stops sc_digit s -> best scD ((d :: ds) ++ s) 1 (length (d :: ds)).
Proof.
  intros [_ Hd] Hs. assert (Hin : d ∈ L "0123456789") by (apply digit_in, Hd; left). eapply only_row; [reflexivity| |cbn; lia|].
  - eapply (hd_is_len _ _ s); [reflexivity|]. cbn [lw_re]. eapply hd_cat.
    + unfold ROpt. apply hd_alt_r; [|apply hd_eps]. cbn [app]. clear Hd. generalize (ds ++ s). intros s'. revert d Hin.
      refine (proj1 (list.Forall_forall _ _) _). repeat (apply List.Forall_cons; [reflexivity|]). constructor.
    + apply (hd_plus sc_digit d ds); [|done]. intros y Hy. by apply digit_true, Hd.
  - clear Hd Hs. cbn [app]. generalize (length (d :: ds)). generalize (ds ++ s). clear ds s. intros s n. revert d Hin.
    refine (proj1 (list.Forall_forall _ _) _). repeat (apply List.Forall_cons; [other_rows|]). constructor.
Qed.
Lemma sign_row c d ds s : c ∈ L "+-" -> digits (d :: ds) -> stops sc_digit s -> best scD ((c :: d :: ds) ++ s) 1 (length (c :: d :: ds)).
Proof.
  intros Hc [_ Hd] Hs. assert (Hin : d ∈ L "0123456789") by (apply digit_in, Hd; left). eapply only_row; [reflexivity| |cbn; lia|].
  - eapply (hd_is_len _ _ s); [reflexivity|]. cbn [lw_re]. eapply (hd_cat _ _ _ _ ((d :: ds) ++ s) [(1, [c])] s).
    + unfold ROpt. apply hd_alt_l. apply (hd_group 1 _ [c] ((d :: ds) ++ s) [] []). cbn [app]. unfold sc_char.
      apply elem_of_cons in Hc as [->|Hc]; [apply hd_alt_l, hd_set; reflexivity|]. apply elem_of_list_singleton in Hc as ->.
      apply hd_alt_r; [reflexivity|]. apply hd_set. reflexivity.
    + apply (hd_plus sc_digit d ds); [|done]. intros y Hy. by apply digit_true, Hd.
  - clear Hd Hs. cbn [app length]. assert (2 <= S (S (length ds))) as Hn by lia. revert Hn. generalize (S (S (length ds))). generalize (ds ++ s). clear ds s. intros s n Hn.
    apply elem_of_cons in Hc as [->|Hc]; [|apply elem_of_list_singleton in Hc as ->].
    all: revert d Hin; refine (proj1 (list.Forall_forall _ _) _).
    all: repeat (apply List.Forall_cons; [other_rows|]); constructor.
Qed.
Lemma int_row i s : whole_part i -> stops sc_digit s -> best scD (i ++ s) 1 (length i).
Proof.
  intros (sg & ds & -> & Hd & Hs) Hst. destruct ds as [|d ds]; [by destruct Hd|]. destruct Hs as [->|[->| ->]].
  - by apply digit_row.
  - apply (sign_row 43%N); [left|done|done].
  - apply (sign_row 45%N); [right; left|done|done].
Qed.
Lemma dec_row ds s : digits ds -> stops sc_digit s -> best scD ((L "." ++ ds) ++ s) 2 (length (L "." ++ ds)).
Proof.
  intros [Hne Hd] Hs. destruct ds as [|d ds]; [done|]. eapply only_row; [reflexivity| |cbn; lia|].
  - eapply (hd_is_len _ _ s); [reflexivity|]. cbn [lw_re]. eapply (hd_cat _ _ _ _ ((d :: ds) ++ s)).
    + unfold sc_char. apply (hd_set _ 46%N). reflexivity.
    + apply (hd_plus sc_digit d ds); [|done]. intros y Hy. by apply digit_true, Hd.
  - cbn [app]. other_rows.
Qed.

(** * Texts put together *)
Notation toks ps := (flat_map (piece_toks sc_table) ps).
Lemma runs_of (p : N -> bool) (s : gostring) : exists w s', s = w ++ s' /\ (forall x, x ∈ w -> p x = true) /\ stops p s'.
Proof.
  induction s as [|c s (w & s' & -> & Hw & Hs)].
  - exists [], []. split; [done|]. split; [|done]. intros x Hx. by apply elem_of_nil in Hx.
  - destruct (p c) eqn:E.
    + exists (c :: w), s'. split; [done|]. split; [|done]. intros x [->|Hx]%elem_of_cons; [done|by apply Hw].
    + exists [], (c :: w ++ s'). split; [done|]. split; [|done]. intros x Hx. by apply elem_of_nil in Hx.
Qed.
Lemma space_front s ps : tokenises scD s ps -> exists ps', tokenises scD ([c_sp] ++ s) ps' /\ junks ps' = junks ps /\ toks ps' = toks ps.
Proof.
  intros Hps. destruct (runs_of lx_space s) as (w & s' & -> & Hw & Hs). destruct (cut_some s') as [ps1 H1].
  exists (Tok 0 ([c_sp] ++ w) :: ps1). split.
  - rewrite (app_assoc [c_sp] w s'). apply cut_front; [done|]. apply space_row; [done| |done]. intros x [->|Hx]%elem_of_cons; [done|by apply Hw].
  - destruct w as [|c w].
    + by rewrite (cut_fun _ _ _ Hps H1).
    + assert (H2 : tokenises scD ((c :: w) ++ s') (Tok 0 (c :: w) :: ps1)) by (apply cut_front; [done|apply space_row; done]).
      by rewrite (cut_fun _ _ _ Hps H2).
Qed.
Section Show.
  Variable A : sarith.
  Variable show : Z -> sf A -> gostring.
  (** The tokens of a number as it is printed. *)
  Definition num_toks (x : pfloat A) (l : list (gostring * gostring)) : Prop :=
    exists i d, sf_parse A (i ++ d) = pf_v x
      /\ ((d = [] /\ pf_p x = 0%Z /\ l = [(ki, i)]) \/ exists ds, d = L "." ++ ds /\ pf_p x = Z.of_nat (length ds) /\ l = [(ki, i); (kd, d)]).
  Lemma num_front x s ps : reads_back A show x -> tokenises scD s ps -> stops sc_digit s -> exists l ps', num_toks x l
    /\ tokenises scD (pf_string A show x ++ s) ps' /\ junks ps' = junks ps /\ toks ps' = l ++ toks ps.
  Proof.
    intros (i & d & E & Hi & Hp & Hd) Hs Hst. unfold pf_string. rewrite E. destruct Hd as [[-> H0]|(ds & -> & Hds & H0)].
    - exists [(ki, i)], (Tok 1 i :: ps). split; [exists i, []; auto|]. rewrite app_nil_r. split; [|done].
      apply cut_front; [done|]. by apply int_row.
    - exists [(ki, i); (kd, L "." ++ ds)], (Tok 1 i :: Tok 2 (L "." ++ ds) :: ps).
      split; [exists i, (L "." ++ ds); split; [done|]; right; by exists ds|]. rewrite <- app_assoc. split; [|done].
      apply cut_front; [apply cut_front; [done|by apply dec_row]|]. apply int_row; [done|]. reflexivity.
  Qed.
  Inductive stack_toks : list (pfloat A) -> list (gostring * gostring) -> Prop :=
  | st_none : stack_toks [] []
  | st_more x st l r : num_toks x l -> stack_toks st r -> stack_toks (x :: st) (l ++ r).
  Lemma stack_front vs s ps : Forall (reads_back A show) vs -> tokenises scD s ps -> exists l ps', stack_toks vs l
    /\ tokenises scD (sc_format A show vs ++ [c_sp] ++ s) ps' /\ junks ps' = junks ps /\ toks ps' = l ++ toks ps.
  Proof.
    intros Hv Hs. induction Hv as [|x vs Hx Hv IH].
    - destruct (space_front s ps Hs) as (ps' & Ht & HJ & HT). exists [], ps'. split; [constructor|]. done.
    - assert (HC : exists X l1 ps1, sc_format A show (x :: vs) ++ [c_sp] ++ s = pf_string A show x ++ [c_sp] ++ X
        /\ stack_toks vs l1 /\ tokenises scD X ps1 /\ junks ps1 = junks ps /\ toks ps1 = l1 ++ toks ps).
      { destruct vs as [|y vs].
        - exists s, [], ps. split; [done|]. split; [constructor|]. done.
        - destruct IH as (l1 & ps1 & H1 & H2 & H3). exists (sc_format A show (y :: vs) ++ [c_sp] ++ s), l1, ps1.
          split; [|done]. unfold sc_format. cbn [map strjoin]. by rewrite <- !app_assoc. }
      destruct HC as (X & l1 & ps1 & -> & Hl1 & Ht1 & HJ1 & HT1). destruct (space_front X ps1 Ht1) as (ps2 & Ht2 & HJ2 & HT2).
      destruct (num_front x ([c_sp] ++ X) ps2 Hx Ht2 eq_refl) as (l2 & ps3 & Hl2 & Ht3 & HJ3 & HT3).
      exists (l2 ++ l1), ps3. split; [by constructor|]. split; [exact Ht3|]. split; [by rewrite HJ3, HJ2|]. by rewrite HT3, HT2, HT1, app_assoc.
  Qed.
End Show.
(** Tokens and cuttings. *)
Lemma tokens_cut s lxs : sc_tokens s lxs -> exists ps, tokenises scD s ps /\ junks ps = [] /\ map kv lxs = toks ps.
Proof.
  intros (ps & Ht & HJ & pre & out & post & H1 & H2 & He & ->). rewrite sc_settings in H1, H2, He. rewrite sc_rules in Ht, He.
  destruct H1 as [[_ ->]|[H1 _]]; [|done]. destruct H2 as [[_ ->]|[H2 _]]; [|done]. rewrite app_nil_r. cbn [app].
  exists ps. split; [done|]. split; [done|]. destruct (emits_exist sc_table (fun b => tok_newlines b) (st_error default_settings) ps) with (before := @nil piece) as (out' & He' & Hm).
  - intros x Hx. destruct x as [p v|v].
    + destruct (cuts_rows sc_table s ps Ht p v Hx) as (r & _ & _ & Hr & _). exists p, v. split; [done|]. by eapply lookup_lt_Some.
    + exfalso. apply elem_of_list_split in Hx as (a & b & ->). unfold junks in HJ. rewrite flat_map_app in HJ. by destruct (flat_map _ a).
  - rewrite (emits_fun _ _ _ _ _ _ He _ He'). rewrite <- Hm, map_map. done.
Qed.
Lemma cut_tokens s ps : tokenises scD s ps -> junks ps = [] -> exists lxs, sc_tokens s lxs /\ map kv lxs = toks ps.
Proof.
  intros Ht HJ. destruct (eval_text s) as [(v & ps' & vs & Ht' & HJ')|(lxs & Hs)].
  - rewrite sc_rules in Ht'. rewrite (cut_fun _ _ _ Ht' Ht), HJ in HJ'. discriminate HJ'.
  - exists lxs. split; [done|]. destruct (tokens_cut s lxs Hs) as (ps' & Ht' & _ & HT). by rewrite (cut_fun _ _ _ Ht Ht').
Qed.

(** * The machine on such texts *)
Section Turn.
  Variable A : sarith.
  Variable show : Z -> sf A -> gostring.
  Lemma kv_not_dec u u' : map kv u' = map kv u -> ScalcSpec.not_dec u -> ScalcSpec.not_dec u'.
  Proof.
    intros E Hn y r ->. destruct u as [|x u]; [discriminate E|]. injection E as E1 _ _. rewrite E1. by eapply Hn.
  Qed.
  Lemma machine_kv wh st u st' : machine A wh st u st' -> forall u', map kv u' = map kv u -> machine A wh st u' st'.
  Proof.
    induction 1 as [st|x u st st' Hk Hn _ IH|x y u st st' Hk Hk2 _ IH|o a z u st st' Hk Hv _ IH|o a b z u st st' Hk Hv _ IH
      |o vs z u st st' Hk Hw Hv _ IH|o u st st1 st' Hk Hv _ IH|o a b c u st st' Hk Hv _ IH|o a b c u st st' Hk Hv _ IH|o u st st' Hk _ IH]; intros u' E.
    all: cbn [map] in E; repeat match type of E with map kv ?u' = _ :: _ => destruct u' as [|?x u']; [discriminate E|]; injection E as ?E1 ?E2 E end.
    - destruct u'; [|discriminate E]. apply m_done.
    - apply m_int; [congruence|by eapply kv_not_dec|]. rewrite E2. by apply IH.
    - apply m_dec; [congruence|congruence|]. repeat match goal with H : lx_val _ = lx_val _ |- _ => rewrite H; clear H end. by apply IH.
    - eapply m_uop; [congruence|rewrite E2; exact Hv|by apply IH].
    - eapply m_bop; [congruence|rewrite E2; exact Hv|by apply IH].
    - eapply m_sop; [congruence|exact Hw|rewrite E2; exact Hv|by apply IH].
    - eapply m_smp; [congruence|rewrite E2; exact Hv|by apply IH].
    - eapply m_if_pos; [congruence|exact Hv|by apply IH].
    - eapply m_if_not; [congruence|exact Hv|by apply IH].
    - apply m_paren; [by rewrite E1|by apply IH].
  Qed.
  Ltac wrong := exfalso; repeat match goal with H : _ \/ _ |- _ => destruct H as [H|H] end;
    match goal with H1 : lx_kind ?y = _, H2 : lx_kind ?y = _ |- _ => rewrite H1 in H2; discriminate H2 end.
  Lemma num_machine wh x l a u st st' : num_toks A x l -> map kv a = l -> ScalcSpec.not_dec u ->
    machine A wh st (a ++ u) st' <-> machine A wh (x :: st) u st'.
  Proof.
    intros (i & d & Hp & Hl) E Hu. destruct x as [xv xp]. cbn [pf_v pf_p] in *. destruct Hl as [(-> & -> & ->)|(ds & -> & -> & ->)].
    - destruct a as [|y [|? ?]]; try discriminate E. injection E as E1 E2. rewrite app_nil_r, <- E2 in Hp. subst xv. cbn [app]. split.
      + intros H. inversion H; subst; try wrong; [done|]. exfalso. by eapply (Hu _ _ eq_refl).
      + intros H. by apply m_int.
    - destruct a as [|y [|z [|? ?]]]; try discriminate E. injection E as E1 E2 E3 E4. rewrite <- E2 in Hp. subst xv. cbn [app].
      assert (EP : (Z.of_nat (length (lx_val z)) - 1)%Z = Z.of_nat (length ds)) by (assert (length (lx_val z) = S (length ds)) as -> by (rewrite E4; reflexivity); lia). split.
      + intros H. inversion H; subst; try wrong.
        * exfalso. match goal with H : ScalcSpec.not_dec (z :: u) |- _ => exact (H z u eq_refl E3) end.
        * by rewrite EP, E4 in *.
      + intros H. apply m_dec; [exact E1|exact E3|]. by rewrite EP, E4.
  Qed.
  Lemma stack_first vs l a u : stack_toks A vs l -> map kv a = l -> ScalcSpec.not_dec u -> ScalcSpec.not_dec (a ++ u).
  Proof.
    intros Hs E Hu. destruct a as [|y a]; [exact Hu|]. intros z r [= <- _]. destruct Hs as [|x vs l r' (i & d & _ & Hl) _]; [discriminate E|].
    destruct Hl as [(_ & _ & ->)|(ds & _ & _ & ->)]; injection E as E1 _ _; rewrite E1; discriminate.
  Qed.
  Lemma stack_machine wh vs l : stack_toks A vs l -> forall a u st st', map kv a = l -> ScalcSpec.not_dec u ->
    machine A wh st (a ++ u) st' <-> machine A wh (rev vs ++ st) u st'.
  Proof.
    induction 1 as [|x vs l r Hx Hr IH]; intros a u st st' E Hu.
    - by destruct a.
    - apply map_eq_app in E as (a1 & a2 & -> & E1 & E2). rewrite <- app_assoc. cbn [rev]. rewrite <- app_assoc. cbn [app].
      rewrite <- (IH a2 u (x :: st) st' E2 Hu). apply (num_machine wh x l a1 (a2 ++ u) st st' Hx E1). by eapply stack_first.
  Qed.
  Lemma kv_arith u u' : map kv u' = map kv u -> arithmetic u -> arithmetic u'.
  Proof.
    intros E Ha. unfold arithmetic in *. rewrite Forall_forall in *. intros x Hx. apply (elem_of_list_fmap_1 kv) in Hx. setoid_rewrite E in Hx.
    apply elem_of_list_fmap in Hx as (y & Ey & Hy). injection Ey as E1 _. rewrite E1. by apply Ha.
  Qed.
  Lemma stack_arith vs l a : stack_toks A vs l -> map kv a = l -> arithmetic a.
  Proof.
    intros H. revert a. induction H as [|x vs l r (i & d & _ & Hl) _ IH]; intros a E; [by destruct a; [constructor|]|].
    apply map_eq_app in E as (a1 & a2 & -> & E1 & E2). apply List.Forall_app. split; [|by apply IH].
    destruct Hl as [(_ & _ & ->)|(ds & _ & _ & ->)].
    - destruct a1 as [|y [|? ?]]; try discriminate E1. injection E1 as E1 _. apply List.Forall_cons; [by left|constructor].
    - destruct a1 as [|y [|z [|? ?]]]; try discriminate E1. injection E1 as E1 _ E3 _. apply List.Forall_cons; [by left|]. apply List.Forall_cons; [by right; left|constructor].
  Qed.
  Lemma kv_app (u' u1 u2 : list lexeme) : map kv u' = map kv (u1 ++ u2) -> exists v1 v2, u' = v1 ++ v2 /\ map kv v1 = map kv u1 /\ map kv v2 = map kv u2.
  Proof. rewrite map_app. intros E. apply map_eq_app in E as (a1 & a2 & -> & E1 & E2). by exists a1, a2. Qed.

  Variable compile : compiler.
  Variable l0 l : slexer.
  Variable gg : gr.
  Variable texts : list gostring.
  Hypothesis HC : compiles compile sc_table.
  Hypothesis Hl0 : sc_lexer compile = Some l0.
  Hypothesis Hl : returns (sl_calls (map CLex texts) l0) l.
  Hypothesis Hgg : sc_grammar = Some gg.
  Definition agrees (s : gostring) (u : list lexeme) : Prop :=
    (exists st l', machine A true [] u st /\ returns (sc_eval A l gg s) (Some (rev st), l'))
    \/ ((forall st, ~ machine A true [] u st) /\ exists l', returns (sc_eval A l gg s) (None, l')).
  Lemma plain_agrees vs lt a u u' s : stack_toks A vs lt -> map kv a = lt -> plain_line A u -> map kv u' = map kv u ->
    sc_tokens s (a ++ u') -> agrees s (a ++ u').
  Proof using All.
    intros Hv Ea Hp E Hs. pose proof (stack_arith vs lt a Hv Ea) as Ha. destruct Hp as [Hu|[(w & x & -> & Hw & Hx)|(w & x & v & st & -> & Hw & Hx & Hu & Hm)]].
    - apply (eval_arith A compile l0 l gg texts HC Hl0 Hl Hgg s); [done|]. apply List.Forall_app. split; [done|by eapply kv_arith].
    - apply kv_app in E as (w' & x' & -> & Ew & Ex). destruct x' as [|x' [|? ?]]; try discriminate Ex. injection Ex as Ex _.
      rewrite app_assoc in *. apply (eval_last_smp A compile l0 l gg texts HC Hl0 Hl Hgg s); [done| |by rewrite Ex].
      apply List.Forall_app. split; [done|by eapply kv_arith].
    - apply kv_app in E as (w' & x' & -> & Ew & Ex). destruct x' as [|x' v']; [discriminate Ex|]. injection Ex as Ex _ Ev.
      rewrite app_assoc in *. apply (eval_whole A compile l0 l gg texts HC Hl0 Hl Hgg s (a ++ w') x' v' st); [done| |by rewrite Ex|by eapply kv_arith|by eapply machine_kv].
      apply List.Forall_app. split; [done|by eapply kv_arith].
  Qed.
  (** A line after a stack that reads back. *)
  Lemma turn vs w u : Forall (reads_back A show) vs -> sc_tokens w u -> plain_line A u -> ScalcSpec.not_dec u ->
    (exists st l', machine A true (rev vs) u st /\ returns (sc_eval A l gg (sc_format A show vs ++ [c_sp] ++ w)) (Some (rev st), l'))
    \/ ((forall st, ~ machine A true (rev vs) u st) /\ exists l', returns (sc_eval A l gg (sc_format A show vs ++ [c_sp] ++ w)) (None, l')).
  Proof using All.
    intros Hv Hw Hp Hn. destruct (tokens_cut w u Hw) as (ps & Ht & HJ & HT). destruct (stack_front A show vs w ps Hv Ht) as (lt & ps' & Hlt & Ht' & HJ' & HT').
    rewrite HJ in HJ'. destruct (cut_tokens _ _ Ht' HJ') as (lxs & Hs & E). rewrite HT', <- HT in E. apply map_eq_app in E as (a & u' & -> & Ea & Eu).
    assert (Hn' : ScalcSpec.not_dec u') by (by eapply kv_not_dec).
    assert (HM : forall st, machine A true [] (a ++ u') st <-> machine A true (rev vs) u st).
    { intros st. rewrite (stack_machine true vs lt Hlt a u' [] st Ea Hn'), app_nil_r. split; intros H; eapply machine_kv; eauto. }
    destruct (plain_agrees vs lt a u u' _ Hlt Ea Hp Eu Hs) as [(st & l' & Hm & H)|(Hm & H)].
    - left. exists st, l'. split; [by apply HM|done].
    - right. split; [|done]. intros st H'. apply (Hm st). by apply HM.
  Qed.
  Lemma turn_junk vs w v : Forall (reads_back A show) vs -> lexes_not (sc_calls []) w v ->
    exists l', returns (sc_eval A l gg (sc_format A show vs ++ [c_sp] ++ w)) (None, l').
  Proof using All.
    intros Hv (ps & us & Ht & HJ). rewrite sc_rules in Ht. destruct (stack_front A show vs w ps Hv Ht) as (lt & ps' & Hlt & Ht' & HJ' & HT').
    apply (eval_junk A compile l0 l gg texts HC Hl0 Hl Hgg _ v). exists ps', us. rewrite sc_rules. split; [done|]. by rewrite HJ'.
  Qed.
End Turn.
