(** Every proper grammar has a text. *)
From Coq Require Import String.
From Verif.spec Require Import RegexGramText ReSpec.
From Verif.proofs Require StackProofs RgUnamb RgParse RegexGramNames RegexGramThms.
From Verif.proofs Require Import Fuel RegexProofs ReProofs LexText LexTableProofs RgText.
Local Open Scope nat_scope.
Local Open Scope list_scope.

(** * The grammar depends on kinds and values of the tokens only *)
Definition same_tok (a b : lexeme) : Prop := lx_kind a = lx_kind b /\ lx_val a = lx_val b.
Lemma same_app u v w : Forall2 same_tok (u ++ v) w -> exists u' v', w = u' ++ v' /\ Forall2 same_tok u u' /\ Forall2 same_tok v v'.
Proof. intros H. apply Forall2_app_inv_l in H as (a & b & H1 & H2 & ->). eauto. Qed.
Lemma same_cons x v w : Forall2 same_tok (x :: v) w -> exists x' v', w = x' :: v' /\ same_tok x x' /\ Forall2 same_tok v v'.
Proof. intros H. inversion H; subst. eauto. Qed.
Lemma same_nil w : Forall2 same_tok [] w -> w = [].
Proof. by inversion 1. Qed.
Ltac same H := lazymatch type of H with
  | Forall2 same_tok (_ ++ _) _ => let u := fresh "w" in let v := fresh "w" in let A := fresh "Q" in let B := fresh "Q" in
      apply same_app in H as (u & v & -> & A & B); same A; same B
  | Forall2 same_tok (_ :: _) _ => let u := fresh "w" in let v := fresh "w" in let A := fresh "Q" in let B := fresh "Q" in
      apply same_cons in H as (u & v & -> & A & B); same B
  | Forall2 same_tok [] _ => apply same_nil in H as ->
  | _ => idtac end.
Lemma kind_same a b k : lx_kind a = k -> same_tok a b -> lx_kind b = k.
Proof. intros <- [<- _]. done. Qed.
Lemma spells_same :
  (forall e u, spells_rx e u -> forall w, Forall2 same_tok u w -> spells_rx e w)
  /\ (forall es u, spells_bar es u -> forall w, Forall2 same_tok u w -> spells_bar es w)
  /\ (forall es u, spells_seq es u -> forall w, Forall2 same_tok u w -> spells_seq es w).
Proof.
  apply (spells_mut (fun e u _ => forall w, Forall2 same_tok u w -> spells_rx e w)
    (fun es u _ => forall w, Forall2 same_tok u w -> spells_bar es w)
    (fun es u _ => forall w, Forall2 same_tok u w -> spells_seq es w)).
  - intros x Hx w H. same H. destruct Q as [Sk Sv]. rewrite Sv. apply sp_sym. congruence.
  - intros o l u c Ho _ IH Hc w H. same H. apply sp_group; [by eapply kind_same|by apply IH|by eapply kind_same].
  - intros e u q Ha _ IH Hq w H. same H. apply sp_opt; [done|by apply IH|by eapply kind_same].
  - intros e u q Ha _ IH Hq w H. same H. apply sp_rep; [done|by apply IH|by eapply kind_same].
  - intros e u b l v Hn _ IH Hb _ IHl w H. same H. apply sp_or; [done|by apply IH|by eapply kind_same|by apply IHl].
  - intros e u Hn _ IH w H. apply spb_one; [done|by apply IH].
  - intros e u b l v Hn _ IH Hb _ IHl w H. same H. apply spb_more; [done|by apply IH|by eapply kind_same|by apply IHl].
  - intros w H. same H. constructor.
  - intros e u es v _ IH _ IHs w H. same H. constructor; [by apply IH|by apply IHs].
Qed.
Lemma prods_same cur R u : spells_prods cur R u -> forall w, Forall2 same_tok u w -> spells_prods cur R w.
Proof.
  induction 1 as [cur|cur n s a es u R v Hn Hs Ha Hes _ IH|cur n a es u R v Hn Ha Hes _ IH]; intros w H; same H.
  - constructor.
  - match goal with H : same_tok s _ |- _ => pose proof (proj2 H) as Ev end. rewrite Ev. apply spp_prod; try (by eapply kind_same).
    + by eapply spells_same.
    + rewrite <- Ev. by apply IH.
  - apply spp_more; try (by eapply kind_same); [by eapply spells_same|by apply IH].
Qed.
Lemma blank_same u w : blank u -> Forall2 same_tok u w -> blank w.
Proof.
  intros [->|(n & -> & Hn)] H; same H; [by left|]. right. eexists. split; [done|]. by eapply kind_same.
Qed.
Lemma grammar_same R u w : spells R u -> Forall2 same_tok u w -> spells R w.
Proof.
  intros (HR & pre & b & post & H1 & H2 & H3 & ->) H. split; [done|].
  apply same_app in H as (p' & r & -> & A & B). apply same_app in B as (b' & q' & -> & B & C).
  exists p', b', q'. split; [exact (blank_same _ _ H1 A)|]. split; [exact (blank_same _ _ H2 C)|].
  split; [exact (prods_same _ _ _ H3 _ B)|done].
Qed.

(** * Tokens with the texts the rules match *)
Definition token (x : lexeme) : Prop :=
  (lx_kind x = L "symbol" /\ is_word (lx_val x)) \/ (lx_kind x = L "rarr" /\ lx_val x = L "->")
  \/ (lx_kind x = L "repeats" /\ lx_val x = L "*") \/ (lx_kind x = L "optional" /\ lx_val x = L "?")
  \/ (lx_kind x = L "or" /\ lx_val x = L "|") \/ (lx_kind x = L "(" /\ lx_val x = L "(")
  \/ (lx_kind x = L ")" /\ lx_val x = L ")").
Definition tk (k v : string) : lexeme := Lx (L k) (L v) 0 0.
Definition sym (v : gostring) : lexeme := Lx (L "symbol") v 0 0.
Definition nlt : lexeme := Lx (L "nl") [c_nl] 0 0.
Fixpoint toks (e : rx) : list lexeme :=
  match e with
  | XSym v => [sym v]
  | XOpt e => toks e ++ [tk "optional" "?"]
  | XRep e => toks e ++ [tk "repeats" "*"]
  | XOr [] => []
  | XOr (e :: l) => toks e ++ flat_map (fun e => tk "or" "|" :: toks e) l
  | XGroup l => tk "(" "(" :: flat_map toks l ++ [tk ")" ")"]
  end.
Definition prod_toks (p : gostring * list rx) : list lexeme := sym (fst p) :: tk "rarr" "->" :: flat_map toks (snd p).

Fixpoint rx_size (e : rx) : nat :=
  match e with
  | XSym _ => 1
  | XOpt e => S (rx_size e)
  | XRep e => S (rx_size e)
  | XOr l => S (fold_right (fun e n => rx_size e + n) 0 l)
  | XGroup l => S (fold_right (fun e n => rx_size e + n) 0 l)
  end.
Lemma rx_ind' (P : rx -> Prop) :
  (forall v, P (XSym v)) -> (forall e, P e -> P (XOpt e)) -> (forall e, P e -> P (XRep e)) ->
  (forall l, Forall P l -> P (XOr l)) -> (forall l, Forall P l -> P (XGroup l)) -> forall e, P e.
Proof.
  intros H1 H2 H3 H4 H5. fix IH 1. intros [v|e|e|l|l].
  - apply H1.
  - apply H2, IH.
  - apply H3, IH.
  - apply H4. induction l as [|e l IHl]; constructor; [apply IH|exact IHl].
  - apply H5. induction l as [|e l IHl]; constructor; [apply IH|exact IHl].
Qed.
Lemma proper_all (Q : rx -> Prop) l : foldr (fun e P => Q e /\ P) True l -> Forall Q l.
Proof. induction l as [|e l IH]; [constructor|]. intros [H1 H2]. constructor; [done|by apply IH]. Qed.
Lemma bar_toks l : Forall (fun e => no_bar e /\ spells_rx e (toks e)) l -> forall e, no_bar e -> spells_rx e (toks e) ->
  spells_bar (e :: l) (toks e ++ flat_map (fun e => tk "or" "|" :: toks e) l).
Proof.
  induction 1 as [|e2 l [Hn2 H2] _ IH]; intros e Hn He; cbn [flat_map].
  - rewrite app_nil_r. by apply spb_one.
  - cbn [app]. apply spb_more; [done|done|done|]. by apply IH.
Qed.
Lemma seq_toks l : Forall (fun e => spells_rx e (toks e)) l -> spells_seq l (flat_map toks l).
Proof. induction 1; cbn [flat_map]; by constructor. Qed.
Lemma toks_spell e : proper e -> spells_rx e (toks e).
Proof.
  induction e as [v|e IH|e IH|l IH|l IH] using rx_ind'; cbn [proper toks].
  - intros _. by apply (sp_sym (sym v)).
  - intros [Ha Hp]. apply sp_opt; [done|by apply IH|done].
  - intros [Ha Hp]. apply sp_rep; [done|by apply IH|done].
  - intros [Hl Hp]. apply (proper_all (fun e => no_bar e /\ proper e)) in Hp.
    destruct l as [|e [|e2 l]]; cbn [length] in Hl; [lia|lia|].
    assert (HF : Forall (fun e => no_bar e /\ spells_rx e (toks e)) (e :: e2 :: l)).
    { rewrite Forall_forall in IH, Hp. apply Forall_forall. intros x Hx. split; [by apply Hp|]. apply IH; [done|]. by apply Hp. }
    inversion HF as [|? ? [Hn He] HF2]; subst. inversion HF2 as [|? ? [Hn2 He2] HF3]; subst.
    cbn [flat_map app]. apply sp_or; [done|done|done|]. by apply bar_toks.
  - intros Hp. apply (proper_all proper) in Hp. apply sp_group; [done| |done]. apply seq_toks.
    rewrite Forall_forall in IH, Hp. apply Forall_forall. intros x Hx. apply IH; [done|]. by apply Hp.
Qed.
Lemma toks_tokens e : proper e -> Forall token (toks e).
Proof.
  induction e as [v|e IH|e IH|l IH|l IH] using rx_ind'; cbn [proper toks].
  - intros H. constructor; [by left|constructor].
  - intros [Ha Hp]. apply Forall_app. split; [by apply IH|]. constructor; [unfold token; cbn; tauto|constructor].
  - intros [Ha Hp]. apply Forall_app. split; [by apply IH|]. constructor; [unfold token; cbn; tauto|constructor].
  - intros [Hl Hp]. apply (proper_all (fun e => no_bar e /\ proper e)) in Hp. destruct l as [|e l]; [constructor|].
    inversion IH as [|? ? IHe IHl]; subst. inversion Hp as [|? ? [_ Hpe] Hpl]; subst.
    apply Forall_app. split; [by apply IHe|]. apply Forall_flat_map. rewrite Forall_forall in IHl, Hpl.
    apply Forall_forall. intros x Hx. constructor; [unfold token; cbn; tauto|]. apply IHl; [done|]. by apply Hpl.
  - intros Hp. apply (proper_all proper) in Hp. constructor; [unfold token; cbn; tauto|].
    apply Forall_app. split; [|constructor; [unfold token; cbn; tauto|constructor]].
    apply Forall_flat_map. rewrite Forall_forall in IH, Hp. apply Forall_forall. intros x Hx. apply IH; [done|]. by apply Hp.
Qed.

(** * The text of a sequence of tokens is cut into them *)
Definition row_of (x : lexeme) : nat :=
  default 0 (fst <$> list_find (fun r => lw_kind r = lx_kind x) rg_table).
Definition tok_text (x : lexeme) : gostring := lx_val x ++ [32%N].
Definition tok_pieces (x : lexeme) : list piece := [Tok (row_of x) (lx_val x); Tok 9 [32%N]].
Notation RD := (map row_def rg_table).
Definition opens (s : gostring) : Prop := match s with x :: _ => x <> 32%N /\ x <> 9%N | [] => True end.

Lemma skip_all c s p : (forall q r, rg_table !! q = Some r -> q <> p -> row_first r c = false) ->
  forall q r, rg_table !! q = Some r -> q <> p -> hd_len (lw_re r) (c :: s) = None.
Proof. intros H q r Hq Hne. apply row_skip. by eapply H. Qed.
Lemma first_only c p : forallb (fun q => (q =? p) || match rg_table !! q with Some r => negb (row_first r c) | None => true end)%nat (seq 0 10) = true ->
  forall q r, rg_table !! q = Some r -> q <> p -> row_first r c = false.
Proof.
  intros H q r Hq Hne. rewrite forallb_forall in H. specialize (H q). rewrite Hq in H.
  assert (Hin : In q (seq 0 10)) by (apply in_seq; apply lookup_lt_Some in Hq; split; [lia|exact Hq]).
  apply H in Hin. apply orb_true_iff in Hin as [E|E]; [apply Nat.eqb_eq in E; done|]. by apply negb_true_iff.
Qed.
Lemma word_first c : word_char c = true -> forall q r, rg_table !! q = Some r -> q <> 1 -> row_first r c = false.
Proof.
  intros Hc q r Hq Hne. destruct (row_first r c) eqn:E; [|done]. exfalso.
  destruct q as [|[|[|[|[|[|[|[|[|[|q]]]]]]]]]]; [..|done]; try (by apply Hne); injection Hq as <-; cbn in E;
    repeat (apply N.eqb_eq in E as <- || (apply orb_true_iff in E as [E|E]; apply N.eqb_eq in E as ->)); vm_compute in Hc; discriminate Hc.
Qed.
Lemma cut_at D s p w s' ps : s = w ++ s' -> best D s p (length w) -> tokenises D s' ps -> tokenises D s (Tok p w :: ps).
Proof.
  intros -> Hb Hc. replace w with (take (length w) (w ++ s')) at 2 by (by rewrite take_app). constructor; [done|]. by rewrite drop_app.
Qed.
Lemma cut_space s ps : opens s -> tokenises RD s ps -> tokenises RD (32%N :: s) (Tok 9 [32%N] :: ps).
Proof.
  intros Ho H. eapply (cut_at _ _ _ [32%N] s); [done| |done]. eapply best_row; [reflexivity| |cbn; lia|].
  - apply (hd_is_len _ _ s [32%N] []); [done|]. cbn [lw_re]. apply (hd_plus _ 32%N []).
    + intros y Hy. apply elem_of_list_singleton in Hy as ->. done.
    + destruct s as [|x s]; [done|]. destruct Ho as [H1 H2]. cbn [stops]. apply orb_false_iff. by rewrite !N.eqb_neq.
  - apply skip_all, first_only. vm_compute. reflexivity.
Qed.
Lemma cut_word v s ps : is_word v -> tokenises RD (32%N :: s) ps -> tokenises RD (v ++ 32%N :: s) (Tok 1 v :: ps).
Proof.
  intros [Hne Hv] H. destruct v as [|c v]; [done|]. eapply cut_at; [done| |done]. cbn [app].
  eapply best_row; [reflexivity| |cbn; lia|].
  - apply (hd_is_len _ _ (32%N :: s) (c :: v) []); [done|]. cbn [lw_re]. apply (hd_plus _ c v); [|done].
    by apply Forall_forall.
  - apply skip_all, word_first. inversion Hv; subst. done.
Qed.
Lemma cut_char p a s ps : (exists k src d, rg_table !! p = Some (LRow k src (one a) d)) -> length (L a) = 1 ->
  (forall q r, rg_table !! q = Some r -> q <> p -> row_first r (hd 0%N (L a)) = false) ->
  tokenises RD s ps -> tokenises RD (L a ++ s) (Tok p (L a) :: ps).
Proof.
  intros (k & src & d & Hp) H1 HO H. unfold one in Hp. destruct (L a) as [|c [|]]; try discriminate H1. cbn [hd] in *.
  eapply (cut_at _ _ _ [c] s); [done| |done]. eapply best_row; [exact Hp| |cbn; lia|].
  - apply (hd_is_len _ _ s [c] []); [done|]. cbn [lw_re]. apply hd_set. apply N.eqb_refl.
  - by apply skip_all.
Qed.
Lemma cut_arrow s ps : tokenises RD s ps -> tokenises RD (L "->" ++ s) (Tok 0 (L "->") :: ps).
Proof.
  intros H. eapply (cut_at _ _ _ (L "->") s); [done| |done]. eapply best_row; [reflexivity| |cbn; lia|].
  - apply (hd_is_len _ _ s (L "->") []); [done|]. cbn [lw_re]. eapply hd_cat; by apply hd_set.
  - change (L "->" ++ s) with (45%N :: 62%N :: s). apply skip_all, first_only. vm_compute. reflexivity.
Qed.
Lemma cut_tok_one x s ps : token x -> opens s -> tokenises RD s ps -> tokenises RD (tok_text x ++ s) (tok_pieces x ++ ps).
Proof.
  intros Hx Ho H. pose proof (cut_space s ps Ho H) as H'. unfold tok_text, tok_pieces, row_of. rewrite <- app_assoc. cbn [app].
  destruct Hx as [[Hk Hv]|Hx].
  - rewrite Hk. change (default 0 (fst <$> list_find (fun r => lw_kind r = L "symbol") rg_table)) with 1. by apply cut_word.
  - destruct Hx as [[-> ->]|Hx]; [by apply cut_arrow|].
    repeat destruct Hx as [[-> ->]|Hx]; [..|destruct Hx as [-> ->]];
      (apply cut_char; [vm_compute; eauto|reflexivity|apply first_only; vm_compute; reflexivity|exact H']).
Qed.
Lemma token_opens x s : token x -> opens (tok_text x ++ s).
Proof.
  intros [[_ [Hne Hv]]|Hx]; unfold tok_text.
  - destruct (lx_val x) as [|c v]; [done|]. cbn [app opens]. inversion Hv as [|? ? Hc]; subst. split; intros ->; discriminate Hc.
  - repeat destruct Hx as [[_ ->]|Hx]; [..|destruct Hx as [_ ->]]; done.
Qed.
Lemma cut_toks u s ps : Forall token u -> opens s -> tokenises RD s ps ->
  opens (flat_map tok_text u ++ s) /\ tokenises RD (flat_map tok_text u ++ s) (flat_map tok_pieces u ++ ps).
Proof.
  induction 1 as [|x u Hx Hu IH]; intros Ho H; [done|]. cbn [flat_map]. rewrite <- !app_assoc.
  destruct (IH Ho H) as [H1 H2]. split; [by apply token_opens|]. by apply cut_tok_one.
Qed.
(** A line break is followed by a word. *)
Lemma cut_nl c s ps : word_char c = true -> tokenises RD (c :: s) ps -> tokenises RD (10%N :: c :: s) (Tok 8 [10%N] :: ps).
Proof.
  intros Hc H. assert (Hs : lx_space c = false).
  { destruct (lx_space c) eqn:E; [|done]. unfold lx_space in E. rewrite !orb_true_iff, !N.eqb_eq in E.
    repeat destruct E as [E|E]; subst c; discriminate Hc. }
  eapply (cut_at _ _ _ [10%N]); [done| |done]. eapply best_row; [reflexivity| |cbn; lia|].
  - apply (hd_is_len _ _ (c :: s) [10%N] []); [done|]. cbn [lw_re]. eapply hd_cat; [by apply hd_set|]. by apply hd_none.
  - intros q r Hq Hne. destruct (decide (q = 7)) as [->|H7].
    + injection Hq as <-. cbn [lw_re]. unfold hd_len.
      assert (E : rmatch (RCat (RStar (RSet lx_space)) (RCat (one "/") (RCat (one "/") (RStar (RSet (fun x => negb (line_break x))))))) (c :: s) [] = []).
      { cbn [rmatch length star_match]. rewrite Hs. cbn [flat_map app rmatch]. unfold one. cbn [rmatch].
        change (hd 0%N (L "/")) with 47%N. destruct (N.eqb_spec 47 c) as [<-|_]; [discriminate Hc|]. done. }
      cbn [rmatch]. change (line_break 10) with true. cbv iota. cbn [flat_map app]. rewrite app_nil_r.
      change (match rmatch (RCat (RStar (RSet lx_space)) (RCat (one "/") (RCat (one "/") (RStar (RSet (fun x => negb (line_break x))))))) (c :: s) [] with [] => None | (s', _) :: _ => Some (length (10%N :: c :: s) - length s') end = None).
      by rewrite E.
    + apply row_skip. destruct q as [|[|[|[|[|[|[|[|[|[|q]]]]]]]]]]; try done; injection Hq as <-; reflexivity.
Qed.

(** * The text of a grammar *)
Definition prod_text (p : gostring * list rx) : gostring := 10%N :: flat_map tok_text (prod_toks p).
Definition rg_print (R : rxs) : gostring := flat_map prod_text R.
Definition prod_pieces (p : gostring * list rx) : list piece := Tok 8 [10%N] :: flat_map tok_pieces (prod_toks p).
Definition good_prod (p : gostring * list rx) : Prop := is_word (fst p) /\ Forall proper (snd p).

Lemma prod_tokens p : good_prod p -> Forall token (prod_toks p).
Proof.
  intros [Hw Hp]. unfold prod_toks. constructor; [by left|]. constructor; [unfold token; cbn; tauto|].
  apply Forall_flat_map. eapply Forall_impl; [exact Hp|]. apply toks_tokens.
Qed.
Lemma cut_prods R : Forall good_prod R -> opens (rg_print R) /\ tokenises RD (rg_print R) (flat_map prod_pieces R).
Proof.
  induction 1 as [|p R Hp _ [IH1 IH2]].
  - split; [done|constructor].
  - unfold rg_print. cbn [flat_map]. fold (rg_print R). split; [done|].
    destruct (cut_toks (prod_toks p) (rg_print R) _ (prod_tokens p Hp) IH1 IH2) as [_ H].
    unfold prod_text, prod_pieces. destruct Hp as [[Hne Hw] _]. destruct p as [v es]. cbn [fst] in *.
    destruct v as [|c v]; [done|]. inversion Hw; subst. cbn [app]. by apply cut_nl.
Qed.
Lemma row_of_token x : token x -> row_of x < length rg_table /\ piece_toks rg_table (Tok (row_of x) (lx_val x)) = [(lx_kind x, lx_val x)].
Proof.
  unfold row_of. intros Hx. destruct Hx as [[-> _]|Hx]; [vm_compute; split; [lia|done]|].
  repeat destruct Hx as [[-> _]|Hx]; [..|destruct Hx as [-> _]]; (vm_compute; split; [lia|done]).
Qed.
Lemma toks_pieces u : Forall token u ->
  (forall x, x ∈ flat_map tok_pieces u -> exists p v, x = Tok p v /\ p < length rg_table)
  /\ flat_map (piece_toks rg_table) (flat_map tok_pieces u) = map (fun x => (lx_kind x, lx_val x)) u.
Proof.
  induction 1 as [|x u Hx _ [IH1 IH2]].
  - split; [intros x Hx; by apply elem_of_nil in Hx|done].
  - destruct (row_of_token x Hx) as [Hr Hp]. cbn [flat_map tok_pieces app]. split.
    + intros y Hy. rewrite !elem_of_cons in Hy. destruct Hy as [->|[->|Hy]]; [eauto| |by apply IH1].
      exists 9, [32%N]. split; [done|]. cbn; lia.
    + cbn [flat_map map]. rewrite Hp, IH2. done.
Qed.
Definition rg_toks (R : rxs) : list lexeme := flat_map (fun p => nlt :: prod_toks p) R.
Lemma prods_pieces R : Forall good_prod R ->
  (forall x, x ∈ flat_map prod_pieces R -> exists p v, x = Tok p v /\ p < length rg_table)
  /\ flat_map (piece_toks rg_table) (flat_map prod_pieces R) = map (fun x => (lx_kind x, lx_val x)) (rg_toks R).
Proof.
  induction 1 as [|p R Hp _ [IH1 IH2]].
  - split; [intros x Hx; by apply elem_of_nil in Hx|done].
  - destruct (toks_pieces _ (prod_tokens p Hp)) as [H1 H2]. unfold rg_toks. cbn [flat_map]. fold (rg_toks R). unfold prod_pieces at 1 3. split.
    + intros y Hy. cbn [app] in Hy. rewrite elem_of_cons, elem_of_app in Hy. destruct Hy as [->|[Hy|Hy]]; [|by apply H1|by apply IH1].
      exists 8, [10%N]. split; [done|]. cbn; lia.
    + cbn [app flat_map map]. rewrite flat_map_app, H2, IH2, map_app. done.
Qed.
Lemma prods_spell R : Forall good_prod R -> forall cur, spells_prods cur R (rg_toks R).
Proof.
  induction 1 as [|[v es] R [_ Hp] _ IH]; intros cur; [constructor|].
  unfold rg_toks. cbn [flat_map prod_toks fst snd app]. fold (rg_toks R).
  apply (spp_prod cur nlt (sym v)); [done..| |apply IH].
  apply seq_toks. eapply Forall_impl; [exact Hp|]. apply toks_spell.
Qed.
Lemma same_pairs u w : map (fun x => (lx_kind x, lx_val x)) w = map (fun x => (lx_kind x, lx_val x)) u -> Forall2 same_tok u w.
Proof.
  revert w. induction u as [|x u IH]; intros [|y w] E; try discriminate E; [constructor|].
  cbn [map] in E. injection E as E1 E2 E3. constructor; [split; congruence|by apply IH].
Qed.
Lemma print_reads R : Forall good_prod R -> R <> [] -> reads (rg_print R) R.
Proof.
  intros HR Hne. destruct (cut_prods R HR) as [_ Hc]. destruct (prods_pieces R HR) as [HP HE].
  destruct (emits_exist rg_table tok_newlines (st_error (settings_of rg_more)) (flat_map prod_pieces R) HP [])
    as (out & He & Hm).
  exists (map olex_lx ([LTok (Lx (L "nl") [c_nl] (-1) 0)] ++ out ++ [])). split.
  - exists (flat_map prod_pieces R). unfold rg_calls. rewrite (table_rules rg_table rg_more _ rg_more_adds rg_nodup).
    split; [exact Hc|]. split; [by apply (junks_none rg_table)|].
    unfold all_lexemes. rewrite (table_rules rg_table rg_more _ rg_more_adds rg_nodup), (table_settings rg_table rg_more).
    eexists _, out, []. split; [right; split; [|reflexivity]; discriminate|]. split; [left; done|]. split; [exact He|reflexivity].
  - apply (grammar_same R ([Lx (L "nl") [c_nl] (-1) 0] ++ rg_toks R ++ [])).
    + split; [done|]. exists [Lx (L "nl") [c_nl] (-1) 0], (rg_toks R), []. split; [right; by exists (Lx (L "nl") [c_nl] (-1) 0)|]. split; [by left|]. split; [by apply prods_spell|reflexivity].
    + rewrite !app_nil_r. cbn [app map olex_lx]. constructor; [done|]. apply same_pairs. rewrite <- HE, <- Hm, map_map. done.
Qed.

(** * What is read is proper *)
Definition words (u : list lexeme) : Prop := forall x, x ∈ u -> lx_kind x = L "symbol" -> is_word (lx_val x).
Lemma words_app u v : words (u ++ v) -> words u /\ words v.
Proof. unfold words. setoid_rewrite elem_of_app. intros H. split; intros x Hx; apply H; tauto. Qed.
Lemma words_cons x v : words (x :: v) -> words v.
Proof. intros H y Hy. apply H. by right. Qed.
Lemma Forall_proper (Q : rx -> Prop) l : Forall Q l -> foldr (fun e P => Q e /\ P) True l.
Proof. induction 1; cbn [foldr]; tauto. Qed.
Lemma spelled_proper :
  (forall e u, spells_rx e u -> words u -> proper e)
  /\ (forall es u, spells_bar es u -> words u -> 1 <= length es /\ Forall (fun e => no_bar e /\ proper e) es)
  /\ (forall es u, spells_seq es u -> words u -> Forall proper es).
Proof.
  apply (spells_mut (fun e u _ => words u -> proper e)
    (fun es u _ => words u -> 1 <= length es /\ Forall (fun e => no_bar e /\ proper e) es)
    (fun es u _ => words u -> Forall proper es)).
  - intros x Hx HW. apply HW; [left|done].
  - intros o l u c Ho _ IH Hc HW. cbn [proper]. apply Forall_proper, IH. apply words_cons, words_app in HW. tauto.
  - intros e u q Ha _ IH Hq [HW _]%words_app. split; [exact Ha|exact (IH HW)].
  - intros e u q Ha _ IH Hq [HW _]%words_app. split; [exact Ha|exact (IH HW)].
  - intros e u b l v Hn _ IH Hb _ IHl HW. apply words_app in HW as [H1 H2%words_cons]. destruct (IHl H2) as [H3 H4].
    split; [cbn [length]; lia|]. apply (Forall_proper (fun e => no_bar e /\ proper e)). constructor; [|done]. split; [done|by apply IH].
  - intros e u Hn _ IH HW. split; [cbn; lia|]. constructor; [|constructor]. split; [done|by apply IH].
  - intros e u b l v Hn _ IH Hb _ IHl HW. apply words_app in HW as [H1 H2%words_cons]. destruct (IHl H2) as [H3 H4].
    split; [cbn [length]; lia|]. constructor; [|done]. split; [done|by apply IH].
  - intros _. constructor.
  - intros e u es v _ IH _ IHs HW. apply words_app in HW as [H1 H2]. constructor; [by apply IH|by apply IHs].
Qed.
Lemma prods_good cur R u : spells_prods cur R u -> words u -> (forall c, cur = Some c -> is_word c) -> Forall good_prod R.
Proof.
  induction 1 as [cur|cur n s a es u R v Hn Hs Ha Hes _ IH|cur n a es u R v Hn Ha Hes _ IH]; intros HW Hc.
  - constructor.
  - assert (Hw : is_word (lx_val s)) by (apply HW; [right; left|done]).
    apply words_cons, words_cons, words_cons, words_app in HW as [H1 H2]. constructor.
    + split; [done|]. by eapply spelled_proper.
    + apply IH; [done|]. by intros c [= <-].
  - apply words_cons, words_cons, words_app in HW as [H1 H2]. constructor; [|by apply IH].
    split; [by apply Hc|]. by eapply spelled_proper.
Qed.
Lemma good_proper R : Forall good_prod R <-> proper_rxs R.
Proof.
  rewrite Forall_forall. unfold proper_rxs, good_prod. split.
  - intros H s es Hin. destruct (H _ Hin) as [H1 H2]. split; [done|]. by rewrite Forall_forall in H2.
  - intros H [s es] Hin. destruct (H _ _ Hin) as [H1 H2]. split; [done|]. by apply Forall_forall.
Qed.
Lemma reads_proper s R : reads s R -> proper_rxs R /\ R <> [].
Proof.
  intros (lxs & Hl & HR & pre & u & post & _ & _ & Hsp & ->). split; [|done]. apply good_proper.
  eapply prods_good; [exact Hsp| |done]. intros x Hx Hk. eapply (rg_lexeme []); [exact Hl| |done].
  rewrite !elem_of_app. tauto.
Qed.
Lemma reads_unique s R R' : reads s R -> reads s R' -> R = R'.
Proof.
  intros (lxs & Hl & HR) (lxs' & Hl' & HR').
  assert (lxs' = lxs) as -> by (eapply (table_unique rg_table rg_more []); [exact rg_more_adds|done|done]).
  by eapply RgUnamb.spells_unique.
Qed.
Lemma writable R : (exists s, reads s R) <-> proper_rxs R /\ R <> [].
Proof.
  split; [intros [s H]; by eapply reads_proper|]. intros [Hp Hne]. exists (rg_print R). apply print_reads; [|done]. by apply good_proper.
Qed.

(** * New, from text to grammar *)
Section New.
  Variable compile : compiler.
  Variable l0 l : slexer.
  Variable gg : gr.
  Variable texts : list gostring.
  Hypothesis HC : compiles compile rg_table.
  Hypothesis Hl0 : rg_lexer compile = Some l0.
  Hypothesis Hl : returns (sl_calls (map CLex texts) l0) l.
  Hypothesis Hgg : rg_grammar = Some gg.

  Lemma new_grammar s R : reads s R -> exists t, shows_grammar t R /\ exists g r l',
    returns (eval_grammar t) (g, r) /\ returns (rg_new l gg s) (inl (g, r), l').
  Proof using All.
    intros H. destruct (new_ok compile l0 l gg texts HC Hl0 Hl Hgg s R H) as (t & g & r & l' & H1 & H2 & H3).
    exists t. split; [exact H1|]. exists g, r, l'. split; [exact H2|exact H3].
  Qed.
  Lemma new_else s : (forall R, ~ reads s R) -> (exists v l', lexes_not (rg_calls []) s v
      /\ returns (rg_new l gg s) (inr (ErrLex (Lx (L "Error") v (-1) 0)), l'))
    \/ exists l', returns (rg_new l gg s) (inr ErrCouldNotParse, l').
  Proof using All.
    intros HN. destruct (table_lexes rg_table rg_more [] rg_more_adds rg_nodup rg_length s) as [[lxs H]|[v H]].
    - right. apply (new_bad compile l0 l gg texts HC Hl0 Hl Hgg s lxs H). intros R HR. apply (HN R). exists lxs. split; [exact H|exact HR].
    - left. destruct (new_junk compile l0 l gg texts HC Hl0 Hl Hgg s v H) as [l' H']. exists v, l'. split; [exact H|exact H'].
  Qed.
  (** Whatever the text, the next call finds the lexer as if this text had been lexed. *)
  Lemma new_lexer s x l' : returns (rg_new l gg s) (x, l') -> returns (sl_calls (map CLex (texts ++ [s])) l0) l'.
  Proof using Hl.
    clear HC Hl0 Hgg. intros [F HF]. destruct Hl as [G HG]. exists (F + G). intros n Hn.
    unfold sl_calls in *. rewrite map_app, StackProofs.rfold_app, HG by lia. cbn [rbind map rfold sl_step].
    specialize (HF n ltac:(lia)). unfold rg_new, pipeline, run, simple_lexer in HF.
    destruct (slex l s n) as [[xs l1]| |]; cbn [rbind] in *; [|discriminate HF|discriminate HF].
    destruct (lex_errors xs) as [|e es]; cbn [rbind] in HF; [|congruence].
    unfold packrat_parser in HF. destruct (packrat_parse n (gr_view gg) (map olex_lx xs)) as [t| |]; cbn [rbind] in HF; [|discriminate HF|discriminate HF].
    destruct t as [t|]; cbn [rbind] in HF; [|congruence]. cbn [map run_reducers tree_reducer rbind] in HF.
    destruct (eval_grammar (raw_reduce rg_rdcr t) n) as [x0| |]; cbn [rbind] in HF; congruence.
  Qed.
End New.

Section Language.
  Variable compile : compiler.
  Variable l0 l : slexer.
  Variable gg : gr.
  Variable texts : list gostring.
  Hypothesis HC : compiles compile rg_table.
  Hypothesis Hl0 : rg_lexer compile = Some l0.
  Hypothesis Hl : returns (sl_calls (map CLex texts) l0) l.
  Hypothesis Hgg : rg_grammar = Some gg.

  Lemma new_language s R : reads s R -> no_underscores R -> no_empty_groups R ->
    exists g r l', returns (rg_new l gg s) (inl (g, r), l')
      /\ head (g_nts (gr_view g)) = fst <$> head R
      /\ (forall x w, ~ generated R x -> (derives (gr_view g) x w <-> matches R (XSym x) w))
      /\ (forall x p lxs, ~ generated R x -> is_tree (gr_view g) x p lxs -> rx_tree R x (raw_reduce r p) lxs).
  Proof using All.
    intros H Hu He. destruct (new_grammar compile l0 l gg texts HC Hl0 Hl Hgg s R H) as (t & Ht & g & r & l' & H1 & H2).
    exists g, r, l'. split; [exact H2|]. destruct (reads_proper s R H) as [Hp Hne].
    pose proof (RegexGramNames.names_distinct R Hp Hu) as Hd. split; [|split].
    - destruct R as [|[s0 es] R]; [by destruct Hne|]. exact (RegexGramThms.first_symbol t g r s0 es R Ht He H1).
    - intros x w Hx. exact (RegexGramThms.same_language t R g r x w Ht Hd He H1 Hx).
    - intros x p lxs Hx Hi. exact (RegexGramThms.reduced_written t R g r x p lxs Ht Hd He H1 Hx Hi).
  Qed.
End Language.
Lemma ready compile : compiles compile rg_table -> exists l0 gg, rg_lexer compile = Some l0 /\ rg_grammar = Some gg.
Proof.
  intros H. destruct (rg_lexer_some compile H) as (l0 & Hl & _). exists l0, RgParse.rg_gr. split; [exact Hl|exact RgParse.rg_grammar_some].
Qed.
