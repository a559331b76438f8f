(** The stack calculator's grammar, reducer and lexer. *)
From Coq Require Import String.
From Verif.spec Require Import ScalcSpec PackratSpec TreeSpec ReSpec.
From Verif.proofs Require StackProofs.
From Verif.proofs Require Import GramRows TreeProofs Fuel LexText LexTableProofs ReProofs RunProofs LexMain.
Local Open Scope nat_scope.
Local Open Scope list_scope.

Definition sc_gr : gr := match sc_grammar with Some g => g | None => gr_empty end.
Lemma sc_grammar_some : sc_grammar = Some sc_gr.
Proof. vm_compute. reflexivity. Qed.
Definition sc_g : grammar := gr_view sc_gr.
Definition kSt := L "Stack". Definition kE := L "E". Definition kNum := L "Number". Definition kP := L "P".
Definition kBop := L "Bop". Definition kUop := L "Uop". Definition kSop := L "Sop". Definition kSmp := L "Smp".
Definition ki := L "int". Definition kd := L "dec". Definition ku := L "uop". Definition kb := L "bop".
Definition ks := L "sop". Definition km := L "smp". Definition kq := L "?". Definition ko := L "(". Definition kc := L ")".
Definition st_prods := [[kSt; kSmp]; [kE; kSt]; [kSt; kP; kSt]; []].
Definition e_prods := [[kSt; kSop]; [kE; kE; kE; kq]; [kE; kUop]; [kE; kE; kBop]; [kNum]].
Definition num_prods := [[ki]; [ki; kd]].
Definition p_prods := [[ko; kSt; kc]].
Definition bop_prods := [[kb]; [kBop; kBop; kE; kq]].
Definition uop_prods := [[ku]; [kUop; kUop; kE; kq]].
Definition sop_prods := [[ks]; [kSop; kSop; kE; kq]].
Definition smp_prods := [[kSmp; kSmp; kE; kq]; [km]].
Definition sc_rows : list (gostring * list (list gostring)) :=
  [(kSt, st_prods); (kE, e_prods); (kNum, num_prods); (kP, p_prods); (kBop, bop_prods); (kUop, uop_prods); (kSop, sop_prods); (kSmp, smp_prods)].
Lemma sc_wf : g_wf sc_g.
Proof. apply (new_wf sc_grammar_text). exact sc_grammar_some. Qed.
Lemma sc_nts : g_nts sc_g = map fst sc_rows.
Proof. vm_compute. reflexivity. Qed.
Lemma sc_prods : Forall (fun r => g_prods sc_g (fst r) = Some (snd r)) sc_rows.
Proof. apply (bool_decide_unpack _). vm_compute. exact I. Qed.
Lemma row i s ps : sc_rows !! i = Some (s, ps) -> g_prods sc_g s = Some ps.
Proof. intros H. by apply (proj1 (Forall_forall _ _) sc_prods (s, ps)), (elem_of_list_lookup_2 _ i). Qed.
Lemma sc_some s ps : g_prods sc_g s = Some ps -> (s, ps) ∈ sc_rows.
Proof. apply (rows_prods sc_g sc_rows sc_wf sc_nts sc_prods). Qed.
Definition sc_terms : list gostring := [ki; kd; ku; kb; ks; km; kq; ko; kc; L "Error"].
Lemma term_none s : s ∈ sc_terms -> g_prods sc_g s = None.
Proof.
  revert s. apply Forall_forall. apply (bool_decide_unpack _). vm_compute. exact I.
Qed.
Ltac tn := apply term_none; apply (bool_decide_unpack _); vm_compute; exact I.
Lemma ki_none : g_prods sc_g ki = None. Proof. tn. Qed.
Lemma kd_none : g_prods sc_g kd = None. Proof. tn. Qed.
Lemma ku_none : g_prods sc_g ku = None. Proof. tn. Qed.
Lemma kb_none : g_prods sc_g kb = None. Proof. tn. Qed.
Lemma ks_none : g_prods sc_g ks = None. Proof. tn. Qed.
Lemma km_none : g_prods sc_g km = None. Proof. tn. Qed.
Lemma kq_none : g_prods sc_g kq = None. Proof. tn. Qed.
Lemma ko_none : g_prods sc_g ko = None. Proof. tn. Qed.
Lemma kc_none : g_prods sc_g kc = None. Proof. tn. Qed.

(** * Trees, node by node *)
Lemma leaf_inv s t u : g_prods sc_g s = None -> is_tree sc_g s t u -> exists x, t = PN x [] /\ u = [x] /\ lx_kind x = s.
Proof. intros Hs H. inversion H as [lx Hn|lx ps p cs lxs Hp]; subst; [eauto|congruence]. Qed.
Lemma node_inv i s ps t u : sc_rows !! i = Some (s, ps) -> is_tree sc_g s t u ->
  exists lx p cs, t = PN lx cs /\ lx_kind lx = s /\ p ∈ ps /\ are_trees sc_g p cs u.
Proof.
  intros Hr%row H. inversion H as [lx Hn|lx ps' p cs lxs Hp Hin Ha]; subst; [congruence|].
  exists lx, p, cs. split; [done|]. split; [done|]. split; [|done]. congruence.
Qed.

(** * The reducer *)
Definition sc_rdcr_rows : list (gostring * option reduction) :=
  ltac:(let t := eval unfold sc_rdcr in sc_rdcr in match t with list_to_map ?T => exact T end).
Lemma sc_for i k f : sc_rdcr_rows !! i = Some (k, Some f) -> reduction_for sc_rdcr k = Some f.
Proof.
  intros H. unfold reduction_for. change sc_rdcr with (list_to_map sc_rdcr_rows : reducer).
  rewrite (elem_of_list_to_map_1 sc_rdcr_rows k (Some f)); [done| |].
  - change (NoDup (map fst sc_rdcr_rows)). apply (bool_decide_unpack _). vm_compute. exact I.
  - by eapply elem_of_list_lookup_2.
Qed.
Lemma sc_for_none k : k ∈ kNum :: sc_terms -> reduction_for sc_rdcr k = None.
Proof.
  intros H. unfold reduction_for. change sc_rdcr with (list_to_map sc_rdcr_rows : reducer).
  rewrite (not_elem_of_list_to_map_1 sc_rdcr_rows k); [done|]. change (k ∉ [kSt; kE; kP; kBop; kUop; kSop; kSmp]).
  revert k H. apply Forall_forall. apply (bool_decide_unpack _). vm_compute. exact I.
Qed.
Notation red := (raw_reduce sc_rdcr).
Lemma red_same lx cs : lx_kind lx ∈ kNum :: sc_terms -> red (PN lx cs) = PN lx (map red cs).
Proof. intros H%sc_for_none. cbn [raw_reduce]. unfold reduction_for in H. by destruct (sc_rdcr !! lx_kind lx) as [[f|]|]. Qed.
Lemma red_node i k f lx cs : sc_rdcr_rows !! i = Some (k, Some f) -> lx_kind lx = k -> red (PN lx cs) = f (PN lx (map red cs)).
Proof.
  intros Hi <-. apply sc_for in Hi as H. cbn [raw_reduce]. unfold reduction_for in H. destruct (sc_rdcr !! lx_kind lx) as [f'|]; [|done]. by subst f'.
Qed.
Lemma red_leaf x : lx_kind x ∈ sc_terms -> red (PN x []) = PN x [].
Proof. intros H. rewrite red_same by (by right). reflexivity. Qed.

(** Indices from the end. *)
Lemma at_last {X} (a : list X) c : at_index (-1) (a ++ [c]) a c [].
Proof.
  unfold at_index. split; [done|]. right. cbn [length]. lia.
Qed.
Lemma at_first {X} (c : X) b : at_index 0 (c :: b) [] c b.
Proof. unfold at_index. split; [done|]. left. done. Qed.
Lemma promote_last lx a c : fst (promote_child (-1) (PN lx (a ++ [c]))) = PN (pn_lexeme c) (a ++ pn_children c).
Proof.
  rewrite (promote_child_in (-1) lx (a ++ [c]) a c []) by apply at_last. cbn [fst]. by rewrite app_nil_r.
Qed.
Lemma remove_last lx (a : list pn) c : fst (remove_child (-1) (PN lx (a ++ [c]))) = PN lx a.
Proof. rewrite (remove_child_in (-1) lx (a ++ [c]) a c []) by apply at_last. cbn [fst]. by rewrite app_nil_r. Qed.
Lemma remove_before_last lx (a : list pn) b c : fst (remove_child (-2) (PN lx (a ++ [b; c]))) = PN lx (a ++ [c]).
Proof. rewrite (remove_child_in (-2) lx (a ++ [b; c]) a b [c]); [done|]. split; [done|]. right. cbn [length]. lia. Qed.
Lemma child_last lx (a : list pn) c : child (PN lx (a ++ [c])) (-1) = Some c.
Proof. apply (child_in _ _ a c []). apply at_last. Qed.
Lemma child_at_last lx (a : list pn) c symbs : child_at (PN lx (a ++ [c])) (-1) symbs = true <-> lx_kind (pn_lexeme c) ∈ symbs.
Proof. apply (child_at_in _ _ a c [] symbs), at_last. Qed.
Lemma child_at_first lx c (b : list pn) symbs : child_at (PN lx (c :: b)) 0 symbs = true <-> lx_kind (pn_lexeme c) ∈ symbs.
Proof. apply (child_at_in _ _ [] c b symbs), at_first. Qed.
Lemma splice_last lx (a : list pn) c : fst (promote_children_of (-1) (PN lx (a ++ [c]))) = PN lx (a ++ pn_children c).
Proof. rewrite (promote_children_of_in (-1) lx (a ++ [c]) a c []) by apply at_last. cbn [fst]. by rewrite app_nil_r. Qed.
Lemma splice_first lx c (b : list pn) : fst (promote_children_of 0 (PN lx (c :: b))) = PN lx (pn_children c ++ b).
Proof. by rewrite (promote_children_of_in 0 lx (c :: b) [] c b) by apply at_first. Qed.

(** * The lexer *)
Lemma sc_more : no_adds []. Proof. intros k r d H. by apply elem_of_nil in H. Qed.
Lemma sc_nodup : NoDup (map lw_kind sc_table).
Proof. apply (bool_decide_unpack _). vm_compute. exact I. Qed.
Lemma sc_lines : omap line_src (split1 c_nl sc_lexer_text) = map row_src sc_table.
Proof. vm_compute. reflexivity. Qed.
Lemma sc_length : st_length (settings_of []) = true. Proof. reflexivity. Qed.
Lemma sc_lexer_some compile : compiles compile sc_table ->
  exists l, sc_lexer compile = Some l /\ returns (sl_calls (sc_calls []) slexer_empty) l.
Proof.
  intros HC. destruct (table_lexer compile sc_lexer_text sc_table HC sc_lines sc_nodup) as (l0 & Hl & Hr).
  exists l0. split; [exact Hl|]. eapply table_calls_from; [exact Hr|]. exists 0. intros n _. reflexivity.
Qed.
Lemma sc_lexer_after compile l0 l (texts : list gostring) : compiles compile sc_table -> sc_lexer compile = Some l0 ->
  returns (sl_calls (map CLex texts) l0) l -> returns (sl_calls (sc_calls texts) slexer_empty) l.
Proof.
  intros HC H0 Hl. destruct (sc_lexer_some compile HC) as (l1 & H1 & Hr). rewrite H0 in H1. injection H1 as <-.
  destruct Hr as [F HF], Hl as [G HG]. exists (F + G). intros n Hn. unfold sc_calls, table_calls in *.
  rewrite app_nil_l. unfold sl_calls in *. rewrite !app_nil_r in HF. rewrite StackProofs.rfold_app, HF by lia. apply HG. lia.
Qed.
Lemma sc_any texts s lxs : sc_tokens s lxs <-> lexes_to (sc_calls texts) s lxs.
Proof.
  unfold sc_tokens, lexes_to, all_lexemes, sc_calls. rewrite !(table_rules sc_table [] _ sc_more sc_nodup), !(table_settings sc_table []). done.
Qed.
Lemma sc_not_any texts s v : lexes_not (sc_calls []) s v <-> lexes_not (sc_calls texts) s v.
Proof. unfold lexes_not, sc_calls. rewrite !(table_rules sc_table [] _ sc_more sc_nodup). done. Qed.

(** What the words match. *)
Lemma in_word s w : in_re (sc_word s) w -> w = s.
Proof.
  revert w. induction s as [|c s IH]; intros w H; cbn [sc_word] in H.
  - by inversion H.
  - apply in_cat_inv in H as (u & v & -> & Hu & Hv). apply in_set_inv in Hu as (x & -> & Hx%N.eqb_eq). apply IH in Hv. by subst.
Qed.
Lemma in_group_inv n a w : in_re (RGroup n a) w -> in_re a w.
Proof. intros H. by inversion H. Qed.
Lemma in_alt_inv a b w : in_re (RAlt a b) w -> in_re a w \/ in_re b w.
Proof. intros H. inversion H; auto. Qed.
Lemma in_words n w l v : in_re (sc_words n w l) v -> v ∈ map L (w :: l).
Proof.
  revert n w. induction l as [|w' l IH]; intros n w H; cbn [sc_words] in H.
  - apply in_group_inv, in_word in H as ->. left.
  - apply in_alt_inv in H as [H|H].
    + apply in_group_inv, in_word in H as ->. left.
    + right. eapply IH. exact H.
Qed.
Definition bop_texts : list gostring := map L ["cmpr"; "*"; "/"; "+"; "-"; "^"; "%"; ">"; "<"; "="]%string.
Definition sop_texts : list gostring := map L ["len"; "sum"; "avg"; "min"; "max"; "first"; "last"]%string.
Lemma row_text (k : gostring) r s n : r ∈ sc_table -> lw_kind r = k -> hd_len (lw_re r) s = Some n ->
  (k = ku -> take n s ∈ map L ["--"; "abs"]%string) /\ (k = kb -> take n s ∈ bop_texts) /\ (k = km -> take n s ∈ map L ["swap"; "drop"; "clear"]%string)
  /\ (k = ks -> take n s ∈ sop_texts).
Proof.
  intros Hr <- Hm%hd_len_in. unfold sc_table in Hr. rewrite !elem_of_cons, elem_of_nil in Hr.
  repeat destruct Hr as [->|Hr]; try done; cbn [lw_kind lw_re] in *; (split; [|split; [|split]]); intros E; try discriminate E.
  - by apply in_words in Hm.
  - apply in_alt_inv in Hm as [Hu|Hu].
    + apply in_words in Hu. apply elem_of_list_singleton in Hu. rewrite Hu. left.
    + apply in_set_inv in Hu as (x & -> & Hx). apply existsb_exists in Hx as (y & Hy & ->%N.eqb_eq).
      revert y Hy. apply List.Forall_forall. repeat constructor; apply (bool_decide_unpack _); vm_compute; exact I.
  - by apply in_words in Hm.
  - by apply in_words in Hm.
Qed.
Lemma emits_any T line err before ps out : emits line (map row_def T) err before ps out ->
  forall x, x ∈ map olex_lx out -> lx_kind x = err \/ lx_kind x ∈ map lw_kind (filter (fun r => lw_discard r = false) T).
Proof.
  induction 1 as [|before y ps out rest Hs _ IH]; intros x Hx; [by apply elem_of_nil in Hx|].
  rewrite map_app, elem_of_app in Hx. destruct Hx as [Hx|Hx]; [|by apply IH]. destruct y as [p v|v]; cbn [shows] in Hs.
  - destruct Hs as (d & Hd & Ho). rewrite list_lookup_fmap in Hd. destruct (T !! p) as [r|] eqn:Er; [|discriminate Hd]. injection Hd as <-.
    cbn [row_def rd_discard] in Ho. destruct (lw_discard r) eqn:Ed; [subst out; by apply elem_of_nil in Hx|].
    destruct Ho as (last & _ & ->). cbn [map] in Hx. apply elem_of_list_singleton in Hx as ->. right. cbn.
    apply elem_of_list_fmap. exists r. split; [done|]. apply elem_of_list_filter. split; [done|]. by eapply elem_of_list_lookup_2.
  - subst out. cbn [map] in Hx. apply elem_of_list_singleton in Hx as ->. by left.
Qed.

Section Lexed.
  Variable compile : compiler.
  Variable l0 l : slexer.
  Variable texts : list gostring.
  Hypothesis HC : compiles compile sc_table.
  Hypothesis Hl0 : sc_lexer compile = Some l0.
  Hypothesis Hl : returns (sl_calls (map CLex texts) l0) l.

  (** Every text: what its lexemes are. *)
  Lemma lexed s : exists xs l', returns (slex l s) (xs, l')
    /\ (forall x, x ∈ map olex_lx xs -> lx_kind x ∈ sc_terms)
    /\ (sc_tokens s (map olex_lx xs) \/ exists v, lexes_not (sc_calls []) s v /\ exists x, x ∈ map olex_lx xs /\ lx_kind x = L "Error").
  Proof using All.
    pose proof (sc_lexer_after compile l0 l texts HC Hl0 Hl) as Hr.
    destruct (lex_longest (sc_calls texts) l s (table_first sc_table [] texts sc_more) (table_regexps sc_table [] texts sc_more)
      (cs_length sc_table [] texts sc_length) Hr) as (l' & ps & pre & out & post & Hs & H1 & H2 & Ht & He).
    assert (Hset : settings_of (sc_calls texts) = default_settings) by apply table_settings.
    rewrite Hset in H1, H2, He. destruct H1 as [[_ ->]|[H1 _]]; [|done]. destruct H2 as [[_ ->]|[H2 _]]; [|done].
    rewrite app_nil_r in Hs. cbn [app] in Hs. exists out, l'. split; [exact Hs|]. split.
    - intros x Hx. unfold sc_calls in He. rewrite (table_rules sc_table [] texts sc_more sc_nodup) in He.
      destruct (emits_any _ _ _ _ _ _ He x Hx) as [->|H]; [apply (bool_decide_unpack _); vm_compute; exact I|].
      revert H. generalize (lx_kind x). apply Forall_forall. apply (bool_decide_unpack _). vm_compute. exact I.
    - destruct (junks ps) as [|v vs] eqn:E.
      + left. apply (sc_any texts). exists ps. split; [exact Ht|]. split; [exact E|].
        exists [], out, []. rewrite Hset. split; [left; done|]. split; [left; done|]. split; [exact He|]. by rewrite app_nil_r.
      + right. exists v. split; [apply (sc_not_any texts); exists ps, vs; done|].
        destruct (pipe_lex (sc_calls texts) l sc_g [] s ps (map olex_lx out)) as (xs & l2 & Hs2 & _ & Hj); try done.
        * apply table_first; exact sc_more.
        * apply table_regexps; exact sc_more.
        * apply cs_length; exact sc_length.
        * exists [], out, []. rewrite Hset. split; [left; done|]. split; [left; done|]. split; [exact He|]. by rewrite app_nil_r.
        * pose proof (returns_fun _ _ _ Hs2 Hs) as [= -> _]. rewrite Hset, E in Hj. cbn [map] in Hj.
          apply errors_first in Hj as (a & b & -> & _). exists (Lx (L "Error") v (-1) 0). split; [|done].
          rewrite map_app. apply elem_of_app. right. left.
  Qed.
End Lexed.
