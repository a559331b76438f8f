(** The trees of regexgram's own grammar and what its reducer makes of them. *)
From Coq Require Import String.
From Verif.spec Require Import RegexGramText.
From Verif.proofs Require Import GramRows TreeProofs.
Local Open Scope nat_scope.
Local Open Scope list_scope.

Definition rg_gr : gr := match rg_grammar with Some g => g | None => gr_empty end.
Lemma rg_grammar_some : rg_grammar = Some rg_gr.
Proof. vm_compute. reflexivity. Qed.
Definition rg_g : grammar := gr_view rg_gr.
Definition rg_rows : list (gostring * list (list gostring)) :=
  [(L "Grammar", [[L "NL"; L "Production"; L "Productions"; L "NL"]]);
   (L "Productions", [[L "Production"; L "Productions"]; [L "ContinueProd"; L "Productions"]; []]);
   (L "Production", [[L "nl"; L "symbol"; L "rarr"; L "Symbols"]]);
   (L "ContinueProd", [[L "nl"; L "rarr"; L "Symbols"]]);
   (L "Symbols", [[L "Symbol"; L "Symbols"]; []]);
   (L "Symbol", [[L "Group"]; [L "OrSymbol"]; [L "RepSymbol"]; [L "OptSymbol"]; [L "symbol"]]);
   (L "Group", [[L "("; L "Symbols"; L ")"]]);
   (L "OptSymbol", [[L "Group"; L "optional"]; [L "symbol"; L "optional"]]);
   (L "RepSymbol", [[L "Group"; L "repeats"]; [L "symbol"; L "repeats"]]);
   (L "OrSymbol", [[L "Group"; L "or"; L "MoreOr"]; [L "OptSymbol"; L "or"; L "MoreOr"];
                   [L "RepSymbol"; L "or"; L "MoreOr"]; [L "symbol"; L "or"; L "MoreOr"]]);
   (L "MoreOr", [[L "Group"; L "or"; L "MoreOr"]; [L "OptSymbol"; L "or"; L "MoreOr"];
                 [L "RepSymbol"; L "or"; L "MoreOr"]; [L "symbol"; L "or"; L "MoreOr"];
                 [L "Group"]; [L "OptSymbol"]; [L "RepSymbol"]; [L "symbol"]]);
   (L "NL", [[L "nl"]; []])].
Definition rg_rules2 := flat_map (fun r => map (pair (fst r)) (snd r)) rg_rows.
Lemma rg_wf : g_wf rg_g.
Proof. apply (new_wf rg_grammar_text). exact rg_grammar_some. Qed.
Lemma rg_nts : g_nts rg_g = map fst rg_rows.
Proof. vm_compute. reflexivity. Qed.
Lemma rg_prods : Forall (fun r => g_prods rg_g (fst r) = Some (snd r)) rg_rows.
Proof. apply (bool_decide_unpack _). vm_compute. exact I. Qed.

(** What a reduced tree of a symbol shows, and the tokens it stands over. *)
Definition good (s : gostring) (t : pn) (u : list lexeme) : Prop :=
  if decide (s = L "Grammar") then exists R, shows_grammar t R /\ spells R u
  else if decide (s = L "Productions") then
    forall c, exists R, shows_prods c (pn_children t) R /\ spells_prods (Some c) R u
  else if decide (s = L "Production") then
    lx_kind (pn_lexeme t) = L "Production" /\
    exists n x a es v, lx_kind n = L "nl" /\ lx_kind x = L "symbol" /\ lx_kind a = L "rarr"
      /\ u = n :: x :: a :: v /\ lx_val (pn_lexeme t) = lx_val x /\ shows_rxs (pn_children t) es /\ spells_seq es v
  else if decide (s = L "ContinueProd") then
    lx_kind (pn_lexeme t) = L "ContinueProd" /\
    exists n a es v, lx_kind n = L "nl" /\ lx_kind a = L "rarr"
      /\ u = n :: a :: v /\ shows_rxs (pn_children t) es /\ spells_seq es v
  else if decide (s = L "Symbols") then exists es, shows_rxs (pn_children t) es /\ spells_seq es u
  else if decide (s = L "MoreOr") then exists es, shows_rxs (pn_children t) es /\ spells_bar es u
  else if decide (s = L "Symbol" \/ s = L "OrSymbol") then exists e, shows_rx t e /\ spells_rx e u
  else if decide (s = L "OptSymbol" \/ s = L "RepSymbol") then exists e, no_bar e /\ shows_rx t e /\ spells_rx e u
  else if decide (s = L "Group") then exists e, atom e /\ shows_rx t e /\ spells_rx e u
  else if decide (s = L "NL") then lx_kind (pn_lexeme t) = L "NL" /\ blank u
  else exists x, lx_kind x = s /\ t = PN x [] /\ u = [x].

Definition rg_rdcr_rows : list (gostring * option reduction) :=
  ltac:(let t := eval unfold rg_rdcr in rg_rdcr in match t with list_to_map ?T => exact T end).
Lemma rg_rdcr_is : rg_rdcr = list_to_map rg_rdcr_rows.
Proof. reflexivity. Qed.
Lemma rg_for i k f : rg_rdcr_rows !! i = Some (k, Some f) -> reduction_for rg_rdcr k = Some f.
Proof.
  intros H. unfold reduction_for. rewrite rg_rdcr_is.
  rewrite (elem_of_list_to_map_1 rg_rdcr_rows k (Some f)); [done| |].
  - change (NoDup (map fst rg_rdcr_rows)). apply (bool_decide_unpack _). vm_compute. exact I.
  - by eapply elem_of_list_lookup_2.
Qed.
Lemma rg_for_none k : k ∉ map fst rg_rdcr_rows -> reduction_for rg_rdcr k = None.
Proof.
  intros H. unfold reduction_for. rewrite rg_rdcr_is.
  rewrite (not_elem_of_list_to_map_1 rg_rdcr_rows k); [done|exact H].
Qed.
Notation red := (raw_reduce rg_rdcr).
Lemma red_leaf lx : reduction_for rg_rdcr (lx_kind lx) = None -> red (PN lx []) = PN lx [].
Proof. intros H. cbn [raw_reduce map]. unfold reduction_for in H. by destruct (rg_rdcr !! lx_kind lx) as [[f|]|]. Qed.
Lemma red_node k f lx cs : reduction_for rg_rdcr k = Some f -> lx_kind lx = k ->
  red (PN lx cs) = f (PN lx (map red cs)).
Proof. intros H <-. cbn [raw_reduce]. unfold reduction_for in H. destruct (rg_rdcr !! lx_kind lx) as [f'|]; [|done]. by subst f'. Qed.

Lemma red_plain lx cs : reduction_for rg_rdcr (lx_kind lx) = None -> red (PN lx cs) = PN lx (map red cs).
Proof. intros H. cbn [raw_reduce]. unfold reduction_for in H. by destruct (rg_rdcr !! lx_kind lx) as [[f|]|]. Qed.
Lemma red_grammar lx a b c d : lx_kind lx = L "Grammar" -> lx_kind (pn_lexeme (red a)) = L "NL" -> lx_kind (pn_lexeme (red d)) = L "NL" ->
  red (PN lx [a; b; c; d]) = PN lx (red b :: pn_children (red c)).
Proof.
  intros H. rewrite (red_node (L "Grammar") _ lx _ (rg_for 0 (L "Grammar") _ eq_refl) H). cbn [map].
  generalize (red a) (red b) (red c) (red d). clear. intros a b c d Ha Hd. cbv beta zeta.
  change (child_is (PN lx [a; b; c; d]) 0 (L "NL")) with (bool_decide (lx_kind (pn_lexeme a) = L "NL")).
  rewrite (bool_decide_true _ Ha).
  change (fst (remove_child 0 (PN lx [a; b; c; d]))) with (PN lx [b; c; d]).
  change (child_is (PN lx [b; c; d]) (-1) (L "NL")) with (bool_decide (lx_kind (pn_lexeme d) = L "NL")).
  rewrite (bool_decide_true _ Hd). reflexivity.
Qed.
Ltac red_tac i k H := rewrite (red_node (L k) _ _ _ (rg_for i (L k) _ eq_refl) H); cbn [map];
  repeat match goal with |- context [raw_reduce rg_rdcr ?a] => generalize (raw_reduce rg_rdcr a); intros ? end;
  clear; reflexivity.
Lemma red_productions lx a b : lx_kind lx = L "Productions" -> red (PN lx [a; b]) = PN lx (red a :: pn_children (red b)).
Proof. intros H. red_tac 1 "Productions"%string H. Qed.
Lemma red_productions0 lx : lx_kind lx = L "Productions" -> red (PN lx []) = PN lx [].
Proof. intros H. red_tac 1 "Productions"%string H. Qed.
Lemma red_production lx a b c d : lx_kind lx = L "Production" ->
  red (PN lx [a; b; c; d])
  = PN (Lx (lx_kind lx) (lx_val (pn_lexeme (red b))) (lx_line (pn_lexeme (red b))) (lx_col (pn_lexeme (red b)))) (pn_children (red d)).
Proof. intros H. red_tac 2 "Production"%string H. Qed.
Lemma red_continue lx a b c : lx_kind lx = L "ContinueProd" -> red (PN lx [a; b; c]) = PN lx (pn_children (red c)).
Proof. intros H. red_tac 3 "ContinueProd"%string H. Qed.
Lemma red_symbols lx a b : lx_kind lx = L "Symbols" -> red (PN lx [a; b]) = PN lx (red a :: pn_children (red b)).
Proof. intros H. red_tac 4 "Symbols"%string H. Qed.
Lemma red_symbols0 lx : lx_kind lx = L "Symbols" -> red (PN lx []) = PN lx [].
Proof. intros H. red_tac 4 "Symbols"%string H. Qed.
Lemma red_symbol lx a : lx_kind lx = L "Symbol" -> red (PN lx [a]) = PN (pn_lexeme (red a)) (pn_children (red a)).
Proof. intros H. red_tac 5 "Symbol"%string H. Qed.
Lemma red_group lx a b c : lx_kind lx = L "Group" -> red (PN lx [a; b; c]) = PN lx (pn_children (red b)).
Proof. intros H. red_tac 10 "Group"%string H. Qed.
Lemma red_opt lx a b : lx_kind lx = L "OptSymbol" -> red (PN lx [a; b]) = PN lx [red a].
Proof. intros H. red_tac 6 "OptSymbol"%string H. Qed.
Lemma red_rep lx a b : lx_kind lx = L "RepSymbol" -> red (PN lx [a; b]) = PN lx [red a].
Proof. intros H. red_tac 7 "RepSymbol"%string H. Qed.
Lemma red_or lx a b c : lx_kind lx = L "OrSymbol" -> red (PN lx [a; b; c]) = PN lx (red a :: pn_children (red c)).
Proof. intros H. red_tac 8 "OrSymbol"%string H. Qed.
Lemma red_more lx a b c : lx_kind lx = L "MoreOr" -> red (PN lx [a; b; c]) = PN lx (red a :: pn_children (red c)).
Proof. intros H. red_tac 9 "MoreOr"%string H. Qed.
Lemma red_more1 lx a : lx_kind lx = L "MoreOr" -> red (PN lx [a]) = PN lx [red a].
Proof. intros H. red_tac 9 "MoreOr"%string H. Qed.

Definition rg_tokens : list gostring :=
  map (fun x => L x) ["rarr"; "symbol"; "repeats"; "optional"; "or"; "("; ")"; "nl"]%string.
Lemma good_tok k t u : k ∈ rg_tokens -> good k t u = exists x, lx_kind x = k /\ t = PN x [] /\ u = [x].
Proof.
  intros H. unfold rg_tokens in H. cbn [map] in H. rewrite !elem_of_cons, elem_of_nil in H.
  repeat destruct H as [->|H]; try reflexivity. done.
Qed.
Lemma red_tok x : lx_kind x ∉ map fst rg_rows -> red (PN x []) = PN x [].
Proof.
  intros H. apply red_leaf, rg_for_none. intros Hin. apply H. revert Hin. generalize (lx_kind x). apply Forall_forall.
  apply (bool_decide_unpack _). vm_compute. exact I.
Qed.
Lemma good_nt s t u : s ∉ map fst rg_rows -> good s t u = exists x, lx_kind x = s /\ t = PN x [] /\ u = [x].
Proof.
  intros H. unfold good.
  repeat match goal with
  | |- context [decide (s = ?k)] => destruct (decide (s = k)) as [->|?];
      [exfalso; apply H; apply (bool_decide_unpack _); vm_compute; exact I|]
  | |- context [decide (s = ?k \/ s = ?j)] => destruct (decide (s = k \/ s = j)) as [[->| ->]|?];
      [exfalso; apply H; apply (bool_decide_unpack _); vm_compute; exact I
      |exfalso; apply H; apply (bool_decide_unpack _); vm_compute; exact I|]
  end. reflexivity.
Qed.

Fixpoint goods (p : list gostring) (cs : list pn) (u : list lexeme) : Prop :=
  match p with
  | [] => cs = [] /\ u = []
  | s :: r => exists c cs' u1 u2, cs = c :: cs' /\ u = u1 ++ u2 /\ good s (red c) u1 /\ goods r cs' u2
  end.
Lemma good_atom s t u : s = L "Group" \/ s = L "symbol" -> good s t u -> exists e, atom e /\ shows_rx t e /\ spells_rx e u.
Proof.
  intros [->| ->] H; [exact H|]. rewrite good_tok in H by (apply (bool_decide_unpack _); vm_compute; exact I).
  destruct H as (x & Hk & -> & ->). exists (XSym (lx_val x)). split; [exact I|]. split; [apply sh_sym; exact Hk|].
  apply sp_sym; exact Hk.
Qed.
Lemma atom_no_bar e : atom e -> no_bar e.
Proof. by destruct e. Qed.
Lemma good_simple s t u : s = L "Group" \/ s = L "symbol" \/ s = L "OptSymbol" \/ s = L "RepSymbol" -> good s t u ->
  exists e, no_bar e /\ shows_rx t e /\ spells_rx e u.
Proof.
  intros [H|[H|[->| ->]]] G; try exact G.
  all: apply good_atom in G; [|by auto]; destruct G as (e & ? & ?); eauto using atom_no_bar.
Qed.
Ltac tok H := let x := fresh "x" in let Hk := fresh "Hk" in let Ht := fresh "Ht" in
  rewrite good_tok in H by (apply (bool_decide_unpack _); vm_compute; exact I);
  destruct H as (x & Hk & Ht & ->).
Ltac item H := let e := fresh "e" in let a := fresh "Ha" in let b := fresh "Hs" in let c := fresh "Hw" in
  destruct H as (e & a & b & c).

Lemma symbol_node lx c u k : lx_kind lx = L "Symbol" -> (exists e, shows_rx (red c) e /\ spells_rx e u) ->
  k = L "Symbol" -> good k (red (PN lx [c])) u.
Proof.
  intros Hk H ->. change (exists e, shows_rx (red (PN lx [c])) e /\ spells_rx e u).
  rewrite red_symbol by exact Hk. by destruct (red c).
Qed.
Lemma node_good lx cs u p : (lx_kind lx, p) ∈ rg_rules2 -> goods p cs u -> good (lx_kind lx) (red (PN lx cs)) u.
Proof.
  intros Hin. unfold rg_rules2, rg_rows in Hin. cbn [flat_map map fst snd app] in Hin.
  rewrite !elem_of_cons, elem_of_nil in Hin.
  repeat destruct Hin as [Hin|Hin]; try done; apply pair_equal_spec in Hin as [Hk ->]; rewrite Hk; intros H;
   cbn [goods] in H;
   repeat match goal with
   | H : exists c cs u1 u2, _ |- _ =>
       let c := fresh "qc" in let cs := fresh "qcs" in let u1 := fresh "qu" in let u2 := fresh "qv" in
       let G := fresh "G" in destruct H as (c & cs & u1 & u2 & -> & -> & G & H)
   end; destruct H as [-> ->]; rewrite ?app_nil_r.
  (* Grammar *)
  - destruct G as [K1 B1], G2 as [K2 B2]. destruct G0 as (KP & n & x & a & es & v & Hn & Hx & Ha & -> & Hv & Hs & Hw).
    destruct (G1 (lx_val x)) as (R & Hps & Hpw).
    exists ((lx_val x, es) :: R). rewrite red_grammar by done. split.
    + unfold shows_grammar. cbn [pn_children]. revert KP Hv Hs. destruct (red qc0) as [lx0 cs0]. cbn [pn_lexeme pn_children].
      intros KP Hv Hs. rewrite <-Hv. apply shp_prod; [exact KP|exact Hs|]. rewrite Hv. exact Hps.
    + split; [done|]. exists qu, (n :: x :: a :: v ++ qu1), qu2. split; [exact B1|]. split; [exact B2|].
      split; [by apply spp_prod|]. cbn [app]. by rewrite <- !app_assoc.
  (* Productions *)
  - destruct G as (KP & n & x & a & es & v & Hn & Hx & Ha & -> & Hv & Hs & Hw). intros cur.
    destruct (G0 (lx_val x)) as (R & Hps & Hpw).
    exists ((lx_val x, es) :: R). rewrite red_productions by done. split.
    + cbn [pn_children]. revert KP Hv Hs. destruct (red qc) as [lx0 cs0]. cbn [pn_lexeme pn_children].
      intros KP Hv Hs. rewrite <-Hv. apply shp_prod; [exact KP|exact Hs|]. rewrite Hv. exact Hps.
    + by apply spp_prod.
  - destruct G as (KP & n & a & es & v & Hn & Ha & -> & Hs & Hw). intros cur.
    destruct (G0 cur) as (R & Hps & Hpw).
    exists ((cur, es) :: R). rewrite red_productions by done. split.
    + cbn [pn_children]. revert KP Hs. destruct (red qc) as [lx0 cs0]. cbn [pn_lexeme pn_children].
      intros KP Hs. by apply shp_more.
    + by apply spp_more.
  - intros cur. exists []. rewrite red_productions0 by done. split; constructor.
  (* Production *)
  - tok G. tok G0. tok G1. destruct G2 as (es & Hs & Hw). rewrite red_production by done.
    split; [exact Hk|]. exists x, x0, x1, es, qu2. rewrite Ht0. by split_and!.
  (* ContinueProd *)
  - tok G. tok G0. destruct G1 as (es & Hs & Hw). rewrite red_continue by done.
    split; [exact Hk|]. exists x, x0, es, qu1. by split_and!.
  (* Symbols *)
  - destruct G as (e & Hs & Hw). destruct G0 as (es & Hss & Hsw). exists (e :: es). rewrite red_symbols by done.
    split; by constructor.
  - exists []. rewrite red_symbols0 by done. split; constructor.
  (* Symbol *)
  - apply symbol_node; [done| |done]. destruct G as (e & _ & ?). eauto.
  - apply symbol_node; [done| |done]. exact G.
  - apply symbol_node; [done| |done]. destruct G as (e & _ & ?). eauto.
  - apply symbol_node; [done| |done]. destruct G as (e & _ & ?). eauto.
  - apply symbol_node; [done| |done]. apply good_atom in G; [|by auto]. destruct G as (e & _ & ?). eauto.
  (* Group *)
  - tok G. tok G1. destruct G0 as (es & Hss & Hsw). exists (XGroup es). split; [exact I|]. rewrite red_group by done.
    split; by constructor.
  (* OptSymbol *)
  - tok G0. apply good_atom in G; [|by auto]. item G. exists (XOpt e). split; [exact I|]. rewrite red_opt by done.
    split; by constructor.
  - tok G0. apply good_atom in G; [|by auto]. item G. exists (XOpt e). split; [exact I|]. rewrite red_opt by done.
    split; by constructor.
  (* RepSymbol *)
  - tok G0. apply good_atom in G; [|by auto]. item G. exists (XRep e). split; [exact I|]. rewrite red_rep by done.
    split; by constructor.
  - tok G0. apply good_atom in G; [|by auto]. item G. exists (XRep e). split; [exact I|]. rewrite red_rep by done.
    split; by constructor.
  (* OrSymbol *)
  - tok G0. destruct G1 as (es & Hss & Hsw). apply good_simple in G; [|by auto]. item G. exists (XOr (e :: es)).
    rewrite red_or by done. split; [apply sh_or; [done|]; by constructor|by constructor].
  - tok G0. destruct G1 as (es & Hss & Hsw). apply good_simple in G; [|by auto]. item G. exists (XOr (e :: es)).
    rewrite red_or by done. split; [apply sh_or; [done|]; by constructor|by constructor].
  - tok G0. destruct G1 as (es & Hss & Hsw). apply good_simple in G; [|by auto]. item G. exists (XOr (e :: es)).
    rewrite red_or by done. split; [apply sh_or; [done|]; by constructor|by constructor].
  - tok G0. destruct G1 as (es & Hss & Hsw). apply good_simple in G; [|by auto]. item G. exists (XOr (e :: es)).
    rewrite red_or by done. split; [apply sh_or; [done|]; by constructor|by constructor].
  (* MoreOr *)
  - tok G0. destruct G1 as (es & Hss & Hsw). apply good_simple in G; [|by auto]. item G. exists (e :: es).
    rewrite red_more by done. split; by constructor.
  - tok G0. destruct G1 as (es & Hss & Hsw). apply good_simple in G; [|by auto]. item G. exists (e :: es).
    rewrite red_more by done. split; by constructor.
  - tok G0. destruct G1 as (es & Hss & Hsw). apply good_simple in G; [|by auto]. item G. exists (e :: es).
    rewrite red_more by done. split; by constructor.
  - tok G0. destruct G1 as (es & Hss & Hsw). apply good_simple in G; [|by auto]. item G. exists (e :: es).
    rewrite red_more by done. split; by constructor.
  - apply good_simple in G; [|by auto]. item G. exists [e]. rewrite red_more1 by done.
    split; [constructor; [done|constructor]|by constructor].
  - apply good_simple in G; [|by auto]. item G. exists [e]. rewrite red_more1 by done.
    split; [constructor; [done|constructor]|by constructor].
  - apply good_simple in G; [|by auto]. item G. exists [e]. rewrite red_more1 by done.
    split; [constructor; [done|constructor]|by constructor].
  - apply good_simple in G; [|by auto]. item G. exists [e]. rewrite red_more1 by done.
    split; [constructor; [done|constructor]|by constructor].
  (* NL *)
  - tok G. split; [|right; eauto].
    rewrite red_plain by (rewrite Hk; apply rg_for_none; apply (bool_decide_unpack _); vm_compute; exact I). exact Hk.
  - split; [|by left]. rewrite red_plain by (rewrite Hk; apply rg_for_none; apply (bool_decide_unpack _); vm_compute; exact I). exact Hk.
Qed.
Theorem tree_good s t u : is_tree rg_g s t u -> good s (red t) u.
Proof.
  revert s t u.
  apply (is_tree_mut rg_g (fun s t u _ => good s (red t) u) (fun p cs u _ => goods p cs u)).
  - intros lx H. assert (Hn : lx_kind lx ∉ map fst rg_rows).
    { rewrite <-rg_nts. intros Hin. apply rg_wf in Hin. rewrite H in Hin. by destruct Hin. }
    rewrite good_nt by exact Hn. exists lx. split; [done|]. split; [by apply red_tok|done].
  - intros lx ps p cs lxs Hps Hp _ IH. apply (node_good lx cs lxs p); [|exact IH].
    apply (rows_rule rg_g rg_rows rg_wf rg_nts rg_prods _ ps); done.
  - done.
  - intros s r c cs u v _ IH1 _ IH2. exists c, cs, u, v. done.
Qed.
Theorem tree_shows t u : is_tree rg_g (L "Grammar") t u -> exists R, shows_grammar (red t) R /\ spells R u.
Proof. exact (tree_good (L "Grammar") t u). Qed.

(** Conversely the grammar derives whatever is spelled. *)
Notation kinds := (map lx_kind).
Lemma tok_none k : k ∈ rg_tokens -> g_prods rg_g k = None.
Proof.
  intros H. apply (rows_none rg_g rg_rows rg_wf rg_nts). revert k H. apply Forall_forall.
  apply (bool_decide_unpack _). vm_compute. exact I.
Qed.
Ltac rl k p := apply (rows_derive rg_g rg_rows rg_prods (L k) p);
  [apply (bool_decide_unpack _); vm_compute; exact I|].
Lemma tok_derives x s : lx_kind x = s -> s ∈ rg_tokens -> derives rg_g s [lx_kind x].
Proof. intros <- H. apply der_term, tok_none, H. Qed.
Lemma dtok x k r w : lx_kind x = k -> bool_decide (k ∈ rg_tokens) = true ->
  derives_seq rg_g r w -> derives_seq rg_g (k :: r) (lx_kind x :: w).
Proof. intros <- Hk Hr. apply derives_tok; [|done]. apply tok_none. by apply bool_decide_eq_true in Hk. Qed.
Lemma drv s r u v : derives rg_g s u -> derives_seq rg_g r v -> derives_seq rg_g (s :: r) (u ++ v).
Proof. apply der_cons. Qed.

Definition dr_atom (e : rx) (w : list gostring) : Prop :=
  atom e -> derives rg_g (L "Group") w \/ derives rg_g (L "symbol") w.
Definition dr_simple (e : rx) (w : list gostring) : Prop :=
  no_bar e -> derives rg_g (L "Group") w \/ derives rg_g (L "OptSymbol") w
    \/ derives rg_g (L "RepSymbol") w \/ derives rg_g (L "symbol") w.
Lemma spells_derives :
  (forall e u, spells_rx e u -> dr_atom e (kinds u) /\ dr_simple e (kinds u) /\ derives rg_g (L "Symbol") (kinds u))
  /\ (forall es u, spells_bar es u -> derives rg_g (L "MoreOr") (kinds u))
  /\ (forall es u, spells_seq es u -> derives rg_g (L "Symbols") (kinds u)).
Proof.
  apply (spells_mut
    (fun e u _ => dr_atom e (kinds u) /\ dr_simple e (kinds u) /\ derives rg_g (L "Symbol") (kinds u))
    (fun es u _ => derives rg_g (L "MoreOr") (kinds u))
    (fun es u _ => derives rg_g (L "Symbols") (kinds u))).
  - intros x Hx. assert (Hd : derives rg_g (L "symbol") (kinds [x])).
    { apply (tok_derives x (L "symbol") Hx). apply (bool_decide_unpack _). vm_compute. exact I. }
    split; [by right|]. split; [by right; right; right|]. rl "Symbol"%string [L "symbol"]. by apply derives_one.
  - intros o l u c Ho _ IH Hc. assert (Hd : derives rg_g (L "Group") (kinds (o :: u ++ [c]))).
    { rl "Group"%string [L "("; L "Symbols"; L ")"]. cbn [map]. rewrite map_app. cbn [map].
      apply dtok; [done|reflexivity|]. apply drv; [done|]. apply dtok; [done|reflexivity|constructor]. }
    split; [by left|]. split; [by left|]. rl "Symbol"%string [L "Group"]. by apply derives_one.
  - intros e u q Ha _ (IH & _) Hq. assert (Hd : derives rg_g (L "OptSymbol") (kinds (u ++ [q]))).
    { rewrite map_app. destruct (IH Ha).
      - rl "OptSymbol"%string [L "Group"; L "optional"]. apply drv; [done|]. apply dtok; [done|reflexivity|constructor].
      - rl "OptSymbol"%string [L "symbol"; L "optional"]. apply drv; [done|]. apply dtok; [done|reflexivity|constructor]. }
    split; [by intros []|]. split; [intros _; tauto|]. rl "Symbol"%string [L "OptSymbol"]. by apply derives_one.
  - intros e u q Ha _ (IH & _) Hq. assert (Hd : derives rg_g (L "RepSymbol") (kinds (u ++ [q]))).
    { rewrite map_app. destruct (IH Ha).
      - rl "RepSymbol"%string [L "Group"; L "repeats"]. apply drv; [done|]. apply dtok; [done|reflexivity|constructor].
      - rl "RepSymbol"%string [L "symbol"; L "repeats"]. apply drv; [done|]. apply dtok; [done|reflexivity|constructor]. }
    split; [by intros []|]. split; [intros _; tauto|]. rl "Symbol"%string [L "RepSymbol"]. by apply derives_one.
  - intros e u b l v Hn _ (_ & IH & _) Hb _ IHl. split; [by intros []|]. split; [by intros []|].
    rl "Symbol"%string [L "OrSymbol"]. apply derives_one. rewrite map_app. cbn [map].
    destruct (IH Hn) as [H|[H|[H|H]]].
    + rl "OrSymbol"%string [L "Group"; L "or"; L "MoreOr"]. apply drv; [done|]. apply dtok; [done|reflexivity|by apply derives_one].
    + rl "OrSymbol"%string [L "OptSymbol"; L "or"; L "MoreOr"]. apply drv; [done|]. apply dtok; [done|reflexivity|by apply derives_one].
    + rl "OrSymbol"%string [L "RepSymbol"; L "or"; L "MoreOr"]. apply drv; [done|]. apply dtok; [done|reflexivity|by apply derives_one].
    + rl "OrSymbol"%string [L "symbol"; L "or"; L "MoreOr"]. apply drv; [done|]. apply dtok; [done|reflexivity|by apply derives_one].
  - intros e u Hn _ (_ & IH & _). destruct (IH Hn) as [H|[H|[H|H]]].
    + rl "MoreOr"%string [L "Group"]. by apply derives_one.
    + rl "MoreOr"%string [L "OptSymbol"]. by apply derives_one.
    + rl "MoreOr"%string [L "RepSymbol"]. by apply derives_one.
    + rl "MoreOr"%string [L "symbol"]. by apply derives_one.
  - intros e u b l v Hn _ (_ & IH & _) Hb _ IHl. rewrite map_app. cbn [map].
    destruct (IH Hn) as [H|[H|[H|H]]].
    + rl "MoreOr"%string [L "Group"; L "or"; L "MoreOr"]. apply drv; [done|]. apply dtok; [done|reflexivity|by apply derives_one].
    + rl "MoreOr"%string [L "OptSymbol"; L "or"; L "MoreOr"]. apply drv; [done|]. apply dtok; [done|reflexivity|by apply derives_one].
    + rl "MoreOr"%string [L "RepSymbol"; L "or"; L "MoreOr"]. apply drv; [done|]. apply dtok; [done|reflexivity|by apply derives_one].
    + rl "MoreOr"%string [L "symbol"; L "or"; L "MoreOr"]. apply drv; [done|]. apply dtok; [done|reflexivity|by apply derives_one].
  - rl "Symbols"%string (@nil gostring). constructor.
  - intros e u es v _ (_ & _ & IH) _ IHs. rewrite map_app. rl "Symbols"%string [L "Symbol"; L "Symbols"].
    apply drv; [done|]. by apply derives_one.
Qed.
Lemma prods_derive cur R u : spells_prods cur R u -> cur <> None -> derives rg_g (L "Productions") (kinds u).
Proof.
  induction 1 as [cur|cur n s a es u R v Hn Hs Ha Hes _ IH|cur n a es u R v Hn Ha Hes _ IH]; intros Hc.
  - rl "Productions"%string (@nil gostring). constructor.
  - rl "Productions"%string [L "Production"; L "Productions"].
    change (n :: s :: a :: u ++ v) with ((n :: s :: a :: u) ++ v). rewrite map_app. apply drv; [|apply derives_one, IH; done].
    rl "Production"%string [L "nl"; L "symbol"; L "rarr"; L "Symbols"]. cbn [map].
    apply dtok; [done|reflexivity|]. apply dtok; [done|reflexivity|]. apply dtok; [done|reflexivity|].
    apply derives_one, (proj2 (proj2 spells_derives) es). done.
  - rl "Productions"%string [L "ContinueProd"; L "Productions"].
    change (n :: a :: u ++ v) with ((n :: a :: u) ++ v). rewrite map_app. apply drv; [|apply derives_one, IH; done].
    rl "ContinueProd"%string [L "nl"; L "rarr"; L "Symbols"]. cbn [map].
    apply dtok; [done|reflexivity|]. apply dtok; [done|reflexivity|].
    apply derives_one, (proj2 (proj2 spells_derives) es). done.
Qed.
Lemma blank_derives u : blank u -> derives rg_g (L "NL") (kinds u).
Proof.
  intros [->|(n & -> & Hn)].
  - rl "NL"%string (@nil gostring). constructor.
  - rl "NL"%string [L "nl"]. cbn [map]. apply dtok; [done|reflexivity|constructor].
Qed.
Theorem spelled_derives R u : spells R u -> derives rg_g (L "Grammar") (kinds u).
Proof.
  intros (Hne & pre & b & post & Hpre & Hpost & Hp & ->).
  inversion Hp as [cur|cur n s a es w R' v Hn Hs Ha Hes Hr E1 E2 E3|]; subst; [done|].
  rl "Grammar"%string [L "NL"; L "Production"; L "Productions"; L "NL"].
  rewrite map_app. apply drv; [by apply blank_derives|].
  change (n :: s :: a :: w ++ v) with ((n :: s :: a :: w) ++ v). rewrite <-app_assoc, map_app. apply drv.
  { rl "Production"%string [L "nl"; L "symbol"; L "rarr"; L "Symbols"]. cbn [map].
    apply dtok; [done|reflexivity|]. apply dtok; [done|reflexivity|]. apply dtok; [done|reflexivity|].
    apply derives_one, (proj2 (proj2 spells_derives) es). done. }
  rewrite map_app. apply drv; [eapply prods_derive; [exact Hr|done]|]. apply derives_one, blank_derives. done.
Qed.
