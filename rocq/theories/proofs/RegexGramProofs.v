(** regexgram: what the evaluation of a grammar tree does, and the language of the result. *)
From Coq Require Import String Lia.
From Verif.spec Require Import RegexGramSpec GrammarSpec.
From Verif.proofs Require Import Fuel.
From Verif.proofs Require GrammarProofs.
Local Open Scope nat_scope.
Local Open Scope list_scope.

Section rx_ind.
  Variable P : rx -> Prop.
  Hypothesis Hs : forall v, P (XSym v).
  Hypothesis Ho : forall e, P e -> P (XOpt e).
  Hypothesis Hr : forall e, P e -> P (XRep e).
  Hypothesis Hor : forall l, Forall P l -> P (XOr l).
  Hypothesis Hg : forall l, Forall P l -> P (XGroup l).
  Fixpoint rx_ind' (e : rx) : P e :=
    let go := fix go (l : list rx) : Forall P l :=
      match l with [] => Forall_nil_2 _ | x :: r => Forall_cons_2 _ _ _ (rx_ind' x) (go r) end in
    match e with
    | XSym v => Hs v
    | XOpt e => Ho e (rx_ind' e)
    | XRep e => Hr e (rx_ind' e)
    | XOr l => Hor l (go l)
    | XGroup l => Hg l (go l)
    end.
End rx_ind.

Scheme shows_rx_mut := Induction for shows_rx Sort Prop
  with shows_rxs_mut := Induction for shows_rxs Sort Prop.
Scheme matches_mut := Induction for matches Sort Prop
  with matches_seq_mut := Induction for matches_seq Sort Prop.

(** *** Pairs *)
Lemma pairs_nil_l b : pairs [[]] b = b.
Proof. unfold pairs. cbn. rewrite app_nil_r. induction b as [|y b IH]; cbn; [done|]. f_equal. exact IH. Qed.
Lemma pairs_nil_r a : pairs a [[]] = a.
Proof. unfold pairs. induction a as [|x a IH]; cbn; [done|]. rewrite app_nil_r. f_equal. exact IH. Qed.
Lemma flat_map_flat_map {A B C} (f : A -> list B) (g : B -> list C) l :
  flat_map g (flat_map f l) = flat_map (fun x => flat_map g (f x)) l.
Proof. induction l as [|x l IH]; cbn; [done|]. rewrite flat_map_app. f_equal. exact IH. Qed.
Lemma flat_map_map {A B C} (f : A -> B) (g : B -> list C) l :
  flat_map g (map f l) = flat_map (fun x => g (f x)) l.
Proof. induction l as [|x l IH]; cbn; [done|]. f_equal. exact IH. Qed.
Lemma map_flat_map {A B C} (f : A -> list B) (g : B -> C) l :
  map g (flat_map f l) = flat_map (fun x => map g (f x)) l.
Proof. induction l as [|x l IH]; cbn; [done|]. rewrite map_app. f_equal. exact IH. Qed.
Lemma flat_map_ext' {A B} (f g : A -> list B) l : (forall x, f x = g x) -> flat_map f l = flat_map g l.
Proof. intros H. induction l as [|x l IH]; cbn; [done|]. rewrite H. f_equal. exact IH. Qed.
Lemma pairs_assoc a b c : pairs (pairs a b) c = pairs a (pairs b c).
Proof.
  unfold pairs. rewrite flat_map_flat_map. apply flat_map_ext'. intros x.
  rewrite flat_map_map, map_flat_map. apply flat_map_ext'. intros y. rewrite map_map.
  apply map_ext. intros z. rewrite app_assoc. done.
Qed.
Lemma fold_merge l : forall a, fold_left merge_rules (map expansions l) a = pairs a (expansions_seq l).
Proof.
  induction l as [|e l IH]; intros a; cbn [map fold_left expansions_seq foldr].
  - symmetry. apply pairs_nil_r.
  - rewrite IH. apply pairs_assoc.
Qed.
Lemma expansions_group l : expansions (XGroup l) = comb_reduce (map expansions l).
Proof.
  destruct l as [|e l]; [done|]. cbn [comb_reduce map]. rewrite fold_merge. done.
Qed.
Lemma expansions_group_cons e l : expansions (XGroup (e :: l)) = expansions_seq (e :: l).
Proof. done. Qed.
Lemma in_pairs a b p : p ∈ pairs a b <-> exists x y, x ∈ a /\ y ∈ b /\ p = x ++ y.
Proof.
  unfold pairs. rewrite elem_of_list_In, in_flat_map. split.
  - intros (x & Hx & Hp). apply in_map_iff in Hp as (y & <- & Hy).
    exists x, y. rewrite !elem_of_list_In. done.
  - intros (x & y & Hx & Hy & ->). exists x. rewrite <- elem_of_list_In. split; [done|].
    apply in_map_iff. exists y. rewrite <- elem_of_list_In. done.
Qed.
Lemma in_fm {A B} (f : A -> list B) l y : y ∈ flat_map f l <-> exists x, x ∈ l /\ y ∈ f x.
Proof. rewrite elem_of_list_In, in_flat_map. setoid_rewrite elem_of_list_In. done. Qed.

(** *** Names *)
Lemma get_name_shows t e : shows_rx t e -> get_name t = Ok (written e).
Proof.
  revert t e. apply (shows_rx_mut (fun t e _ => get_name t = Ok (written e))
    (fun ts l _ => (fix names (cs : list pn) : res (list gostring) :=
        match cs with [] => Ok [] | c :: r => x <-! get_name c; xs <-! names r; Ok (x :: xs) end) ts = Ok (map written l))).
  - intros lx E. cbn [get_name written]. rewrite E. reflexivity.
  - intros lx t e E _ IH. cbn [get_name written]. rewrite E. cbn -[get_name L written]. rewrite IH. reflexivity.
  - intros lx t e E _ IH. cbn [get_name written]. rewrite E. cbn -[get_name L written]. rewrite IH. reflexivity.
  - intros lx ts l E _ IH. cbn [get_name written]. rewrite E, IH. reflexivity.
  - intros lx ts l E _ IH. cbn [get_name written]. rewrite E, IH. reflexivity.
  - reflexivity.
  - intros t e ts l _ IH _ IHs. rewrite IH. cbn [rbind]. rewrite IHs. reflexivity.
Qed.

(** *** The evaluation on expressions *)
Notation item := (gostring * list rx)%type.
Fixpoint outer (e : rx) : list rx :=
  match e with
  | XSym _ => []
  | XOpt e => outer e
  | XRep e => [e]
  | XOr l => flat_map outer l
  | XGroup l => flat_map outer l
  end.
Record ast := Ast {
  a_prods : amap;
  a_queue : list item;
  a_done : list gostring;
  a_blud : gmap gostring (list gostring)
}.
Definition gen_items (e : rx) : list item := [(rep_name e, [e; XSym (rep_name e)]); (rep_name e, [])].
Definition a_rep (nt : gostring) (s : ast) (e : rx) : ast :=
  let b := <[nt := default [] (a_blud s !! nt) ++ [rep_name e]]> (a_blud s) in
  if decide (rep_name e ∈ a_done s) then Ast (a_prods s) (a_queue s) (a_done s) b
  else Ast (a_prods s) (a_queue s ++ gen_items e) (a_done s ++ [rep_name e]) b.
Definition a_prod (it : item) (s : ast) : ast :=
  let s1 := fold_left (a_rep (fst it)) (flat_map outer (snd it)) s in
  Ast (fold_left (fun A p => am_add A (fst it) p) (expansions_seq (snd it)) (a_prods s1))
      (a_queue s1) (a_done s1) (a_blud s1).

Definition shows_item (t : pn) (it : item) : Prop :=
  lx_val (pn_lexeme t) = fst it /\ shows_rxs (pn_children t) (snd it).
Record absd (op : rgop) (nt : gostring) (s : ast) : Prop := {
  ab_gram : GrammarProofs.R (rg_gram op) (a_prods s);
  ab_nt : rg_nonterm op = nt;
  ab_queue : Forall2 shows_item (rg_stack op) (a_queue s);
  ab_done : forall n, rg_done op !! n = if decide (n ∈ a_done s) then Some [[n]] else None;
  ab_blud : rg_bludgeons op = a_blud s
}.

Lemma add_repeat_abs lx t e op nt s : lx_kind lx = L "RepSymbol" -> shows_rx t e -> absd op nt s ->
  exists op', add_repeat (PN lx [t]) op = Ok ([[rep_name e]], op') /\ absd op' nt (a_rep nt s e).
Proof.
  intros El Ht [Hg Hn Hq Hd Hb]. unfold add_repeat.
  assert (get_name (PN lx [t]) = Ok (rep_name e)) as -> by (apply (get_name_shows _ (XRep e)); constructor; done).
  cbn [rbind]. rewrite Hd. unfold a_rep. destruct (decide (rep_name e ∈ a_done s)) as [Hin|Hni].
  - eexists. split; [done|]. constructor; cbn; rewrite ?Hn, ?Hb; done.
  - eexists. split; [done|]. constructor; cbn [rg_gram rg_nonterm rg_stack rg_done rg_bludgeons a_prods a_queue a_done a_blud].
    + done.
    + done.
    + apply Forall2_app; [done|]. unfold gen_items. constructor; [|constructor; [|constructor]].
      * split; [done|]. apply shs_cons; [done|]. apply shs_cons; [|constructor].
        exact (sh_sym (fresh_lexeme (L "symbol") (rep_name e)) eq_refl).
      * split; [done|]. constructor.
    + intros n. destruct (decide (n = rep_name e)) as [->|Hne].
      * rewrite lookup_insert, decide_True; [done|]. apply elem_of_app. right. apply elem_of_list_singleton. done.
      * rewrite lookup_insert_ne by done. rewrite Hd.
        destruct (decide (n ∈ a_done s)) as [H|H].
        -- rewrite decide_True; [done|]. apply elem_of_app. by left.
        -- rewrite decide_False; [done|]. intros [H'|H']%elem_of_app; [done|]. apply elem_of_list_singleton in H'. done.
    + rewrite Hn, Hb. done.
Qed.

Fixpoint each (cs : list pn) (op : rgop) : res (list rg_rules * rgop) :=
  match cs with
  | [] => Ok ([], op)
  | c :: r => '(rs, op1) <-! eval_symbol c op; '(rest, op2) <-! each r op1; Ok (rs :: rest, op2)
  end.
Lemma eval_symbol_unfold lx cs op : eval_symbol (PN lx cs) op =
  let k := lx_kind lx in
  if decide (k = L "symbol") then Ok ([[lx_val lx]], op)
  else if decide (k = L "OptSymbol") then
    match cs with
    | [] => Panic
    | c :: _ => '(rs, op1) <-! eval_symbol c op; Ok (rs ++ [[]], op1)
    end
  else if decide (k = L "OrSymbol") then '(rc, op1) <-! each cs op; Ok (List.concat rc, op1)
  else if decide (k = L "Group") then '(rc, op1) <-! each cs op; Ok (comb_reduce rc, op1)
  else if decide (k = L "RepSymbol") then add_repeat (PN lx cs) op
  else Ok ([], op).
Proof. reflexivity. Qed.

Lemma eval_symbol_abs t e : shows_rx t e -> forall op nt s, absd op nt s ->
  exists op', eval_symbol t op = Ok (expansions e, op') /\ absd op' nt (fold_left (a_rep nt) (outer e) s).
Proof.
  revert t e. apply (shows_rx_mut
    (fun t e _ => forall op nt s, absd op nt s ->
       exists op', eval_symbol t op = Ok (expansions e, op') /\ absd op' nt (fold_left (a_rep nt) (outer e) s))
    (fun ts l _ => forall op nt s, absd op nt s ->
       exists op', each ts op = Ok (map expansions l, op') /\ absd op' nt (fold_left (a_rep nt) (flat_map outer l) s))).
  - intros lx E op nt s Ha. exists op. rewrite eval_symbol_unfold, E. done.
  - intros lx t e E _ IH op nt s Ha. destruct (IH op nt s Ha) as (op' & E1 & Ha').
    exists op'. rewrite eval_symbol_unfold, E. cbn zeta. rewrite decide_False by done. rewrite decide_True by done.
    rewrite E1. done.
  - intros lx t e E Ht _ op nt s Ha. destruct (add_repeat_abs lx t e op nt s E Ht Ha) as (op' & E1 & Ha').
    exists op'. rewrite eval_symbol_unfold, E. cbn zeta. do 4 rewrite decide_False by done. rewrite decide_True by done.
    rewrite E1. done.
  - intros lx ts l E _ IH op nt s Ha. destruct (IH op nt s Ha) as (op' & E1 & Ha').
    exists op'. rewrite eval_symbol_unfold, E. cbn zeta. do 2 rewrite decide_False by done. rewrite decide_True by done.
    rewrite E1. cbn [rbind]. rewrite <- flat_map_concat_map. done.
  - intros lx ts l E _ IH op nt s Ha. destruct (IH op nt s Ha) as (op' & E1 & Ha').
    exists op'. rewrite eval_symbol_unfold, E. cbn zeta. do 3 rewrite decide_False by done. rewrite decide_True by done.
    rewrite E1. cbn [rbind]. rewrite <- expansions_group. done.
  - intros op nt s Ha. exists op. done.
  - intros t e ts l _ IH _ IHs op nt s Ha. destruct (IH op nt s Ha) as (op1 & E1 & Ha1).
    destruct (IHs op1 nt _ Ha1) as (op2 & E2 & Ha2). exists op2. cbn [each]. rewrite E1. cbn [rbind]. rewrite E2.
    cbn [rbind map flat_map]. rewrite fold_left_app. done.
Qed.

Lemma merge_symbols_abs ts l : shows_rxs ts l -> forall a op nt s, absd op nt s ->
  exists op', rfold merge_symbol ts (a, op) = Ok (pairs a (expansions_seq l), op')
    /\ absd op' nt (fold_left (a_rep nt) (flat_map outer l) s).
Proof.
  induction 1 as [|t e ts l Ht Hts IH]; intros a op nt s Ha.
  - exists op. cbn. rewrite pairs_nil_r. done.
  - destruct (eval_symbol_abs t e Ht op nt s Ha) as (op1 & E1 & Ha1).
    destruct (IH (pairs a (expansions e)) op1 nt _ Ha1) as (op2 & E2 & Ha2).
    exists op2. cbn [rfold]. unfold merge_symbol at 1. cbn [fst snd]. rewrite E1. cbn [rbind].
    change (merge_rules a (expansions e)) with (pairs a (expansions e)). rewrite E2.
    rewrite pairs_assoc. cbn [flat_map]. rewrite fold_left_app. done.
Qed.

Lemma add_rules_R nt ps : forall g A, GrammarProofs.R g A ->
  GrammarProofs.R (fold_left (add_rule_as_prod nt) ps g) (fold_left (fun A p => am_add A nt p) ps A).
Proof.
  induction ps as [|p ps IH]; intros g A H; cbn [fold_left]; [done|]. apply IH.
  unfold add_rule_as_prod. apply GrammarProofs.gr_add_R; [done|done|]. cbn.
  induction p; constructor; done.
Qed.

Lemma eval_prod_abs t it op nt s : shows_item t it -> absd op nt s ->
  exists op', eval_prod t op = Ok op' /\ absd op' (fst it) (a_prod it s).
Proof.
  intros [Ev Hc] Ha. unfold eval_prod. rewrite Ev.
  edestruct (merge_symbols_abs _ _ Hc [[]]) as (op2 & E2 & Ha2).
  { instantiate (1 := s). instantiate (1 := fst it). instantiate (1 := RgOp (rg_gram op) (rg_stack op) (fst it) (rg_bludgeons op) (rg_done op)).
    destruct Ha. constructor; done. }
  rewrite E2. cbn [rbind]. rewrite pairs_nil_l. eexists. split; [done|].
  destruct Ha2 as [H1 H2 H3 H4 H5]. constructor; cbn; [|done..]. apply add_rules_R. done.
Qed.

Fixpoint a_loop (fuel : nat) (s : ast) : option ast :=
  match fuel with
  | O => None
  | S f => match a_queue s with
           | [] => Some s
           | it :: q => a_loop f (a_prod it (Ast (a_prods s) q (a_done s) (a_blud s)))
           end
  end.
Lemma rg_loop_abs f : forall op nt s s', absd op nt s -> a_loop f s = Some s' ->
  exists op' nt', rg_loop f op = Ok op' /\ absd op' nt' s'.
Proof.
  induction f as [|f IH]; intros op nt s s' Ha E; [done|]. cbn [a_loop rg_loop] in *.
  pose proof (ab_queue _ _ _ Ha) as Hq. destruct Hq as [|t it ts q Hit Hts].
  - injection E as <-. eauto.
  - destruct (eval_prod_abs t it (RgOp (rg_gram op) ts (rg_nonterm op) (rg_bludgeons op) (rg_done op)) nt
      (Ast (a_prods s) q (a_done s) (a_blud s)) Hit) as (op1 & E1 & Ha1).
    { destruct Ha. constructor; done. }
    rewrite E1. cbn [rbind]. eapply IH; eauto.
Qed.
Lemma rg_loop_mono op : fuel_mono (fun f => rg_loop f op).
Proof.
  intros n m Hle. revert m Hle op. induction n as [|n IH]; intros m Hle op; [left; done|].
  destruct m as [|m]; [lia|]. cbn [rg_loop]. destruct (rg_stack op); [apply rle_refl|].
  apply rle_bind; [apply rle_refl|]. intros x. apply IH. lia.
Qed.
Lemma eval_grammar_mono t : fuel_mono (eval_grammar t).
Proof. intros n m Hle. apply rle_bind; [apply rg_loop_mono; done|]. intros; apply rle_refl. Qed.

(** *** Termination *)
Fixpoint sum (l : list nat) : nat := match l with [] => 0 | x :: r => x + sum r end.
Lemma sum_app a b : sum (a ++ b) = sum a + sum b.
Proof. induction a; cbn; lia. Qed.
Definition weight (e : rx) : nat := 3 * length (repeats e).
Definition item_weight (it : item) : nat := 1 + 3 * length (flat_map repeats (snd it)).
Lemma outer_weight e : sum (map (fun x => 1 + length (repeats x)) (outer e)) <= length (repeats e).
Proof.
  induction e as [v|e IH|e IH|l IH|l IH] using rx_ind'; cbn [outer repeats map sum length].
  - lia.
  - exact IH.
  - lia.
  - induction IH as [|e l H _ IHl]; cbn [flat_map]; [cbn; lia|]. rewrite map_app, sum_app, app_length. lia.
  - induction IH as [|e l H _ IHl]; cbn [flat_map]; [cbn; lia|]. rewrite map_app, sum_app, app_length. lia.
Qed.
Lemma outer_weights es : sum (map (fun x => 1 + length (repeats x)) (flat_map outer es)) <= length (flat_map repeats es).
Proof.
  induction es as [|e es IH]; cbn [flat_map]; [cbn; lia|].
  rewrite map_app, sum_app, app_length. pose proof (outer_weight e). lia.
Qed.
Definition q_weight (q : list item) : nat := sum (map item_weight q).
Lemma q_weight_app a b : q_weight (a ++ b) = q_weight a + q_weight b.
Proof. unfold q_weight. rewrite map_app. apply sum_app. Qed.
Lemma gen_weight e : q_weight (gen_items e) = 2 + 3 * length (repeats e).
Proof.
  unfold q_weight, gen_items, item_weight. cbn [map sum snd flat_map repeats]. rewrite !app_nil_r. cbn. lia.
Qed.
Lemma a_reps_weight nt es : forall s, q_weight (a_queue (fold_left (a_rep nt) es s))
  <= q_weight (a_queue s) + 3 * sum (map (fun x => 1 + length (repeats x)) es).
Proof.
  induction es as [|e es IH]; intros s; cbn [fold_left map sum]; [lia|].
  etransitivity; [apply IH|]. unfold a_rep. case_decide; cbn [a_queue].
  - lia.
  - rewrite q_weight_app, gen_weight. lia.
Qed.
Lemma a_loop_ends f : forall s, q_weight (a_queue s) < f -> exists s', a_loop f s = Some s'.
Proof.
  induction f as [|f IH]; intros s Hlt; [lia|]. cbn [a_loop]. destruct (a_queue s) as [|it q] eqn:Eq; [eauto|].
  apply IH. cbn [a_prod a_queue].
  pose proof (a_reps_weight (fst it) (flat_map outer (snd it)) (Ast (a_prods s) q (a_done s) (a_blud s))) as H.
  cbn [a_queue] in H. pose proof (outer_weights (snd it)) as H2.
  assert (q_weight (it :: q) = item_weight it + q_weight q) as E by done.
  unfold item_weight in E. change (a_queue (a_prod it (Ast (a_prods s) q (a_done s) (a_blud s)))) with
    (a_queue (fold_left (a_rep (fst it)) (flat_map outer (snd it)) (Ast (a_prods s) q (a_done s) (a_blud s)))). lia.
Qed.

(** *** What it has seen in the end *)
Lemma repeats_outer e : forall x, x ∈ outer e -> x ∈ repeats e.
Proof.
  induction e as [v|e IH|e IH|l IH|l IH] using rx_ind'; cbn [outer repeats]; intros x Hx; [inversion Hx|auto| | |].
  - apply elem_of_list_singleton in Hx as ->. left.
  - apply in_fm in Hx as (y & Hy & Hx). apply in_fm. exists y. split; [done|]. rewrite Forall_forall in IH. auto.
  - apply in_fm in Hx as (y & Hy & Hx). apply in_fm. exists y. split; [done|]. rewrite Forall_forall in IH. auto.
Qed.
Lemma repeats_cases e : forall x, x ∈ repeats e -> x ∈ outer e \/ exists y, y ∈ outer e /\ x ∈ repeats y.
Proof.
  induction e as [v|e IH|e IH|l IH|l IH] using rx_ind'; cbn [outer repeats]; intros x Hx; [inversion Hx|auto| | |].
  - apply elem_of_cons in Hx as [->|Hx]; [left; apply elem_of_list_singleton; done|].
    right. exists e. split; [apply elem_of_list_singleton; done|done].
  - apply in_fm in Hx as (y & Hy & Hx). rewrite Forall_forall in IH.
    destruct (IH y Hy x Hx) as [H|(z & Hz & H)]; [left|right; exists z; split; [|done]]; apply in_fm; eauto.
  - apply in_fm in Hx as (y & Hy & Hx). rewrite Forall_forall in IH.
    destruct (IH y Hy x Hx) as [H|(z & Hz & H)]; [left|right; exists z; split; [|done]]; apply in_fm; eauto.
Qed.
Lemma outer_repeats_sub e y x : y ∈ repeats e -> x ∈ outer y -> x ∈ repeats e.
Proof.
  induction e as [v|e IH|e IH|l IH|l IH] using rx_ind'; cbn [outer repeats]; intros Hy Hx; [inversion Hy|auto| | |].
  - right. apply elem_of_cons in Hy as [->|Hy]; [apply repeats_outer; done|auto].
  - apply in_fm in Hy as (z & Hz & Hy). apply in_fm. exists z. rewrite Forall_forall in IH. auto.
  - apply in_fm in Hy as (z & Hz & Hy). apply in_fm. exists z. rewrite Forall_forall in IH. auto.
Qed.
Lemma in_all_repeats R x : x ∈ all_repeats R <-> exists nt es e, (nt, es) ∈ R /\ e ∈ es /\ x ∈ repeats e.
Proof.
  unfold all_repeats. rewrite in_fm. split.
  - intros ([nt es] & H1 & H2). apply in_fm in H2 as (e & He & Hx). eauto 10.
  - intros (nt & es & e & H1 & H2 & H3). exists (nt, es). split; [done|]. apply in_fm. eauto.
Qed.
Lemma all_repeats_outer R y x : y ∈ all_repeats R -> x ∈ outer y -> x ∈ all_repeats R.
Proof.
  rewrite !in_all_repeats. intros (nt & es & e & H1 & H2 & H3) Hx. exists nt, es, e. split_and!; [done..|].
  eapply outer_repeats_sub; eauto.
Qed.

Definition adds (A : amap) (it : item) : amap := fold_left (fun A p => am_add A (fst it) p) (expansions_seq (snd it)) A.
Definition notes (B : gmap gostring (list gostring)) (it : item) : gmap gostring (list gostring) :=
  fold_left (fun B e => <[fst it := default [] (B !! fst it) ++ [rep_name e]]> B) (flat_map outer (snd it)) B.
Lemma a_reps_spec nt es : forall s, exists new,
  fold_left (a_rep nt) es s = Ast (a_prods s) (a_queue s ++ flat_map gen_items new) (a_done s ++ map rep_name new)
      (fold_left (fun B e => <[nt := default [] (B !! nt) ++ [rep_name e]]> B) es (a_blud s))
  /\ (forall e, e ∈ new -> e ∈ es) /\ (NoDup (a_done s) -> NoDup (a_done s ++ map rep_name new))
  /\ forall e, e ∈ es -> rep_name e ∈ a_done s ++ map rep_name new.
Proof.
  induction es as [|e es IH]; intros s; cbn [fold_left].
  - exists []. cbn. rewrite !app_nil_r. destruct s. split_and!; [done| |done|]; intros x Hx; inversion Hx.
  - destruct (IH (a_rep nt s e)) as (new & E & H1 & H2 & H3). rewrite E. unfold a_rep in *.
    destruct (decide (rep_name e ∈ a_done s)) as [Hin|Hni]; cbn [a_prods a_queue a_done a_blud] in *.
    + exists new. split_and!; [done| |done|].
      * intros x Hx. right. auto.
      * intros x [->|Hx]%elem_of_cons; [apply elem_of_app; by left|auto].
    + exists (e :: new). cbn [flat_map map]. rewrite <- !app_assoc in *. cbn [app] in *. split_and!; [done| | |].
      * intros x [->|Hx]%elem_of_cons; [left|right; auto].
      * intros Hnd. apply H2. apply NoDup_app. split_and!; [done| |apply NoDup_singleton].
        intros x Hx Hx'. apply elem_of_list_singleton in Hx' as ->. done.
      * intros x [->|Hx]%elem_of_cons; [|auto]. apply elem_of_app. right. left.
Qed.

Record seen (R : rxs) (P : list item) (s : ast) (new : list rx) : Prop := {
  se_all : P ++ a_queue s = R ++ flat_map gen_items new;
  se_done : a_done s = map rep_name new;
  se_nodup : NoDup (a_done s);
  se_new : forall e, e ∈ new -> e ∈ all_repeats R;
  se_outer : forall it e, it ∈ P -> e ∈ flat_map outer (snd it) -> rep_name e ∈ a_done s;
  se_prods : a_prods s = fold_left adds P [];
  se_blud : a_blud s = fold_left notes P ∅
}.
Lemma item_outer R new it e : (forall e, e ∈ new -> e ∈ all_repeats R) ->
  it ∈ R ++ flat_map gen_items new -> e ∈ flat_map outer (snd it) -> e ∈ all_repeats R.
Proof.
  intros Hn Hit He. apply elem_of_app in Hit as [Hit|Hit].
  - destruct it as [nt es]. apply in_fm in He as (x & Hx & He). apply in_all_repeats.
    exists nt, es, x. split_and!; [done..|]. apply repeats_outer. done.
  - apply in_fm in Hit as (x & Hx & Hit). unfold gen_items in Hit.
    apply elem_of_cons in Hit as [->|Hit].
    + cbn in He. rewrite app_nil_r in He. eapply all_repeats_outer; eauto.
    + apply elem_of_list_singleton in Hit as ->. inversion He.
Qed.
Lemma seen_step R P s new it q : seen R P s new -> a_queue s = it :: q ->
  exists new', seen R (P ++ [it]) (a_prod it (Ast (a_prods s) q (a_done s) (a_blud s))) new'.
Proof.
  intros [H1 H2 H3 H4 H5 H6 H7] Eq. unfold a_prod.
  destruct (a_reps_spec (fst it) (flat_map outer (snd it)) (Ast (a_prods s) q (a_done s) (a_blud s)))
    as (more & E & M1 & M2 & M3). rewrite E. cbn [a_prods a_queue a_done a_blud] in *.
  exists (new ++ more). constructor; cbn [a_prods a_queue a_done a_blud].
  - rewrite flat_map_app, (app_assoc R), <- H1, Eq. rewrite <- !app_assoc. done.
  - rewrite map_app, H2. done.
  - auto.
  - intros e [He|He]%elem_of_app; [auto|]. eapply item_outer; [exact H4| |apply M1; done].
    rewrite <- H1, Eq. apply elem_of_app. right. left.
  - intros it' e [Hi|Hi]%elem_of_app He.
    + apply elem_of_app. left. eapply H5; eauto.
    + apply elem_of_list_singleton in Hi as ->. auto.
  - rewrite fold_left_app, <- H6. done.
  - rewrite fold_left_app, <- H7. done.
Qed.
Lemma seen_loop R f : forall P s new s', seen R P s new -> a_loop f s = Some s' ->
  exists P' new', seen R P' s' new' /\ a_queue s' = [].
Proof.
  induction f as [|f IH]; intros P s new s' Hs E; [done|]. cbn [a_loop] in E.
  destruct (a_queue s) as [|it q] eqn:Eq.
  - injection E as <-. eauto.
  - destruct (seen_step R P s new it q Hs Eq) as (new' & Hs'). eapply IH; eauto.
Qed.

(** *** Productions of the result *)
Definition prods_of (P : list item) (s : gostring) : list (list gostring) :=
  flat_map (fun it => if decide (fst it = s) then expansions_seq (snd it) else []) P.
Definition some_prods (l : list (list gostring)) : option (list (list gostring)) :=
  match l with [] => None | _ => Some l end.
Lemma adds_one_get nt ps : forall A s, assoc_prods (fold_left (fun A p => am_add A nt p) ps A) s =
  match ps with [] => assoc_prods A s | _ => if decide (nt = s) then Some (default [] (assoc_prods A s) ++ ps) else assoc_prods A s end.
Proof.
  induction ps as [|p ps IH]; intros A s; cbn [fold_left]; [done|]. rewrite IH, GrammarProofs.am_add_get.
  destruct (decide (nt = s)) as [->|Hne]; destruct ps; try done. cbn [default from_option id]. rewrite <- app_assoc. done.
Qed.
Lemma adds_get P : forall A s, (forall ps, assoc_prods A s = Some ps -> ps <> []) ->
  assoc_prods (fold_left adds P A) s = some_prods (default [] (assoc_prods A s) ++ prods_of P s).
Proof.
  induction P as [|it P IH]; intros A s HA; cbn [fold_left prods_of flat_map].
  - rewrite app_nil_r. destruct (assoc_prods A s) as [[|p ps]|] eqn:E; [|done..]. by destruct (HA [] eq_refl).
  - assert (assoc_prods (adds A it) s = some_prods (default [] (assoc_prods A s) ++ (if decide (fst it = s) then expansions_seq (snd it) else []))) as Ea.
    { unfold adds. rewrite adds_one_get. destruct (expansions_seq (snd it)) as [|p ps] eqn:Ee.
      - destruct (decide (fst it = s)); rewrite app_nil_r;
        (destruct (assoc_prods A s) as [[|p ps]|] eqn:E; [|done..]; by destruct (HA [] eq_refl)).
      - destruct (decide (fst it = s)).
        + destruct (default [] (assoc_prods A s)); done.
        + rewrite app_nil_r. destruct (assoc_prods A s) as [[|p' ps']|] eqn:E; [|done..]; by destruct (HA [] eq_refl). }
    rewrite IH.
    + rewrite Ea. unfold prods_of. rewrite app_assoc. f_equal. f_equal.
      destruct (default [] (assoc_prods A s) ++ (if decide (fst it = s) then expansions_seq (snd it) else [])); done.
    + rewrite Ea. intros ps E. destruct (default [] (assoc_prods A s) ++ _); [done|]. injection E as <-. done.
Qed.
Lemma prods_of_app P Q s : prods_of (P ++ Q) s = prods_of P s ++ prods_of Q s.
Proof. apply flat_map_app. Qed.
Lemma expansions_rep_seq e n : expansions_seq [e; XSym n] = map (fun p => p ++ [n]) (expansions e).
Proof.
  unfold expansions_seq. cbn [foldr expansions]. rewrite pairs_nil_r. unfold pairs. cbn.
  induction (expansions e) as [|p l IH]; cbn; [done|]. f_equal; exact IH.
Qed.
Definition gen_prods (e : rx) : list (list gostring) := map (fun p => p ++ [rep_name e]) (expansions e) ++ [[]].
Lemma prods_of_gen e s : prods_of (gen_items e) s = if decide (rep_name e = s) then gen_prods e else [].
Proof.
  unfold prods_of, gen_items. cbn [flat_map fst snd]. rewrite expansions_rep_seq. case_decide; done.
Qed.
Lemma prods_of_gens_none new s : s ∉ map rep_name new -> prods_of (flat_map gen_items new) s = [].
Proof.
  induction new as [|e new IH]; intros Hni; [done|]. cbn [flat_map map] in *. rewrite prods_of_app, prods_of_gen.
  apply not_elem_of_cons in Hni as [Hne Hni]. rewrite decide_False by done. rewrite IH by done. done.
Qed.
Lemma prods_of_gens new e : NoDup (map rep_name new) -> e ∈ new -> prods_of (flat_map gen_items new) (rep_name e) = gen_prods e.
Proof.
  induction new as [|x new IH]; intros Hnd He; [inversion He|]. cbn [flat_map map] in *.
  apply NoDup_cons in Hnd as [Hni Hnd]. rewrite prods_of_app, prods_of_gen.
  apply elem_of_cons in He as [->|He].
  - rewrite decide_True by done. rewrite prods_of_gens_none by done. apply app_nil_r.
  - rewrite decide_False; [rewrite IH by done; done|]. intros E. apply Hni. rewrite E. apply elem_of_list_fmap_1. done.
Qed.
Lemma prods_of_none R s : s ∉ map fst R -> prods_of R s = [].
Proof.
  induction R as [|[nt es] R IH]; intros Hni; [done|]. cbn [map fst] in Hni. apply not_elem_of_cons in Hni as [Hne Hni].
  unfold prods_of. cbn [flat_map fst snd]. rewrite decide_False by done. apply IH. done.
Qed.

(** Every repetition has been given its items. *)
Lemma seen_repeats R P s new e : seen R P s new -> a_queue s = [] -> distinct_names R ->
  e ∈ all_repeats R -> e ∈ new.
Proof.
  intros [H1 H2 H3 H4 H5 _ _] Eq [Hd _] He. rewrite Eq, app_nil_r in H1.
  assert (Hkey : forall x, x ∈ all_repeats R -> rep_name x ∈ a_done s -> x ∈ new).
  { intros x Hx Hin. rewrite H2 in Hin. apply elem_of_list_fmap in Hin as (y & Ey & Hy).
    rewrite (Hd x y Hx (H4 y Hy) Ey). done. }
  assert (Hsub : forall k y x, length (repeats y) < k -> y ∈ new -> x ∈ repeats y -> x ∈ new).
  { induction k as [|k IH]; intros y x Hlt Hy Hx; [lia|].
    assert (Hout : forall z, z ∈ outer y -> z ∈ new).
    { intros z Hz. apply Hkey; [apply (all_repeats_outer R y z); [apply H4; done|done]|].
      apply (H5 (rep_name y, [y; XSym (rep_name y)]) z).
      - rewrite H1. apply elem_of_app. right. apply in_fm. exists y. split; [done|]. left.
      - cbn. rewrite app_nil_r. done. }
    destruct (repeats_cases y x Hx) as [Hx'|(z & Hz & Hx')]; [auto|].
    apply (IH z x); [|auto|done].
    pose proof (outer_weight y) as Hw. apply elem_of_list_split in Hz as (a & b & Ez). rewrite Ez in Hw.
    rewrite map_app, sum_app in Hw. cbn [map sum] in Hw. lia. }
  apply in_all_repeats in He as (nt & es & x & Hin & Hx & He).
  assert (Hout : forall z, z ∈ outer x -> z ∈ new).
  { intros z Hz. apply Hkey.
    - apply in_all_repeats. exists nt, es, x. split_and!; [done..|]. apply repeats_outer. done.
    - apply (H5 (nt, es) z).
      + rewrite H1. apply elem_of_app. by left.
      + cbn. apply in_fm. eauto. }
  destruct (repeats_cases x e He) as [H|(z & Hz & H)]; [auto|]. eapply (Hsub (S (length (repeats z)))); eauto.
Qed.

(** The result: for a tree of [R], an ordered multimap [A] with these productions, and the
    repetitions noted for each non-terminal. *)
Definition R_prods (R : rxs) (s : gostring) : list (list gostring) := prods_of R s.
Lemma shows_fill cur ts R : shows_prods cur ts R -> Forall2 shows_item (rg_fill ts cur) R.
Proof.
  induction 1 as [cur|cur lx cs es ts R E Hc Hp IH|cur lx cs es ts R E Hc Hp IH]; cbn [rg_fill]; [constructor| |].
  - rewrite decide_True by done. constructor; [split; done|done].
  - rewrite decide_False by (rewrite E; done). constructor; [split; done|done].
Qed.
Lemma eval_grammar_result t R : shows_grammar t R ->
  exists g A B P new, returns (eval_grammar t) (g, (fun symbols => Some (bludgeon symbols)) <$> B)
    /\ GrammarProofs.R g A /\ seen R P (Ast A [] (map rep_name new) B) new /\ P = R ++ flat_map gen_items new.
Proof.
  intros Ht. set (s0 := Ast [] R [] ∅).
  assert (absd (RgOp gr_empty (rg_fill (pn_children t) []) [] ∅ ∅) [] s0) as Ha.
  { constructor; cbn; [apply GrammarProofs.gr_empty_R|done|by apply shows_fill| |done].
    intros n. rewrite decide_False by apply not_elem_of_nil. apply lookup_empty. }
  assert (seen R [] s0 []) as Hs.
  { constructor; cbn; try done.
    - rewrite app_nil_r. done.
    - constructor.
    - intros e He; inversion He.
    - intros it e He; inversion He. }
  destruct (a_loop_ends (S (q_weight R)) s0) as (s1 & E1); [unfold s0; cbn [a_queue]; lia|].
  destruct (seen_loop R _ _ _ _ _ Hs E1) as (P & new & Hs1 & Eq).
  destruct (rg_loop_abs _ _ _ _ _ Ha E1) as (op & nt & Eo & Hab).
  exists (rg_gram op), (a_prods s1), (a_blud s1), P, new. split_and!.
  - eapply returns_at; [apply eval_grammar_mono|]. unfold eval_grammar. rewrite Eo. cbn [rbind].
    rewrite (ab_blud _ _ _ Hab). done.
  - exact (ab_gram _ _ _ Hab).
  - pose proof (se_done _ _ _ _ Hs1) as Ed. destruct s1 as [A q d b]. cbn in *. subst. done.
  - pose proof (se_all _ _ _ _ Hs1) as H. rewrite Eq, app_nil_r in H. done.
Qed.
