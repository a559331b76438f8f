From Coq Require Import String.
From Verif.spec Require Import LexTable.
From Verif.proofs Require Import Fuel LexProofs LexThms LexHist LexMain LexText RunProofs.
Local Open Scope nat_scope.
Local Open Scope list_scope.

(** What a line says, leaving the expression alone. *)
Definition line_src (line : gostring) : option (gostring * gostring * bool) :=
  match rule_from_line (fun src => Some (Rx (fun _ => None) src)) line with
  | GotRule k r d => Some (k, rx_src r, d)
  | _ => None
  end.
Lemma line_src_ok compile line :
  rule_from_line compile line = match line_src line with
    | Some (k, src, d) => match compile src with Some r => GotRule k r d | None => BadRule end
    | None => NoRule
    end.
Proof. unfold line_src, rule_from_line. destruct (find_sub re_lex_line line) as [[[i m] c]|]; done. Qed.

Definition row_src (r : lrow) : gostring * gostring * bool := (lw_kind r, lw_src r, lw_discard r).
Lemma table_lexer compile text T :
  compiles compile T -> omap line_src (split1 c_nl text) = map row_src T -> NoDup (map lw_kind T) ->
  exists l, slexer_new compile [text] = Some l /\ returns (sl_calls (adds (map row_def T)) slexer_empty) l.
Proof.
  intros HC HL HN.
  assert (HD : forall lines U, (forall r, r ∈ U -> compile (lw_src r) = Some (rx_of (lw_re r) (lw_src r))) ->
    omap line_src lines = map row_src U ->
    line_defs compile lines = map row_def U /\ forall x, x ∈ lines -> rule_from_line compile x <> BadRule).
  { clear. induction lines as [|x lines IH]; intros U HU E.
    - destruct U; [|done]. split; [done|]. intros x Hx. by apply elem_of_nil in Hx.
    - cbn [omap list_omap] in E. unfold line_defs. cbn [flat_map].
      pose proof (line_src_ok compile x) as Hx. destruct (line_src x) as [[[k src] d]|].
      + destruct U as [|u U]; [done|]. cbn [map] in E. injection E as E1 E2 E3 E.
        rewrite E2, (HU u) in Hx by left. rewrite Hx.
        destruct (IH U) as [IH1 IH2]; [intros r Hr; apply HU; by right|done|].
        split.
        * cbn [app map]. f_equal; [unfold row_def; by rewrite E1, E3|exact IH1].
        * intros y Hy. apply elem_of_cons in Hy as [->|Hy]; [by rewrite Hx|by apply IH2].
      + rewrite Hx. destruct (IH U) as [IH1 IH2]; [done|done|]. split; [exact IH1|].
        intros y Hy. apply elem_of_cons in Hy as [->|Hy]; [by rewrite Hx|by apply IH2]. }
  destruct (HD (split1 c_nl text) T HC HL) as [H1 H2].
  destruct (new_exact compile [text]) as (l & Hl & Hr & _).
  { cbn [flat_map]. rewrite app_nil_r, H1. split; [exact H2|]. rewrite map_map. exact HN. }
  exists l. split; [exact Hl|]. cbn [flat_map] in Hr. by rewrite app_nil_r, H1 in Hr.
Qed.

(** Nothing is added after the table. *)
Definition no_adds (more : list sl_call) : Prop := forall k r d, CAdd k r d ∉ more.
Section Table.
  Variable T : list lrow.
  Variable more : list sl_call.
  Variable texts : list gostring.
  Hypothesis Hmore : no_adds more.
  Hypothesis HN : NoDup (map lw_kind T).
  Notation cs := (table_calls T more texts).
  Lemma rest_no_adds k r d : CAdd k r d ∉ more ++ map CLex texts.
  Proof using Hmore.
    rewrite elem_of_app. intros [H|H]; [by eapply Hmore|]. by apply elem_of_list_fmap in H as (x & ? & _).
  Qed.
  Lemma fold_no_adds more' : no_adds more' -> forall D, fold_left add_def more' D = D.
  Proof using.
    clear. induction more' as [|c more' IH]; intros H D; [done|]. cbn [fold_left].
    assert (add_def D c = D) as ->.
    { destruct c; try done. exfalso. apply (H kind r discard). left. }
    apply IH. intros k r d Hin. apply (H k r d). by right.
  Qed.
  Lemma table_rules : rules_of cs = map row_def T.
  Proof using Hmore HN.
    unfold rules_of, table_calls. rewrite fold_left_app.
    change (fold_left add_def (more ++ map CLex texts) (rules_of (adds (map row_def T))) = map row_def T).
    rewrite rules_of_adds by (rewrite map_map; exact HN).
    apply fold_no_adds. intros k r d. apply rest_no_adds.
  Qed.
  Lemma table_settings : settings_of cs = settings_of more.
  Proof using.
    unfold settings_of, table_calls. rewrite !fold_left_app.
    change (fold_left set_setting (adds (map row_def T)) default_settings) with (settings_of (adds (map row_def T))).
    rewrite settings_of_adds. generalize (fold_left set_setting more default_settings).
    induction texts as [|x xs IH]; intros t; [done|]. apply IH.
  Qed.
  Lemma table_first : adds_first cs.
  Proof using Hmore.
    intros pre s mid k r d post l xs l' E. exfalso. unfold table_calls in E.
    assert (H : forall A pre B, (forall s, CLex s ∉ A) -> (forall k r d, CAdd k r d ∉ B) ->
      A ++ B = pre ++ CLex s :: mid ++ CAdd k r d :: post -> False).
    { clear. induction A as [|a A IH]; intros pre B HA HB E.
      - cbn [app] in E. apply (HB k r d). rewrite E. set_solver.
      - destruct pre as [|p pre]; cbn [app] in E.
        + injection E as -> _. apply (HA s). left.
        + injection E as _ E. apply (IH pre B); [|done|done]. intros s' Hs. apply (HA s'). by right. }
    apply (H (adds (map row_def T)) pre (more ++ map CLex texts)); [|apply rest_no_adds|done].
    intros s' Hs. unfold adds in Hs. apply elem_of_list_fmap in Hs as (y & Hy & _). done.
  Qed.
  Lemma table_regexps : regexps_in no_lookbehind cs.
  Proof using Hmore.
    intros k r d H. unfold table_calls in H. apply elem_of_app in H as [H|H].
    - unfold adds in H. apply elem_of_list_fmap in H as (y & Hy & Hin).
      apply elem_of_list_fmap in Hin as (w & -> & _). injection Hy as -> -> ->. apply rx_of_ok.
    - by apply rest_no_adds in H.
  Qed.
  (** The state after settings and texts, from the state New leaves. *)
  Lemma table_calls_from l0 l : returns (sl_calls (adds (map row_def T)) slexer_empty) l0 ->
    returns (sl_calls (more ++ map CLex texts) l0) l -> returns (sl_calls cs slexer_empty) l.
  Proof using.
    intros [F HF] [G HG]. exists (F + G). intros n Hn. unfold table_calls, sl_calls in *.
    assert (Happ : forall (a b : list sl_call) x, rfold (sl_step n) (a ++ b) x = (y <-! rfold (sl_step n) a x; rfold (sl_step n) b y)).
    { induction a as [|c a IH]; intros b x; [done|]. cbn [app rfold]. destruct (sl_step n x c); [|done|done]. apply IH. }
    rewrite Happ, HF by lia. cbn [rbind]. apply HG. lia.
  Qed.
  Lemma table_returns : exists l, returns (sl_calls cs slexer_empty) l.
  Proof using Hmore.
    destruct (history cs) as (l & x & H & _); [apply table_first| |eauto].
    apply rules_wf, table_regexps.
  Qed.

  Hypothesis Hlen : st_length (settings_of more) = true.
  Lemma cs_length : st_length (settings_of cs) = true.
  Proof using Hlen. by rewrite table_settings. Qed.
  (** Every text is either cut without junk or has a first junk. *)
  Lemma table_lexes s : (exists lxs, lexes_to cs s lxs) \/ (exists v, lexes_not cs s v).
  Proof using All.
    destruct table_returns as [l Hl].
    destruct (lex_longest cs l s table_first table_regexps cs_length Hl) as (l' & ps & pre & out & post & _ & H1 & H2 & Ht & He).
    destruct (junks ps) as [|v vs] eqn:E.
    - left. exists (map olex_lx (pre ++ out ++ post)), ps. split; [exact Ht|]. split; [exact E|].
      exists pre, out, post. done.
    - right. exists v, ps, vs. done.
  Qed.
  (** Lexemes are matches of rules that are not discarded, or the inserted ones. *)
  Definition from_row (x : lexeme) : Prop :=
    exists r s n, r ∈ T /\ lw_discard r = false /\ lx_kind x = lw_kind r
      /\ hd_len (lw_re r) s = Some n /\ 0 < n /\ lx_val x = take n s.
  Definition inserted_one (kv : gostring * gostring) (x : lexeme) : Prop :=
    fst kv <> [] /\ x = Lx (fst kv) (snd kv) (-1) 0.
  Lemma cuts_rows s ps : cuts (best (map row_def T)) (map row_def T) s ps -> forall p v, Tok p v ∈ ps ->
    exists r s n, T !! p = Some r /\ hd_len (lw_re r) s = Some n /\ 0 < n /\ v = take n s.
  Proof using.
    clear. induction 1 as [|s p n ps Hb _ IH|v0 s ps _ _ _ _ IH]; intros q v Hin.
    - by apply elem_of_nil in Hin.
    - apply elem_of_cons in Hin as [E|Hin]; [|by apply IH]. injection E as -> ->.
      destruct Hb as (Hn & (d & Hd & Ha) & _). rewrite list_lookup_fmap in Hd.
      destruct (T !! p) as [r|] eqn:E; [|done]. injection Hd as <-.
      exists r, s, n. cbn [row_def rd_re] in Ha. rewrite at_start_rx in Ha. done.
    - apply elem_of_cons in Hin as [E|Hin]; [done|]. by apply IH.
  Qed.
  Lemma emits_rows line err before ps out :
    emits line (map row_def T) err before ps out -> junks ps = [] ->
    (forall p v, Tok p v ∈ ps -> exists r s n, T !! p = Some r /\ hd_len (lw_re r) s = Some n /\ 0 < n /\ v = take n s) ->
    forall x, x ∈ map olex_lx out -> from_row x.
  Proof using.
    clear. induction 1 as [|before y ps out rest Hs _ IH]; intros HJ HP x Hx.
    - by apply elem_of_nil in Hx.
    - rewrite map_app, elem_of_app in Hx. destruct Hx as [Hx|Hx].
      + destruct y as [p v|v]; [|done]. destruct (HP p v) as (r & s & n & Hr & Hm & Hn & ->); [left|].
        destruct Hs as (d & Hd & Ho). rewrite list_lookup_fmap, Hr in Hd. injection Hd as <-.
        cbn [row_def rd_discard] in Ho. destruct (lw_discard r) eqn:Ed.
        * subst out. by apply elem_of_nil in Hx.
        * destruct Ho as (last & _ & ->). cbn [map] in Hx. apply elem_of_list_singleton in Hx as ->.
          exists r, s, n. split; [by eapply elem_of_list_lookup_2|]. done.
      + apply IH; [|intros p v Hin; apply HP; by right|done].
        destruct y; [exact HJ|done].
  Qed.
  Lemma table_lexemes s lxs x : lexes_to cs s lxs -> x ∈ lxs ->
    from_row x \/ inserted_one (st_start (settings_of more)) x \/ inserted_one (st_end (settings_of more)) x.
  Proof using Hmore HN.
    intros (ps & Ht & HJ & pre & out & post & H1 & H2 & He & ->) Hx.
    rewrite table_rules in Ht, He. rewrite table_settings in H1, H2, He.
    assert (Hex : forall kv pre, extra kv pre -> x ∈ map olex_lx pre -> inserted_one kv x).
    { clear. intros kv pre [[_ ->]|[Hne ->]] Hx; [by apply elem_of_nil in Hx|].
      apply elem_of_list_singleton in Hx. done. }
    rewrite !map_app, !elem_of_app in Hx. destruct Hx as [Hx|[Hx|Hx]].
    - right; left. by eapply Hex.
    - left. eapply emits_rows; [exact He|exact HJ| |exact Hx]. by eapply cuts_rows.
    - right; right. by eapply Hex.
  Qed.
  Lemma table_unique s lxs lxs' : lexes_to cs s lxs -> lexes_to cs s lxs' -> lxs = lxs'.
  Proof using Hmore.
    intros (ps & Ht & _ & pre & out & post & H1 & H2 & He & ->) (ps' & Ht' & _ & pre' & out' & post' & H1' & H2' & He' & ->).
    assert (ps' = ps) as -> by (eapply tokenises_unique; [apply table_regexps|done|done]).
    rewrite (extra_fun _ _ _ H1' H1), (extra_fun _ _ _ H2' H2), (emits_fun _ _ _ _ _ _ He' _ He). done.
  Qed.
  Lemma table_not_both s lxs v : lexes_to cs s lxs -> lexes_not cs s v -> False.
  Proof using Hmore.
    intros (ps & Ht & HJ & _) (ps' & vs & Ht' & HJ').
    assert (ps' = ps) as -> by (eapply tokenises_unique; [apply table_regexps|done|done]). congruence.
  Qed.
End Table.

(** Runs with a table's lexer and a grammar for packrat. *)
Section TablePipe.
  Variable T : list lrow.
  Variable more : list sl_call.
  Variable texts : list gostring.
  Hypothesis Hmore : no_adds more.
  Hypothesis HN : NoDup (map lw_kind T).
  Hypothesis Hlen : st_length (settings_of more) = true.
  Variable g : grammar.
  Variable rs : list reducer.
  Hypothesis Hg : g_wf g.
  Notation cs := (table_calls T more texts).
  Variable l : slexer.
  Hypothesis Hl : returns (sl_calls cs slexer_empty) l.

  Lemma tpipe_error s v : lexes_not cs s v ->
    exists l', returns (pipeline l g rs s) (None, Some (ErrLex (Lx (st_error (settings_of more)) v (-1) 0)), l').
  Proof using Hmore HN Hlen Hl.
    intros (ps & vs & Ht & HJ).
    destruct (lex_longest cs l s (table_first T more texts Hmore) (table_regexps T more texts Hmore)
      (cs_length T more texts Hlen) Hl) as (l' & ps' & pre & out & post & _ & H1 & H2 & Ht' & He).
    assert (ps' = ps) as -> by (eapply tokenises_unique; [apply (table_regexps T more texts Hmore)|done|done]).
    destruct (pipe_error cs l g rs s ps (map olex_lx (pre ++ out ++ post))) with (v := v) (vs := vs) as [l2 H]; try done.
    - apply table_first; done.
    - apply table_regexps; done.
    - apply cs_length; done.
    - exists pre, out, post. done.
    - exists l2. by rewrite table_settings in H.
  Qed.
  Lemma tpipe_ok s lxs s0 rest : lexes_to cs s lxs -> terminal_kinds g lxs ->
    g_nts g = s0 :: rest -> derives g s0 (map lx_kind lxs) ->
    exists t l', returns (pipeline l g rs s) (Some (reduced rs t), None, l')
      /\ is_tree g s0 t lxs /\ (acyclic_grammar g -> earliest_tree g s0 t lxs).
  Proof using Hmore HN Hlen Hl Hg.
    intros (ps & Ht & HJ & Ha) HT Hn Hd.
    eapply (pipe_ok cs l g rs s ps lxs); try done.
    - apply table_first; done.
    - apply table_regexps; done.
    - apply cs_length; done.
  Qed.
  Lemma tpipe_bad s lxs : lexes_to cs s lxs -> terminal_kinds g lxs -> lxs <> [] -> ~ generates g (map lx_kind lxs) ->
    exists l', returns (pipeline l g rs s) (None, Some ErrCouldNotParse, l').
  Proof using Hmore HN Hlen Hl Hg.
    intros (ps & Ht & HJ & Ha) HT Hn Hd.
    eapply (pipe_bad cs l g rs s ps lxs); try done.
    - apply table_first; done.
    - apply table_regexps; done.
    - apply cs_length; done.
  Qed.
End TablePipe.

(** What a lexer made from a table gives for a text are its tokens. *)
Lemma table_run T more : no_adds more -> st_length (settings_of more) = true -> forall l s n xs l',
  returns (sl_calls (table_calls T more []) slexer_empty) l ->
  slex l s n = Ok (xs, l') -> lex_errors xs = [] -> lexes_to (table_calls T more []) s (map olex_lx xs).
Proof.
  intros Hm Hlen l s n xs l' Hl H He. set (cs := table_calls T more []) in *.
  pose proof (table_regexps T more [] Hm : regexps_in no_lookbehind cs) as Hre.
  destruct (lex_longest cs l s (table_first T more [] Hm) Hre (cs_length T more [] Hlen) Hl)
    as (l2 & ps & pre & out & post & Hr & H1 & H2 & Ht & Hem).
  assert ((xs, l') = (pre ++ out ++ post, l2)) as [= -> ->] by (eapply returns_fun; [by eapply slex_returns|exact Hr]).
  exists ps. split; [exact Ht|]. split; [|by exists pre, out, post].
  assert (Ha : all_lexemes cs ps (map olex_lx (pre ++ out ++ post))) by (by exists pre, out, post).
  destruct (pipe_lex cs l (Gram [] (fun _ => None)) [] s ps _ (table_first T more [] Hm) Hre (cs_length T more [] Hlen) Hl Ht Ha) as (ys & l3 & Hr2 & _ & He2).
  assert ((pre ++ out ++ post, l2) = (ys, l3)) as [= <- <-] by (eapply returns_fun; eassumption).
  rewrite He in He2. symmetry in He2. by apply map_eq_nil in He2.
Qed.

(** Kinds and values of the lexemes of a cutting. *)
Definition piece_toks (T : list lrow) (x : piece) : list (gostring * gostring) :=
  match x with
  | Tok p v => match T !! p with Some r => if lw_discard r then [] else [(lw_kind r, v)] | None => [] end
  | Junk _ => []
  end.
Lemma last_line_exists (s : gostring) : exists last, is_last_line s last.
Proof.
  induction s as [|x s IH] using rev_ind.
  - exists []. split; [apply not_elem_of_nil|by left].
  - destruct (decide (x = 10%N)) as [->|Hx].
    + exists []. split; [apply not_elem_of_nil|]. right. exists s. done.
    + destruct IH as (last & Hn & HE). exists (last ++ [x]). split; [rewrite elem_of_app, elem_of_list_singleton; intros [?|?]; congruence|].
      destruct HE as [->|[pre ->]]; [by left|]. right. exists pre. by rewrite <- app_assoc.
Qed.
Lemma emits_exist T line err ps : (forall x, x ∈ ps -> exists p v, x = Tok p v /\ p < length T) -> forall before,
  exists out, emits line (map row_def T) err before ps out
    /\ map (fun o => (lx_kind (olex_lx o), lx_val (olex_lx o))) out = flat_map (piece_toks T) ps.
Proof.
  induction ps as [|x ps IH]; intros HP before.
  - exists []. split; [constructor|done].
  - destruct (HP x) as (p & v & -> & Hp); [left|].
    destruct (IH ltac:(intros y Hy; apply HP; by right) (before ++ [Tok p v])) as (rest & He & Hm).
    destruct (lookup_lt_is_Some_2 T p Hp) as [r Hr].
    destruct (last_line_exists (text before)) as [last Hlast].
    destruct (lw_discard r) eqn:Hd.
    + exists ([] ++ rest). split.
      * apply em_cons; [|exact He]. exists (row_def r). split; [by rewrite list_lookup_fmap, Hr|]. cbn [row_def rd_discard]. by rewrite Hd.
      * cbn [flat_map piece_toks app]. by rewrite Hr, Hd.
    + eexists ([_] ++ rest). split.
      * apply em_cons; [|exact He]. exists (row_def r). split; [by rewrite list_lookup_fmap, Hr|]. cbn [row_def rd_discard].
        rewrite Hd. exists last. split; [exact Hlast|reflexivity].
      * cbn [flat_map piece_toks app map olex_lx lx_kind lx_val]. rewrite Hr, Hd. cbn [app row_def rd_kind]. by rewrite Hm.
Qed.
Lemma junks_none (T : list lrow) ps : (forall x, x ∈ ps -> exists p v, x = Tok p v /\ p < length T) -> junks ps = [].
Proof.
  induction ps as [|x ps IH]; intros HP; [done|]. destruct (HP x) as (p & v & -> & Hp); [left|].
  unfold junks. cbn [flat_map app]. apply IH. intros y Hy. apply HP. by right.
Qed.

(** The rule picked, from the first character. *)
Definition row_first (r : lrow) (c : N) : bool :=
  match lw_re r with RSet p => p c | RCat (RSet p) _ => p c | _ => true end.
Lemma row_skip r c s : row_first r c = false -> hd_len (lw_re r) (c :: s) = None.
Proof.
  unfold row_first, hd_len. destruct (lw_re r) as [|p|a b|a b|a|n a|]; try done.
  - cbn [rmatch]. by intros ->.
  - destruct a; try done. cbn [rmatch]. by intros ->.
Qed.
Lemma best_row T s p n r : T !! p = Some r -> hd_len (lw_re r) s = Some n -> 0 < n ->
  (forall q r', T !! q = Some r' -> q <> p -> hd_len (lw_re r') s = None) ->
  best (map row_def T) s p n.
Proof.
  intros Hr Hn H0 HO. split; [done|]. split.
  - exists (row_def r). rewrite list_lookup_fmap, Hr. split; [done|]. cbn [row_def rd_re]. by rewrite at_start_rx.
  - intros q e m Hq Hm. rewrite list_lookup_fmap in Hq. destruct (T !! q) as [r'|] eqn:E; [|done]. injection Hq as <-.
    cbn [row_def rd_re] in Hm. rewrite at_start_rx in Hm. destruct (decide (q = p)) as [->|Hne].
    + rewrite Hr in E. injection E as <-. right. split; [congruence|lia].
    + rewrite (HO q r' E Hne) in Hm. done.
Qed.
Lemma hd_is_len r (s s' w : gostring) c : s = w ++ s' -> RegexProofs.hd_is r s [] s' c -> hd_len r s = Some (length w).
Proof.
  intros -> [l E]. unfold hd_len. rewrite E, app_length. f_equal. lia.
Qed.
