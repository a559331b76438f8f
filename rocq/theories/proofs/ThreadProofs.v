(** Parsing asks the grammar only for symbols it mentions, so it never writes to it. *)
From Coq Require Import Lia.
From Verif.model Require Import Threads.
From Verif.spec Require Import GrammarSpec ThreadSpec.
From Verif.proofs Require Import GrammarProofs GrammarThms SetProofs.

(** Every call of the program leaves the grammar as it is, and the program ends with [r]. *)
Inductive calm {R} (g : gr) : prog R -> R -> Prop :=
| calm_done r : calm g (Done r) r
| calm_call c k r : lookup_call c = true -> snd (gr_call g c) = g -> calm g (k (fst (gr_call g c))) r -> calm g (Call c k) r.

Lemma calm_pbind {A B} g (p : prog A) a (f : A -> prog B) b : calm g p a -> calm g (f a) b -> calm g (pbind p f) b.
Proof. intros H Hf. induction H as [r|c k r Hl Hs _ IH]; [done|]. cbn [pbind]. constructor; auto. Qed.
Lemma calm_bind {A B} g (p : prog (res A)) r (f : A -> prog (res B)) h :
  calm g p r -> (forall a, r = Ok a -> calm g (f a) (h a)) -> calm g (mbind' p f) (rbind r h).
Proof.
  intros H Hf. unfold mbind'. apply (calm_pbind g p r); [done|]. destruct r as [a| |]; cbn [rbind]; [by apply Hf|constructor|constructor].
Qed.

Section S.
  Variable g : gr.
  Hypothesis Hb : built g.
  Notation V := (gr_view g).

  Lemma ask_nts_calm : calm g ask_nts (Ok (g_nts V)).
  Proof. constructor; [done|done|constructor]. Qed.
  Lemma ask_prods_calm s own : mentions V s -> calm g (ask_prods s own) (Ok (g_prods V s)).
  Proof.
    intros Hm. pose proof (built_no_write g (CProductions (s, own)) Hb eq_refl) as Hn.
    destruct (built_RO _ Hb) as [A HR]. destruct HR as [HR Hok].
    assert (E : fst (gr_call g (CProductions (s, own))) = AProds (g_prods V s)).
    { rewrite (proj1 (gr_call_R g A _ (conj HR Hok))). cbn [am_call fst]. f_equal. symmetry.
      exact (proj1 (gr_productions_R g A (Foreign s) s HR eq_refl)). }
    constructor; [done|apply Hn; intros s' o [= <- <-]; done|]. rewrite E. constructor.
  Qed.

  Lemma load_nts_calm nts : forall s, (forall nt, nt ∈ nts -> mentions V nt) -> calm g (load_nts_p nts s) (load_nts V nts s).
  Proof.
    induction nts as [|nt nts IH]; intros s Hm; cbn [load_nts_p load_nts]; [constructor|].
    apply (calm_pbind g _ (Ok (g_prods V nt))); [apply ask_prods_calm, Hm; left|].
    destruct (g_prods V nt) as [ps|]; [|constructor]. apply IH. intros x Hx. apply Hm. by right.
  Qed.
  Lemma load_grammar_calm s : calm g (load_grammar_p s) (load_grammar V s).
  Proof. apply (calm_pbind g _ _ _ _ ask_nts_calm). apply load_nts_calm. intros nt Hnt. by left. Qed.

  Section Op.
    Variable fuel0 : nat.
    Variable st : set.
    Variable nonterms : list bool.
    Variable kinds : list nat.
    Hypothesis Hst : set_wf st.

    (** Indexes of symbols that the grammar mentions. *)
    Definition good (i : nat) : Prop := forall nm, symb2str st !! i = Some nm -> mentions V nm.
    Definition okp (tp : tpart) : Prop := forall i, i ∈ tp_prod tp -> good i.
    Definition inv (s : pst) : Prop :=
      (forall m tp, tp ∈ lget (partials s) m -> okp tp) /\ (forall tp k, (tp, k) ∈ stack s -> okp tp).

    Lemma good_sym x : mentions V x -> good (fst (set_str st x)).
    Proof.
      intros Hm nm. unfold set_str. destruct (str2sym st !! x) as [v|] eqn:E; cbn [fst].
      - apply Hst in E. intros E2. assert (nm = x) as -> by congruence. done.
      - intros E2. apply lookup_lt_Some in E2. lia.
    Qed.
    Lemma prods_good idx ps p i : prods_of V st idx = Some ps -> p ∈ ps -> i ∈ p -> good i.
    Proof.
      unfold prods_of. destruct (symb2str st !! idx) as [nm|]; [|done]. destruct (g_prods V nm) as [qs|] eqn:E; [|done].
      cbn [option_map]. intros [= <-] Hp Hi. apply elem_of_list_fmap in Hp as (q & -> & Hq). apply elem_of_list_fmap in Hi as (x & -> & Hx).
      apply good_sym. right. by exists nm, qs, q.
    Qed.
    Lemma ask_idx_calm idx : good idx -> calm g (ask_idx st idx) (Ok (prods_of V st idx)).
    Proof.
      intros Hg. unfold ask_idx, prods_of. destruct (symb2str st !! idx) as [nm|] eqn:E; [|constructor].
      apply (calm_pbind g _ (Ok (g_prods V nm))); [apply ask_prods_calm; auto|constructor].
    Qed.

    Lemma inv_push s tp k : inv s -> okp tp -> inv (push s tp k).
    Proof.
      intros [H1 H2] Ht. split; cbn [push partials stack]; [exact H1|].
      intros tp' k' Hin. apply elem_of_cons in Hin as [[= -> ->]|Hin]; eauto.
    Qed.
    Lemma inv_pushes {X} (l : list X) (f : X -> tpart) (h : X -> key) : forall s, inv s -> (forall x, x ∈ l -> okp (f x)) ->
      inv (fold_left (fun s x => push s (f x) (h x)) l s).
    Proof.
      induction l as [|x l IH]; intros s Hs Hl; cbn [fold_left]; [done|]. apply IH.
      - apply inv_push; [done|]. apply Hl. left.
      - intros y Hy. apply Hl. by right.
    Qed.
    Lemma inv_memo s td s' : inv s -> add_to_memo fuel0 s td = Ok s' -> inv s'.
    Proof.
      intros Hs. unfold add_to_memo. destruct (memo s !! td_key td) as [old|].
      - destruct (compare_priority fuel0 (memo s) td old) as [c| |]; try done. cbn [rbind].
        destruct (c =? 1)%Z; [|by intros [= <-]]. destruct (circular _ _ _ _) as [b| |]; try done. cbn [rbind].
        intros [= <-]. by destruct b.
      - intros [= <-]. apply (inv_pushes _ (fun tp => tp) (fun _ => td_key td)).
        + exact Hs.
        + intros tp Htp. by apply (proj1 Hs (td_marker td)).
    Qed.
    Lemma inv_check s m s' o : inv s -> check_non_terminal fuel0 kinds s m = Ok (s', o) -> inv s'.
    Proof.
      intros Hs. unfold check_non_terminal. destruct (kinds !! snd m) as [k|]; [|by intros [= <- <-]].
      destruct (fst m =? k); [|by intros [= <- <-]].
      destruct (add_to_memo _ _ _) as [s1| |] eqn:E; cbn [rbind]; try done. intros [= <- <-]. by apply inv_memo in E.
    Qed.
    Lemma inv_wait (s : pst) (tp : tpart) (requires : marker) (isnt : bool) s1 : inv s -> okp tp ->
      (if isnt then Ok (set_partials s (<[requires := lget (partials s) requires ++ [tp]]> (partials s)))
       else '(s', _) <-! check_non_terminal fuel0 kinds s requires; Ok s') = Ok s1 -> inv s1.
    Proof.
      intros Hs Ht. destruct isnt.
      - intros [= <-]. destruct Hs as [H1 H2]. split; cbn [set_partials partials stack]; [|exact H2].
        intros m tp' Hin. unfold lget in Hin. destruct (decide (m = requires)) as [->|Hne].
        + rewrite lookup_insert in Hin. cbn [default] in Hin. apply elem_of_app in Hin as [Hin|Hin]; [by apply (H1 requires)|].
          apply elem_of_list_singleton in Hin as ->. done.
        + rewrite lookup_insert_ne in Hin by done. by apply (H1 m).
      - destruct (check_non_terminal _ _ _ _) as [[s' o]| |] eqn:E; cbn [rbind]; try done. intros [= <-]. by apply inv_check in E.
    Qed.

    Notation prods := (prods_of V st).
    Lemma add_prods_calm f : forall root s, inv s -> good (fst root) ->
      calm g (add_prods_p fuel0 st nonterms kinds f root s) (add_prods fuel0 prods nonterms kinds f root s)
      /\ forall s', add_prods fuel0 prods nonterms kinds f root s = Ok s' -> inv s'.
    Proof using Hb Hst.
      induction f as [|f IH]; intros root s Hs Hroot; cbn [add_prods add_prods_p]; [split; [constructor|done]|].
      destruct (bool_decide _); [split; [constructor|by intros s' [= <-]]|].
      assert (Hs1 : inv (set_queued s ({[root]} ∪ queued s))) by exact Hs.
      destruct (prods (fst root)) as [ps|] eqn:Ep.
      2:{ split; [|by intros s' [= <-]]. apply (calm_pbind g _ (Ok (prods (fst root)))); [by apply ask_idx_calm|]. rewrite Ep. constructor. }
      match goal with |- _ /\ forall s', ?G 0 ps ?x = _ -> _ =>
        match goal with |- calm g (mbind' _ (fun o => match o with None => _ | Some qs => ?F 0 qs x end)) _ /\ _ =>
          assert (H : forall i s1, inv s1 -> (forall p j, p ∈ ps -> j ∈ p -> good j) ->
            calm g (F i ps s1) (G i ps s1) /\ forall s', G i ps s1 = Ok s' -> inv s') end end.
      { clear Ep Hs1. induction ps as [|p ps IHps]; intros i s1 Hi Hg; [split; [constructor|by intros s' [= <-]]|].
        assert (Hg' : forall p' j, p' ∈ ps -> j ∈ p' -> good j) by (intros p' j Hp Hj; apply (Hg p' j); [by right|done]).
        destruct p as [|sym p].
        - split.
          + apply calm_bind; [constructor|]. intros s2 E. apply IHps; [by apply inv_memo in E|done].
          + intros s'. destruct (add_to_memo _ _ _) as [s2| |] eqn:E; cbn [rbind]; try done.
            apply IHps; [by apply inv_memo in E|done].
        - assert (Hok : okp (TPart (TDef (root, 0) [] i) (sym :: p))) by (intros j Hj; apply (Hg (sym :: p)); [left|done]).
          assert (Hsym : good sym) by (apply (Hg (sym :: p)); left).
          match goal with |- context[nonterms !! ?k] => destruct (nonterms !! k) as [isnt|] end.
          2:{ split; [constructor|done]. }
          match goal with |- context[if isnt then ?a else ?b] => destruct (if isnt then a else b) as [s2| |] eqn:E; cbn [rbind] end.
          2:{ split; [constructor|done]. }
          2:{ split; [constructor|done]. }
          assert (Hs2 : inv (fold_left (fun s td => push s (TPart (TDef (root, 0) [] i) (sym :: p)) (td_key td)) (lget (markers s2) (sym, snd root)) s2)).
          { apply (inv_pushes _ (fun _ => TPart (TDef (root, 0) [] i) (sym :: p)) td_key); [exact (inv_wait s1 _ (sym, snd root) isnt s2 Hi Hok E)|done]. }
          destruct (IH (sym, snd root) _ Hs2 Hsym) as [C1 C2].
          split.
          + apply calm_bind; [exact C1|]. intros s3 E3. apply IHps; [by apply C2|done].
          + intros s'. match goal with |- rbind ?w _ = _ -> _ => destruct w as [s3| |] eqn:E3; cbn [rbind]; try done end.
            apply IHps; [by apply C2|done]. }
      destruct (H 0 _ Hs1) as [H1 H2]; [intros p j; by apply (prods_good (fst root))|].
      split; [|exact H2]. apply (calm_pbind g _ (Ok (prods (fst root)))); [by apply ask_idx_calm|]. rewrite Ep. exact H1.
    Qed.

    Lemma add_partial_calm f tp requires s : inv s -> okp tp -> good (fst requires) ->
      calm g (add_partial_p fuel0 st nonterms kinds f tp requires s) (add_partial fuel0 prods nonterms kinds f tp requires s)
      /\ forall s', add_partial fuel0 prods nonterms kinds f tp requires s = Ok s' -> inv s'.
    Proof using Hb Hst.
      intros Hs Hok Hr. unfold add_partial_p, add_partial. destruct (nonterms !! fst requires) as [isnt|]; [|split; [constructor|done]].
      match goal with |- context[if isnt then ?a else ?b] => destruct (if isnt then a else b) as [s2| |] eqn:E; cbn [rbind] end.
      2:{ split; [constructor|done]. }
      2:{ split; [constructor|done]. }
      apply add_prods_calm; [|done]. apply (inv_pushes _ (fun _ => tp) td_key); [exact (inv_wait s tp requires isnt s2 Hs Hok E)|done].
    Qed.

    Lemma update_calm f : forall base ext s, inv s -> okp base ->
      calm g (update_p fuel0 st nonterms kinds f base ext s) (update fuel0 prods nonterms kinds f base ext s)
      /\ forall s', update fuel0 prods nonterms kinds f base ext s = Ok s' -> inv s'.
    Proof using Hb Hst.
      induction f as [|f IH]; intros base ext s Hs Hok; cbn [update update_p]; [split; [constructor|done]|].
      destruct (_ =? _).
      - split; [constructor|]. intros s' E. by apply inv_memo in E.
      - destruct (tp_prod (extend base ext) !! _) as [sym|] eqn:E; [|split; [constructor|done]].
        assert (Hsym : good sym) by (apply Hok; apply elem_of_list_lookup_2 in E; exact E).
        destruct (check_non_terminal _ _ _ _) as [[s2 o]| |] eqn:E2; cbn [rbind]; [|split; [constructor|done]|split; [constructor|done]].
        apply inv_check in E2; [|done].
        destruct o as [td|].
        + by apply IH.
        + by apply add_partial_calm.
    Qed.

    Lemma run_calm f : forall s, inv s ->
      calm g (run_p fuel0 st nonterms kinds f s) (run fuel0 prods nonterms kinds f s).
    Proof using Hb Hst.
      induction f as [|f IH]; intros s Hs; cbn [run run_p]; destruct (stack s) as [|[base ext] rest] eqn:E; try constructor.
      assert (Hs1 : inv (set_stack s rest)).
      { destruct Hs as [H1 H2]. split; cbn [set_stack partials stack]; [exact H1|]. intros tp k Hin. apply (H2 tp k). rewrite E. by right. }
      assert (Hok : okp base) by (apply (proj2 Hs base ext); rewrite E; left).
      destruct (update_calm fuel0 base ext _ Hs1 Hok) as [C1 C2].
      apply calm_bind; [exact C1|]. intros s2 E2. apply IH. by apply C2.
    Qed.
  End Op.

  Lemma loaded_wf set1 : load_grammar V set_new = Ok set1 -> set_wf set1.
  Proof. intros E. by apply load_nts_le in E as [? _]; [|apply set_new_wf]. Qed.

  Lemma packrat_calm fuel lexemes : calm g (packrat_p fuel lexemes) (packrat_parse fuel V lexemes).
  Proof using Hb.
    unfold packrat_p, packrat_parse. apply (calm_pbind g _ _ _ _ ask_nts_calm). destruct (g_nts V) as [|nt0 nts] eqn:En; [constructor|].
    apply calm_bind; [apply load_grammar_calm|]. intros set1 E1. apply loaded_wf in E1.
    destruct (load_lexemes set1 lexemes) as [lxms st] eqn:El. apply load_lexemes_spec in El as (Hst & _); [|done].
    apply (calm_pbind g _ _ _ _ ask_nts_calm). rewrite En.
    assert (Hg : good st (fst (set_str st nt0))) by (apply good_sym; [done|]; left; rewrite En; left).
    assert (Hi : inv st pst_init).
    { split; [|intros tp k Hin; inversion Hin]. intros m tp Hin. unfold lget in Hin. cbn [pst_init partials] in Hin. rewrite lookup_empty in Hin. inversion Hin. }
    destruct (add_prods_calm fuel st (mark_nonterms st (nt0 :: nts) (replicate (sym_count st) false)) (map fst lxms) Hst fuel (fst (set_str st nt0), 0) pst_init Hi Hg) as [C1 C2].
    apply calm_bind; [exact C1|]. intros s1 E2. apply calm_bind; [by apply run_calm, C2|]. intros s2 E3.
    destruct (_ =? _); [|constructor]. apply calm_bind; [constructor|]. intros t E4. constructor.
  Qed.

  (** *** topdown *)
  Definition named (st : tdst) (k : tdkey) : Prop := forall nm, symb2str (td_set st) !! fst k = Some nm -> mentions V nm.
  (** What is needed of a computation that returns a new state. *)
  Definition fine {A} (p : prog (res (A * tdst))) (r : res (A * tdst)) : Prop :=
    calm g p r /\ forall a st', r = Ok (a, st') -> set_wf (td_set st').
  Lemma fine_done {A} (r : res (A * tdst)) : (forall a st', r = Ok (a, st') -> set_wf (td_set st')) -> fine (Done r) r.
  Proof. split; [constructor|done]. Qed.
  Lemma fine_ret {A} (a : A) st : set_wf (td_set st) -> fine (Done (Ok (a, st))) (Ok (a, st)).
  Proof. intros H. apply fine_done. by intros a' st' [= <- <-]. Qed.
  Lemma fine_bind {A B} (p : prog (res (A * tdst))) r (f : A * tdst -> prog (res (B * tdst))) h :
    fine p r -> (forall a st, r = Ok (a, st) -> set_wf (td_set st) -> fine (f (a, st)) (h (a, st))) ->
    fine (mbind' p f) (rbind r h).
  Proof.
    intros [H1 H2] Hf. split.
    - apply calm_bind; [exact H1|]. intros [a st] E. apply Hf; eauto.
    - intros b st'. destruct r as [[a st]| |]; cbn [rbind]; try done. intros E.
      exact (proj2 (Hf a st eq_refl (H2 a st eq_refl)) b st' E).
  Qed.

  Section Acc.
    Variable lxs : list (nat * lexeme).
    Variable acc_p : tdst -> tdkey -> bool -> prog (res (aresp * tdst)).
    Variable acc : tdst -> tdkey -> bool -> res (aresp * tdst).
    Hypothesis Hacc : forall st k all, set_wf (td_set st) -> named st k -> fine (acc_p st k all) (acc st k all).

    Lemma accept_seq_fine p : forall pos st, set_wf (td_set st) -> (forall x, x ∈ p -> mentions V x) ->
      fine (accept_seq_p acc_p p pos st) (accept_seq acc p pos st).
    Proof using Hacc.
      induction p as [|x p IH]; intros pos st Hw Hm; cbn [accept_seq accept_seq_p]; [by apply fine_ret|].
      cbn [set_symbol]. destruct (set_str (td_set st) x) as [v s1] eqn:E.
      destruct (set_str_spec _ _ _ _ Hw E) as (Hw1 & _ & Hv & _).
      apply fine_bind.
      - apply Hacc; [done|]. intros nm En. cbn [td_set fst] in En. assert (nm = x) as -> by congruence. apply Hm. left.
      - intros [[c e]|] st1 _ Hw2; [|by apply fine_ret]. apply fine_bind.
        + apply IH; [done|]. intros y Hy. apply Hm. by right.
        + intros [[cs e2]|] st2 _ Hw3; by apply fine_ret.
    Qed.
    Lemma accept_prod_fine k p st : set_wf (td_set st) -> (forall x, x ∈ p -> mentions V x) ->
      fine (accept_prod_p acc_p k p st) (accept_prod acc k p st).
    Proof using Hacc.
      intros Hw Hm. apply fine_bind; [by apply accept_seq_fine|]. intros [[cs e]|] st1 _ Hw1; [|by apply fine_ret].
      destruct (sym_string (td_set st1) (Z.of_nat (fst k))) as [nm| |]; cbn [rbind]; [by apply fine_ret|by apply fine_done|by apply fine_done].
    Qed.
    Lemma accept_prods_fine k all ps : forall st, set_wf (td_set st) -> (forall p x, p ∈ ps -> x ∈ p -> mentions V x) ->
      fine (accept_prods_p lxs acc_p k all ps st) (accept_prods lxs acc k all ps st).
    Proof using Hacc.
      induction ps as [|p ps IH]; intros st Hw Hm; cbn [accept_prods accept_prods_p]; [by apply fine_ret|].
      assert (Hm' : forall p' x, p' ∈ ps -> x ∈ p' -> mentions V x) by (intros p' x Hp Hx; apply (Hm p' x); [by right|done]).
      apply fine_bind; [apply accept_prod_fine; [done|]; intros x Hx; apply (Hm p x); [left|done]|].
      intros [[t e]|] st1 _ Hw1; [|by apply IH]. destruct (_ || _); [by apply fine_ret|by apply IH].
    Qed.
    Lemma try_accept_fine k all st : set_wf (td_set st) -> named st k ->
      fine (try_accept_p lxs acc_p k all st) (try_accept V lxs acc k all st).
    Proof using Hacc Hb.
      intros Hw Hn. unfold try_accept_p, try_accept.
      destruct (sym_string (td_set st) (Z.of_nat (fst k))) as [nm| |] eqn:En; cbn [rbind]; [|by apply fine_done|by apply fine_done].
      assert (Hm : mentions V nm).
      { unfold sym_string in En. destruct (Z.of_nat (fst k) <? 0)%Z; [done|]. rewrite Nat2Z.id in En.
        destruct (symb2str (td_set st) !! fst k) as [x|] eqn:Ex; [|done]. injection En as ->. by apply Hn. }
      assert (Hf : fine (match g_prods V nm with
        | None => match lxs !! snd k with
                  | Some (v, lx) => if fst k =? v then Done (Ok (Some (PN lx [], S (snd k)), st)) else Done (Ok (None, st))
                  | None => Done (Ok (None, st)) end
        | Some ps => accept_prods_p lxs acc_p k all ps st end)
        (match g_prods V nm with
         | None => match lxs !! snd k with
                   | Some (v, lx) => if fst k =? v then Ok (Some (PN lx [], S (snd k)), st) else Ok (None, st)
                   | None => Ok (None, st) end
         | Some ps => accept_prods lxs acc k all ps st end)).
      { destruct (g_prods V nm) as [ps|] eqn:Ep.
        - apply accept_prods_fine; [done|]. intros p x Hp Hx. right. by exists nm, ps, p.
        - destruct (lxs !! snd k) as [[v lx]|]; [destruct (fst k =? v)|]; by apply fine_ret. }
      destruct Hf as [C1 C2]. split; [|exact C2].
      change (calm g (mbind' (ask_prods nm false) (fun o => match o with
        | None => match lxs !! snd k with
                  | Some (v, lx) => if fst k =? v then Done (Ok (Some (PN lx [], S (snd k)), st)) else Done (Ok (None, st))
                  | None => Done (Ok (None, st)) end
        | Some ps => accept_prods_p lxs acc_p k all ps st end))
        (match g_prods V nm with
         | None => match lxs !! snd k with
                   | Some (v, lx) => if fst k =? v then Ok (Some (PN lx [], S (snd k)), st) else Ok (None, st)
                   | None => Ok (None, st) end
         | Some ps => accept_prods lxs acc k all ps st end)).
      apply (calm_pbind g _ (Ok (g_prods V nm))); [by apply ask_prods_calm|exact C1].
    Qed.
  End Acc.

  Lemma td_accept_fine f lxs : forall st k all, set_wf (td_set st) -> named st k ->
    fine (td_accept_p f lxs st k all) (td_accept f V lxs st k all).
  Proof using Hb.
    induction f as [|f IH]; intros st k all Hw Hn; cbn [td_accept td_accept_p]; [by apply fine_done|].
    destruct (td_memo st !! k) as [a|]; [by apply fine_ret|].
    apply fine_bind; [by apply try_accept_fine|]. intros a st1 _ Hw1. by apply fine_ret.
  Qed.
  Lemma topdown_calm fuel lexemes : calm g (td_parse_p fuel lexemes) (td_parse fuel V lexemes).
  Proof using Hb.
    unfold td_parse_p, td_parse. apply (calm_pbind g _ _ _ _ ask_nts_calm). destruct (g_nts V) as [|s0 nts] eqn:En; [constructor|].
    apply calm_bind; [apply load_grammar_calm|]. intros set1 E1. apply loaded_wf in E1.
    destruct (load_lexemes set1 lexemes) as [lxs s2] eqn:El. apply load_lexemes_spec in El as (Hs2 & _); [|done].
    cbn [set_symbol]. destruct (set_str s2 s0) as [start s3] eqn:E3. destruct (set_str_spec _ _ _ _ Hs2 E3) as (Hs3 & _ & Hv & _).
    apply calm_bind.
    - apply td_accept_fine; [done|]. intros nm Hnm. cbn [td_set fst] in Hnm. assert (nm = s0) as -> by congruence. left. rewrite En. left.
    - intros [a st] _. constructor.
  Qed.

  (** *** IsLeftRecursive *)
  Lemma lr_prod_calm (chk_p : lrst -> gostring -> prog (res (bool * bool * lrst))) chk p :
    (forall st x, mentions V x -> calm g (chk_p st x) (chk st x)) -> (forall x, x ∈ p -> mentions V x) ->
    forall st, calm g (lr_prod_p chk_p p st) (lr_prod chk p st).
  Proof.
    intros Hc. induction p as [|x p IH]; intros Hm st; cbn [lr_prod lr_prod_p]; [constructor|].
    apply calm_bind; [apply Hc, Hm; left|]. intros [[isLR next] st1] _. destruct isLR; [constructor|]. destruct next; [|constructor].
    apply IH. intros y Hy. apply Hm. by right.
  Qed.
  Lemma lr_prods_calm (chk_p : lrst -> gostring -> prog (res (bool * bool * lrst))) chk ps :
    (forall st x, mentions V x -> calm g (chk_p st x) (chk st x)) -> (forall p x, p ∈ ps -> x ∈ p -> mentions V x) ->
    forall ret st, calm g (lr_prods_p chk_p ps ret st) (lr_prods chk ps ret st).
  Proof.
    intros Hc. induction ps as [|p ps IH]; intros Hm ret st; cbn [lr_prods lr_prods_p]; [constructor|].
    assert (Hm' : forall p' x, p' ∈ ps -> x ∈ p' -> mentions V x) by (intros p' x Hp Hx; apply (Hm p' x); [by right|done]).
    destruct p as [|y p]; [by apply IH|].
    apply calm_bind; [apply lr_prod_calm; [done|]; intros x Hx; apply (Hm (y :: p) x); [left|done]|].
    intros [isLR st1] _. destruct isLR; [constructor|by apply IH].
  Qed.
  Lemma lr_check_calm f : forall st s, mentions V s -> calm g (lr_check_p f st s) (lr_check f V st s).
  Proof using Hb.
    induction f as [|f IH]; intros [checked stk] s Hm; cbn [lr_check lr_check_p]; [constructor|].
    destruct (decide (s ∈ checked)); [constructor|].
    apply (calm_pbind g _ (Ok (g_prods V s))); [by apply ask_prods_calm|].
    destruct (g_prods V s) as [ps|] eqn:Ep; [|constructor]. destruct (decide (s ∈ stk)); [constructor|].
    apply calm_bind; [apply lr_prods_calm; [done|]; intros p x Hp Hx; right; by exists s, ps, p|].
    intros [[isLR ret] st1] _. destruct isLR; constructor.
  Qed.
  Lemma lr_all_calm f nts : forall checked, (forall nt, nt ∈ nts -> mentions V nt) ->
    calm g (lr_all_p f nts checked) (lr_all f V nts checked).
  Proof using Hb.
    induction nts as [|nt nts IH]; intros checked Hm; cbn [lr_all lr_all_p]; [constructor|].
    apply calm_bind; [apply lr_check_calm, Hm; left|]. intros [[isLR x] st] _. destruct isLR; [constructor|].
    apply IH. intros y Hy. apply Hm. by right.
  Qed.
  Lemma left_recursive_calm f : calm g (is_left_recursive_p f) (is_left_recursive f V).
  Proof using Hb. apply (calm_pbind g _ _ _ _ ask_nts_calm). apply lr_all_calm. intros nt Hnt. by left. Qed.
End S.

(** *** Schedules *)
Lemma job_calm fuel g j : built g -> reading j -> polite (gr_view g) j -> calm g (job_prog fuel j) (job_alone fuel g j).
Proof.
  intros Hb Hr Hp. destruct j as [l|l| |c]; cbn [job_prog job_alone].
  - eapply calm_pbind; [by apply packrat_calm|constructor].
  - eapply calm_pbind; [by apply topdown_calm|constructor].
  - eapply calm_pbind; [by apply left_recursive_calm|constructor].
  - constructor; [done| |constructor]. apply built_no_write; [done|done|]. intros s own ->. exact Hp.
Qed.

Lemma turns_calm {R} (cf cf2 : gr * list (prog R)) : rtc turn cf cf2 -> forall rs, Forall2 (calm (fst cf)) (snd cf) rs ->
  fst cf2 = fst cf /\ Forall2 (calm (fst cf)) (snd cf2) rs.
Proof.
  intros H. induction H as [cf|cf cf1 cf2 H _ IH]; intros rs Hc; [done|].
  destruct H as [g ts i c k E]. cbn [fst snd] in *.
  destruct (Forall2_lookup_l _ _ _ _ _ Hc E) as (r & Er & Hr). inversion Hr as [|c' k' r' Hl Hs Hk]; subst.
  rewrite Hs in IH. apply IH. rewrite <- (list_insert_id rs i r Er). by apply Forall2_insert.
Qed.

Lemma shared fuel g jobs g' ts : built g -> Forall reading jobs -> Forall (polite (gr_view g)) jobs ->
  rtc turn (g, map (job_prog fuel) jobs) (g', ts) ->
  g' = g
  /\ (forall i t, ts !! i = Some t -> ~ about_to_write g' t)
  /\ (forall i r, ts !! i = Some (Done r) -> exists j, jobs !! i = Some j /\ r = job_alone fuel g j).
Proof.
  intros Hb Hr Hp H.
  assert (Hc : Forall2 (calm g) (map (job_prog fuel) jobs) (map (job_alone fuel g) jobs)).
  { clear H. induction jobs as [|j jobs IH]; cbn [map]; constructor.
    - inversion Hr; inversion Hp; subst. by apply job_calm.
    - inversion Hr; inversion Hp; subst. by apply IH. }
  destruct (turns_calm _ _ H _ Hc) as [E Hts]. cbn [fst snd] in *. subst g'. split_and!; [done| |].
  - intros i t Et (c & k & -> & Hw). destruct (Forall2_lookup_l _ _ _ _ _ Hts Et) as (r & _ & Hr'). by inversion Hr'.
  - intros i r Et. destruct (Forall2_lookup_l _ _ _ _ _ Hts Et) as (r' & Er & Hr'). inversion Hr'; subst.
    rewrite list_lookup_fmap in Er. destruct (jobs !! i) as [j|]; [|done]. injection Er as <-. by exists j.
Qed.

(** Schedules end. *)
Definition turn' {R} (ts2 ts : list (prog R)) : Prop := exists i c k a, ts !! i = Some (Call c k) /\ ts2 = <[i := k a]> ts.
Lemma turn'_acc {R} (ts : list (prog R)) : Acc turn' ts.
Proof.
  induction ts as [|t ts IH].
  - constructor. intros ts2 (i & c & k & a & E & _). discriminate E.
  - revert t. induction IH as [ts _ IH]. intros t. induction t as [r|c k IHt].
    + constructor. intros ts2 (i & c & k & a & E & ->). destruct i as [|i]; [discriminate E|]. cbn [insert list_insert].
      apply IH. by exists i, c, k, a.
    + constructor. intros ts2 (i & c' & k' & a & E & ->). destruct i as [|i].
      * cbn in E. injection E as <- <-. apply IHt.
      * cbn [insert list_insert]. apply IH. by exists i, c', k', a.
Qed.
Lemma turns_end {R} (f : nat -> gr * list (prog R)) : ~ (forall n, turn (f n) (f (S n))).
Proof.
  intros H.
  assert (Hall : forall ts, Acc (@turn' R) ts -> forall n, snd (f n) = ts -> False).
  { intros ts Ha. induction Ha as [ts _ IH]. intros n E. apply (IH (snd (f (S n)))) with (n := S n); [|done].
    specialize (H n). destruct H as [g ts' i c k Ei]. cbn [snd] in *. subst ts'. by exists i, c, k, (fst (gr_call g c)). }
  exact (Hall _ (turn'_acc (snd (f 0))) 0 eq_refl).
Qed.
