(** Two lexeme slices with the same kinds give packrat trees of the same shape. *)
From Verif.model Require Import Packrat.
From Verif.spec Require Import PackratSpec.

Definition res_shape (r : res pn) : res pn := t <-! r; Ok (shape t).

Lemma lookup_map {A B} (f : A -> B) l i : map f l !! i = f <$> l !! i.
Proof. apply list_lookup_fmap. Qed.

Lemma load_lexemes_shape l1 : forall l2 s, map lx_kind l1 = map lx_kind l2 ->
  snd (load_lexemes s l1) = snd (load_lexemes s l2)
  /\ map fst (fst (load_lexemes s l1)) = map fst (fst (load_lexemes s l2))
  /\ map (lx_kind ∘ snd) (fst (load_lexemes s l1)) = map (lx_kind ∘ snd) (fst (load_lexemes s l2)).
Proof.
  induction l1 as [|a l1 IH]; intros [|b l2] s Heq; try discriminate; [done|].
  simpl in Heq. injection Heq as Hab Heq. simpl. rewrite Hab.
  destruct (set_str s (lx_kind b)) as [v s1].
  specialize (IH l2 s1 Heq). destruct (load_lexemes s1 l1) as [o1 t1], (load_lexemes s1 l2) as [o2 t2].
  simpl in *. destruct IH as (-> & -> & ->). rewrite Hab. done.
Qed.

Lemma to_pn_shape fuel x1 x2 m nm : map fst x1 = map fst x2 ->
  map (lx_kind ∘ snd) x1 = map (lx_kind ∘ snd) x2 ->
  forall td, res_shape (to_pn fuel x1 m nm td) = res_shape (to_pn fuel x2 m nm td).
Proof.
  intros H1 H2. induction fuel as [|f IH]; intros td; [done|]. cbn [to_pn].
  destruct (td_key td) as [[idx start] e].
  assert (Hcs : (cs <-! rmap (fun c => to_pn f x1 m nm (mget m c)) (td_children td); Ok (map shape cs))
              = (cs <-! rmap (fun c => to_pn f x2 m nm (mget m c)) (td_children td); Ok (map shape cs))).
  { generalize (td_children td). intros l. induction l as [|c l IHl]; [done|]. simpl.
    specialize (IH (mget m c)). unfold res_shape in IH.
    destruct (to_pn f x1 m nm (mget m c)), (to_pn f x2 m nm (mget m c)); simpl in *; try congruence.
    destruct (rmap _ l), (rmap _ l); simpl in *; congruence. }
  assert (Ho : match x1 !! start with Some (k, lx) => if k =? idx then Some (lx_kind lx) else None | None => None end
             = match x2 !! start with Some (k, lx) => if k =? idx then Some (lx_kind lx) else None | None => None end).
  { assert (E1 : fst <$> x1 !! start = fst <$> x2 !! start) by (rewrite <- !lookup_map; congruence).
    assert (E2 : (lx_kind ∘ snd) <$> x1 !! start = (lx_kind ∘ snd) <$> x2 !! start) by (rewrite <- !lookup_map; congruence).
    destruct (x1 !! start) as [[]|], (x2 !! start) as [[]|]; simpl in *; simplify_eq/=; try done; case_match; congruence. }
  destruct (rmap _ (td_children td)) as [c1| |], (rmap _ (td_children td)) as [c2| |]; simpl in *; try congruence.
  injection Hcs as Hcs.
  destruct (x1 !! start) as [[k1 l1]|], (x2 !! start) as [[k2 l2]|];
    repeat case_match; simplify_eq/=; unfold res_shape; simpl; repeat case_match; simplify_eq/=; congruence.
Qed.

Theorem packrat_shape fuel g l1 l2 : map lx_kind l1 = map lx_kind l2 ->
  (o <-! packrat_parse fuel g l1; Ok (option_map shape o))
  = (o <-! packrat_parse fuel g l2; Ok (option_map shape o)).
Proof.
  intros H. unfold packrat_parse. destruct (g_nts g) as [|nt0 r] eqn:En; [done|]. rewrite <- !En.
  assert (Hlen : length l1 = length l2) by (rewrite <- (map_length lx_kind l1), H, map_length; done).
  destruct (load_grammar g set_new) as [set1| |]; simpl; [|done..].
  destruct (load_lexemes_shape l1 l2 set1 H) as (H1 & H2 & H3).
  destruct (load_lexemes set1 l1) as [x1 st], (load_lexemes set1 l2) as [x2 st2]. simpl in *. subst st2.
  rewrite H2, Hlen.
  destruct (add_prods _ _ _ _ _ _ _) as [s1| |]; simpl; [|done..].
  destruct (run _ _ _ _ _ _) as [s2| |]; simpl; [|done..].
  case_match; [|done].
  pose proof (to_pn_shape fuel x1 x2 (memo s2) (name_of st) H2 H3 (mget (memo s2) (fst (set_str st nt0), 0, length l2))) as Ht.
  unfold res_shape in Ht.
  destruct (to_pn _ x1 _ _ _), (to_pn _ x2 _ _ _); simpl in *; congruence.
Qed.
