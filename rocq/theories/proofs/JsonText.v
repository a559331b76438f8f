(** A text is a document exactly when its tokens are those of one. *)
From Coq Require Import String.
From Verif.spec Require Import JsonSpec ReSpec.
From Verif.proofs Require LexMain.
From Verif.proofs Require Import Fuel RegexProofs ReProofs LexText LexTableProofs RgPrint JsonLex.
Local Open Scope nat_scope.
Local Open Scope list_scope.

Notation value_t := (value_text number_text string_text space_char).
Notation items_t := (items_text number_text string_text space_char).
Notation entries_t := (entries_text number_text string_text space_char).

Lemma cuts_one a p k src : js_table !! p = Some (LRow k src (rd_one a) false) -> length (L a) = 1 -> others_skip (hd 0%N (L a)) p = true ->
  forall s s' u, cuts_to s s' u -> cuts_to (L a ++ s) s' ((k, L a) :: u).
Proof. intros H1 H2 H3 s s' u H. apply (cuts_trans _ s _ [(k, L a)] u); [by eapply cuts_char|done]. Qed.
Definition cuts_comma := cuts_one "," 5 (L "comma") _ eq_refl eq_refl eq_refl.
Definition cuts_lcb := cuts_one "{" 6 (L "lcb") _ eq_refl eq_refl eq_refl.
Definition cuts_rcb := cuts_one "}" 7 (L "rcb") _ eq_refl eq_refl eq_refl.
Definition cuts_lb := cuts_one "[" 8 (L "lb") _ eq_refl eq_refl eq_refl.
Definition cuts_rb := cuts_one "]" 9 (L "rb") _ eq_refl eq_refl eq_refl.
Definition cuts_colon := cuts_one ":" 10 (L "colon") _ eq_refl eq_refl eq_refl.
Lemma cuts_nil s : cuts_to s s [].
Proof. intros ps H. exists []. split; [done|]. split; [constructor|done]. Qed.
Lemma cuts_space w s s' u : blank space_char w -> nonspace s -> cuts_to s s' u -> cuts_to (w ++ s) s' u.
Proof. intros H1 H2 H. by apply (cuts_trans _ s _ [] u); [apply cuts_blank|]. Qed.
Lemma cuts_str k s s' u : string_text k -> cuts_to s s' u -> cuts_to (k ++ s) s' ((L "string", k) :: u).
Proof. intros H1 H. by apply (cuts_trans _ s _ [(L "string", k)] u); [apply cuts_string|]. Qed.
Lemma string_starts k : string_text k -> k <> [] /\ nonspace k.
Proof. intros (b & -> & _). split; [discriminate|reflexivity]. Qed.
Lemma cut_texts :
  (forall J t, value_t J t -> forall rest, follows rest -> exists u, wv J u /\ cuts_to (t ++ rest) rest u)
  /\ (forall l t, items_t l t -> forall rest, exists u, wi l u /\ cuts_to (t ++ L "]" ++ rest) (L "]" ++ rest) u)
  /\ (forall l t, entries_t l t -> forall rest, exists u, we l u /\ cuts_to (t ++ L "}" ++ rest) (L "}" ++ rest) u).
Proof.
  assert (Fb : forall rest, follows (L "]" ++ rest)) by (intros rest; right; apply (bool_decide_unpack _); vm_compute; exact I).
  assert (Fc : forall rest, follows (L "}" ++ rest)) by (intros rest; right; apply (bool_decide_unpack _); vm_compute; exact I).
  assert (Fm : forall rest, follows (L "," ++ rest)) by (intros rest; right; apply (bool_decide_unpack _); vm_compute; exact I).
  apply (texts_mut number_text string_text space_char
    (fun J t _ => forall rest, follows rest -> exists u, wv J u /\ cuts_to (t ++ rest) rest u)
    (fun l t _ => forall rest, exists u, wi l u /\ cuts_to (t ++ L "]" ++ rest) (L "]" ++ rest) u)
    (fun l t _ => forall rest, exists u, we l u /\ cuts_to (t ++ L "}" ++ rest) (L "}" ++ rest) u)).
  - intros v Hv rest Hr. destruct (leaf_cuts v rest Hv Hr) as (k & Hk & Hc). exists [(k, v)]. split; [by constructor|done].
  - intros w Hw rest Hr. eexists. split; [apply wv_no_items|]. rewrite <- !app_assoc. apply cuts_lb.
    apply cuts_space; [done|done|]. apply cuts_rb, cuts_nil.
  - intros l t _ IH rest Hr. destruct (IH rest) as (u & Hu & Hc). eexists. split; [by apply wv_items|]. rewrite <- !app_assoc.
    apply cuts_lb. eapply cuts_trans; [exact Hc|]. apply cuts_rb, cuts_nil.
  - intros w Hw rest Hr. eexists. split; [apply wv_no_entries|]. rewrite <- !app_assoc. apply cuts_lcb.
    apply cuts_space; [done|done|]. apply cuts_rcb, cuts_nil.
  - intros l t _ IH rest Hr. destruct (IH rest) as (u & Hu & Hc). eexists. split; [by apply wv_entries|]. rewrite <- !app_assoc.
    apply cuts_lcb. eapply cuts_trans; [exact Hc|]. apply cuts_rcb, cuts_nil.
  - intros J w1 s w2 H1 Hv IH H2 rest. destruct (IH (w2 ++ L "]" ++ rest)) as (u & Hu & Hc); [by apply blank_follows|].
    exists u. split; [by constructor|]. rewrite <- !app_assoc. apply cuts_space; [done|apply nonspace_app; by eapply value_starts|].
    rewrite <- (app_nil_r u). eapply cuts_trans; [exact Hc|]. apply cuts_space; [done|done|apply cuts_nil].
  - intros J l w1 s w2 t H1 Hv IH H2 _ IHl rest. destruct (IHl rest) as (v & Hv' & Hcl).
    destruct (IH (w2 ++ L "," ++ t ++ L "]" ++ rest)) as (u & Hu & Hc); [by apply blank_follows|].
    eexists. split; [by apply wi_more|]. rewrite <- !app_assoc. apply cuts_space; [done|apply nonspace_app; by eapply value_starts|].
    eapply cuts_trans; [exact Hc|]. apply cuts_space; [done|done|]. by apply cuts_comma.
  - intros k J w1 w2 w3 s w4 H1 Hk H2 H3 Hv IH H4 rest. destruct (IH (w4 ++ L "}" ++ rest)) as (u & Hu & Hc); [by apply blank_follows|].
    eexists. split; [by apply we_one|]. rewrite <- !app_assoc. apply cuts_space; [done|apply nonspace_app; by apply string_starts|].
    apply cuts_str; [done|]. apply cuts_space; [done|done|]. apply cuts_colon.
    apply cuts_space; [done|apply nonspace_app; by eapply value_starts|].
    rewrite <- (app_nil_r u). eapply cuts_trans; [exact Hc|]. apply cuts_space; [done|done|apply cuts_nil].
  - intros k J l w1 w2 w3 s w4 t H1 Hk H2 H3 Hv IH H4 _ IHl rest. destruct (IHl rest) as (v & Hv' & Hcl).
    destruct (IH (w4 ++ L "," ++ t ++ L "}" ++ rest)) as (u & Hu & Hc); [by apply blank_follows|].
    eexists. split; [by apply we_more|]. rewrite <- !app_assoc. apply cuts_space; [done|apply nonspace_app; by apply string_starts|].
    apply cuts_str; [done|]. apply cuts_space; [done|done|]. apply cuts_colon.
    apply cuts_space; [done|apply nonspace_app; by eapply value_starts|].
    eapply cuts_trans; [exact Hc|]. apply cuts_space; [done|done|]. by apply cuts_comma.
Qed.
Lemma doc_cuts J s : js_doc J s -> exists qs, tokenises RD s qs /\ Forall good qs /\ wv J (toks qs).
Proof.
  intros (w1 & t & w2 & H1 & Ht & H2 & ->).
  destruct (proj1 cut_texts J t Ht (w2 ++ [])) as (u & Hu & Hc).
  { apply blank_follows; [exact H2|exact I]. }
  rewrite app_nil_r in Hc.
  assert (H : cuts_to (w1 ++ t ++ w2) [] u).
  { apply cuts_space; [exact H1|apply nonspace_app; by eapply value_starts|].
    rewrite <- (app_nil_r u). eapply cuts_trans; [exact Hc|]. rewrite <- (app_nil_r w2) at 1. apply cuts_space; [exact H2|exact I|apply cuts_nil]. }
  destruct (H [] (cut_end _ _)) as (qs & Hq & Hg & <-). rewrite app_nil_r in Hq. by exists qs.
Qed.

(** * From tokens to text *)
Lemma toks_split qs : forall u v, toks qs = u ++ v -> exists q1 q2, qs = q1 ++ q2 /\ toks q1 = u /\ toks q2 = v.
Proof.
  induction qs as [|x qs IH]; intros u v E; cbn [flat_map] in E.
  - destruct u; [|done]. exists [], []. done.
  - destruct u as [|y u].
    + exists [], (x :: qs). done.
    + assert (Hx : piece_toks js_table x = [] \/ exists z, piece_toks js_table x = [z]).
      { destruct x as [p w|w]; cbn [piece_toks]; [|by left]. destruct (js_table !! p) as [r|]; [|by left]. destruct (lw_discard r); eauto. }
      destruct Hx as [Hx|[z Hx]]; rewrite Hx in E.
      * cbn [app] in E. destruct (IH (y :: u) v E) as (q1 & q2 & -> & H1 & H2). exists (x :: q1), q2. split; [done|]. cbn [flat_map]. by rewrite Hx.
      * cbn [app] in E. injection E as -> E. destruct (IH u v E) as (q1 & q2 & -> & H1 & H2). exists (x :: q1), q2. split; [done|].
        cbn [flat_map]. rewrite Hx, H1. done.
Qed.
Lemma discard_row p r : js_table !! p = Some r -> lw_discard r = true -> p = 0.
Proof.
  destruct p as [|p]; [done|]. intros Hr Hd. exfalso. change (tail js_table !! p = Some r) in Hr.
  assert (H : Forall (fun r => lw_discard r = false) (tail js_table)) by (repeat constructor).
  rewrite Forall_forall in H. rewrite (H r) in Hd; [discriminate Hd|]. by eapply elem_of_list_lookup_2.
Qed.
(** A token with blanks before it. *)
Lemma toks_cons qs k v u : Forall good qs -> toks qs = (k, v) :: u -> exists w q2 r p,
  text qs = w ++ v ++ text q2 /\ blank space_char w /\ Forall good q2 /\ toks q2 = u
  /\ js_table !! p = Some r /\ lw_kind r = k /\ lw_discard r = false /\ in_re (lw_re r) v.
Proof.
  induction 1 as [|x qs Hx Hq IH]; intros E; [discriminate E|]. cbn [flat_map] in E.
  destruct Hx as (p & v' & r & -> & Hr & Hin). cbn [piece_toks] in E. rewrite Hr in E. change (text (Tok p v' :: qs)) with (v' ++ text qs). destruct (lw_discard r) eqn:Hd.
  - destruct (IH E) as (w & q2 & r2 & p2 & Et & Hw & H). exists (v' ++ w), q2, r2, p2. rewrite Et, <- app_assoc. split; [done|]. split; [|done].
    apply Forall_app. split; [|exact Hw].
    rewrite (discard_row p r Hr Hd) in Hr. injection Hr as <-. apply in_plus_set in Hin as [_ Hin]. exact Hin.
  - cbn [app] in E. injection E as Ek <- Eu. exists [], qs, r, p. cbn [app]. split; [done|]. split; [constructor|]. done.
Qed.
Lemma toks_nil qs : Forall good qs -> toks qs = [] -> blank space_char (text qs).
Proof.
  induction 1 as [|x qs Hx Hq IH]; intros E; [constructor|]. cbn [flat_map] in E. apply app_eq_nil in E as [E1 E2].
  destruct Hx as (p & v' & r & -> & Hr & Hin). cbn [piece_toks] in E1. rewrite Hr in E1. change (text (Tok p v' :: qs)) with (v' ++ text qs).
  apply Forall_app. split; [|by apply IH]. destruct (lw_discard r) eqn:Hd; [|discriminate E1].
  rewrite (discard_row p r Hr Hd) in Hr. injection Hr as <-. apply in_plus_set in Hin as [_ Hin]. exact Hin.
Qed.
Definition row_index (k : gostring) : nat := default 0 (fst <$> list_find (fun r => lw_kind r = k) js_table).
Lemma js_nodup : NoDup (map lw_kind js_table).
Proof. apply (bool_decide_unpack _). vm_compute. exact I. Qed.
Lemma row_is p r q : js_table !! p = Some r -> js_table !! q = Some (default r (js_table !! q)) -> lw_kind (default r (js_table !! q)) = lw_kind r -> p = q.
Proof.
  intros H1 H2 E. apply (NoDup_lookup (map lw_kind js_table) p q (lw_kind r) js_nodup).
  - change (map lw_kind js_table) with (lw_kind <$> js_table). by rewrite list_lookup_fmap, H1.
  - change (map lw_kind js_table) with (lw_kind <$> js_table). rewrite list_lookup_fmap, H2. cbn [fmap option_fmap option_map]. by rewrite E.
Qed.
Ltac row Hr Hk q := let E := fresh in assert (E := row_is _ _ q Hr eq_refl (eq_sym Hk)); rewrite E in Hr; injection Hr as <-.
Lemma char_tok a q k src p r v : js_table !! q = Some (LRow k src (rd_one a) false) -> length (L a) = 1 -> js_table !! p = Some r -> lw_kind r = k -> in_re (lw_re r) v -> v = L a.
Proof.
  intros Hq H1 Hr Hk Hin. assert (p = q) as ->.
  { apply (row_is p r q Hr); rewrite Hq; [done|]. by cbn [default lw_kind]. }
  rewrite Hq in Hr. injection Hr as <-. cbn [lw_re] in Hin. unfold rd_one in Hin. apply in_set_inv in Hin as (x & -> & Hx).
  destruct (L a) as [|c [|]]; try discriminate H1. cbn [hd] in Hx. by apply N.eqb_eq in Hx as <-.
Qed.
Definition tok_comma p r v := char_tok "," 5 (L "comma") _ p r v eq_refl eq_refl.
Definition tok_lcb p r v := char_tok "{" 6 (L "lcb") _ p r v eq_refl eq_refl.
Definition tok_rcb p r v := char_tok "}" 7 (L "rcb") _ p r v eq_refl eq_refl.
Definition tok_lb p r v := char_tok "[" 8 (L "lb") _ p r v eq_refl eq_refl.
Definition tok_rb p r v := char_tok "]" 9 (L "rb") _ p r v eq_refl eq_refl.
Definition tok_colon p r v := char_tok ":" 10 (L "colon") _ p r v eq_refl eq_refl.
Lemma number_in w : in_re (RCat (RStar (RSet rd_digit)) (RCat (ROpt (rd_one ".")) (RPlus (RSet rd_digit)))) w -> number_text w.
Proof.
  intros (a & b & -> & Ha & Hb)%in_cat_inv. apply in_cat_inv in Hb as (p & b' & -> & Hp & Hb). apply in_star_set in Ha.
  apply in_plus_set in Hb as [Hne Hb]. exists a, p, b'. split; [done|].
  assert (Hd : forall u, Forall (fun x => rd_digit x = true) u -> digits u).
  { clear. intros u Hu. eapply Forall_impl; [exact Hu|]. intros x. unfold rd_digit. by rewrite andb_true_iff, !N.leb_le. }
  split; [by apply Hd|]. split; [|split; [done|by apply Hd]].
  apply in_alt_inv in Hp as [Hp|Hp]; [right|left; by inversion Hp]. apply in_set_inv in Hp as (x & -> & Hx). by apply N.eqb_eq in Hx as <-.
Qed.
Lemma leaf_tok k v p r : k ∈ leaf_kinds -> js_table !! p = Some r -> lw_kind r = k -> in_re (lw_re r) v -> leaf number_text string_text v.
Proof.
  unfold leaf_kinds. rewrite !elem_of_cons, elem_of_nil. intros [->|[->|[->|[->|[]]]]] Hr Hk Hin; unfold leaf.
  - row Hr Hk 2. right; left. by apply in_string.
  - row Hr Hk 1. left. by apply number_in.
  - row Hr Hk 3. right; right. apply in_bool in Hin. tauto.
  - row Hr Hk 4. right; right. apply in_lit in Hin. tauto.
Qed.
Lemma string_tok v p r : js_table !! p = Some r -> lw_kind r = L "string" -> in_re (lw_re r) v -> string_text v.
Proof. intros Hr Hk Hin. row Hr Hk 2. by apply in_string. Qed.
Lemma text_app a b : text (a ++ b) = text a ++ text b.
Proof. apply flat_map_app. Qed.
Lemma blank_app a b : blank space_char a -> blank space_char b -> blank space_char (a ++ b).
Proof. intros. by apply Forall_app. Qed.
Lemma ends_blank :
  (forall J t, value_t J t -> True)
  /\ (forall l t, items_t l t -> forall w, blank space_char w -> items_t l (t ++ w))
  /\ (forall l t, entries_t l t -> forall w, blank space_char w -> entries_t l (t ++ w)).
Proof.
  apply (texts_mut number_text string_text space_char
    (fun J t _ => True)
    (fun l t _ => forall w, blank space_char w -> items_t l (t ++ w))
    (fun l t _ => forall w, blank space_char w -> entries_t l (t ++ w))); try done.
  - intros J w1 s w2 H1 Hv _ H2 w Hw. rewrite <- !app_assoc. constructor; [done|done|by apply blank_app].
  - intros J l w1 s w2 t H1 Hv _ H2 _ IH w Hw. rewrite <- !app_assoc. constructor; auto.
  - intros k J w1 w2 w3 s w4 H1 Hk H2 H3 Hv _ H4 w Hw. rewrite <- !app_assoc. constructor; try done. by apply blank_app.
  - intros k J l w1 w2 w3 s w4 t H1 Hk H2 H3 Hv _ H4 _ IH w Hw. rewrite <- !app_assoc. constructor; auto.
Qed.
Ltac next H w q Hw Hg Et p r Hr Hk Hin :=
  let Hd := fresh in let E := fresh in
  apply toks_cons in H as (w & q & r & p & E & Hw & Hg & Et & Hr & Hk & Hd & Hin); [|assumption]; rewrite E; clear E Hd.
Lemma toks_text :
  (forall J u, wv J u -> forall qs v, Forall good qs -> toks qs = u ++ v ->
    exists w t q2, text qs = w ++ t ++ text q2 /\ blank space_char w /\ value_t J t /\ Forall good q2 /\ toks q2 = v)
  /\ (forall l u, wi l u -> forall qs v, Forall good qs -> toks qs = u ++ v ->
    exists t q2, text qs = t ++ text q2 /\ items_t l t /\ Forall good q2 /\ toks q2 = v)
  /\ (forall l u, we l u -> forall qs v, Forall good qs -> toks qs = u ++ v ->
    exists t q2, text qs = t ++ text q2 /\ entries_t l t /\ Forall good q2 /\ toks q2 = v).
Proof.
  apply (w_mut
    (fun J u _ => forall qs v, Forall good qs -> toks qs = u ++ v ->
      exists w t q2, text qs = w ++ t ++ text q2 /\ blank space_char w /\ value_t J t /\ Forall good q2 /\ toks q2 = v)
    (fun l u _ => forall qs v, Forall good qs -> toks qs = u ++ v ->
      exists t q2, text qs = t ++ text q2 /\ items_t l t /\ Forall good q2 /\ toks q2 = v)
    (fun l u _ => forall qs v, Forall good qs -> toks qs = u ++ v ->
      exists t q2, text qs = t ++ text q2 /\ entries_t l t /\ Forall good q2 /\ toks q2 = v)).
  - intros k x Hk qs v Hg E. next E w q Hw Hg' Et p r Hr Hk' Hin. exists w, x, q. repeat split; try done. constructor. by eapply leaf_tok.
  - intros a b qs v Hg E. next E w q Hw Hg' Et p r Hr Hk Hin. next Et w2 q2 Hw2 Hg2 Et2 p2 r2 Hr2 Hk2 Hin2.
    assert (a = L "[") as -> by (exact (tok_lb p r _ Hr Hk Hin)). assert (b = L "]") as -> by (exact (tok_rb p2 r2 _ Hr2 Hk2 Hin2)).
    exists w, (L "[" ++ w2 ++ L "]"), q2. rewrite <- !app_assoc. repeat split; try done. by constructor.
  - intros l u a b _ IH qs v Hg E. cbn [app] in E. next E w q Hw Hg' Et p r Hr Hk Hin. rewrite <- app_assoc in Et.
    destruct (IH q _ Hg' Et) as (t & q' & -> & Hi & Hg1 & Et1). next Et1 w2 q2 Hw2 Hg2 Et2 p2 r2 Hr2 Hk2 Hin2.
    assert (a = L "[") as -> by (exact (tok_lb p r _ Hr Hk Hin)). assert (b = L "]") as -> by (exact (tok_rb p2 r2 _ Hr2 Hk2 Hin2)).
    exists w, (L "[" ++ (t ++ w2) ++ L "]"), q2. rewrite <- !app_assoc. repeat split; try done. rewrite (app_assoc t w2). constructor. by apply ends_blank.
  - intros a b qs v Hg E. next E w q Hw Hg' Et p r Hr Hk Hin. next Et w2 q2 Hw2 Hg2 Et2 p2 r2 Hr2 Hk2 Hin2.
    assert (a = L "{") as -> by (exact (tok_lcb p r _ Hr Hk Hin)). assert (b = L "}") as -> by (exact (tok_rcb p2 r2 _ Hr2 Hk2 Hin2)).
    exists w, (L "{" ++ w2 ++ L "}"), q2. rewrite <- !app_assoc. repeat split; try done. by constructor.
  - intros l u a b _ IH qs v Hg E. cbn [app] in E. next E w q Hw Hg' Et p r Hr Hk Hin. rewrite <- app_assoc in Et.
    destruct (IH q _ Hg' Et) as (t & q' & -> & Hi & Hg1 & Et1). next Et1 w2 q2 Hw2 Hg2 Et2 p2 r2 Hr2 Hk2 Hin2.
    assert (a = L "{") as -> by (exact (tok_lcb p r _ Hr Hk Hin)). assert (b = L "}") as -> by (exact (tok_rcb p2 r2 _ Hr2 Hk2 Hin2)).
    exists w, (L "{" ++ (t ++ w2) ++ L "}"), q2. rewrite <- !app_assoc. repeat split; try done. rewrite (app_assoc t w2). constructor. by apply ends_blank.
  - intros J u _ IH qs v Hg E. destruct (IH qs v Hg E) as (w & t & q2 & -> & Hw & Hv & Hg2 & Et). exists (w ++ t ++ []), q2.
    rewrite app_nil_r at 1. rewrite <- app_assoc. repeat split; try done. constructor; [done|done|constructor].
  - intros J l u a v _ IH _ IHl qs z Hg E. rewrite <- app_assoc in E. cbn [app] in E.
    destruct (IH qs _ Hg E) as (w & t & q & -> & Hw & Hv & Hg' & Et). next Et w2 q2 Hw2 Hg2 Et2 p r Hr Hk Hin.
    destruct (IHl q2 _ Hg2 Et2) as (t3 & q3 & -> & Hi & Hg3 & Et3). assert (a = L ",") as -> by (exact (tok_comma p r _ Hr Hk Hin)).
    exists (w ++ t ++ w2 ++ L "," ++ t3), q3. rewrite <- !app_assoc. repeat split; try done. by constructor.
  - intros k J c u _ IH qs v Hg E. cbn [app] in E. next E w q Hw Hg' Et p r Hr Hk Hin. next Et w2 q2 Hw2 Hg2 Et2 p2 r2 Hr2 Hk2 Hin2.
    destruct (IH q2 _ Hg2 Et2) as (w3 & t & q3 & -> & Hw3 & Hv & Hg3 & Et3). assert (c = L ":") as -> by (exact (tok_colon p2 r2 _ Hr2 Hk2 Hin2)).
    exists (w ++ k ++ w2 ++ L ":" ++ w3 ++ t ++ []), q3. rewrite app_nil_r at 1. rewrite <- !app_assoc. repeat split; try done.
    constructor; try done; [exact (string_tok k p r Hr Hk Hin)|constructor].
  - intros k J l c u a v _ IH _ IHl qs z Hg E. cbn [app] in E. next E w q Hw Hg' Et p r Hr Hk Hin. next Et w2 q2 Hw2 Hg2 Et2 p2 r2 Hr2 Hk2 Hin2.
    rewrite <- app_assoc in Et2. cbn [app] in Et2.
    destruct (IH q2 _ Hg2 Et2) as (w3 & t & q3 & -> & Hw3 & Hv & Hg3 & Et3). next Et3 w4 q4 Hw4 Hg4 Et4 p4 r4 Hr4 Hk4 Hin4.
    destruct (IHl q4 _ Hg4 Et4) as (t5 & q5 & -> & Hi & Hg5 & Et5).
    assert (c = L ":") as -> by (exact (tok_colon p2 r2 _ Hr2 Hk2 Hin2)). assert (a = L ",") as -> by (exact (tok_comma p4 r4 _ Hr4 Hk4 Hin4)).
    exists (w ++ k ++ w2 ++ L ":" ++ w3 ++ t ++ w4 ++ L "," ++ t5), q5. rewrite <- !app_assoc. repeat split; try done.
    constructor; try done. exact (string_tok k p r Hr Hk Hin).
Qed.
Lemma toks_doc J qs : Forall good qs -> wv J (toks qs) -> js_doc J (text qs).
Proof.
  intros Hg Hw. destruct (proj1 toks_text J _ Hw qs [] Hg) as (w & t & q2 & E & Hb & Hv & Hg2 & Et); [by rewrite app_nil_r|].
  exists w, t, (text q2). split; [exact Hb|]. split; [exact Hv|]. split; [by apply toks_nil|exact E].
Qed.

(** * A text is a document in one way *)
Definition no_comma (r : list (gostring * gostring)) : Prop := forall a r', r <> (L "comma", a) :: r'.
Lemma no_comma_rb a r : no_comma ((L "rb", a) :: r).
Proof. intros b r' E. discriminate E. Qed.
Lemma no_comma_rcb a r : no_comma ((L "rcb", a) :: r).
Proof. intros b r' E. discriminate E. Qed.
Lemma wi_first l u : wi l u -> exists k v u', u = (k, v) :: u' /\ k <> L "rb".
Proof.
  assert (H : forall J w, wv J w -> exists k v u', w = (k, v) :: u' /\ k <> L "rb").
  { intros J w H. inversion H; subst; try (eexists _, _, _; split; [reflexivity|discriminate]).
    exists k, v, []. split; [done|]. intros ->. match goal with X : _ ∈ leaf_kinds |- _ => revert X end. apply (bool_decide_unpack _). vm_compute. exact I. }
  intros Hi. inversion Hi as [J w Hv|J l' w a v Hv Hi']; subst; destruct (H _ _ Hv) as (k & x & u' & -> & Hk); eexists _, _, _; (split; [reflexivity|exact Hk]).
Qed.
Lemma we_first l u : we l u -> exists v u', u = (L "string", v) :: u'.
Proof. intros H. inversion H; subst; eauto. Qed.
Lemma leaf_not k (u : list (gostring * gostring)) x y r : k ∈ leaf_kinds -> k ∉ leaf_kinds \/ (k, x) :: u = (L "lb", y) :: r \/ (k, x) :: u = (L "lcb", y) :: r -> False.
Proof.
  intros Hk [H|[H|H]]; [by apply H|injection H as -> _..]; revert Hk; apply (bool_decide_unpack _); vm_compute; exact I.
Qed.
Lemma w_unique :
  (forall J u, wv J u -> forall J' u' r r', wv J' u' -> u ++ r = u' ++ r' -> J = J' /\ r = r')
  /\ (forall l u, wi l u -> forall l' u' r r', wi l' u' -> no_comma r -> no_comma r' -> u ++ r = u' ++ r' -> l = l' /\ r = r')
  /\ (forall l u, we l u -> forall l' u' r r', we l' u' -> no_comma r -> no_comma r' -> u ++ r = u' ++ r' -> l = l' /\ r = r').
Proof.
  apply (w_mut
    (fun J u _ => forall J' u' r r', wv J' u' -> u ++ r = u' ++ r' -> J = J' /\ r = r')
    (fun l u _ => forall l' u' r r', wi l' u' -> no_comma r -> no_comma r' -> u ++ r = u' ++ r' -> l = l' /\ r = r')
    (fun l u _ => forall l' u' r r', we l' u' -> no_comma r -> no_comma r' -> u ++ r = u' ++ r' -> l = l' /\ r = r')).
  - intros k v Hk J' u' r r' H E. destruct H; cbn [app] in E.
    + by injection E as -> -> ->.
    + exfalso. eapply leaf_not; [exact Hk|eauto].
    + exfalso. eapply leaf_not; [exact Hk|eauto].
    + exfalso. eapply leaf_not; [exact Hk|eauto].
    + exfalso. eapply leaf_not; [exact Hk|eauto].
  - intros a b J' u' r r' H E. destruct H as [k v Hk|a' b'|l u a' b' Hi|a' b'|l u a' b' He]; cbn [app] in E; try discriminate E.
    + exfalso. eapply leaf_not; [exact Hk|eauto].
    + by injection E as -> -> ->.
    + exfalso. apply wi_first in Hi as (k & x & w & -> & Hk). injection E as _ E2 _. first [exact (Hk E2)|exact (Hk (eq_sym E2))].
  - intros l u a b Hi IH J' u' r r' H E. destruct H as [k v Hk|a' b'|l' u' a' b' Hi'|a' b'|l' u' a' b' He]; cbn [app] in E; try discriminate E.
    + exfalso. eapply leaf_not; [exact Hk|eauto].
    + exfalso. apply wi_first in Hi as (k & x & w & -> & Hk). injection E as _ E2 _. first [exact (Hk E2)|exact (Hk (eq_sym E2))].
    + injection E as -> E. rewrite <- !app_assoc in E.
      destruct (IH l' u' _ _ Hi' (no_comma_rb _ _) (no_comma_rb _ _) E) as [-> E']. injection E' as -> ->. done.
  - intros a b J' u' r r' H E. destruct H as [k v Hk|a' b'|l u a' b' Hi|a' b'|l u a' b' He]; cbn [app] in E; try discriminate E.
    + exfalso. eapply leaf_not; [exact Hk|eauto].
    + by injection E as -> -> ->.
    + exfalso. apply we_first in He as (x & w & ->). discriminate E.
  - intros l u a b Hi IH J' u' r r' H E. destruct H as [k v Hk|a' b'|l' u' a' b' Hi'|a' b'|l' u' a' b' He]; cbn [app] in E; try discriminate E.
    + exfalso. eapply leaf_not; [exact Hk|eauto].
    + exfalso. apply we_first in Hi as (x & w & ->). discriminate E.
    + injection E as -> E. rewrite <- !app_assoc in E.
      destruct (IH l' u' _ _ He (no_comma_rcb _ _) (no_comma_rcb _ _) E) as [-> E']. injection E' as -> ->. done.
  - intros J u Hv IH l' u' r r' H N1 N2 E. destruct H as [J' u' Hv'|J' l' u' a v Hv' Hi'].
    + destruct (IH _ _ _ _ Hv' E) as [-> ->]. done.
    + rewrite <- app_assoc in E. destruct (IH _ _ _ _ Hv' E) as [-> ->]. exfalso. by eapply N1.
  - intros J l u a v Hv IH Hi IHl l' u' r r' H N1 N2 E. rewrite <- app_assoc in E. destruct H as [J' u' Hv'|J' l' u' a' v' Hv' Hi'].
    + destruct (IH _ _ _ _ Hv' E) as [-> <-]. exfalso. by eapply N2.
    + rewrite <- app_assoc in E. destruct (IH _ _ _ _ Hv' E) as [-> E']. injection E' as -> E'.
      destruct (IHl _ _ _ _ Hi' N1 N2 E') as [-> ->]. done.
  - intros k J c u Hv IH l' u' r r' H N1 N2 E. destruct H as [k' J' c' u' Hv'|k' J' l' c' u' a v Hv' Hi']; cbn [app] in E.
    + injection E as -> -> E. destruct (IH _ _ _ _ Hv' E) as [-> ->]. done.
    + injection E as -> -> E. rewrite <- app_assoc in E. destruct (IH _ _ _ _ Hv' E) as [-> ->]. exfalso. by eapply N1.
  - intros k J l c u a v Hv IH Hi IHl l' u' r r' H N1 N2 E. destruct H as [k' J' c' u' Hv'|k' J' l' c' u' a' v' Hv' Hi']; cbn [app] in E.
    + injection E as -> -> E. rewrite <- app_assoc in E. destruct (IH _ _ _ _ Hv' E) as [-> <-]. exfalso. by eapply N2.
    + injection E as -> -> E. rewrite <- !app_assoc in E. destruct (IH _ _ _ _ Hv' E) as [-> E']. injection E' as -> E'.
      destruct (IHl _ _ _ _ Hi' N1 N2 E') as [-> ->]. done.
Qed.
Lemma wv_unique J J' u : wv J u -> wv J' u -> J = J'.
Proof. intros H1 H2. by destruct (proj1 w_unique J u H1 J' u [] [] H2 eq_refl). Qed.

(** * Documents and lexemes *)
Definition pairs (lxs : list lexeme) : list (gostring * gostring) := map (fun x => (lx_kind x, lx_val x)) lxs.
Lemma js_more : no_adds [].
Proof. intros n x c Hx. by apply elem_of_nil in Hx. Qed.
Lemma good_pieces qs : Forall good qs -> forall x, x ∈ qs -> exists p v, x = Tok p v /\ p < length js_table.
Proof.
  intros H x Hx. rewrite Forall_forall in H. destruct (H x Hx) as (p & v & r & -> & Hr & _). exists p, v. split; [done|]. by eapply lookup_lt_Some.
Qed.
Lemma cut_good s ps : tokenises RD s ps -> junks ps = [] -> Forall good ps /\ text ps = s.
Proof.
  intros H HJ. split.
  - apply Forall_forall. intros x Hx. destruct x as [p v|v].
    + destruct (cuts_rows js_table s ps H p v Hx) as (r & s' & n & Hr & Hm & Hn & ->). exists p, (take n s'), r. split; [done|]. split; [done|]. by apply hd_len_in.
    + exfalso. assert (Hj : v ∈ junks ps) by (unfold junks; apply elem_of_list_In, in_flat_map; exists (Junk v); split; [by apply elem_of_list_In|by left]).
      rewrite HJ in Hj. by apply elem_of_nil in Hj.
  - clear HJ. induction H as [|s p n ps Hb _ IH|v s ps _ _ _ _ IH]; [done|..].
    + change (take n s ++ text ps = s). rewrite IH. apply take_drop.
    + change (v ++ text ps = v ++ s). by rewrite IH.
Qed.
Lemma lexes_pieces texts s lxs : lexes_to (js_calls texts) s lxs <->
  exists ps out, tokenises RD s ps /\ junks ps = [] /\ emits tok_newlines RD (st_error (settings_of [])) [] ps out /\ lxs = map olex_lx out.
Proof.
  unfold lexes_to, all_lexemes, js_calls. rewrite !(table_rules js_table [] _ js_more js_nodup), !(table_settings js_table []). split.
  - intros (ps & Ht & HJ & pre & out & post & H1 & H2 & He & ->). exists ps, out. split; [exact Ht|]. split; [exact HJ|]. split; [exact He|].
    destruct H1 as [[_ ->]|[Hne _]]; [|exfalso; by apply Hne]. destruct H2 as [[_ ->]|[Hne _]]; [|exfalso; by apply Hne]. by rewrite app_nil_r.
  - intros (ps & out & Ht & HJ & He & ->). exists ps. split; [exact Ht|]. split; [exact HJ|]. exists [], out, []. split; [by left|]. split; [by left|].
    split; [exact He|]. by rewrite app_nil_r.
Qed.
Lemma doc_lexes texts J s : js_doc J s <-> exists lxs, lexes_to (js_calls texts) s lxs /\ wv J (pairs lxs).
Proof.
  split.
  - intros H. destruct (doc_cuts J s H) as (qs & Ht & Hg & Hw).
    destruct (emits_exist js_table tok_newlines (st_error (settings_of [])) qs (good_pieces qs Hg) []) as (out & He & Hm).
    exists (map olex_lx out). split.
    + apply lexes_pieces. exists qs, out. split; [exact Ht|]. split; [exact (junks_none js_table qs (good_pieces qs Hg))|]. done.
    + unfold pairs. rewrite map_map, Hm. exact Hw.
  - intros (lxs & Hl & Hw). apply lexes_pieces in Hl as (ps & out & Ht & HJ & He & ->). destruct (cut_good s ps Ht HJ) as [Hg <-].
    apply toks_doc; [exact Hg|]. unfold pairs in Hw. rewrite map_map in Hw.
    destruct (emits_exist js_table tok_newlines (st_error (settings_of [])) ps (good_pieces ps Hg) []) as (out' & He' & Hm).
    rewrite <- Hm, (LexMain.emits_fun _ _ _ _ _ _ He' _ He). exact Hw.
Qed.
Lemma doc_unique J J' s : js_doc J s -> js_doc J' s -> J = J'.
Proof.
  intros H1 H2. rewrite (doc_lexes []) in H1. rewrite (doc_lexes []) in H2. destruct H1 as (a & La & Wa), H2 as (b & Lb & Wb).
  rewrite (table_unique js_table [] [] js_more _ _ _ La Lb) in Wa. by eapply wv_unique.
Qed.
