(** Formatting keeps the tokens. *)
From Coq Require Import String.
From Verif.spec Require Import JsonSpec ReSpec.
From Verif.proofs Require Import Fuel LexTableProofs ReProofs JsonLex JsonText JsonRfc JsonParse JsonThms.
Local Open Scope nat_scope.
Local Open Scope list_scope.

Definition proper (x : gostring * gostring) : Prop := exists p r, js_table !! p = Some r /\ lw_kind r = fst x /\ in_re (lw_re r) (snd x).
Definition leaf_kind (v : gostring) : gostring :=
  match v with
  | [] => []
  | c :: _ => if (c =? 34)%N then L "string" else if (c =? 110)%N then L "null" else if ((c =? 116) || (c =? 102))%N then L "bool" else L "number"
  end.
Lemma row_at p r q r' : js_table !! p = Some r -> js_table !! q = Some r' -> lw_kind r = lw_kind r' -> r = r'.
Proof.
  intros H1 H2 E. assert (Hp : p = q); [|subst; congruence].
  apply (NoDup_lookup (map lw_kind js_table) p q (lw_kind r)); [exact js_nodup|rewrite list_lookup_fmap, H1; done|rewrite list_lookup_fmap, H2; by rewrite E].
Qed.
Lemma proper_leaf k v : k ∈ leaf_kinds -> proper (k, v) -> k = leaf_kind v.
Proof.
  intros Hk (p & r & Hp & Hr & Hin). cbn [fst snd] in *. unfold leaf_kinds in Hk. rewrite !elem_of_cons in Hk.
  destruct Hk as [->|[->|[->|[->|Hk]]]]; [| | | |by apply elem_of_nil in Hk].
  - apply string_tok with (p := p) in Hin as (b & -> & _); [reflexivity|exact Hp|exact Hr].
  - rewrite (row_at p r 1 _ Hp eq_refl Hr) in Hin. apply number_in in Hin. destruct (number_first v Hin) as (c & w & -> & Hc). unfold leaf_kind.
    assert ((c =? 34)%N = false /\ (c =? 110)%N = false /\ (c =? 116)%N = false /\ (c =? 102)%N = false) as (-> & -> & -> & ->); [|done].
    rewrite !N.eqb_neq. destruct Hc as [Hc|Hc]; [|lia]. unfold rd_digit in Hc. apply andb_true_iff in Hc as [H1 H2]. apply N.leb_le in H1, H2. lia.
  - rewrite (row_at p r 3 _ Hp eq_refl Hr) in Hin. apply in_bool in Hin as [->| ->]; reflexivity.
  - rewrite (row_at p r 4 _ Hp eq_refl Hr) in Hin. apply in_lit in Hin as ->. reflexivity.
Qed.
Lemma proper_same k a b : k ∉ leaf_kinds -> proper (k, a) -> proper (k, b) -> k <> L "space" -> a = b.
Proof.
  intros Hk (p & r & Hp & Hr & Ha) (q & r' & Hq & Hr' & Hb) Hs. cbn [fst snd] in *.
  assert (Hkk : k ∈ map lw_kind js_table). { rewrite <- Hr. apply elem_of_list_fmap. exists r. split; [done|]. by eapply elem_of_list_lookup_2. }
  assert (Hc : k ∈ [L "comma"; L "lcb"; L "rcb"; L "lb"; L "rb"; L "colon"]).
  { change (map lw_kind js_table) with ([L "space"; L "number"; L "string"; L "bool"; L "null"] ++ [L "comma"; L "lcb"; L "rcb"; L "lb"; L "rb"; L "colon"]) in Hkk.
    apply elem_of_app in Hkk as [H|H]; [|exact H]. exfalso. apply elem_of_cons in H as [->|H]; [by apply Hs|]. apply Hk. unfold leaf_kinds. rewrite !elem_of_cons in *. tauto. }
  rewrite !elem_of_cons in Hc. destruct Hc as [->|[->|[->|[->|[->|[->|Hc]]]]]]; [..|by apply elem_of_nil in Hc].
  - rewrite (tok_comma p r a Hp Hr Ha). symmetry. exact (tok_comma q r' b Hq Hr' Hb).
  - rewrite (tok_lcb p r a Hp Hr Ha). symmetry. exact (tok_lcb q r' b Hq Hr' Hb).
  - rewrite (tok_rcb p r a Hp Hr Ha). symmetry. exact (tok_rcb q r' b Hq Hr' Hb).
  - rewrite (tok_lb p r a Hp Hr Ha). symmetry. exact (tok_lb q r' b Hq Hr' Hb).
  - rewrite (tok_rb p r a Hp Hr Ha). symmetry. exact (tok_rb q r' b Hq Hr' Hb).
  - rewrite (tok_colon p r a Hp Hr Ha). symmetry. exact (tok_colon q r' b Hq Hr' Hb).
Qed.
Local Ltac punct := intros; eapply proper_same; [..|eassumption|eassumption|]; [apply (bool_decide_unpack _); vm_compute; exact I|discriminate].
Lemma same_lb a b : proper (L "lb", a) -> proper (L "lb", b) -> a = b. Proof. punct. Qed.
Lemma same_rb a b : proper (L "rb", a) -> proper (L "rb", b) -> a = b. Proof. punct. Qed.
Lemma same_lcb a b : proper (L "lcb", a) -> proper (L "lcb", b) -> a = b. Proof. punct. Qed.
Lemma same_rcb a b : proper (L "rcb", a) -> proper (L "rcb", b) -> a = b. Proof. punct. Qed.
Lemma same_comma a b : proper (L "comma", a) -> proper (L "comma", b) -> a = b. Proof. punct. Qed.
Lemma same_colon a b : proper (L "colon", a) -> proper (L "colon", b) -> a = b. Proof. punct. Qed.
Local Ltac props := repeat match goal with
  | H : Forall proper (_ :: _) |- _ => apply Forall_cons in H as [? H]
  | H : Forall proper (_ ++ _) |- _ => apply Forall_app in H as [? H] end.
Lemma no_wi u : ~ wi [] u. Proof. intros H. inversion H. Qed.
Lemma no_we u : ~ we [] u. Proof. intros H. inversion H. Qed.
Lemma w_same :
  (forall J u, wv J u -> forall u', wv J u' -> Forall proper u -> Forall proper u' -> u = u')
  /\ (forall l u, wi l u -> forall u', wi l u' -> Forall proper u -> Forall proper u' -> u = u')
  /\ (forall l u, we l u -> forall u', we l u' -> Forall proper u -> Forall proper u' -> u = u').
Proof.
  apply w_mut.
  - intros k v Hk u' Hu' P1 P2. inversion Hu' as [k' v' Hk'| | | |]; subst. props. by rewrite (proper_leaf k v), (proper_leaf k' v).
  - intros a b u' Hu' P1 P2. inversion Hu' as [|a' b'|l' u a' b' Hw| |]; subst; [|by apply no_wi in Hw]. props.
    rewrite (same_lb a a'), (same_rb b b'); done.
  - intros l u a b Hu IH u' Hu' P1 P2. inversion Hu' as [|a' b'|l' u2 a' b' Hw| |]; subst; [by apply no_wi in Hu|]. props.
    rewrite (same_lb a a'), (same_rb b b'), (IH u2); done.
  - intros a b u' Hu' P1 P2. inversion Hu' as [| | |a' b'|l' u a' b' Hw]; subst; [|by apply no_we in Hw]. props.
    rewrite (same_lcb a a'), (same_rcb b b'); done.
  - intros l u a b Hu IH u' Hu' P1 P2. inversion Hu' as [| | |a' b'|l' u2 a' b' Hw]; subst; [by apply no_we in Hu|]. props.
    rewrite (same_lcb a a'), (same_rcb b b'), (IH u2); done.
  - intros J u Hu IH u' Hu' P1 P2. inversion Hu' as [J' u2 Hw|J' l' u2 a v Hw Hi]; subst; [by apply IH|by apply no_wi in Hi].
  - intros J l u a v Hu IH Hv IH2 u' Hu' P1 P2. inversion Hu' as [J' u2 Hw|J' l' u2 a' v2 Hw Hi]; subst; [by apply no_wi in Hv|]. props.
    rewrite (same_comma a a'), (IH u2), (IH2 v2); done.
  - intros k J c u Hu IH u' Hu' P1 P2. inversion Hu' as [k' J' c' u2 Hw|k' J' l' c' u2 a v Hw Hi]; subst; [|by apply no_we in Hi]. props.
    rewrite (same_colon c c'), (IH u2); done.
  - intros k J l c u a v Hu IH Hv IH2 u' Hu' P1 P2. inversion Hu' as [k' J' c' u2 Hw|k' J' l' c' u2 a' v2 Hw Hi]; subst; [by apply no_we in Hv|]. props.
    rewrite (same_colon c c'), (same_comma a a'), (IH u2), (IH2 v2); done.
Qed.
Lemma pairs_proper texts s lxs : lexes_to (js_calls texts) s lxs -> Forall proper (pairs lxs).
Proof.
  intros H. apply Forall_forall. intros y Hy. unfold pairs in Hy. apply elem_of_list_fmap in Hy as (x & -> & Hx).
  destruct (table_lexemes js_table [] texts js_more js_nodup s lxs x H Hx) as [Hr|[[Hi _]|[Hi _]]]; [|done|done].
  destruct Hr as (r & s' & n & Hr & _ & Hk & Hm & _ & Hv). apply elem_of_list_lookup in Hr as [p Hp]. exists p, r. split; [exact Hp|].
  split; [done|]. cbn [snd]. rewrite Hv. by apply hd_len_in.
Qed.
Lemma same_tokens J s s' lxs lxs' : js_doc J s -> js_doc J s' -> lexes_to (js_calls []) s lxs -> lexes_to (js_calls []) s' lxs' -> pairs lxs = pairs lxs'.
Proof.
  intros H1 H2 L1 L2. apply (doc_lexes []) in H1 as (l1 & M1 & W1), H2 as (l2 & M2 & W2).
  rewrite (table_unique js_table [] [] js_more _ _ _ M1 L1) in W1. rewrite (table_unique js_table [] [] js_more _ _ _ M2 L2) in W2.
  apply (proj1 w_same J); [exact W1|exact W2|by eapply pairs_proper|by eapply pairs_proper].
Qed.
Lemma layout_doc J s : js_doc J s -> js_doc J (layout 0 J).
Proof. apply doc_layout; reflexivity. Qed.

Section Format.
  Variables (compile : compiler) (l0 l : slexer) (g : gr) (rd : reducer) (texts : list gostring).
  Hypothesis Hpkg : js_package compile l0 g rd.
  Hypothesis Hl : returns (sl_calls (map CLex texts) l0) l.
  Lemma format_tokens s o l' : returns (js_format l g rd s) ((o, None), l') ->
    exists lxs lxs', lexes_to (js_calls []) s lxs /\ lexes_to (js_calls []) o lxs' /\ pairs lxs' = pairs lxs.
  Proof using All.
    intros H. destruct (format_only compile l0 l g rd texts Hpkg Hl s o l' H) as (J & HJ & ->).
    pose proof (layout_doc J s HJ) as Ho. pose proof (proj1 (doc_lexes [] J s) HJ) as (lxs & Hs & _). pose proof (proj1 (doc_lexes [] _ _) Ho) as (lxs' & Hs' & _).
    exists lxs, lxs'. split; [exact Hs|]. split; [exact Hs'|]. exact (same_tokens J _ _ _ _ Ho HJ Hs' Hs).
  Qed.
  Lemma format_document s o l' : returns (js_format l g rd s) ((o, None), l') ->
    exists J, forall J', (js_doc J' s <-> J' = J) /\ (js_doc J' o <-> J' = J).
  Proof using All.
    intros H. destruct (format_only compile l0 l g rd texts Hpkg Hl s o l' H) as (J & HJ & ->). exists J. intros J'.
    pose proof (layout_doc J s HJ) as Ho. split; (split; [intros H'|intros ->; assumption]).
    - exact (doc_unique J' J s H' HJ).
    - exact (doc_unique J' J _ H' Ho).
  Qed.
  Lemma format_again s o l' : returns (js_format l g rd s) ((o, None), l') -> exists l'', returns (js_format l' g rd o) ((o, None), l'').
  Proof using All.
    intros H. destruct (format_only compile l0 l g rd texts Hpkg Hl s o l' H) as (J & HJ & ->).
    apply (format_ok compile l0 l' g rd (texts ++ [s])); [exact Hpkg| |by eapply layout_doc].
    exact (run_lexer l0 l g rd texts s _ l' Hl H).
  Qed.
  Lemma format_rfc J s : rfc_doc J s ->
    (json_all (fun v => rfc_number v -> rfc_unsigned v) (fun _ => True) J -> exists l', returns (js_format l g rd s) ((layout 0 J, None), l'))
    /\ (~ json_all (fun v => rfc_number v -> rfc_unsigned v) (fun _ => True) J -> exists e l', returns (js_format l g rd s) (([], Some e), l')).
  Proof using All.
    intros H. split.
    - intros Ha. apply (format_ok compile l0 l g rd texts); [exact Hpkg|exact Hl|]. by apply rfc_is_js.
    - intros Hn. apply (format_error compile l0 l g rd texts); [exact Hpkg|exact Hl|]. intros J' HJ'. apply Hn. by eapply rfc_accepted.
  Qed.
  Lemma format_is_rfc s o l' : returns (js_format l g rd s) ((o, None), l') -> 
    exists J, o = layout 0 J /\ js_doc J s /\ (12%N ∉ s -> json_all (fun v => leaf rfc_number rfc_string v) rfc_string J -> rfc_doc J s /\ rfc_doc J o).
  Proof using All.
    intros H. destruct (format_only compile l0 l g rd texts Hpkg Hl s o l' H) as (J & HJ & ->). exists J. split; [done|]. split; [exact HJ|].
    intros Hn Ha. pose proof (js_is_rfc J s HJ Hn Ha) as Hr. split; [exact Hr|]. revert Hr. apply doc_layout; [by left|by right; right; left].
  Qed.
End Format.
