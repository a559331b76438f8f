(** The packrat properties, from [packrat_main]. *)
From Verif.proofs Require Import Fuel PackratProofs PackratFuel PackratShape.
From Verif.model Require Import Packrat.
From Verif.spec Require Import PackratSpec.

Section T.
  Variable g : grammar.
  Variable lexemes : list lexeme.
  Hypothesis Hwf : g_wf g.
  Hypothesis Htk : terminal_kinds g lexemes.

  Lemma packrat_total : exists r, returns (fun n => packrat_parse n g lexemes) r.
  Proof using Hwf Htk. destruct (packrat_main g lexemes Hwf Htk) as (r & H & _). eauto. Qed.

  Lemma packrat_sound t : lexemes <> [] ->
    returns (fun n => packrat_parse n g lexemes) (Some t) ->
    exists s0 rest, g_nts g = s0 :: rest /\ is_tree g s0 t lexemes.
  Proof using Hwf Htk.
    intros Hne Hr. destruct (packrat_main g lexemes Hwf Htk) as (r & H & H0 & H1).
    pose proof (returns_fun _ _ _ H Hr) as ->.
    destruct (g_nts g) as [|s0 rest]; [specialize (H0 eq_refl); done|].
    exists s0, rest. split; [done|]. destruct (H1 s0 rest eq_refl) as [(t' & E & Ht & _)|[_ E]].
    - congruence.
    - destruct lexemes; done.
  Qed.

  Lemma packrat_complete : generates g (map lx_kind lexemes) ->
    exists t, returns (fun n => packrat_parse n g lexemes) (Some t).
  Proof using Hwf Htk.
    intros (s0 & rest & En & Hd). destruct (packrat_main g lexemes Hwf Htk) as (r & H & H0 & H1).
    destruct (H1 s0 rest En) as [(t & -> & _)|[Hn _]]; [eauto|done].
  Qed.

  Lemma packrat_earliest s0 rest t : acyclic_grammar g -> g_nts g = s0 :: rest ->
    derives g s0 (map lx_kind lexemes) ->
    returns (fun n => packrat_parse n g lexemes) (Some t) -> earliest_tree g s0 t lexemes.
  Proof using Hwf Htk.
    intros Hac En Hd Hr. destruct (packrat_main g lexemes Hwf Htk) as (r & H & H0 & H1).
    pose proof (returns_fun _ _ _ H Hr) as ->.
    destruct (H1 s0 rest En) as [(t' & E & _ & _ & Ht)|[Hn _]]; [|done].
    injection E as ->. apply ranked_earliest. auto.
  Qed.

  Lemma packrat_ranked s0 rest t : acyclic_grammar g -> g_nts g = s0 :: rest ->
    derives g s0 (map lx_kind lexemes) ->
    returns (fun n => packrat_parse n g lexemes) (Some t) -> ranked_tree g s0 t lexemes.
  Proof using Hwf Htk.
    intros Hac En Hd Hr. destruct (packrat_main g lexemes Hwf Htk) as (r & H & H0 & H1).
    pose proof (returns_fun _ _ _ H Hr) as ->.
    destruct (H1 s0 rest En) as [(t' & E & _ & _ & Ht)|[Hn _]]; [|done].
    injection E as ->. auto.
  Qed.

  Lemma packrat_positions s0 rest t : g_nts g = s0 :: rest ->
    returns (fun n => packrat_parse n g lexemes) (Some t) -> positioned g t.
  Proof using Hwf Htk.
    intros En Hr. destruct (packrat_main g lexemes Hwf Htk) as (r & H & H0 & H1).
    pose proof (returns_fun _ _ _ H Hr) as ->.
    destruct (H1 s0 rest En) as [(t' & E & _ & Ht & _)|[Hn E]].
    - congruence.
    - destruct lexemes; [|done]. injection E as ->. apply pos_empty; try done. simpl.
      apply Hwf. rewrite En. left.
  Qed.
End T.

Lemma packrat_empty g s0 rest : g_wf g -> g_nts g = s0 :: rest ->
  exists t, returns (fun n => packrat_parse n g []) (Some t)
    /\ ((derives g s0 [] /\ is_tree g s0 t [])
        \/ (~ derives g s0 [] /\ t = PN (lexeme_new s0) [])).
Proof.
  intros Hwf En. assert (Htk : terminal_kinds g []) by (intros x Hx; inversion Hx).
  destruct (packrat_main g [] Hwf Htk) as (r & H & H0 & H1).
  destruct (H1 s0 rest En) as [(t & -> & Ht & _)|[Hn ->]].
  - exists t. split; [done|]. left. split; [|done].
    destruct (packrat_main g [] Hwf Htk) as (r' & H' & _ & H1').
    clear - Ht. remember [] as l eqn:El in Ht.
    assert (is_tree g s0 t l -> derives g s0 (map lx_kind l)) as HX.
    { clear. intros H.
      refine (is_tree_mut g (fun s t l _ => derives g s (map lx_kind l))
                (fun p ts l _ => derives_seq g p (map lx_kind l)) _ _ _ _ _ _ _ H).
      - intros lx E. apply der_term; done.
      - intros; eapply der_nt; eauto.
      - constructor.
      - intros. rewrite map_app. constructor; auto. }
    subst l. apply (HX Ht).
  - eexists. split; [exact H|]. right. split; [done|]. reflexivity.
Qed.

Lemma packrat_shapes g l1 l2 r1 r2 : map lx_kind l1 = map lx_kind l2 ->
  returns (fun n => packrat_parse n g l1) r1 -> returns (fun n => packrat_parse n g l2) r2 ->
  option_map shape r1 = option_map shape r2.
Proof.
  intros H [F1 H1] [F2 H2]. pose proof (packrat_shape (F1 + F2) g l1 l2 H) as HS.
  rewrite H1, H2 in HS by lia. simpl in HS. congruence.
Qed.

Lemma packrat_returns_shape g l1 l2 r1 : map lx_kind l1 = map lx_kind l2 ->
  returns (fun n => packrat_parse n g l1) r1 -> exists r2, returns (fun n => packrat_parse n g l2) r2.
Proof.
  intros H [F1 H1]. pose proof (packrat_shape F1 g l1 l2 H) as HS. rewrite H1 in HS by lia. simpl in HS.
  destruct (packrat_parse F1 g l2) as [r2| |] eqn:E; try discriminate.
  exists r2. eapply returns_at; [|exact E]. apply packrat_parse_mono.
Qed.
