(** C01-C04, C06-C08, C76, C91: parser/packrat. [packrat_parse n g lxs] is Parse run with
    fuel [n]; [returns], [panics] (spec/Outcome.v) say what the call does. *)
From Coq Require Import String.
From Verif.spec Require Import Outcome CFG PackratSpec TreeOrder.
From Verif.model Require Import Packrat.
From Verif.proofs Require PackratThms PackratProofs PackratWit TreeOrderProofs TreeOrderWit.

(** C01 *)
Theorem c01_packrat_total g lexemes :
  g_wf g -> terminal_kinds g lexemes ->
  exists r, returns (fun n => packrat_parse n g lexemes) r.
Proof. exact (PackratThms.packrat_total g lexemes). Qed.
Print Assumptions c01_packrat_total.

(** C02 *)
Theorem c02_packrat_sound g lexemes t :
  g_wf g -> terminal_kinds g lexemes -> lexemes <> [] ->
  returns (fun n => packrat_parse n g lexemes) (Some t) ->
  exists s0 rest, g_nts g = s0 :: rest /\ is_tree g s0 t lexemes.
Proof. intros Hwf Htk. exact (PackratThms.packrat_sound g lexemes Hwf Htk t). Qed.
Print Assumptions c02_packrat_sound.

(** C03 *)
Theorem c03_packrat_complete g lexemes :
  g_wf g -> terminal_kinds g lexemes -> generates g (map lx_kind lexemes) ->
  exists t, returns (fun n => packrat_parse n g lexemes) (Some t).
Proof. exact (PackratThms.packrat_complete g lexemes). Qed.
Print Assumptions c03_packrat_complete.

(** C04 *)
Theorem c04_packrat_earliest g lexemes s0 rest t :
  g_wf g -> terminal_kinds g lexemes -> acyclic_grammar g ->
  g_nts g = s0 :: rest -> derives g s0 (map lx_kind lexemes) ->
  returns (fun n => packrat_parse n g lexemes) (Some t) ->
  earliest_tree g s0 t lexemes.
Proof. intros Hwf Htk. exact (PackratThms.packrat_earliest g lexemes Hwf Htk s0 rest t). Qed.
Print Assumptions c04_packrat_earliest.

(** The hypotheses of C01-C04 are met by a left recursive, ambiguous grammar
    [E -> E + E | E * E | n] on "n + n * n", on which Parse picks the split at +. *)
Example c04_example :
  g_wf PackratWit.expr /\ acyclic_grammar PackratWit.expr
  /\ terminal_kinds PackratWit.expr PackratWit.n_plus_n_times_n
  /\ generates PackratWit.expr (map lx_kind PackratWit.n_plus_n_times_n)
  /\ packrat_parse 40 PackratWit.expr PackratWit.n_plus_n_times_n
     = Ok (Some PackratWit.expr_tree).
Proof. exact PackratWit.expr_ok. Qed.

(** ... and by a cyclic nullable one, [A -> A | A A | a | ]. *)
Example c01_example :
  g_wf PackratWit.cyc /\ terminal_kinds PackratWit.cyc PackratWit.aa
  /\ generates PackratWit.cyc (map lx_kind PackratWit.aa)
  /\ exists t, packrat_parse 60 PackratWit.cyc PackratWit.aa = Ok (Some t).
Proof. exact PackratWit.cyc_ok. Qed.

(** C06 is false: [S -> a] on no lexemes gives a node although S does not derive
    the empty string. *)
Theorem c06_packrat_empty_refuted : exists g s0 rest t,
  g_wf g /\ g_nts g = s0 :: rest /\ ~ derives g s0 []
  /\ returns (fun n => packrat_parse n g []) (Some t).
Proof. exact PackratWit.empty_refuted. Qed.
Print Assumptions c06_packrat_empty_refuted.

(** What does hold: Parse never returns nil on empty input; the node is a
    derivation of the empty string when there is one, and otherwise a childless
    start node. *)
Theorem c06_packrat_empty_partial g s0 rest :
  g_wf g -> g_nts g = s0 :: rest ->
  exists t, returns (fun n => packrat_parse n g []) (Some t)
    /\ ((derives g s0 [] /\ is_tree g s0 t [])
        \/ (~ derives g s0 [] /\ t = PN (lexeme_new s0) [])).
Proof. exact (PackratThms.packrat_empty g s0 rest). Qed.
Print Assumptions c06_packrat_empty_partial.

(** C07; no hypothesis on the grammar or the kinds. *)
Theorem c07_packrat_shape g l1 l2 r1 :
  map lx_kind l1 = map lx_kind l2 ->
  returns (fun n => packrat_parse n g l1) r1 ->
  exists r2, returns (fun n => packrat_parse n g l2) r2
    /\ option_map shape r1 = option_map shape r2.
Proof. exact (PackratWit.shapes g l1 l2 r1). Qed.
Print Assumptions c07_packrat_shape.

Example c07_example : exists l1 l2 t1 t2,
  l1 <> l2 /\ map lx_kind l1 = map lx_kind l2 /\ t1 <> t2
  /\ packrat_parse 40 PackratWit.expr l1 = Ok (Some t1)
  /\ packrat_parse 40 PackratWit.expr l2 = Ok (Some t2).
Proof. exact PackratWit.shapes_ex. Qed.

(** C08 is false twice over. [S -> N x; N -> ] panics on one lexeme of kind S ... *)
Theorem c08_packrat_nonterminal_kind_refuted : exists g lexemes,
  g_wf g /\ panics (fun n => packrat_parse n g lexemes).
Proof. exact PackratWit.panic_refuted. Qed.
Print Assumptions c08_packrat_nonterminal_kind_refuted.

(** ... and [S -> q | N x; N -> ] returns a node that is no derivation tree. *)
Theorem c08_packrat_wrong_tree_refuted : exists g s0 rest lexemes t,
  g_wf g /\ g_nts g = s0 :: rest /\ lexemes <> []
  /\ returns (fun n => packrat_parse n g lexemes) (Some t)
  /\ ~ is_tree g s0 t lexemes.
Proof. exact PackratWit.wrong_tree_refuted. Qed.
Print Assumptions c08_packrat_wrong_tree_refuted.

(** What does hold: Parse returns nil, unless a lexeme is named like a non-terminal that may
    stand there and has a production of two or more symbols the first of which derives the
    empty string, as in the two counterexamples. Missing: those inputs. *)
Theorem c08_refused_partial g lexemes lx : g_wf g -> not_mistaken g lexemes -> lx ∈ lexemes -> g_prods g (lx_kind lx) <> None ->
  returns (fun n => packrat_parse n g lexemes) None.
Proof. exact (PackratProofs.packrat_refuses g lexemes lx). Qed.
Print Assumptions c08_refused_partial.
Example c08_example : (g_wf PackratWit.expr /\ not_mistaken PackratWit.expr PackratWit.n_plus_E /\ PackratWit.tok (L "E") 3 ∈ PackratWit.n_plus_E
    /\ g_prods PackratWit.expr (lx_kind (PackratWit.tok (L "E") 3)) <> None)
  /\ (g_wf PackratWit.late /\ not_mistaken PackratWit.late PackratWit.A_b /\ PackratWit.tok (L "A") 1 ∈ PackratWit.A_b
    /\ g_prods PackratWit.late (lx_kind (PackratWit.tok (L "A") 1)) <> None).
Proof. exact (conj PackratWit.n_plus_E_fine PackratWit.late_fine). Qed.

(** C76: ambiguity inside a production. Of the ways to split a node's lexemes among the
    symbols of its production, the returned tree uses the best one if there is a best one. *)
Theorem c76_packrat_split g lexemes s0 rest t :
  g_wf g -> terminal_kinds g lexemes -> acyclic_grammar g ->
  g_nts g = s0 :: rest -> derives g s0 (map lx_kind lexemes) ->
  returns (fun n => packrat_parse n g lexemes) (Some t) ->
  ranked_tree g s0 t lexemes.
Proof. intros Hwf Htk. exact (PackratThms.packrat_ranked g lexemes Hwf Htk s0 rest t). Qed.
Print Assumptions c76_packrat_split.

(** [E -> E + E | E * E | n] on "n + n + n": the best split is the one at the last +. *)
Example c76_example :
  g_wf PackratWit.expr /\ acyclic_grammar PackratWit.expr
  /\ terminal_kinds PackratWit.expr PackratWit.n_plus_n_plus_n
  /\ derives PackratWit.expr (L "E") (map lx_kind PackratWit.n_plus_n_plus_n)
  /\ best_split PackratWit.expr [L "E"; L "+"; L "E"]%list (map lx_kind PackratWit.n_plus_n_plus_n)
       [[L "n"; L "+"; L "n"]; [L "+"]; [L "n"]]%list
  /\ packrat_parse 40 PackratWit.expr PackratWit.n_plus_n_plus_n = Ok (Some PackratWit.left_tree).
Proof. exact PackratWit.left_ok. Qed.

(** C91: among all derivation trees of the input the returned one should be unbeaten in the
    order in which packrat compares trees. It is if the root's production can be split in a
    best way; for other inputs it is not, see below. *)
Theorem c91_packrat_unbeaten_partial g lexemes s0 rest t :
  g_wf g -> terminal_kinds g lexemes -> acyclic_grammar g ->
  g_nts g = s0 :: rest -> derives g s0 (map lx_kind lexemes) ->
  (forall ps p, g_prods g s0 = Some ps -> p ∈ ps -> derives_seq g p (map lx_kind lexemes) ->
     exists parts, best_split g p (map lx_kind lexemes) parts) ->
  returns (fun n => packrat_parse n g lexemes) (Some t) ->
  forall t2, is_tree g s0 t2 lexemes -> ~ better g t2 t.
Proof. exact (TreeOrderProofs.packrat_unbeaten g lexemes s0 rest t). Qed.
Print Assumptions c91_packrat_unbeaten_partial.

(** "n + n + n" has two trees; the hypotheses hold and the left one is returned. *)
Example c91_example :
  g_wf PackratWit.expr /\ terminal_kinds PackratWit.expr PackratWit.n_plus_n_plus_n /\ acyclic_grammar PackratWit.expr
  /\ derives PackratWit.expr (L "E") (map lx_kind PackratWit.n_plus_n_plus_n)
  /\ (forall ps p, g_prods PackratWit.expr (L "E") = Some ps -> p ∈ ps ->
        derives_seq PackratWit.expr p (map lx_kind PackratWit.n_plus_n_plus_n) ->
        exists parts, best_split PackratWit.expr p (map lx_kind PackratWit.n_plus_n_plus_n) parts)
  /\ is_tree PackratWit.expr (L "E") TreeOrderWit.right_tree PackratWit.n_plus_n_plus_n
  /\ packrat_parse 40 PackratWit.expr PackratWit.n_plus_n_plus_n = Ok (Some PackratWit.left_tree).
Proof. exact TreeOrderWit.expr_unbeaten. Qed.

(** For [A -> A A | b | b b] and "b b b" Parse returns b (b b), although (b b) b is better:
    its first child is made by the first production and that of the returned tree by the second.
    The two were compared while the memo held the third production for "b b". *)
Theorem c91_packrat_unbeaten_refuted : exists g lexemes s0 rest t t2,
  g_wf g /\ terminal_kinds g lexemes /\ acyclic_grammar g /\ g_nts g = (s0 :: rest)%list
  /\ derives g s0 (map lx_kind lexemes) /\ returns (fun n => packrat_parse n g lexemes) (Some t)
  /\ is_tree g s0 t lexemes /\ is_tree g s0 t2 lexemes /\ better g t2 t.
Proof. exact TreeOrderWit.twice_beaten. Qed.
Print Assumptions c91_packrat_unbeaten_refuted.
