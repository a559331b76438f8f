(** C52, C69: tree/reducer. [rd_package] says how the package's variables come about; [l]
    is the package's lexer after Parse has been called on [texts]. *)
From Coq Require Import String.
From Verif.spec Require Import ReducerSpec.
From Verif.proofs Require RdEval RdText RdWit.

(** The package's variables are made without a panic, and calls leave the lexer as lexing
    their texts does. *)
Theorem c52_ready compile : compiles compile rg_table -> compiles compile rd_table -> exists l0 g rd, rd_package compile l0 g rd.
Proof. exact (RdText.package_ready compile). Qed.
Print Assumptions c52_ready.
Theorem c52_calls l0 l g rd (texts : list gostring) s x l' : returns (sl_calls (map CLex texts) l0) l ->
  returns (rd_parse l g rd s) (x, l') -> returns (sl_calls (map CLex (texts ++ [s])) l0) l'.
Proof. exact (RdText.parse_lexer l0 l g rd texts s x l'). Qed.
Print Assumptions c52_calls.
(** A number that is no integer is accepted and read as 0: RemoveChild(1.5) removes child 0. *)
Theorem c52_fraction_refuted : exists compile l g rd s D r l', rd_package compile l g rd /\ describes s D
  /\ D = [(L "A", [SRemoveChild (L "1.5")])]%list
  /\ returns (rd_parse l g rd s) (inl r, l') /\ forall n, run_red (reduction_for r (L "A")) n = fst (remove_child 0 n).
Proof. exact RdWit.fraction_refuted. Qed.
Print Assumptions c52_fraction_refuted.
(** Strings are taken as written: an escaped quote keeps its backslash. *)
Theorem c52_escape_refuted : exists compile l g rd r l', rd_package compile l g rd
  /\ describes RdWit.esc_text [(L "A", [SRemoveAll [RdWit.esc_raw]])]%list
  /\ returns (rd_parse l g rd RdWit.esc_text) (inl r, l') /\ run_red (reduction_for r (L "A")) RdWit.esc_node = RdWit.esc_node.
Proof. exact RdWit.escape_refuted. Qed.
Print Assumptions c52_escape_refuted.
(** Parse of a description makes a reducer with its kinds whose reductions do the steps of
    the kind's last rule in order. Missing: steps with a number that is no integer; strings
    are the texts between the quotes. *)
Theorem c52_means_partial compile l0 g rd l texts s D : rd_package compile l0 g rd -> returns (sl_calls (map CLex texts) l0) l ->
  describes s D -> exists r l', returns (rd_parse l g rd s) (inl r, l') /\ reducer_means r D.
Proof. exact (RdText.text_ok compile l0 g rd l texts s D). Qed.
Print Assumptions c52_means_partial.
Example c52_example : compiles RdWit.both rg_table /\ compiles RdWit.both rd_table /\ describes RdWit.demo_text RdWit.demo
  /\ Forall ints_only (steps_for RdWit.demo (L "E")).
Proof. exact (conj RdWit.both_rg (conj RdWit.both_rd (conj RdWit.demo_describes RdWit.demo_ints))). Qed.
Example c52_example_runs :
  RdWit.run_with RdWit.demo_text (L "E") (RdWit.nd "E" [RdWit.nd "a" []; RdWit.nd "op" [RdWit.nd "lp" []; RdWit.nd "x" []; RdWit.nd "rp" []]; RdWit.nd "b" []])
    = Some (inl (RdWit.nd "op" [RdWit.nd "x" []]))
  /\ RdWit.run_with RdWit.demo_text (L "E") (RdWit.nd "E" [RdWit.nd "a" []; RdWit.nd "q" []; RdWit.nd "b" []]) = Some (inl (RdWit.nd "E" [RdWit.nd "q" []])).
Proof. exact (conj (proj1 RdWit.demo_runs) (proj1 (proj2 RdWit.demo_runs))). Qed.

(** A text describes at most one reducer. *)
Theorem c69_unique D u D' : writes D u -> writes D' u -> D = D'.
Proof. exact (RdEval.writes_unique D u D'). Qed.
Print Assumptions c69_unique.
(** Every text has junk or tokens; junk is reported, and so are tokens that write nothing. *)
Theorem c69_cases s : (exists v, lexes_not (rd_calls []) s v) \/ exists lxs, lexes_to (rd_calls []) s lxs.
Proof. exact (RdText.parse_cases s). Qed.
Print Assumptions c69_cases.
Theorem c69_junk compile l0 g rd l texts s v : rd_package compile l0 g rd -> returns (sl_calls (map CLex texts) l0) l ->
  lexes_not (rd_calls []) s v -> exists l', returns (rd_parse l g rd s) (inr (ErrLex (Lx (L "Error") v (-1) 0)), l').
Proof. exact (RdText.text_junk compile l0 g rd l texts s v). Qed.
Print Assumptions c69_junk.
Theorem c69_not_description compile l0 g rd l texts s lxs : rd_package compile l0 g rd -> returns (sl_calls (map CLex texts) l0) l ->
  lexes_to (rd_calls []) s lxs -> (forall D, ~ writes D lxs) -> exists l', returns (rd_parse l g rd s) (inr ErrCouldNotParse, l').
Proof. exact (RdText.text_bad compile l0 g rd l texts s lxs). Qed.
Print Assumptions c69_not_description.
Theorem c69_description compile l0 g rd l texts s lxs D : rd_package compile l0 g rd -> returns (sl_calls (map CLex texts) l0) l ->
  lexes_to (rd_calls []) s lxs -> writes D lxs -> exists r l', returns (rd_parse l g rd s) (inl r, l')
    /\ forall k, is_Some (r !! k) <-> k ∈ map fst D.
Proof. exact (RdText.text_keys compile l0 g rd l texts s lxs D). Qed.
Print Assumptions c69_description.
Example c69_example : lexes_to (rd_calls []) (L "A RemoveAll()") RdWit.bad_toks /\ forall D, ~ writes D RdWit.bad_toks.
Proof. exact RdWit.bad_lexes. Qed.
Example c69_example_runs :
  RdWit.run_with (L "A RemoveAll()") (L "A") (RdWit.nd "A" []) = Some (inr ErrCouldNotParse)
  /\ RdWit.run_with (L "Nil RemoveChild(1)") (L "A") (RdWit.nd "A" []) = Some (inr ErrCouldNotParse)
  /\ RdWit.run_with (L "A Nil ?") (L "A") (RdWit.nd "A" []) = Some (inr (ErrLex (Lx (L "Error") (L "?") (-1) 0))).
Proof. exact (proj2 (proj2 (proj2 (proj2 (proj2 RdWit.demo_runs))))). Qed.
