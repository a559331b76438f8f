(** C57, C70 and C71: the JSON example. *)
From Coq Require Import String.
From Verif.spec Require Import JsonSpec.
From Verif.proofs Require JsonThms JsonText JsonSame JsonWit.

(** C57 *)
Theorem c57_tokens : forall compile l0 l g rd (texts : list gostring) s o l',
  js_package compile l0 g rd -> returns (sl_calls (map CLex texts) l0) l -> returns (js_format l g rd s) ((o, None), l') ->
  exists lxs lxs', lexes_to (js_calls nil) s lxs /\ lexes_to (js_calls nil) o lxs'
    /\ map (fun x => (lx_kind x, lx_val x)) lxs' = map (fun x => (lx_kind x, lx_val x)) lxs.
Proof. exact (fun c l0 l g rd t s o l' H Hl => JsonSame.format_tokens c l0 l g rd t H Hl s o l'). Qed.
Print Assumptions c57_tokens.

(** The document a text is of is the document its formatted text is of. *)
Theorem c57_document : forall compile l0 l g rd (texts : list gostring) s o l',
  js_package compile l0 g rd -> returns (sl_calls (map CLex texts) l0) l -> returns (js_format l g rd s) ((o, None), l') ->
  exists J, forall J', (js_doc J' s <-> J' = J) /\ (js_doc J' o <-> J' = J).
Proof. exact (fun c l0 l g rd t s o l' H Hl => JsonSame.format_document c l0 l g rd t H Hl s o l'). Qed.
Print Assumptions c57_document.

Theorem c57_unambiguous : forall J J' s, js_doc J s -> js_doc J' s -> J = J'.
Proof. exact JsonText.doc_unique. Qed.
Print Assumptions c57_unambiguous.

Theorem c57_again : forall compile l0 l g rd (texts : list gostring) s o l',
  js_package compile l0 g rd -> returns (sl_calls (map CLex texts) l0) l -> returns (js_format l g rd s) ((o, None), l') ->
  exists l'', returns (js_format l' g rd o) ((o, None), l'').
Proof. exact (fun c l0 l g rd t s o l' H Hl => JsonSame.format_again c l0 l g rd t H Hl s o l'). Qed.
Print Assumptions c57_again.

(** Format always returns, and the lexer is again one that has read texts. *)
Theorem c57_total : forall compile l0 l g rd (texts : list gostring) s,
  js_package compile l0 g rd -> returns (sl_calls (map CLex texts) l0) l -> exists x l', returns (js_format l g rd s) (x, l').
Proof. exact (fun c l0 l g rd t s H Hl => JsonThms.format_total c l0 l g rd t H Hl s). Qed.
Print Assumptions c57_total.

Theorem c57_lexer : forall l0 l g rd (texts : list gostring) s x l', returns (sl_calls (map CLex texts) l0) l ->
  returns (js_format l g rd s) (x, l') -> returns (sl_calls (map CLex (texts ++ (s :: nil))) l0) l'.
Proof. exact JsonThms.run_lexer. Qed.
Print Assumptions c57_lexer.

Theorem c57_ready : forall compile, compiles compile rg_table -> compiles compile rd_table -> compiles compile js_table ->
  exists l0 g rd, js_package compile l0 g rd.
Proof. exact JsonThms.js_package_ready. Qed.
Print Assumptions c57_ready.

Example c57_package : exists compile l0 g rd, js_package compile l0 g rd /\ returns (sl_calls (map CLex nil) l0) l0.
Proof. exact (ex_intro _ JsonWit.three JsonWit.three_package). Qed.
Example c57_compiles : compiles JsonWit.three rg_table /\ compiles JsonWit.three rd_table /\ compiles JsonWit.three js_table.
Proof. exact (conj JsonWit.three_rg (conj JsonWit.three_rd JsonWit.three_js)). Qed.
Example c57_case : js_doc JsonWit.demo JsonWit.demo_text /\ layout 0 JsonWit.demo = JsonWit.demo_out.
Proof. exact (conj JsonWit.demo_doc JsonWit.demo_layout). Qed.

(** C71 *)
Theorem c71_layout : forall compile l0 l g rd (texts : list gostring) J s,
  js_package compile l0 g rd -> returns (sl_calls (map CLex texts) l0) l -> js_doc J s ->
  exists l', returns (js_format l g rd s) ((layout 0 J, None), l').
Proof. exact (fun c l0 l g rd t J s H Hl => JsonThms.format_ok c l0 l g rd t H Hl J s). Qed.
Print Assumptions c71_layout.

Theorem c71_only : forall compile l0 l g rd (texts : list gostring) s o l',
  js_package compile l0 g rd -> returns (sl_calls (map CLex texts) l0) l -> returns (js_format l g rd s) ((o, None), l') ->
  exists J, js_doc J s /\ o = layout 0 J.
Proof. exact (fun c l0 l g rd t s o l' H Hl => JsonThms.format_only c l0 l g rd t H Hl s o l'). Qed.
Print Assumptions c71_only.

Theorem c71_rejects : forall compile l0 l g rd (texts : list gostring) s,
  js_package compile l0 g rd -> returns (sl_calls (map CLex texts) l0) l -> (forall J, ~ js_doc J s) ->
  exists e l', returns (js_format l g rd s) ((nil, Some e), l').
Proof. exact (fun c l0 l g rd t s H Hl => JsonThms.format_error c l0 l g rd t H Hl s). Qed.
Print Assumptions c71_rejects.

(** The error: what the lexer could not read, or that the parser could not. *)
Theorem c71_lex_error : forall compile l0 l g rd (texts : list gostring) s v,
  js_package compile l0 g rd -> returns (sl_calls (map CLex texts) l0) l -> lexes_not (js_calls nil) s v ->
  exists l', returns (js_format l g rd s) ((nil, Some (ErrLex (Lx (L "Error") v (-1) 0))), l').
Proof. exact (fun c l0 l g rd t s v H Hl => JsonThms.format_junk c l0 l g rd t H Hl s v). Qed.
Print Assumptions c71_lex_error.

Theorem c71_parse_error : forall compile l0 l g rd (texts : list gostring) s lxs,
  js_package compile l0 g rd -> returns (sl_calls (map CLex texts) l0) l -> lexes_to (js_calls nil) s lxs -> (forall J, ~ js_doc J s) ->
  exists l', returns (js_format l g rd s) ((nil, Some ErrCouldNotParse), l').
Proof. exact (fun c l0 l g rd t s lxs H Hl => JsonThms.format_bad c l0 l g rd t H Hl s lxs). Qed.
Print Assumptions c71_parse_error.

Example c71_not : forall J, ~ js_doc J (L "-1").
Proof. exact JsonWit.minus_not. Qed.
Example c71_two_errors : lexes_not (js_calls nil) (L "[1,-]") (L "-")
  /\ (exists lxs, lexes_to (js_calls nil) (L "[1,]") lxs) /\ forall J, ~ js_doc J (L "[1,]").
Proof. exact JsonWit.two_errors. Qed.

(** C70 *)
Theorem c70_refuted : exists J s, rfc_doc J s /\ forall compile l0 l g rd (texts : list gostring),
  js_package compile l0 g rd -> returns (sl_calls (map CLex texts) l0) l -> exists e l', returns (js_format l g rd s) ((nil, Some e), l').
Proof. exact JsonWit.minus_refused. Qed.
Print Assumptions c70_refuted.

Theorem c70_refuted_more : exists s, (forall J, ~ rfc_doc J s) /\ forall compile l0 l g rd (texts : list gostring),
  js_package compile l0 g rd -> returns (sl_calls (map CLex texts) l0) l -> exists o l', returns (js_format l g rd s) ((o, None), l').
Proof. exact JsonWit.zeros_taken. Qed.
Print Assumptions c70_refuted_more.

(** Which documents of the RFC are formatted: those without signs and exponents. *)
Theorem c70_rfc_partial : forall compile l0 l g rd (texts : list gostring) J s,
  js_package compile l0 g rd -> returns (sl_calls (map CLex texts) l0) l -> rfc_doc J s ->
  (json_all (fun v => rfc_number v -> rfc_unsigned v) (fun _ => True) J -> exists l', returns (js_format l g rd s) ((layout 0 J, None), l'))
  /\ (~ json_all (fun v => rfc_number v -> rfc_unsigned v) (fun _ => True) J -> exists e l', returns (js_format l g rd s) ((nil, Some e), l')).
Proof. exact (fun c l0 l g rd t J s H Hl => JsonSame.format_rfc c l0 l g rd t H Hl J s). Qed.
Print Assumptions c70_rfc_partial.

(** Which formatted texts are documents of the RFC: those without form feeds whose numbers,
    strings and keys are the RFC's; their formatted texts are too. *)
Theorem c70_only_partial : forall compile l0 l g rd (texts : list gostring) s o l',
  js_package compile l0 g rd -> returns (sl_calls (map CLex texts) l0) l -> returns (js_format l g rd s) ((o, None), l') ->
  exists J, o = layout 0 J /\ js_doc J s
    /\ (12%N ∉ s -> json_all (fun v => leaf rfc_number rfc_string v) rfc_string J -> rfc_doc J s /\ rfc_doc J o).
Proof. exact (fun c l0 l g rd t s o l' H Hl => JsonSame.format_is_rfc c l0 l g rd t H Hl s o l'). Qed.
Print Assumptions c70_only_partial.

Example c70_signed : exists J s, rfc_doc J s /\ ~ json_all (fun v => rfc_number v -> rfc_unsigned v) (fun _ => True) J.
Proof. exact (ex_intro _ _ (ex_intro _ _ JsonWit.rfc_exponent)). Qed.
Example c70_plain : exists J s, rfc_doc J s /\ json_all (fun v => rfc_number v -> rfc_unsigned v) (fun _ => True) J
  /\ json_all (fun v => leaf rfc_number rfc_string v) rfc_string J /\ 12%N ∉ s.
Proof. exact (ex_intro _ _ (ex_intro _ _ JsonWit.rfc_plain)). Qed.
