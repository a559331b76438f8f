(** C16-C19, C60: grammar/grammar.go. [gr_new] is New ([None] for its error),
    [gr_run g cs] the answers of the calls [cs] made one after the other on [g],
    [built] any Grammar obtained from New or Empty and any history of calls, and
    [gr_view] what the Grammar interface shows. *)
From Coq Require Import String.
From Verif.spec Require Import GrammarSpec.
From Verif.model Require Import GrammarClient.
From Verif.proofs Require GrammarProofs GrammarText GrammarThms.

(** C16 *)
Theorem c16_grammar_round_trip def g :
  gr_new def = Some g ->
  exists g', gr_new (gr_string g) = Some g' /\ same_grammar (gr_view g') (gr_view g)
    /\ gr_string g' = gr_string g.
Proof. exact (GrammarText.gr_new_round_trip def g). Qed.
Print Assumptions c16_grammar_round_trip.

(** C17 *)
Theorem c17_grammar_history cs : gr_run gr_empty cs = am_run [] cs.
Proof. exact (GrammarProofs.gr_history cs). Qed.
Print Assumptions c17_grammar_history.
Theorem c17_grammar_new_history def A g cs :
  text_means def A -> gr_new def = Some g -> gr_run g cs = am_run A cs.
Proof. exact (GrammarThms.new_history def A g cs). Qed.
Print Assumptions c17_grammar_new_history.
Theorem c17_grammar_wf g : built g -> g_wf (gr_view g).
Proof. exact (GrammarThms.built_wf g). Qed.
Print Assumptions c17_grammar_wf.
Example c17_example :
  gr_run gr_empty [CProductions (L "A", false); CAdd (L "B", false) (Some [(L "A", true)]);
    CAdd (L "A", true) None; CAdd (L "B", true) (Some [(L "c", false)]); CProductions (L "B", false); CNonTerminals]
  = [AProds None; AUnit; AUnit; AUnit; AProds (Some [[L "A"]; [L "c"]]); ANames [L "B"; L "A"]].
Proof. exact GrammarThms.ex_run. Qed.

(** C18: a lookup inserted anywhere changes no other answer, and writes nothing when
    it asks about a symbol the grammar mentions. *)
Theorem c18_lookup_invisible g pre l post :
  built g -> lookup_call l = true ->
  exists a, gr_run g (pre ++ l :: post)
    = take (length pre) (gr_run g (pre ++ post)) ++ a :: drop (length pre) (gr_run g (pre ++ post)).
Proof. exact (GrammarThms.built_lookup g pre l post). Qed.
Print Assumptions c18_lookup_invisible.
Theorem c18_lookup_no_write g c :
  built g -> lookup_call c = true ->
  (forall s own, c = CProductions (s, own) -> mentions (gr_view g) s) ->
  snd (gr_call g c) = g.
Proof. exact (GrammarThms.built_no_write g c). Qed.
Print Assumptions c18_lookup_no_write.
Example c18_example : exists g, built g /\ printable (gr_view g) /\ mentions (gr_view g) (L "+").
Proof. exact GrammarThms.ex_built. Qed.

(** C19 *)
Theorem c19_grammar_new def :
  (gr_new def = None <-> exists a b c, def = a ++ L "->" ++ b ++ L "->" ++ c /\ c_nl ∉ b)
  /\ forall g, gr_new def = Some g -> exists A, text_means def A /\ same_grammar (gr_view g) (gram_of A)
       /\ forall A', text_means def A' -> A' = A.
Proof. exact (GrammarThms.new_meaning def). Qed.
Print Assumptions c19_grammar_new.
Example c19_example :
  text_means GrammarThms.ex_def GrammarThms.ex_A
  /\ (exists g, gr_new GrammarThms.ex_def = Some g /\ g_nts (gr_view g) = [L "E"; L "T"]
       /\ g_prods (gr_view g) (L "E") = Some [[L "E"; L "+"; L "E"]; [L "|"; L "n"]; [L "n"; L "x"]])
  /\ gr_new (L "A -> b -> c") = None.
Proof. exact (conj GrammarThms.ex_means (conj GrammarThms.ex_new GrammarThms.ex_bad)). Qed.

(** C60 is false for grammars built with Add; exactly the printable ones read back. *)
Theorem c60_string_copy_refuted : exists g g',
  built g /\ gr_new (gr_string g) = Some g' /\ ~ same_grammar (gr_view g') (gr_view g).
Proof. exact GrammarThms.add_round_trip_refuted. Qed.
Print Assumptions c60_string_copy_refuted.
Theorem c60_string_copy_partial g :
  built g ->
  ((exists g', gr_new (gr_string g) = Some g' /\ same_grammar (gr_view g') (gr_view g))
   <-> printable (gr_view g)).
Proof. exact (GrammarThms.built_round_trip g). Qed.
Print Assumptions c60_string_copy_partial.
