(** C92, C93: goroutines that share a grammar or a lexer. [turn] lets one of them make its next call of a
    method of the grammar; a call of a parser is a sequence of such calls ([job_prog]). *)
From Coq Require Import String.
From Verif.spec Require Import Outcome ThreadSpec.
From Verif.model Require SimpleLexer StackLexer.
From Verif.proofs Require ThreadProofs ThreadWit SharedLexWit.

(** Calls that only read should not disturb each other, but Productions of a symbol that the
    grammar does not know writes to its maps: two such calls are a data race. *)
Theorem c92_shared_refuted : exists g jobs, built g /\ Forall reading jobs
  /\ exists j j2, jobs = [j; j2]%list
       /\ forall fuel, about_to_write g (job_prog fuel j) /\ about_to_write g (job_prog fuel j2).
Proof. exact ThreadWit.sh_race. Qed.
Print Assumptions c92_shared_refuted.

(** Nothing else writes: whatever the schedule, parses by either parser, IsLeftRecursive and
    the reading methods leave the grammar as it is and give what they give alone. *)
Theorem c92_shared_partial fuel g jobs g' ts :
  built g -> Forall reading jobs -> Forall (polite (gr_view g)) jobs ->
  rtc turn (g, map (job_prog fuel) jobs) (g', ts) ->
  g' = g
  /\ (forall i t, ts !! i = Some t -> ~ about_to_write g' t)
  /\ (forall i r, ts !! i = Some (Done r) -> exists j, jobs !! i = Some j /\ r = job_alone fuel g j).
Proof. exact (ThreadProofs.shared fuel g jobs g' ts). Qed.
Print Assumptions c92_shared_partial.

(** No schedule goes on for ever. *)
Theorem c92_ends (f : nat -> gr * list (prog outcome)) : ~ (forall n, turn (f n) (f (S n))).
Proof. exact (ThreadProofs.turns_end f). Qed.
Print Assumptions c92_ends.

(** Two packrat parses, a topdown parse, IsLeftRecursive and two method calls, one call at a
    time in turn. *)
Example c92_example :
  built ThreadWit.sh_g /\ Forall reading ThreadWit.sh_jobs /\ Forall (polite (gr_view ThreadWit.sh_g)) ThreadWit.sh_jobs
  /\ exists ts, rtc turn (ThreadWit.sh_g, map (job_prog 40) ThreadWit.sh_jobs) (ThreadWit.sh_g, ts)
       /\ exists t2, map ThreadWit.finished ts
          = [Some (OTree (Ok (Some ThreadWit.sh_tree))); Some (OTree (Ok (Some t2))); Some (OBool (Ok false)); Some (OTree (Ok None));
             Some (OAnswer (AProds None)); Some (OAnswer (AText (L "S -> a S" ++ [c_nl] ++ L "  -> b")))]%list.
Proof. exact ThreadWit.sh_runs. Qed.

(** C93: Lex should only read its lexer. A simple lexer is written to by the first Lex that
    meets junk, a stack lexer by its first Lex whatever the text, so goroutines that share a
    new lexer race. *)
Theorem c93_simple_refuted : exists cs l s xs l',
  returns (SimpleLexer.sl_calls cs SimpleLexer.slexer_empty) l /\ returns (SimpleLexer.slex l s) (xs, l') /\ l' <> l.
Proof. exact SharedLexWit.simple_race. Qed.
Print Assumptions c93_simple_refuted.
Theorem c93_stack_refuted : exists compile definitions l s xs l',
  StackSpec.built compile definitions nil l
  /\ returns (StackLexer.st_lex l s) (xs, l') /\ SimpleLexer.lex_errors xs = nil /\ l' <> l.
Proof. exact SharedLexWit.stack_race. Qed.
Print Assumptions c93_stack_refuted.

(** Exactly these write. A lexer's set of symbols only grows, so one that is unchanged has
    not been written to. *)
Theorem c93_simple_partial l s xs l' : returns (SimpleLexer.slex l s) (xs, l') ->
  (l' = l <-> SimpleLexer.lex_errors xs = nil \/ set_has (SimpleLexer.sl_set l) (SimpleLexer.sl_error l) = true).
Proof. exact (SharedLexWit.simple_writes l s xs l'). Qed.
Print Assumptions c93_simple_partial.
Theorem c93_stack_partial l s xs l' : returns (StackLexer.st_lex l s) (xs, l') ->
  (l' = l <-> set_has (StackLexer.stl_set l) (StackLexer.stl_error l) = true).
Proof. exact (SharedLexWit.stack_writes l s xs l'). Qed.
Print Assumptions c93_stack_partial.

(** After that the lexer may be shared. *)
Theorem c93_simple_warm l s xs l1 : returns (SimpleLexer.slex l s) (xs, l1) -> SimpleLexer.lex_errors xs <> nil ->
  forall s2 ys l2, returns (SimpleLexer.slex l1 s2) (ys, l2) -> l2 = l1.
Proof. exact (SharedLexWit.simple_after_junk l s xs l1). Qed.
Print Assumptions c93_simple_warm.
Theorem c93_stack_warm l s xs l1 : returns (StackLexer.st_lex l s) (xs, l1) ->
  forall s2 ys l2, returns (StackLexer.st_lex l1 s2) (ys, l2) -> l2 = l1.
Proof. exact (SharedLexWit.stack_again l s xs l1). Qed.
Print Assumptions c93_stack_warm.
Example c93_example :
  (exists xs l1, returns (SimpleLexer.slex LexWit.words_lexer (L "?")) (xs, l1) /\ SimpleLexer.lex_errors xs <> nil
     /\ exists ys l2, returns (SimpleLexer.slex l1 (L "ab?")) (ys, l2))
  /\ (exists xs l1, returns (StackLexer.st_lex StackWit.demo_lexer (L "a")) (xs, l1)
     /\ exists ys l2, returns (StackLexer.st_lex l1 StackWit.demo_input) (ys, l2)).
Proof. exact (conj SharedLexWit.simple_warm SharedLexWit.stack_warm). Qed.
