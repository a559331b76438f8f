(** How much work a parse is. *)
From Verif.model Require Export Packrat Threads.
From Verif.spec Require Export GrammarSpec.

(** Packrat's Parse as in model/Packrat.v, but the loop of packrat.go:102-106 gives up
    ([OutOfFuel]) when work is left after [rounds] rounds. *)
Definition parse_within (rounds fuel : nat) (g : grammar) (lexemes : list lexeme) : res (option pn) :=
  match g_nts g with
  | [] => Ok None
  | nt0 :: _ =>
      set1 <-! load_grammar g set_new;
      let '(lxms, st) := load_lexemes set1 lexemes in
      let nonterms := mark_nonterms st (g_nts g) (replicate (sym_count st) false) in
      let kinds := map fst lxms in
      let start := fst (set_str st nt0) in
      s1 <-! add_prods fuel (prods_of g st) nonterms kinds fuel (start, 0) pst_init;
      s2 <-! run fuel (prods_of g st) nonterms kinds rounds s1;
      let accept := ((start, 0), length lexemes) in
      let accepted := mget (memo s2) accept in
      if td_end accepted =? length lexemes then
        t <-! to_pn fuel lxms (memo s2) (name_of st) accepted;
        Ok (Some t)
      else Ok None
  end.

Definition sum (l : list nat) : nat := fold_right Nat.add 0 l.
(** The number of symbols written on the right of the arrows. *)
Definition written (g : grammar) : nat :=
  sum (map (fun nt => sum (map (@length gostring) (default [] (g_prods g nt)))) (g_nts g)).
(** No production has more than [k] symbols. *)
Definition at_most (k : nat) (g : grammar) : Prop :=
  forall nt ps p, g_prods g nt = Some ps -> p ∈ ps -> length p <= k.

(** The calls of grammar methods that a program makes when nothing else uses the grammar. *)
Fixpoint asked {R} (g : gr) (p : prog R) : list call :=
  match p with
  | Done _ => []
  | Call c k => c :: asked (snd (gr_call g c)) (k (fst (gr_call g c)))
  end.
(** How often Productions is called for the symbol named [x], and how often any other
    method is called. *)
Definition lookups (x : gostring) (l : list call) : nat :=
  length (List.filter (fun c => match c with CProductions (s, _) => bool_decide (s = x) | _ => false end) l).
Definition others (l : list call) : nat :=
  length (List.filter (fun c => match c with CProductions _ => false | _ => true end) l).
