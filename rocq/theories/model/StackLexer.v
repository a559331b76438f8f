(** lexer/stacklexer/construct.go and lexer/stacklexer/lex.go. Strings are bytes. *)
From Coq Require Import String.
From Verif.model Require Export SimpleLexer.
Local Open Scope string_scope.
Local Open Scope nat_scope.
Local Open Scope list_scope.

(** What FindSubmatchIndex returns: the match and the groups, None for a group that took
    no part (both its indexes are -1). *)
Record smatch := SMatch { sm_i : nat; sm_j : nat; sm_groups : list (option (nat * nat)) }.
(** *regexp.Regexp as this package uses it; the engine is a parameter. *)
Record sregexp := SRx { sx_find : gostring -> option smatch }.
Notation scompiler := (gostring -> option sregexp).

(** construct.go:53-56 [submatch]: section, str *)
Record submatch := SubM { sb_section : Z; sb_str : gostring }.
(** construct.go:43-51 [rule]; a nil submatches slice is the empty list. *)
Record srule := SRule {
  sr_kind : nat;
  sr_re : sregexp;
  sr_discard : bool;
  sr_priority : nat;
  sr_push : gostring;
  sr_pop : nat;
  sr_subs : list submatch
}.
(** construct.go:31-41 [subLexer]. Pointers to sub-lexers are indexes into [stl_subs].
    [inheirit.from] is written and never read; it is left out. *)
Record sublexer := Sub {
  su_name : gostring;
  su_order : list nat;
  su_rules : list (option srule);
  su_counter : nat;
  su_by : list nat
}.
(** construct.go:17-29 [StackLexer]; a nil start is None. *)
Record stlexer := StLexer {
  stl_subs : list sublexer;
  stl_lexers : gmap gostring nat;
  stl_first : option nat;
  stl_set : set;
  stl_error : gostring;
  stl_compare : Z -> Z -> Z -> Z -> bool;
  stl_start : gostring * gostring;
  stl_end : gostring * gostring
}.

(** construct.go:279-281 [priorityThenLength], construct.go:282-284 [lengthThenPriority] *)
Definition st_priority_then_length (e1 p1 e2 p2 : Z) : bool :=
  ((p2 =? -1) || (p1 <? p2) || ((p1 =? p2) && (e2 <? e1)))%Z.
Definition st_length_then_priority (e1 p1 e2 p2 : Z) : bool :=
  ((e2 <? e1) || ((e1 =? e2) && ((p2 =? -1) || (p1 <? p2))))%Z.

(** * Construction *)

(** strconv.Atoi with its error ignored: 0 when the text is not a number. Numbers are not
    bounded; in Go a number out of range is replaced by the largest or smallest int. *)
Fixpoint digits_val (s : gostring) (acc : Z) : option Z :=
  match s with
  | [] => Some acc
  | x :: r => if ((48 <=? x) && (x <=? 57))%N then digits_val r (acc * 10 + Z.of_N (x - 48))%Z else None
  end.
Definition is_digit (x : N) : bool := ((48 <=? x) && (x <=? 57))%N.
Definition atoi (s : gostring) : Z :=
  match s with
  | [] => 0%Z
  | x :: r =>
      let '(neg, ds) := if (x =? 45)%N then (true, r) else if (x =? 43)%N then (false, r) else (false, s) in
      match ds with
      | [] => 0%Z
      | _ => match digits_val ds 0%Z with
             | Some v => if neg then (- v)%Z else v
             | None => 0%Z
             end
      end
  end.

(** construct.go:60-75 [parseSubmatches]; intRe (construct.go:58) finds a digit anywhere. *)
Definition parse_submatches (str : gostring) : list submatch :=
  match str with
  | [] => []
  | _ => map (fun s => if existsb is_digit s then SubM (atoi s) [] else SubM (-1) s) (split1 124%N str)
  end.

(** construct.go:80 [subParserDef]: two equal signs, white space, a word (group 1), white
    space, perhaps two equal signs, white space, a newline; white space is any number of
    [\t\n\f\r ]. *)
Definition is_word0 (x : N) : bool :=
  (((65 <=? x) && (x <=? 90)) || ((97 <=? x) && (x <=? 122)) || (x =? 95))%N.
Definition is_word1 (x : N) : bool := is_word0 x || is_digit x.
Definition re_spaces : re := RStar (RSet lx_space).
Definition re_eqeq : re := RCat (RSet (fun x => (x =? 61)%N)) (RSet (fun x => (x =? 61)%N)).
Definition re_word : re := RCat (RSet is_word0) (RStar (RSet is_word1)).
Definition re_sub_def : re :=
  RCat re_eqeq (RCat re_spaces (RCat (RGroup 1 re_word)
    (RCat re_spaces (RCat (ROpt re_eqeq) (RCat re_spaces (RSet (fun x => (x =? 10)%N))))))).
(** construct.go:81 [subParserLine]: a name (1); perhaps an expression between slashes (2),
    perhaps followed by text in parentheses (3); perhaps carets or a word (4); perhaps a
    dash (5); white space between them. *)
Definition re_sub_line : re :=
  RCat (RGroup 1 (RPlus (RSet (fun x => negb (lx_slash x) && negb (lx_space x)))))
  (RCat re_spaces
  (RCat (ROpt (RCat (RSet lx_slash)
          (RCat (RGroup 2 (RPlus (RAlt (RSet (fun x => negb (lx_slash x) && negb (lx_backslash x)))
                                       (RCat (RSet lx_backslash) (ROpt (RSet lx_slash))))))
          (RCat (RSet lx_slash)
          (RCat re_spaces
                (ROpt (RCat (RSet (fun x => (x =? 40)%N))
                      (RCat (RGroup 3 (RStar (RAlt (RSet (fun x => negb (lx_backslash x) && negb (x =? 41)%N))
                                                   (RCat (RSet lx_backslash) (RSet (fun x => negb (x =? 10)%N))))))
                            (RSet (fun x => (x =? 41)%N))))))))))
  (RCat re_spaces
  (RCat (ROpt (RGroup 4 (RAlt (RPlus (RSet (fun x => (x =? 94)%N))) re_word)))
  (RCat re_spaces
        (RGroup 5 (ROpt (RSet lx_dash)))))))).

(** subParserDef.FindAllStringSubmatchIndex (construct.go:95): the headings as (length of
    the text before it and after the previous one, length of the heading, name). A heading
    is never empty, so the search goes on where it ends. *)
Fixpoint headings (fuel : nat) (s : gostring) : list (nat * nat * gostring) :=
  match fuel with
  | O => []
  | S f => match find_sub re_sub_def s with
           | None => []
           | Some (i, m, c) => (i, length m, group 1 c) :: headings f (drop (i + length m) s)
           end
  end.

(** construct.go:87-120, the state before any sub-lexer is parsed: sub-lexers, the map of
    names, the first sub-lexer, and the text of each. *)
Record shell := Shell {
  sh_subs : list sublexer;
  sh_lexers : gmap gostring nat;
  sh_first : option nat;
  sh_defs : gmap gostring gostring
}.
(** construct.go:96-119: the headings of one definition; [rest] is what follows the last
    heading read, [cur] its name. *)
Fixpoint read_headings (hs : list (nat * nat * gostring)) (rest : gostring) (cur : option gostring) (h : shell) : shell :=
  match hs with
  | [] =>
      match cur with
      | None => h
      | Some n => Shell (sh_subs h) (sh_lexers h) (sh_first h) (<[n := rest]> (sh_defs h))
      end
  | (i, len, name) :: hs' =>
      let defs := match cur with None => sh_defs h | Some n => <[n := take i rest]> (sh_defs h) end in
      let id := length (sh_subs h) in
      read_headings hs' (drop (i + len) rest) (Some name)
        (Shell (sh_subs h ++ [Sub name [] [] 0 []]) (<[name := id]> (sh_lexers h))
               (match sh_first h with None => Some id | Some x => Some x end) defs)
  end.
Definition read_definition (h : shell) (definition : gostring) : shell :=
  read_headings (headings (S (length definition)) definition) definition None h.

(** construct.go:156-185 [parse] and what it calls work on: the sub-lexers, the symbol set
    and the maps done and stack. *)
Record pst := PSt { ps_subs : list sublexer; ps_set : set; ps_done : gset gostring; ps_stack : gset gostring }.
Inductive perr := ErrCyclic | ErrRegexp.
Definition with_subs (st : pst) (subs : list sublexer) : pst := PSt subs (ps_set st) (ps_done st) (ps_stack st).

(** construct.go:223-238 [addRule] *)
Fixpoint st_add_rule (fuel : nat) (id : nat) (r : srule) (subs : list sublexer) : res (list sublexer) :=
  match fuel with
  | O => OutOfFuel
  | S f =>
      match subs !! id with
      | None => Panic
      | Some sl =>
          let rs := su_rules sl ++ replicate (S (sr_kind r) - length (su_rules sl)) None in
          match rs !! sr_kind r with
          | Some (Some _) =>
              Ok (<[id := Sub (su_name sl) (su_order sl) rs (su_counter sl) (su_by sl)]> subs)
          | _ =>
              let r' := SRule (sr_kind r) (sr_re r) (sr_discard r) (su_counter sl) (sr_push r) (sr_pop r) (sr_subs r) in
              let sl' := Sub (su_name sl) (su_order sl ++ [sr_kind r]) (<[sr_kind r := Some r']> rs)
                             (S (su_counter sl)) (su_by sl) in
              rfold (fun subs heir => st_add_rule f heir r' subs) (su_by sl) (<[id := sl']> subs)
          end
      end
  end.

(** construct.go:187-221 [addMatch] *)
Definition carets (push : gostring) : nat :=
  if forallb (fun x => (x =? 94)%N) push then length push else 0.
Definition add_match (compile : scompiler) (fuel : nat) (id : nat) (m : caps) (st : pst) : res (pst * option perr) :=
  let src := match group 2 m with [] => group 1 m | x => x end in
  match compile src with
  | None => Ok (st, Some ErrRegexp)
  | Some re =>
      let pop := carets (group 4 m) in
      let push := if 0 <? pop then [] else group 4 m in
      let '(k, s') := set_str (ps_set st) (group 1 m) in
      subs <-! st_add_rule fuel id
                 (SRule k re (bool_decide (group 5 m = L "-")) 0 push pop (parse_submatches (group 3 m)))
                 (ps_subs st);
      Ok (PSt subs s' (ps_done st) (ps_stack st), None)
  end.

(** construct.go:240-255 [addHeir], given [parse]. *)
Definition add_heir (parse : nat -> pst -> res (pst * option perr)) (fuel : nat) (id heir : nat) (st : pst)
  : res (pst * option perr) :=
  ' r <-! parse id st;
  match r with
  | (st1, Some e) => Ok (st1, Some e)
  | (st1, None) =>
      match ps_subs st1 !! id with
      | None => Panic
      | Some sl =>
          let sl' := Sub (su_name sl) (su_order sl) (su_rules sl) (su_counter sl) (su_by sl ++ [heir]) in
          subs <-! rfold (fun subs r => match r with
                                        | Some r => st_add_rule fuel heir r subs
                                        | None => Ok subs
                                        end) (su_rules sl) (<[id := sl']> (ps_subs st1));
          Ok (with_subs st1 subs, None)
      end
  end.

(** construct.go:165-182, the lines of a sub-lexer. *)
Fixpoint parse_lines (parse : nat -> pst -> res (pst * option perr)) (compile : scompiler) (lexers : gmap gostring nat)
  (fuel : nat) (id : nat) (lines : list gostring) (st : pst) : res (pst * option perr) :=
  match lines with
  | [] => Ok (st, None)
  | line :: rest =>
      match find_sub re_sub_line line with
      | None => parse_lines parse compile lexers fuel id rest st
      | Some (_, _, m) =>
          ' r <-! match lexers !! group 1 m with
                  | Some from => add_heir parse fuel from id st
                  | None => add_match compile fuel id m st
                  end;
          match r with
          | (st1, Some e) => Ok (st1, Some e)
          | (st1, None) => parse_lines parse compile lexers fuel id rest st1
          end
      end
  end.
(** construct.go:156-185 [parse] *)
Fixpoint st_parse (fuel : nat) (compile : scompiler) (lexers : gmap gostring nat) (defs : gmap gostring gostring)
  (id : nat) (st : pst) : res (pst * option perr) :=
  match fuel with
  | O => OutOfFuel
  | S f =>
      match ps_subs st !! id with
      | None => Panic
      | Some sl =>
          let n := su_name sl in
          if decide (n ∈ ps_stack st) then Ok (st, Some ErrCyclic)
          else if decide (n ∈ ps_done st) then Ok (st, None)
          else
            ' r <-! parse_lines (st_parse f compile lexers defs) compile lexers f id
                      (split1 c_nl (default [] (defs !! n)))
                      (PSt (ps_subs st) (ps_set st) ({[n]} ∪ ps_done st) ({[n]} ∪ ps_stack st));
            let '(st1, e) := r in
            Ok (PSt (ps_subs st1) (ps_set st1) (ps_done st1) (ps_stack st1 ∖ {[n]}), e)
      end
  end.

(** construct.go:122-126: parse every sub-lexer, in the order Go iterates over the map;
    errors are dropped. *)
Fixpoint parse_all (fuel : nat) (compile : scompiler) (lexers : gmap gostring nat) (defs : gmap gostring gostring)
  (order : list gostring) (st : pst) : res pst :=
  match order with
  | [] => Ok st
  | n :: rest =>
      match lexers !! n with
      | None => Panic
      | Some id =>
          ' r <-! st_parse fuel compile lexers defs id st;
          parse_all fuel compile lexers defs rest (fst r)
      end
  end.
(** construct.go:86-129 [New]. [order] is the order in which Go happens to iterate over
    the map of sub-lexers, a permutation of its keys. The error result is always nil. *)
Definition shell_of (definitions : list gostring) : shell :=
  fold_left read_definition definitions (Shell [] ∅ None ∅).
Definition st_new (compile : scompiler) (order : list gostring) (definitions : list gostring) (fuel : nat)
  : res (stlexer * option perr) :=
  let h := shell_of definitions in
  st <-! parse_all fuel compile (sh_lexers h) (sh_defs h) order (PSt (sh_subs h) set_new ∅ ∅);
  Ok (StLexer (ps_subs st) (sh_lexers h) (sh_first h) (ps_set st) (L "Error") st_length_then_priority ([], []) ([], []),
      None).

(** * Lexing *)

(** An element of lexOp.next: what FindSubmatchIndex returned and, appended to it, where the
    search began. *)
Notation sloc := (smatch * nat)%type.
(** The slice of ints itself. *)
Definition loc_ints (x : sloc) : list Z :=
  [Z.of_nat (sm_i (fst x)); Z.of_nat (sm_j (fst x))]
  ++ flat_map (fun g => match g with
                        | Some (a, b) => [Z.of_nat a; Z.of_nat b]
                        | None => [(-1)%Z; (-1)%Z]
                        end) (sm_groups (fst x))
  ++ [Z.of_nat (snd x)].

(** lex.go:10-23 [lexOp]; err as in SimpleLexer. *)
Record stop := StOp {
  sp_sub : nat;
  sp_stack : list nat;
  sp_lxs : list olex;
  sp_next : list (option sloc);
  sp_err : option nat;
  sp_cur : nat;
  sp_lines : nat
}.

(** A nil sub-lexer panics as soon as it is used. *)
Definition sub_at (l : stlexer) (id : nat) : res sublexer :=
  match stl_subs l !! id with Some s => Ok s | None => Panic end.
Definition srule_at (rs : list (option srule)) (kind : nat) : res (option srule) :=
  match rs !! kind with Some r => Ok r | None => Panic end.

(** re.FindSubmatchIndex(b[cur:]) with cur appended (lex.go:99-102, 169-172) *)
Definition search (r : srule) (b : gostring) (cur : nat) : option sloc :=
  match sx_find (sr_re r) (drop cur b) with Some m => Some (m, cur) | None => None end.

(** lex.go:95-106 [populateNext]; next[kind] of a kind not in the set panics. *)
Definition st_populate (l : stlexer) (sl : sublexer) (b : gostring) (cur : nat) : res (list (option sloc)) :=
  rfold (fun next kr => match snd kr with
                        | None => Ok next
                        | Some r => if fst kr <? length next
                                    then Ok (<[fst kr := search r b cur]> next) else Panic
                        end)
        (imap pair (su_rules sl)) (replicate (sym_count (stl_set l)) None).

(** lex.go:166-176 [updateNext]; a nil rule panics *)
Definition st_update_one (sl : sublexer) (b : gostring) (cur : nat) (kl : nat * option sloc) : res (option sloc) :=
  match snd kl with
  | Some (m, off) =>
      if sm_i m + off <=? cur then
        r <-! srule_at (su_rules sl) (fst kl);
        match r with Some r => Ok (search r b cur) | None => Panic end
      else Ok (Some (m, off))
  | None => Ok None
  end.
Definition st_update (sl : sublexer) (b : gostring) (cur : nat) (next : list (option sloc)) : res (list (option sloc)) :=
  rmap (st_update_one sl b cur) (imap pair next).

(** lex.go:109-121 [findNextMatch], the loop: the rule and location chosen. *)
Definition st_find_step (l : stlexer) (sl : sublexer) (cur : nat) (st : option (srule * sloc)) (kl : nat * option sloc)
  : res (option (srule * sloc)) :=
  match snd kl with
  | Some (m, off) =>
      if sm_i m + off =? cur then
        tr <-! srule_at (su_rules sl) (fst kl);
        match tr with
        | None => Ok st
        | Some tr =>
            match st with
            | None => Ok (Some (tr, (m, off)))
            | Some (r, (m0, _)) =>
                if stl_compare l (Z.of_nat (sm_j m)) (Z.of_nat (sr_priority tr))
                                 (Z.of_nat (sm_j m0)) (Z.of_nat (sr_priority r))
                then Ok (Some (tr, (m, off))) else Ok st
            end
        end
      else Ok st
  | None => Ok st
  end.
Definition st_find (l : stlexer) (sl : sublexer) (cur : nat) (next : list (option sloc)) : res (option (srule * sloc)) :=
  rfold (st_find_step l sl cur) (imap pair next) None.

(** b[i:j] with int indexes *)
Definition slice_z (b : gostring) (i j : Z) : res gostring :=
  if ((0 <=? i) && (0 <=? j))%Z then go_slice b (Z.to_nat i) (Z.to_nat j) else Panic.
Definition int_at (xs : list Z) (i : Z) : res Z :=
  if (i <? 0)%Z then Panic else match xs !! Z.to_nat i with Some x => Ok x | None => Panic end.

(** lex.go:130-142: lx.V *)
Definition sub_text (b : gostring) (x : sloc) (s : submatch) : res gostring :=
  if (sb_section s =? -1)%Z then Ok (sb_str s)
  else
    i <-! int_at (loc_ints x) (sb_section s * 2);
    j <-! int_at (loc_ints x) (sb_section s * 2 + 1);
    slice_z b (Z.of_nat (snd x) + i) (Z.of_nat (snd x) + j).
Definition st_value (b : gostring) (r : srule) (x : sloc) : res gostring :=
  match sr_subs r with
  | [] => go_slice b (snd x + sm_i (fst x)) (snd x + sm_j (fst x))
  | subs => vs <-! rmap (sub_text b x) subs; Ok (concat vs)
  end.

(** lex.go:147-152 [handleLineCol]: line, column and the new op.lines *)
Definition line_col (b : gostring) (cur lines : nat) (str : gostring) : Z * Z * nat :=
  (Z.of_nat lines, (Z.of_nat cur - last_newline (take cur b))%Z, lines + count_newlines str).

(** lex.go:108-145 [findNextMatch]: None when there is no rule, and op.lines *)
Definition st_next_match (l : stlexer) (sl : sublexer) (b : gostring) (op : stop)
  : res (option (lexeme * nat * srule) * nat) :=
  found <-! st_find l sl (sp_cur op) (sp_next op);
  match found with
  | None => Ok (None, sp_lines op)
  | Some (r, x) =>
      name <-! sym_string (stl_set l) (Z.of_nat (sr_kind r));
      v <-! st_value b r x;
      str <-! go_slice b (snd x + sm_i (fst x)) (snd x + sm_j (fst x));
      let '(li, co, lines) := line_col b (sp_cur op) (sp_lines op) str in
      Ok (Some (Lx name v li co, snd x + sm_j (fst x), r), lines)
  end.

(** lex.go:154-164 [checkError], [lines] being op.lines at the time; the kind is l.Error,
    interned when Lex starts. *)
Definition st_check_error (l : stlexer) (b : gostring) (op : stop) : res stop :=
  match sp_err op with
  | None => Ok op
  | Some start =>
      if length b <? sp_cur op then Ok op
      else
        v <-! go_slice b start (sp_cur op);
        let '(li, co, lines) := line_col b (sp_cur op) (sp_lines op) v in
        Ok (StOp (sp_sub op) (sp_stack op)
                 (sp_lxs op ++ [LErr (Lx (stl_error l) v li (co - Z.of_nat (length v)))])
                 (sp_next op) None (sp_cur op) lines)
  end.

(** lex.go:85-93 [pop]; op.stack[ln] panics when the stack is empty. *)
Definition st_pop (l : stlexer) (b : gostring) (i : nat) (op : stop) : res stop :=
  let ln := length (sp_stack op) - i in
  match sp_stack op !! ln with
  | None => Panic
  | Some id =>
      sl <-! sub_at l id;
      next <-! st_populate l sl b (sp_cur op);
      Ok (StOp id (take ln (sp_stack op)) (sp_lxs op) next (sp_err op) (sp_cur op) (sp_lines op))
  end.
(** lex.go:73-76; pushing to an unknown sub-lexer leaves a nil one. *)
Definition st_push (l : stlexer) (b : gostring) (name : gostring) (op : stop) : res stop :=
  match stl_lexers l !! name with
  | None => Panic
  | Some id =>
      sl <-! sub_at l id;
      next <-! st_populate l sl b (sp_cur op);
      Ok (StOp id (sp_stack op ++ [sp_sub op]) (sp_lxs op) next (sp_err op) (sp_cur op) (sp_lines op))
  end.
(** lex.go:178-192 [consumeRemainingAsError], [setError] *)
Definition st_set_error (op : stop) (cur' : nat) : stop :=
  StOp (sp_sub op) (sp_stack op) (sp_lxs op) (sp_next op)
       (match sp_err op with Some x => Some x | None => Some (sp_cur op) end) cur' (sp_lines op).
Definition st_consume (b : gostring) (op : stop) : stop :=
  if length b <=? sp_cur op then op else st_set_error op (length b).

(** lex.go:48-83 [lex], one round; true for break. *)
Definition st_round (l : stlexer) (b : gostring) (op : stop) : res (bool * stop) :=
  sl <-! sub_at l (sp_sub op);
  '(found, lines) <-! st_next_match l sl b op;
  let op0 := StOp (sp_sub op) (sp_stack op) (sp_lxs op) (sp_next op) (sp_err op) (sp_cur op) lines in
  let lx_end := match found with Some (_, e, _) => e | None => sp_cur op end in
  if lx_end =? sp_cur op then
    match sp_stack op with
    | [] => let op1 := st_set_error op0 (S (sp_cur op)) in
            Ok (length b <=? S (sp_cur op), op1)
    | _ => op1 <-! st_pop l b 1 op0; Ok (false, op1)
    end
  else
    match found with
    | None => Panic
    | Some (lx, e, r) =>
        op1 <-! st_check_error l b op0;
        let op2 := StOp (sp_sub op1) (sp_stack op1)
                        (if sr_discard r then sp_lxs op1 else sp_lxs op1 ++ [LTok lx])
                        (sp_next op1) (sp_err op1) e (sp_lines op1) in
        if length b <=? e then Ok (true, op2)
        else if 0 <? sr_pop r then op3 <-! st_pop l b (sr_pop r) op2; Ok (false, op3)
        else if bool_decide (sr_push r <> []) then op3 <-! st_push l b (sr_push r) op2; Ok (false, op3)
        else
          next <-! st_update sl b e (sp_next op2);
          Ok (false, StOp (sp_sub op2) (sp_stack op2) (sp_lxs op2) next (sp_err op2) e (sp_lines op2))
    end.
Fixpoint st_loop (fuel : nat) (l : stlexer) (b : gostring) (op : stop) : res stop :=
  match fuel with
  | O => OutOfFuel
  | S f => '(stop, op1) <-! st_round l b op; if (stop : bool) then Ok op1 else st_loop f l b op1
  end.

(** lex.go:26-46 [Lex]: the lexemes and the lexer afterwards. *)
Definition st_lex (l : stlexer) (b : gostring) (fuel : nat) : res (list olex * stlexer) :=
  match stl_first l with
  | None => Panic
  | Some id =>
      sl <-! sub_at l id;
      let l' := StLexer (stl_subs l) (stl_lexers l) (stl_first l) (snd (set_str (stl_set l) (stl_error l)))
                        (stl_error l) (stl_compare l) (stl_start l) (stl_end l) in
      next <-! st_populate l' sl b 0;
      op <-! st_loop fuel l' b (StOp id [] (inserted (stl_start l)) next None 0 1);
      op' <-! st_check_error l' b (st_consume b op);
      Ok (sp_lxs op' ++ inserted (stl_end l), l')
  end.

(** A client's calls: construct.go:267-277 [ByLength], [ByPriority], the Error field,
    construct.go:143-154 [InsertStart], [InsertEnd], and Lex. *)
Inductive st_call :=
| TLex (s : gostring)
| TByLength
| TByPriority
| TError (e : gostring)
| TStart (k v : gostring)
| TEnd (k v : gostring).
Definition st_step (fuel : nat) (l : stlexer) (c : st_call) : res stlexer :=
  match c with
  | TLex s => '(_, l') <-! st_lex l s fuel; Ok l'
  | TByLength => Ok (StLexer (stl_subs l) (stl_lexers l) (stl_first l) (stl_set l) (stl_error l) st_length_then_priority (stl_start l) (stl_end l))
  | TByPriority => Ok (StLexer (stl_subs l) (stl_lexers l) (stl_first l) (stl_set l) (stl_error l) st_priority_then_length (stl_start l) (stl_end l))
  | TError e => Ok (StLexer (stl_subs l) (stl_lexers l) (stl_first l) (stl_set l) e (stl_compare l) (stl_start l) (stl_end l))
  | TStart k v => Ok (StLexer (stl_subs l) (stl_lexers l) (stl_first l) (stl_set l) (stl_error l) (stl_compare l) (k, v) (stl_end l))
  | TEnd k v => Ok (StLexer (stl_subs l) (stl_lexers l) (stl_first l) (stl_set l) (stl_error l) (stl_compare l) (stl_start l) (k, v))
  end.
Definition st_calls (cs : list st_call) (l : stlexer) (fuel : nat) : res stlexer := rfold (st_step fuel) cs l.
