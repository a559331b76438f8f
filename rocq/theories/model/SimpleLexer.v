(** lexer/simplelexer/lexer.go and lexer/simplelexer/construct.go *)
From Coq Require Import String.
From Verif.model Require Export SetSym GoStrings Regex.
Local Open Scope string_scope.
Local Open Scope nat_scope.
Local Open Scope list_scope.

(** *regexp.Regexp as the lexers use it: FindIndex (the location of a match, None for nil)
    and String. The engine itself is a parameter; theorems state what they need of it. *)
Record regexp := Rx {
  rx_find : gostring -> option (nat * nat);
  rx_src : gostring
}.
(** A regular expression of model/Regex.v as a *regexp.Regexp written [src]. *)
Definition rx_of (r : re) (src : gostring) : regexp :=
  Rx (fun s => match find_sub r s with Some (i, m, _) => Some (i, i + length m) | None => None end) src.
(** regexp.Compile: None for an error. *)
Notation compiler := (gostring -> option regexp).

(** lexer.go:45-50 [rule] *)
Record lrule := LRule {
  lr_kind : nat;
  lr_re : regexp;
  lr_discard : bool;
  lr_priority : nat
}.

(** lexer.go:38-40 [priorityThenLength], lexer.go:41-43 [lengthThenPriority] *)
Definition priority_then_length (e1 p1 e2 p2 : Z) : bool :=
  ((p1 <? p2) || ((p1 =? p2) && (e2 <? e1)))%Z.
Definition length_then_priority (e1 p1 e2 p2 : Z) : bool :=
  ((e2 <? e1) || ((e1 =? e2) && (p1 <? p2)))%Z.

(** lexer.go:15-28 [Lexer]. A nil *rule is None. *)
Record slexer := SLexer {
  sl_order : list nat;
  sl_rules : list (option lrule);
  sl_compare : Z -> Z -> Z -> Z -> bool;
  sl_counter : nat;
  sl_error : gostring;
  sl_set : set;
  sl_start : gostring * gostring;
  sl_end : gostring * gostring
}.

(** What Lex returns: *lexeme.Lexeme, or *errLexeme (lexer.go:52-54), which implements
    parlex.LexError. *)
Inductive olex := LTok (x : lexeme) | LErr (x : lexeme).
Definition olex_lx (o : olex) : lexeme := match o with LTok x => x | LErr x => x end.
(** helpers.go:91-98 [LexErrors] *)
Fixpoint lex_errors (l : list olex) : list lexeme :=
  match l with
  | [] => []
  | LErr x :: r => x :: lex_errors r
  | LTok _ :: r => lex_errors r
  end.

(** Go's b[i:j]; panics when out of range. *)
Definition go_slice (b : gostring) (i j : nat) : res gostring :=
  if (i <=? j) && (j <=? length b) then Ok (take (j - i) (drop i b)) else Panic.

(** strings.LastIndex(s, "\n"); -1 when absent. *)
Fixpoint last_newline (s : gostring) : Z :=
  match s with
  | [] => (-1)%Z
  | x :: r =>
      let i := last_newline r in
      if (i <? 0)%Z then (if (x =? 10)%N then 0%Z else (-1)%Z) else (i + 1)%Z
  end.
(** strings.Count(s, "\n") *)
Fixpoint count_newlines (s : gostring) : nat :=
  match s with
  | [] => O
  | x :: r => if (x =? 10)%N then S (count_newlines r) else count_newlines r
  end.

(** lexer.go:60-69 [lexOp]. [so_err] is errFlag together with errStart: Some errStart
    when the flag is set. The Lexer is shared; the only part of it Lex changes is its
    symbol set, kept here. *)
Record sop := SOp {
  so_lxs : list olex;
  so_next : list (option (nat * nat));
  so_err : option nat;
  so_cur : nat;
  so_lines : nat;
  so_set : set
}.

(** op.rules[kind]; nil is only dereferenced, which panics. *)
Definition rule_at (rs : list (option lrule)) (kind : nat) : res lrule :=
  match rs !! kind with Some (Some r) => Ok r | _ => Panic end.

(** lexer.go:126-131 [populateNext] *)
Definition populate_next (rs : list (option lrule)) (b : gostring) : res (list (option (nat * nat))) :=
  rmap (fun r => match r with Some r => Ok (rx_find (lr_re r) b) | None => Panic end) rs.

(** lexer.go:133-144 [updateNext] *)
Definition update_one (rs : list (option lrule)) (b : gostring) (cur : nat)
  (kl : nat * option (nat * nat)) : res (option (nat * nat)) :=
  match snd kl with
  | Some (i, j) =>
      if i <=? cur then
        r <-! rule_at rs (fst kl);
        Ok (match rx_find (lr_re r) (drop cur b) with
            | Some (i', j') => Some (i' + cur, j' + cur)
            | None => None
            end)
      else Ok (Some (i, j))
  | None => Ok None
  end.
Definition update_next (rs : list (option lrule)) (b : gostring) (cur : nat) (next : list (option (nat * nat)))
  : res (list (option (nat * nat))) :=
  rmap (update_one rs b cur) (imap pair next).

(** lexer.go:146-171 [findNextMatch], the loop: (lx.K as its index, lx.V, lxEnd, lxP). *)
Definition find_step (l : slexer) (b : gostring) (cur : nat)
  (st : option nat * gostring * nat * Z) (kl : nat * option (nat * nat))
  : res (option nat * gostring * nat * Z) :=
  let '(k, v, e, p) := st in
  match snd kl with
  | Some (i, j) =>
      if i =? cur then
        r <-! rule_at (sl_rules l) (fst kl);
        let pr := Z.of_nat (lr_priority r) in
        if sl_compare l (Z.of_nat j) pr (Z.of_nat e) p then
          v' <-! go_slice b i j;
          Ok (Some (fst kl), v', j, pr)
        else Ok st
      else Ok st
  | None => Ok st
  end.
Definition find_next_match (l : slexer) (b : gostring) (next : list (option (nat * nat))) (cur : nat)
  : res (option nat * gostring * nat * Z) :=
  rfold (find_step l b cur) (imap pair next) (None, [], cur, (-1)%Z).

(** lexer.go:115-124 [checkError] *)
Definition check_error (l : slexer) (b : gostring) (op : sop) : res sop :=
  match so_err op with
  | None => Ok op
  | Some start =>
      if length b <? so_cur op then Ok op
      else
        v <-! go_slice b start (so_cur op);
        let '(k, s') := set_str (so_set op) (sl_error l) in
        name <-! sym_string s' (Z.of_nat k);
        Ok (SOp (so_lxs op ++ [LErr (Lx name v (-1) 0)]) (so_next op) None (so_cur op) (so_lines op) s')
  end.

(** lexer.go:86-106, one round of the loop of [Lex] up to the test of [cur], with the
    position fields set as in lexer.go:165-168. The type assertion on lx.K panics when
    K is nil; a lexeme holds its kind as a string (model/GoBase.v). *)
Definition lex_round (l : slexer) (b : gostring) (op : sop) : res sop :=
  '(k, v, e, _) <-! find_next_match l b (so_next op) (so_cur op);
  let line := Z.of_nat (so_lines op) in
  let col := (Z.of_nat (so_cur op) - last_newline (take (so_cur op) b))%Z in
  let lines' := so_lines op + count_newlines v in
  if e =? so_cur op then
    Ok (SOp (so_lxs op) (so_next op)
            (match so_err op with Some x => Some x | None => Some (so_cur op) end)
            (S (so_cur op)) lines' (so_set op))
  else
    op1 <-! check_error l b op;
    match k with
    | None => Panic
    | Some k =>
        r <-! rule_at (sl_rules l) k;
        name <-! sym_string (so_set op1) (Z.of_nat k);
        Ok (SOp (if lr_discard r then so_lxs op1 else so_lxs op1 ++ [LTok (Lx name v line col)])
                (so_next op1) (so_err op1) e lines' (so_set op1))
    end.
Fixpoint lex_loop (fuel : nat) (l : slexer) (b : gostring) (op : sop) : res sop :=
  match fuel with
  | O => OutOfFuel
  | S f =>
      op1 <-! lex_round l b op;
      if length b <=? so_cur op1 then Ok op1
      else
        next <-! update_next (sl_rules l) b (so_cur op1) (so_next op1);
        lex_loop f l b (SOp (so_lxs op1) next (so_err op1) (so_cur op1) (so_lines op1) (so_set op1))
  end.

(** lexeme.String(kind).Set(val) for a non-empty kind (lexer.go:80-82, 109-111) *)
Definition inserted (kv : gostring * gostring) : list olex :=
  match fst kv with
  | [] => []
  | _ => [LTok (Lx (fst kv) (snd kv) (-1) 0)]
  end.

Definition with_set (l : slexer) (s : set) : slexer :=
  SLexer (sl_order l) (sl_rules l) (sl_compare l) (sl_counter l) (sl_error l) s (sl_start l) (sl_end l).

(** lexer.go:73-114 [Lex]: the lexemes and the lexer afterwards. *)
Definition slex (l : slexer) (b : gostring) (fuel : nat) : res (list olex * slexer) :=
  next <-! populate_next (sl_rules l) b;
  op <-! lex_loop fuel l b (SOp (inserted (sl_start l)) next None 0 0 (sl_set l));
  op' <-! check_error l b op;
  Ok (so_lxs op' ++ inserted (sl_end l), with_set l (so_set op')).

(** lexer.go:32 [ByLength], lexer.go:36 [ByPriority], the Error field, construct.go:46-57
    [InsertStart], [InsertEnd] *)
Definition by_length (l : slexer) : slexer :=
  SLexer (sl_order l) (sl_rules l) length_then_priority (sl_counter l) (sl_error l) (sl_set l) (sl_start l) (sl_end l).
Definition by_priority (l : slexer) : slexer :=
  SLexer (sl_order l) (sl_rules l) priority_then_length (sl_counter l) (sl_error l) (sl_set l) (sl_start l) (sl_end l).
Definition set_error (l : slexer) (e : gostring) : slexer :=
  SLexer (sl_order l) (sl_rules l) (sl_compare l) (sl_counter l) e (sl_set l) (sl_start l) (sl_end l).
Definition insert_start (l : slexer) (k v : gostring) : slexer :=
  SLexer (sl_order l) (sl_rules l) (sl_compare l) (sl_counter l) (sl_error l) (sl_set l) (k, v) (sl_end l).
Definition insert_end (l : slexer) (k v : gostring) : slexer :=
  SLexer (sl_order l) (sl_rules l) (sl_compare l) (sl_counter l) (sl_error l) (sl_set l) (sl_start l) (k, v).

(** construct.go:18-22, the lexer New starts from. *)
Definition slexer_empty : slexer :=
  SLexer [] [] length_then_priority 0 (L "Error") set_new ([], []) ([], []).

(** construct.go:97-112 [addRule]; false for the "Duplicate Kind" error. *)
Definition add_rule (l : slexer) (kind : nat) (r : regexp) (discard : bool) : slexer * bool :=
  match sl_rules l !! kind with
  | Some (Some _) => (l, false)
  | _ =>
      let rs := sl_rules l ++ replicate (S kind - length (sl_rules l)) None in
      (SLexer (sl_order l ++ [kind])
              (<[kind := Some (LRule kind r discard (sl_counter l))]> rs)
              (sl_compare l) (S (sl_counter l)) (sl_error l) (sl_set l) (sl_start l) (sl_end l), true)
  end.

(** construct.go:88-95 [Add]; re is not nil. The kind is given by its string: for one of
    the lexer's own *Symbols, set.Symbol gives the index interning its string gives. *)
Definition slexer_add (l : slexer) (kind : gostring) (r : regexp) (discard : bool) : slexer * bool :=
  let '(k, s') := set_str (sl_set l) kind in
  add_rule (with_set l s') k r discard.

(** construct.go:59 [lexStr]: ([^\/\s]+)\s*(?:\/((?:[^\/\\]|(?:\\\/?))+)\/)?\s*(-?)
    where \s is [\t\n\f\r ]. *)
Definition lx_space (x : N) : bool :=
  (x =? 9)%N || (x =? 10)%N || (x =? 12)%N || (x =? 13)%N || (x =? 32)%N.
Definition lx_slash (x : N) : bool := (x =? 47)%N.
Definition lx_backslash (x : N) : bool := (x =? 92)%N.
Definition lx_dash (x : N) : bool := (x =? 45)%N.
Definition re_lex_line : re :=
  RCat (RGroup 1 (RPlus (RSet (fun x => negb (lx_slash x) && negb (lx_space x)))))
  (RCat (RStar (RSet lx_space))
  (RCat (ROpt (RCat (RSet lx_slash)
              (RCat (RGroup 2 (RPlus (RAlt (RSet (fun x => negb (lx_slash x) && negb (lx_backslash x)))
                                           (RCat (RSet lx_backslash) (ROpt (RSet lx_slash))))))
                    (RSet lx_slash))))
  (RCat (RStar (RSet lx_space))
        (RGroup 3 (ROpt (RSet lx_dash)))))).

(** construct.go:61-86 [ruleFromLine]: no rule, an error of regexp.Compile, or a rule
    (its kind's name, regexp, discard); the kind is interned by the caller below. *)
Inductive line_rule := NoRule | BadRule | GotRule (kind : gostring) (r : regexp) (discard : bool).
Definition rule_from_line (compile : compiler) (line : gostring) : line_rule :=
  match find_sub re_lex_line line with
  | None => NoRule
  | Some (_, _, c) =>
      let src := match group 2 c with [] => group 1 c | x => x end in
      match compile src with
      | None => BadRule
      | Some r => GotRule (group 1 c) r (if decide (group 3 c = L "-") then true else false)
      end
  end.

(** construct.go:17-42 [New]; None when an error is returned. *)
Fixpoint new_lines (compile : compiler) (lines : list gostring) (l : slexer) : option slexer :=
  match lines with
  | [] => Some l
  | x :: rest =>
      match rule_from_line compile x with
      | BadRule => None
      | NoRule => new_lines compile rest l
      | GotRule kind r d =>
          match slexer_add l kind r d with
          | (l', true) => new_lines compile rest l'
          | (_, false) => None
          end
      end
  end.
Definition slexer_new (compile : compiler) (definitions : list gostring) : option slexer :=
  new_lines compile (flat_map (split1 c_nl) definitions) slexer_empty.

(** construct.go:114-145 [String]: each line is the kind padded with spaces to the longest
    kind, a space, /re/ unless re is the kind itself, a space and "-" for discard. fmt pads
    by the number of runes, as does parlex.SymLen (helpers.go:101-103); strings here are
    code points. [rule.kind] of a nil rule panics. *)
Definition kind_name (l : slexer) (k : nat) : res gostring := sym_string (sl_set l) (Z.of_nat k).
Definition slexer_line (l : slexer) (longest : nat) (k : nat) : res gostring :=
  r <-! rule_at (sl_rules l) k;
  str <-! kind_name l k;
  let re := if decide (rx_src (lr_re r) = str) then [] else L "/" ++ rx_src (lr_re r) ++ L "/" in
  let d := if lr_discard r then L "-" else [] in
  Ok (pad_right longest str ++ L " " ++ re ++ L " " ++ d).
Definition slexer_string (l : slexer) : res gostring :=
  longest <-! rfold (fun m r => match r with
                               | None => Panic
                               | Some r => n <-! kind_name l (lr_kind r); Ok (Nat.max m (length n))
                               end) (sl_rules l) 0;
  lines <-! rmap (slexer_line l longest) (sl_order l);
  Ok (strjoin [c_nl] lines).

(** A client's calls on a lexer. *)
Inductive sl_call :=
| CAdd (kind : gostring) (r : regexp) (discard : bool)
| CLex (s : gostring)
| CByLength
| CByPriority
| CError (e : gostring)
| CStart (k v : gostring)
| CEnd (k v : gostring).
Definition sl_step (fuel : nat) (l : slexer) (c : sl_call) : res slexer :=
  match c with
  | CAdd k r d => Ok (fst (slexer_add l k r d))
  | CLex s => '(_, l') <-! slex l s fuel; Ok l'
  | CByLength => Ok (by_length l)
  | CByPriority => Ok (by_priority l)
  | CError e => Ok (set_error l e)
  | CStart k v => Ok (insert_start l k v)
  | CEnd k v => Ok (insert_end l k v)
  end.
Definition sl_calls (cs : list sl_call) (l : slexer) (fuel : nat) : res slexer := rfold (sl_step fuel) cs l.
