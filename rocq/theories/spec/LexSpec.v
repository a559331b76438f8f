(** Specifications for the simple lexer. A rule is (kind, regexp, discard); a rule list is
    in listing order, earliest first. *)
From Coq Require Import String.
From Verif.model Require Export SimpleLexer.
From Verif.spec Require Export Outcome.

Record rdef := RDef { rd_kind : gostring; rd_re : regexp; rd_discard : bool }.

(** The rules a history of calls leaves: a kind's first Add counts. *)
Definition add_def (D : list rdef) (c : sl_call) : list rdef :=
  match c with
  | CAdd k r d => if decide (k ∈ map rd_kind D) then D else D ++ [RDef k r d]
  | _ => D
  end.
Definition rules_of (cs : list sl_call) : list rdef := fold_left add_def cs [].

(** The other settings it leaves: by length?, the error kind, inserted lexemes. *)
Record settings := Settings {
  st_length : bool;
  st_error : gostring;
  st_start : gostring * gostring;
  st_end : gostring * gostring
}.
Definition set_setting (t : settings) (c : sl_call) : settings :=
  match c with
  | CByLength => Settings true (st_error t) (st_start t) (st_end t)
  | CByPriority => Settings false (st_error t) (st_start t) (st_end t)
  | CError e => Settings (st_length t) e (st_start t) (st_end t)
  | CStart k v => Settings (st_length t) (st_error t) (k, v) (st_end t)
  | CEnd k v => Settings (st_length t) (st_error t) (st_start t) (k, v)
  | _ => t
  end.
Definition default_settings : settings := Settings true (L "Error") ([], []) ([], []).
Definition settings_of (cs : list sl_call) : settings := fold_left set_setting cs default_settings.

(** What regexp.FindIndex guarantees in any case: a location inside the text. *)
Definition well_formed (r : regexp) : Prop :=
  forall s i j, rx_find r s = Some (i, j) -> i <= j <= length s.
(** The length of the match it reports at the start of the text, if it reports one there. *)
Definition at_start (r : regexp) (s : gostring) : option nat :=
  match rx_find r s with Some (O, j) => Some j | _ => None end.
(** Leftmost, and the text to the left of a position plays no part: FindIndex reports the
    first position at which the rest of the text, taken alone, starts with a match. *)
Definition no_lookbehind (r : regexp) : Prop :=
  forall s, match rx_find r s with
       | Some (i, j) => i <= j <= length s /\ at_start r (drop i s) = Some (j - i)
                        /\ forall k, k < i -> at_start r (drop k s) = None
       | None => forall k, k <= length s -> at_start r (drop k s) = None
       end.

(** A lexer's input cut into pieces: text matched by the rule with that index, or junk. *)
Inductive piece := Tok (p : nat) (v : gostring) | Junk (v : gostring).
Definition piece_text (x : piece) : gostring := match x with Tok _ v => v | Junk v => v end.
Definition text (ps : list piece) : gostring := flat_map piece_text ps.
Definition junks (ps : list piece) : list gostring :=
  flat_map (fun x => match x with Junk v => [v] | Tok _ _ => [] end) ps.
(** The newlines in matched text. *)
Definition tok_newlines (ps : list piece) : nat :=
  foldr (fun x n => match x with Tok _ v => count_occ N.eq_dec v 10%N + n | Junk _ => n end) 0 ps.

(** The text after the last newline. *)
Definition is_last_line (before line : gostring) : Prop :=
  (10%N ∉ line) /\ (before = line \/ exists pre, before = pre ++ 10%N :: line).

(** Longest match, then earliest rule. *)
Definition best (D : list rdef) (s : gostring) (p n : nat) : Prop :=
  0 < n
  /\ (exists d, D !! p = Some d /\ at_start (rd_re d) s = Some n)
  /\ forall q e m, D !! q = Some e -> at_start (rd_re e) s = Some m -> m < n \/ (m = n /\ p <= q).
(** No rule matches anything here. *)
Definition stuck (D : list rdef) (s : gostring) : Prop :=
  forall d n, d ∈ D -> at_start (rd_re d) s = Some n -> n = 0.
(** The first listed rule that matches something here. *)
Definition first_match (D : list rdef) (s : gostring) (p n : nat) : Prop :=
  0 < n
  /\ (exists d, D !! p = Some d /\ at_start (rd_re d) s = Some n)
  /\ forall q e m, D !! q = Some e -> at_start (rd_re e) s = Some m -> 0 < m -> p <= q.

(** Cutting the input from left to right; junk is as long as it can be. *)
Inductive cuts (choose : gostring -> nat -> nat -> Prop) (D : list rdef) : gostring -> list piece -> Prop :=
| cut_end : cuts choose D [] []
| cut_tok s p n ps :
    choose s p n -> cuts choose D (drop n s) ps -> cuts choose D s (Tok p (take n s) :: ps)
| cut_junk v s ps :
    v <> [] -> (forall k, k < length v -> stuck D (drop k (v ++ s))) -> (s = [] \/ ~ stuck D s) ->
    cuts choose D s ps -> cuts choose D (v ++ s) (Junk v :: ps).
Definition tokenises (D : list rdef) : gostring -> list piece -> Prop := cuts (best D) D.

(** The lexemes a cutting stands for, in order, given the pieces before: nothing for a
    discarded match; errors carry no position. [line] and [col] say what positions are. *)
Definition shows (line : list piece -> nat) (D : list rdef) (err : gostring) (before : list piece) (x : piece) (out : list olex) : Prop :=
  match x with
  | Junk v => out = [LErr (Lx err v (-1) 0)]
  | Tok p v =>
      exists d, D !! p = Some d /\
      if rd_discard d then out = []
      else exists last, is_last_line (text before) last /\
           out = [LTok (Lx (rd_kind d) v (Z.of_nat (line before)) (Z.of_nat (1 + length last)))]
  end.
Inductive emits (line : list piece -> nat) (D : list rdef) (err : gostring) : list piece -> list piece -> list olex -> Prop :=
| em_nil before : emits line D err before [] []
| em_cons before x ps out rest :
    shows line D err before x out -> emits line D err (before ++ [x]) ps rest ->
    emits line D err before (x :: ps) (out ++ rest).

(** A lexeme inserted before or after the input's, none for an empty kind. *)
Definition extra (kv : gostring * gostring) (out : list olex) : Prop :=
  (fst kv = [] /\ out = []) \/ (fst kv <> [] /\ out = [LTok (Lx (fst kv) (snd kv) (-1) 0)]).

(** Histories in which an Add after a Lex that met junk adds nothing (its kind has a rule), or
    the error kind has a rule by then, or gets it by this Add. *)
Definition adds_first (cs : list sl_call) : Prop :=
  forall pre s mid k r d post l xs l',
    cs = pre ++ CLex s :: mid ++ CAdd k r d :: post ->
    returns (sl_calls pre slexer_empty) l -> returns (slex l s) (xs, l') ->
    lex_errors xs = []
    \/ k ∈ map rd_kind (rules_of (pre ++ CLex s :: mid))
    \/ st_error (settings_of pre) ∈ k :: map rd_kind (rules_of (pre ++ CLex s :: mid)).
Definition regexps_in (P : regexp -> Prop) (cs : list sl_call) : Prop :=
  forall k r d, CAdd k r d ∈ cs -> P r.

(** Lines of a definition text, as construct.go:59-86 reads one: what makes it into a rule. *)
Definition line_defs (compile : compiler) (lines : list gostring) : list rdef :=
  flat_map (fun x => match rule_from_line compile x with GotRule k r d => [RDef k r d] | _ => [] end) lines.

(** Rules whose line in String() can be read back: the kind is a word without slashes, and
    the expression is the kind or has every slash escaped and neither newlines nor a
    backslash at the end. *)
Definition escaped (src : gostring) : Prop :=
  (forall a b, src = a ++ 47%N :: b -> exists a', a = a' ++ [92%N])
  /\ (10%N ∉ src) /\ src <> [] /\ (forall a, src <> a ++ [92%N]).
Definition printable (d : rdef) : Prop :=
  rd_kind d <> []
  /\ (forall x, x ∈ rd_kind d -> x <> 47%N /\ x <> 9%N /\ x <> 10%N /\ x <> 12%N /\ x <> 13%N /\ x <> 32%N)
  /\ (rx_src (rd_re d) = rd_kind d \/ escaped (rx_src (rd_re d))).
(** The calls that make a lexer with these rules. *)
Definition adds (D : list rdef) : list sl_call := map (fun d => CAdd (rd_kind d) (rd_re d) (rd_discard d)) D.
