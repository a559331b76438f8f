(** Specifications for the stack lexer. *)
From Coq Require Import String.
From Verif.model Require Export StackLexer.
From Verif.spec Require Export LexSpec.

(** A rule of a sub-lexer, by the name of its kind. *)
Record sdef := SDef {
  sd_kind : gostring;
  sd_re : sregexp;
  sd_discard : bool;
  sd_push : gostring;
  sd_pop : nat;
  sd_subs : list submatch
}.
(** A sub-lexer's rules, earliest first, and a lexer's sub-lexers by name. *)
Definition defs_in (st : set) (sl : sublexer) : list sdef :=
  omap (fun k => match su_rules sl !! k, symb2str st !! k with
                 | Some (Some r), Some n => Some (SDef n (sr_re r) (sr_discard r) (sr_push r) (sr_pop r) (sr_subs r))
                 | _, _ => None
                 end) (su_order sl).
Definition frame (l : stlexer) (id : nat) : option (list sdef) :=
  match stl_subs l !! id with Some sl => Some (defs_in (stl_set l) sl) | None => None end.
Definition env_of (l : stlexer) (name : gostring) : option (list sdef) :=
  match stl_lexers l !! name with Some id => frame l id | None => None end.
Definition first_frame (l : stlexer) : option (list sdef) :=
  match stl_first l with Some id => frame l id | None => None end.

(** Lexers a client can have: made by New, in any iteration order, and used in any way. *)
Definition names_of (definitions : list gostring) : gset gostring := dom (sh_lexers (shell_of definitions)).
Definition built (compile : scompiler) (definitions : list gostring) (cs : list st_call) (l : stlexer) : Prop :=
  exists order l0, order ≡ₚ elements (names_of definitions)
    /\ returns (st_new compile order definitions) (l0, None) /\ returns (st_calls cs l0) l.
(** The settings calls leave. *)
Definition st_setting (t : settings) (c : st_call) : settings :=
  match c with
  | TByLength => Settings true (st_error t) (st_start t) (st_end t)
  | TByPriority => Settings false (st_error t) (st_start t) (st_end t)
  | TError e => Settings (st_length t) e (st_start t) (st_end t)
  | TStart k v => Settings (st_length t) (st_error t) (k, v) (st_end t)
  | TEnd k v => Settings (st_length t) (st_error t) (st_start t) (k, v)
  | TLex _ => t
  end.
Definition st_settings (cs : list st_call) : settings := fold_left st_setting cs default_settings.

(** What FindSubmatchIndex guarantees in any case. *)
Definition inside (n : nat) (m : smatch) : Prop :=
  sm_i m <= sm_j m <= n /\ forall a b, Some (a, b) ∈ sm_groups m -> a <= b <= n.
Definition s_well_formed (r : sregexp) : Prop := forall s m, sx_find r s = Some m -> inside (length s) m.
(** Leftmost, and independent of the text to the left. *)
Definition sshift (k : nat) (m : smatch) : smatch :=
  SMatch (k + sm_i m) (k + sm_j m)
         (map (fun g => match g with Some (a, b) => Some (k + a, k + b) | None => None end) (sm_groups m)).
Definition at_match (r : sregexp) (s : gostring) : option smatch :=
  match sx_find r s with Some m => match sm_i m with O => Some m | _ => None end | None => None end.
Definition s_no_lookbehind (r : sregexp) : Prop :=
  s_well_formed r /\
  forall s, match sx_find r s with
       | Some m => (exists m0, at_match r (drop (sm_i m) s) = Some m0 /\ m = sshift (sm_i m) m0)
                   /\ forall k, k < sm_i m -> at_match r (drop k s) = None
       | None => forall k, k <= length s -> at_match r (drop k s) = None
       end.
Definition engine (P : sregexp -> Prop) (compile : scompiler) : Prop := forall src r, compile src = Some r -> P r.

(** The groups a rule asks for always take part in its matches. *)
Definition groups_ok (d : sdef) : Prop :=
  forall s m x, sx_find (sd_re d) s = Some m -> x ∈ sd_subs d ->
    sb_section x = (-1)%Z \/ sb_section x = 0%Z
    \/ exists k g, sb_section x = Z.of_nat (S k) /\ sm_groups m !! k = Some (Some g).
Definition all_groups_ok (l : stlexer) : Prop :=
  forall id D d, frame l id = Some D -> d ∈ D -> groups_ok d.

(** The value of a match [m] in [s]: its text, or the parts the rule asks for. *)
Definition cut (s : gostring) (a b : nat) : gostring := take (b - a) (drop a s).
Definition part (s : gostring) (m : smatch) (x : submatch) : gostring :=
  if (sb_section x =? -1)%Z then sb_str x
  else if (sb_section x =? 0)%Z then cut s (sm_i m) (sm_j m)
  else match sm_groups m !! (Z.to_nat (sb_section x) - 1) with
       | Some (Some (a, b)) => cut s a b
       | _ => []
       end.
Definition value_of (d : sdef) (s : gostring) (m : smatch) : gostring :=
  match sd_subs d with
  | [] => cut s (sm_i m) (sm_j m)
  | subs => flat_map (part s m) subs
  end.

(** * How the input is cut *)
(** A match (its rule, text and value) or junk. *)
Inductive spiece := STok (d : sdef) (v val : gostring) | SJunk (v : gostring).
Definition spiece_text (x : spiece) : gostring := match x with STok _ v _ => v | SJunk v => v end.
Definition stext (ps : list spiece) : gostring := flat_map spiece_text ps.
Definition junk (v : gostring) : list spiece := match v with [] => [] | _ => [SJunk v] end.

(** Rule [p] of [D] matches at the start of [s]. *)
Definition matches (D : list sdef) (s : gostring) (p : nat) (m : smatch) : Prop :=
  exists d, D !! p = Some d /\ at_match (sd_re d) s = Some m.
(** Its match is the preferred one there: the longest, the earliest rule's of these; or just
    the earliest rule's. *)
Definition preferred (by_length : bool) (D : list sdef) (s : gostring) (p : nat) (m : smatch) : Prop :=
  matches D s p m /\
  forall q m', matches D s q m' ->
    if by_length then sm_j m' < sm_j m \/ (sm_j m' = sm_j m /\ p <= q) else p <= q.
(** The preferred match, if any, is empty. *)
Definition idle (by_length : bool) (D : list sdef) (s : gostring) : Prop :=
  forall p m, preferred by_length D s p m -> sm_j m = 0.

(** The rule's effect on the stack of enclosing sub-lexers, innermost first. *)
Definition moves (env : gostring -> option (list sdef)) (d : sdef) (D : list sdef) (S : list (list sdef))
  (D' : list sdef) (S' : list (list sdef)) : Prop :=
  if decide (0 < sd_pop d) then
    let k := min (sd_pop d) (length S) in S <> [] /\ S !! (k - 1) = Some D' /\ S' = drop k S
  else if decide (sd_push d = []) then D' = D /\ S' = S
  else env (sd_push d) = Some D' /\ S' = D :: S.
(** It cannot be carried out: nothing to return to, or no such sub-lexer. *)
Definition falls (env : gostring -> option (list sdef)) (d : sdef) (S : list (list sdef)) : Prop :=
  (0 < sd_pop d /\ S = []) \/ (sd_pop d = 0 /\ sd_push d <> [] /\ env (sd_push d) = None).

(** Text [v] passed over before [s]: only at the outermost level, where nothing (but the
    empty string) is preferred at its beginning; and nothing matches at any position in it
    unless a rule has matched the empty string there or before. *)
Definition blank (D : list sdef) (v s : gostring) : Prop :=
  forall k, k < length v ->
    (exists j q m, j <= k /\ matches D (drop j (v ++ s)) q m /\ sm_j m = 0)
    \/ forall q m, ~ matches D (drop k (v ++ s)) q m.
Definition passed (by_length : bool) (D : list sdef) (S : list (list sdef)) (v s : gostring) : Prop :=
  v = [] \/ (S = [] /\ idle by_length D (v ++ s) /\ blank D v s).
(** The match taken after passing over [v]: any if [v] is not empty. *)
Definition taken (by_length : bool) (D : list sdef) (v s : gostring) (p : nat) (m : smatch) : Prop :=
  match v with [] => preferred by_length D s p m | _ => matches D s p m end.

(** The pieces; the flag is false if the lexer falls after the last one. The stack stays
    when the input ends. *)
Inductive scuts (env : gostring -> option (list sdef)) (bl : bool)
  : list sdef -> list (list sdef) -> gostring -> list spiece -> bool -> Prop :=
| sc_end D S : scuts env bl D S [] [] true
| sc_junk D v : v <> [] -> passed bl D [] v [] -> scuts env bl D [] v [SJunk v] true
| sc_last D S v w p d m :
    w <> [] -> passed bl D S v w -> D !! p = Some d -> taken bl D v w p m -> sm_j m = length w ->
    scuts env bl D S (v ++ w) (junk v ++ [STok d w (value_of d w m)]) true
| sc_fall D S v w s p d m :
    w <> [] -> s <> [] -> passed bl D S v (w ++ s) -> D !! p = Some d -> taken bl D v (w ++ s) p m -> sm_j m = length w ->
    falls env d S ->
    scuts env bl D S (v ++ w ++ s) (junk v ++ [STok d w (value_of d (w ++ s) m)]) false
| sc_tok D S v w s p d m D' S' ps ok :
    w <> [] -> s <> [] -> passed bl D S v (w ++ s) -> D !! p = Some d -> taken bl D v (w ++ s) p m -> sm_j m = length w ->
    moves env d D S D' S' -> scuts env bl D' S' s ps ok ->
    scuts env bl D S (v ++ w ++ s) (junk v ++ STok d w (value_of d (w ++ s) m) :: ps) ok
| sc_leave D D' S' s ps ok :
    s <> [] -> idle bl D s -> scuts env bl D' S' s ps ok -> scuts env bl D (D' :: S') s ps ok.

(** * What is shown of the pieces *)
Definition newlines (s : gostring) : nat := count_occ N.eq_dec s 10%N.
(** The column after [s]. *)
Definition column (s : gostring) (c : Z) : Prop :=
  exists last, is_last_line s last /\ c = Z.of_nat (1 + length last).
(** Rules for positions: the line of a match, given the pieces before; the line and column of
    junk, given also the junk and the pieces after. *)
Record places := Places {
  pl_line : list spiece -> nat;
  pl_err_line : list spiece -> list spiece -> nat;
  pl_err_col : list spiece -> gostring -> Z -> Prop
}.
Definition sshows (pl : places) (err : gostring) (before : list spiece) (x : spiece) (after : list spiece) (out : list olex) : Prop :=
  match x with
  | SJunk v => exists c, pl_err_col pl before v c
                 /\ out = [LErr (Lx err v (Z.of_nat (pl_err_line pl before after)) c)]
  | STok d v val =>
      if sd_discard d then out = []
      else exists c, column (stext before) c /\ out = [LTok (Lx (sd_kind d) val (Z.of_nat (pl_line pl before)) c)]
  end.
Inductive semits (pl : places) (err : gostring) : list spiece -> list spiece -> list olex -> Prop :=
| se_nil before : semits pl err before [] []
| se_cons before x ps out rest :
    sshows pl err before x ps out -> semits pl err (before ++ [x]) ps rest ->
    semits pl err before (x :: ps) (out ++ rest).
(** Where things are: lines from 1, and the column of junk is that of its beginning. *)
Definition true_places : places :=
  Places (fun before => 1 + newlines (stext before)) (fun before _ => 1 + newlines (stext before))
         (fun before _ c => column (stext before) c).
(** What the lexer says: newlines in junk right before a match are not counted for it, those
    of the match after it are counted for junk; the column of junk is counted back from the
    column of its end. *)
Definition code_places : places :=
  Places (fun before => 1 + newlines (stext before)
            - match last before with Some (SJunk v) => newlines v | _ => 0 end)
         (fun before after => 1 + newlines (stext before)
            + match after with STok _ w _ :: _ => newlines w | _ => 0 end)
         (fun before v c => column (stext before ++ v) (c + Z.of_nat (length v))).

(** * Lexing as a whole *)
(** Every piece is non-empty, and every match comes from the regexp of a rule of the lexer,
    searching from somewhere at or before it. *)
Definition reported (l : stlexer) (s : gostring) (ps : list spiece) : Prop :=
  (forall x, x ∈ ps -> spiece_text x <> [])
  /\ forall before d w val after, ps = before ++ STok d w val :: after ->
       exists id D c m, frame l id = Some D /\ d ∈ D /\ sx_find (sd_re d) (drop c s) = Some m
         /\ c + sm_i m = length (stext before) /\ c + sm_j m = length (stext before) + length w
         /\ val = value_of d (drop c s) m.
(** Lex returns the lexemes of the pieces [ps]. *)
Definition lexes (pl : places) (t : settings) (l : stlexer) (s : gostring) (ps : list spiece) : Prop :=
  exists l' pre out post, returns (st_lex l s) (pre ++ out ++ post, l')
    /\ extra (st_start t) pre /\ extra (st_end t) post /\ semits pl (st_error t) [] ps out.
(** Rules that push push to sub-lexers of the lexer. *)
Definition pushes_known (l : stlexer) : Prop :=
  forall id D d, frame l id = Some D -> d ∈ D -> sd_push d <> [] -> env_of l (sd_push d) <> None.
(** Junk has no newline in it, nor has a match right after junk. *)
Definition straight (ps : list spiece) : Prop :=
  (forall v, SJunk v ∈ ps -> 10%N ∉ v)
  /\ forall a v d w val c, ps = a ++ SJunk v :: STok d w val :: c -> 10%N ∉ w.

(** * Definitions *)
(** Lines of sub-lexer [n] and what they say. *)
Definition sections (definitions : list gostring) : gmap gostring gostring := sh_defs (shell_of definitions).
Definition says (definitions : list gostring) (n : gostring) (c : caps) : Prop :=
  exists text line i m, sections definitions !! n = Some text /\ line ∈ split1 c_nl text
    /\ find_sub re_sub_line line = Some (i, m, c).
Definition inherits (definitions : list gostring) (a b : gostring) : Prop :=
  b ∈ names_of definitions /\ exists c, says definitions a c /\ group 1 c = b.
Definition cyclic (definitions : list gostring) : Prop := exists n, tc (inherits definitions) n n.
Definition heading_names (definitions : list gostring) : list gostring :=
  flat_map (fun d => map snd (headings (S (length d)) d)) definitions.

(** The rules of a sub-lexer in the order of its lines, those of a sub-lexer it inherits from
    in place of the line naming it; of several rules for one kind the first counts. *)
Definition said (definitions : list gostring) (n : gostring) : list caps :=
  omap (fun line => match find_sub re_sub_line line with Some (_, _, c) => Some c | None => None end)
       (split1 c_nl (default [] (sections definitions !! n))).
Definition rule_said (compile : scompiler) (c : caps) : option sdef :=
  match compile (match group 2 c with [] => group 1 c | x => x end) with
  | None => None
  | Some re =>
      let pop := carets (group 4 c) in
      Some (SDef (group 1 c) re (bool_decide (group 5 c = [45%N])) (if 0 <? pop then [] else group 4 c) pop
                 (parse_submatches (group 3 c)))
  end.
Definition rules_said (compile : scompiler) (definitions : list gostring) (cs : list caps) : list sdef :=
  omap (fun c => if decide (group 1 c ∈ names_of definitions) then None else rule_said compile c) cs.
Definition add_def (D : list sdef) (d : sdef) : list sdef :=
  if decide (sd_kind d ∈ map sd_kind D) then D else D ++ [d].
Definition firsts (D : list sdef) : list sdef := fold_left add_def D [].
Definition grow (compile : scompiler) (definitions : list gostring) (D : list sdef) (c : caps) : list sdef :=
  if decide (group 1 c ∈ names_of definitions)
  then fold_left add_def (firsts (rules_said compile definitions (said definitions (group 1 c)))) D
  else match rule_said compile c with Some d => add_def D d | None => D end.
Definition listing (compile : scompiler) (definitions : list gostring) (n : gostring) : list sdef :=
  fold_left (grow compile definitions) (said definitions n) [].
(** The kinds of a sub-lexer's own rules. *)
Definition kinds (compile : scompiler) (definitions : list gostring) (n : gostring) : list gostring :=
  map sd_kind (firsts (rules_said compile definitions (said definitions n))).
(** All regexps compile; sub-lexers inherited from do not inherit; and of the kinds of a
    sub-lexer inherited from, any sub-lexer has none, or the first, or the first two..., in
    the same order. *)
Record plain (compile : scompiler) (definitions : list gostring) : Prop := {
  pn_compiles : forall n c, n ∈ names_of definitions -> c ∈ said definitions n ->
    group 1 c ∉ names_of definitions -> rule_said compile c <> None;
  pn_flat : forall a b c, inherits definitions a b -> c ∈ said definitions b -> group 1 c ∉ names_of definitions;
  pn_order : forall a b n, inherits definitions a b -> n ∈ names_of definitions ->
    exists k, filter (.∈ kinds compile definitions b) (kinds compile definitions n) = take k (kinds compile definitions b)
}.
