(** Regular expressions as the project uses them from Go's regexp package: leftmost-first
    (Perl) matching with submatches. [rmatch r s c] lists all ways [r] can match a prefix
    of [s], preferred ones first, as the rest of the string and the groups bound so far. *)
From Verif.model Require Export GoBase.

Inductive re :=
| REps
| RSet (p : N -> bool)
| RCat (a b : re)
| RAlt (a b : re)
| RStar (a : re)
| RGroup (n : nat) (a : re)
| REnd.
Notation caps := (list (nat * gostring)).

(** Greedy repetition; an iteration has to consume something. *)
Fixpoint star_match (step : gostring -> caps -> list (gostring * caps)) (fuel : nat) (s : gostring) (c : caps)
  : list (gostring * caps) :=
  match fuel with
  | O => [(s, c)]
  | S f =>
      flat_map (fun '(s', c') => if length s' <? length s then star_match step f s' c' else []) (step s c)
      ++ [(s, c)]
  end.
Fixpoint rmatch (r : re) (s : gostring) (c : caps) : list (gostring * caps) :=
  match r with
  | REps => [(s, c)]
  | RSet p => match s with x :: t => if p x then [(t, c)] else [] | [] => [] end
  | RCat a b => flat_map (fun '(s', c') => rmatch b s' c') (rmatch a s c)
  | RAlt a b => rmatch a s c ++ rmatch b s c
  | RStar a => star_match (rmatch a) (length s) s c
  | RGroup n a => map (fun '(s', c') => (s', (n, take (length s - length s') s) :: c')) (rmatch a s c)
  | REnd => match s with [] => [(s, c)] | _ => [] end
  end.
Definition ROpt (a : re) : re := RAlt a REps.
Definition RPlus (a : re) : re := RCat a (RStar a).

(** The leftmost match: how much is skipped, the matched text, the groups. *)
Fixpoint find_sub (r : re) (s : gostring) : option (nat * gostring * caps) :=
  match rmatch r s [] with
  | (s', c) :: _ => Some (O, take (length s - length s') s, c)
  | [] => match s with
          | [] => None
          | _ :: t => match find_sub r t with Some (i, m, c) => Some (S i, m, c) | None => None end
          end
  end.
(** A group that took no part in the match is the empty string. *)
Fixpoint group (n : nat) (c : caps) : gostring :=
  match c with
  | [] => []
  | (k, v) :: r => if n =? k then v else group n r
  end.
