(** The matcher of model/Regex.v, recording where groups begin and end instead of their
    text: what regexp.FindSubmatchIndex reports. A position is recorded as the length of the
    text after it. *)
From Verif.model Require Export Regex StackLexer.

Notation pcaps := (list (nat * (nat * nat))).
Fixpoint pstar_match (step : gostring -> pcaps -> list (gostring * pcaps)) (fuel : nat) (s : gostring) (c : pcaps)
  : list (gostring * pcaps) :=
  match fuel with
  | O => [(s, c)]
  | S f =>
      flat_map (fun '(s', c') => if length s' <? length s then pstar_match step f s' c' else []) (step s c)
      ++ [(s, c)]
  end.
Fixpoint pmatch (r : re) (s : gostring) (c : pcaps) : list (gostring * pcaps) :=
  match r with
  | REps => [(s, c)]
  | RSet p => match s with x :: t => if p x then [(t, c)] else [] | [] => [] end
  | RCat a b => flat_map (fun '(s', c') => pmatch b s' c') (pmatch a s c)
  | RAlt a b => pmatch a s c ++ pmatch b s c
  | RStar a => pstar_match (pmatch a) (length s) s c
  | RGroup n a => map (fun '(s', c') => (s', (n, (length s, length s')) :: c')) (pmatch a s c)
  | REnd => match s with [] => [(s, c)] | _ => [] end
  end.
(** The leftmost match: skipped, length of the rest, groups. *)
Fixpoint find_pos (r : re) (s : gostring) : option (nat * nat * pcaps) :=
  match pmatch r s [] with
  | (s', c) :: _ => Some (O, length s', c)
  | [] => match s with
          | [] => None
          | _ :: t => match find_pos r t with Some (i, e, c) => Some (S i, e, c) | None => None end
          end
  end.
Fixpoint pgroup (n : nat) (c : pcaps) : option (nat * nat) :=
  match c with
  | [] => None
  | (k, v) :: r => if n =? k then Some v else pgroup n r
  end.
(** FindSubmatchIndex of an expression with groups 1 to [n]. *)
Definition srx_of (r : re) (n : nat) : sregexp :=
  SRx (fun s => match find_pos r s with
                | None => None
                | Some (i, e, c) =>
                    Some (SMatch i (length s - e)
                      (map (fun k => match pgroup k c with
                                     | Some (a, b) => Some (length s - a, length s - b)
                                     | None => None
                                     end) (seq 1 n)))
                end).
