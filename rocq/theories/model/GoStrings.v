(** The functions of Go's [strings] and [fmt] packages the project uses, on code
    points. *)
From Verif.model Require Export GoBase.
From Coq Require Import Lia.

Definition c_nl : N := 10%N.
Definition c_sp : N := 32%N.
Definition c_minus : N := 45%N.
Definition c_gt : N := 62%N.

(** unicode.IsSpace (used by strings.TrimSpace). *)
Definition is_space (c : N) : bool :=
  (((9 <=? c) && (c <=? 13)) || (c =? 32) || (c =? 133) || (c =? 160) || (c =? 5760)
   || ((8192 <=? c) && (c <=? 8202)) || (c =? 8232) || (c =? 8233) || (c =? 8239)
   || (c =? 8287) || (c =? 12288))%N.

(** strings.TrimSpace *)
Fixpoint trim_left (s : gostring) : gostring :=
  match s with
  | [] => []
  | c :: r => if is_space c then trim_left r else s
  end.
Definition trim_right (s : gostring) : gostring := reverse (trim_left (reverse s)).
Definition trim (s : gostring) : gostring := trim_right (trim_left s).

(** Put a code point in front of the first segment. *)
Definition cons_head (c : N) (l : list gostring) : list gostring :=
  match l with [] => [[c]] | h :: t => (c :: h) :: t end.

(** strings.Split(s, sep) for a one code point sep. *)
Fixpoint split1 (sep : N) (s : gostring) : list gostring :=
  match s with
  | [] => [[]]
  | c :: r => if (c =? sep)%N then [] :: split1 sep r else cons_head c (split1 sep r)
  end.

(** strings.Split(s, ab) for a two code point separator. *)
Fixpoint split2 (a b : N) (s : gostring) : list gostring :=
  match s with
  | [] => [[]]
  | c :: r =>
      match r with
      | d :: r' => if (c =? a)%N && (d =? b)%N then [] :: split2 a b r'
                   else cons_head c (split2 a b r)
      | [] => cons_head c (split2 a b r)
      end
  end.

(** strings.Join *)
Fixpoint strjoin (sep : gostring) (l : list gostring) : gostring :=
  match l with
  | [] => []
  | [x] => x
  | x :: r => x ++ sep ++ strjoin sep r
  end.

(** fmt.Sprintf("%-Ns", s): padded on the right to N code points. *)
Definition pad_right (n : nat) (s : gostring) : gostring := s ++ replicate (n - length s) c_sp.
