(** tree/parsetree.go: String, sliceReq, Size. *)
From Coq Require Import String.
From Verif.model Require Export GoStrings.

(** strconv.Quote's body for one code point (fmt %q, strconv/quote.go): [print] says
    which code points above ASCII unicode.IsPrint accepts. *)
Definition hex_digit (n : N) : N := if (n <? 10)%N then (48 + n)%N else (87 + n)%N.
Fixpoint hex (digits : nat) (n : N) : gostring :=
  match digits with
  | O => []
  | S d => hex d (n / 16)%N ++ [hex_digit (n mod 16)%N]
  end.
Definition quote_rune (print : N -> bool) (c : N) : gostring :=
  if (c =? 34)%N then L "\" ++ [34%N]
  else if (c =? 92)%N then L "\\"
  else if (32 <=? c)%N && (c <? 127)%N then [c]
  else if (128 <=? c)%N && print c then [c]
  else if (c =? 7)%N then L "\a"
  else if (c =? 8)%N then L "\b"
  else if (c =? 12)%N then L "\f"
  else if (c =? 10)%N then L "\n"
  else if (c =? 13)%N then L "\r"
  else if (c =? 9)%N then L "\t"
  else if (c =? 11)%N then L "\v"
  else if (c <? 32)%N || (c =? 127)%N then L "\x" ++ hex 2 c
  else if (c <? 65536)%N then L "\u" ++ hex 4 c
  else L "\U" ++ hex 8 c.
Definition quote (print : N -> bool) (s : gostring) : gostring :=
  [34%N] ++ List.concat (map (quote_rune print) s) ++ [34%N].

Definition c_tab : N := 9%N.

(** parsetree.go:87-105 [string]: the segments appended for a non-nil node. *)
Fixpoint pn_segs (print : N -> bool) (pad : gostring) (t : pn) : list gostring :=
  match t with
  | PN lx cs =>
      [pad; lx_kind lx]
      ++ (match lx_val lx with [] => [] | v => [L ": " ++ quote print v] end)
      ++ (match cs with
          | [] => [[c_nl]]
          | _ => [L " {" ++ [c_nl]] ++ List.concat (map (pn_segs print (pad ++ [c_tab])) cs) ++ [pad; L "}" ++ [c_nl]]
          end)
  end.
(** ... and for a nil one (line 88). *)
Definition node_segs (print : N -> bool) (pad : gostring) (t : option pn) : list gostring :=
  match t with None => [pad; L "NIL" ++ [c_nl]] | Some t => pn_segs print pad t end.
(** parsetree.go:81-85 [String] *)
Definition pn_string (print : N -> bool) (t : option pn) : gostring := List.concat (node_segs print [] t).

(** parsetree.go:111-126 [sliceReq] *)
Fixpoint pn_req (t : pn) : nat :=
  match t with
  | PN lx cs =>
      let r := 3 in
      let r := match lx_val lx with [] => r | _ => r + 1 end in
      match cs with [] => r | _ => fold_left (fun r c => r + c) (map pn_req cs) (r + 2) end
  end.
Definition slice_req (t : option pn) : nat := match t with None => 2 | Some t => pn_req t end.

(** parsetree.go:129-138 [Size] *)
Fixpoint pn_size (t : pn) : nat :=
  match t with PN _ cs => fold_left (fun r c => r + c) (map pn_size cs) 1 end.
Definition node_size (t : option pn) : nat := match t with None => 0 | Some t => pn_size t end.
