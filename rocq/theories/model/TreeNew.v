(** tree/parsetree.go: New, which reads back what String writes. *)
From Coq Require Import String.
From Verif.model Require Export Regex TreeText.
Local Open Scope N_scope.

(** Character classes of reTreeLine. [\s] is tab, newline, form feed, return, space. *)
Definition re_space (c : N) : bool := (c =? 9) || (c =? 10) || (c =? 12) || (c =? 13) || (c =? 32).
Definition is_char (x c : N) : bool := c =? x.
(** Neither brace, colon, double quote nor [\s]. *)
Definition word_char (c : N) : bool :=
  negb ((c =? 125) || (c =? 123) || (c =? 58) || (c =? 34) || re_space c).
(** Neither double quote nor backslash; and [.], anything but a newline. *)
Definition plain_char (c : N) : bool := negb ((c =? 34) || (c =? 92)).
Definition dot (c : N) : bool := negb (c =? 10).

(** parsetree.go:13 [reTreeLine], from left to right. *)
Definition re_spaces : re := RStar (RSet re_space).
Definition re_close : re := RGroup 1 (ROpt (RSet (is_char 125))).
Definition re_name : re := RGroup 2 (RAlt (RPlus (RSet word_char)) REnd).
Definition re_quoted : re := RStar (RAlt (RSet plain_char) (RCat (RSet (is_char 92)) (RSet dot))).
Definition re_value : re :=
  ROpt (RCat (RSet (is_char 58)) (RCat re_spaces (RCat (RSet (is_char 34))
    (RCat (RGroup 3 re_quoted) (RSet (is_char 34)))))).
Definition re_open : re := RGroup 4 (ROpt (RSet (is_char 123))).
Definition re_tree_line : re :=
  RCat re_spaces (RCat re_close (RCat re_spaces (RCat re_name (RCat re_spaces
    (RCat re_value (RCat re_spaces (RCat re_open REnd))))))).

(** parsetree.go:18 [handleSlash]: strings.NewReplacer with the three pairs. No two of
    the replaced strings overlap at a position. *)
Fixpoint handle_slash (s : gostring) : gostring :=
  match s with
  | [] => []
  | c :: r =>
      match r with
      | d :: r' =>
          if (c =? 92) && (d =? 92) then 92 :: handle_slash r'
          else if (c =? 92) && (d =? 110) then 10 :: handle_slash r'
          else if (c =? 92) && (d =? 34) then 34 :: handle_slash r'
          else c :: handle_slash r
      | [] => [c]
      end
  end.

(** What a line says: does it close a node, the new node if any, is that one opened. *)
Record tline := TLine { tl_close : bool; tl_node : option lexeme; tl_open : bool }.
(** parsetree.go:25-28, 33-34, 39: [None] if the match is not the whole line. The regexp
    matches every line somewhere (its empty match at the end), so m is never nil. *)
Definition tree_line (line : gostring) : res (option tline) :=
  match find_sub re_tree_line line with
  | None => Panic
  | Some (_, m0, c) =>
      if negb (length line =? length m0)%nat then Ok None
      else Ok (Some (TLine (bool_decide (group 1 c = L "}"))
             (match group 2 c with
              | [] => None
              | k => Some (Lx k (handle_slash (group 3 c)) (-1)%Z 0%Z)
              end)
             (bool_decide (group 4 c = L "{"))))
  end.

(** cur: [None] is nil; otherwise the open nodes, innermost first, with their children
    so far, and the children of the &PN{} of line 23. An open node is the last child of
    the one around it. *)
Notation cursor := (option (list (lexeme * list pn) * list pn)).
Definition add_child (t : pn) (z : list (lexeme * list pn) * list pn) : list (lexeme * list pn) * list pn :=
  match z with
  | ((lx, cs) :: up, top) => ((lx, cs ++ [t]) :: up, top)
  | ([], top) => ([], top ++ [t])
  end.
(** parsetree.go:29-31 [cur = cur.P] *)
Definition go_up (cur : cursor) : res cursor :=
  match cur with
  | None => Panic
  | Some ([], _) => Ok None
  | Some ((lx, cs) :: up, top) => Ok (Some (add_child (PN lx cs) (up, top)))
  end.
(** parsetree.go:32-42 *)
Definition go_node (lx : lexeme) (opens : bool) (cur : cursor) : res cursor :=
  match cur with
  | None => Panic
  | Some z => Ok (Some (if opens then ((lx, []) :: fst z, snd z) else add_child (PN lx []) z))
  end.
Definition go_line (l : tline) (cur : cursor) : res cursor :=
  cur <-! (if tl_close l then go_up cur else Ok cur);
  match tl_node l with Some lx => go_node lx (tl_open l) cur | None => Ok cur end.
Fixpoint go_lines (lines : list gostring) (cur : cursor) : res (option cursor) :=
  match lines with
  | [] => Ok (Some cur)
  | line :: rest =>
      e <-! tree_line line;
      match e with
      | None => Ok None
      | Some l => cur <-! go_line l cur; go_lines rest cur
      end
  end.
(** parsetree.go:22-48 [New]; [None] is ErrBadTreeString. *)
Definition tree_new (str : gostring) : res (option pn) :=
  cur <-! go_lines (split1 c_nl str) (Some ([], []));
  match cur with
  | None => Ok None
  | Some None => Panic
  | Some (Some (up, top)) =>
      match (match up with (_, cs) :: _ => cs | [] => top end) with
      | [] => Panic
      | c :: _ => Ok (Some c)
      end
  end.
