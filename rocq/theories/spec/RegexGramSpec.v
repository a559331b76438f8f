(** Grammars written with ?, *, | and groups, and what they mean. *)
From Coq Require Import String.
From Verif.model Require Export RegexGram.
From Verif.spec Require Export CFG Outcome.
Local Open Scope nat_scope.
Local Open Scope list_scope.

Inductive rx :=
| XSym (v : gostring)
| XOpt (e : rx)
| XRep (e : rx)
| XOr (l : list rx)
| XGroup (l : list rx).

(** Productions in the order written, a non-terminal with the items it stands for. *)
Notation rxs := (list (gostring * list rx)).

(** [matches R e w]: [e] stands for the string [w]. *)
Section Matches.
  Variable R : rxs.
  Inductive matches : rx -> list gostring -> Prop :=
  | m_term s : s ∉ map fst R -> matches (XSym s) [s]
  | m_nt s es w : (s, es) ∈ R -> matches_seq es w -> matches (XSym s) w
  | m_none e : matches (XOpt e) []
  | m_some e w : matches e w -> matches (XOpt e) w
  | m_stop e : matches (XRep e) []
  | m_more e u v : matches e u -> matches (XRep e) v -> matches (XRep e) (u ++ v)
  | m_or l e w : e ∈ l -> matches e w -> matches (XOr l) w
  | m_group l w : matches_seq l w -> matches (XGroup l) w
  with matches_seq : list rx -> list gostring -> Prop :=
  | ms_nil : matches_seq [] []
  | ms_cons e es u v : matches e u -> matches_seq es v -> matches_seq (e :: es) (u ++ v).
End Matches.

(** The tree of an expression: kinds and values only. *)
Inductive shows_rx : pn -> rx -> Prop :=
| sh_sym lx : lx_kind lx = L "symbol" -> shows_rx (PN lx []) (XSym (lx_val lx))
| sh_opt lx t e : lx_kind lx = L "OptSymbol" -> shows_rx t e -> shows_rx (PN lx [t]) (XOpt e)
| sh_rep lx t e : lx_kind lx = L "RepSymbol" -> shows_rx t e -> shows_rx (PN lx [t]) (XRep e)
| sh_or lx ts l : lx_kind lx = L "OrSymbol" -> shows_rxs ts l -> shows_rx (PN lx ts) (XOr l)
| sh_group lx ts l : lx_kind lx = L "Group" -> shows_rxs ts l -> shows_rx (PN lx ts) (XGroup l)
with shows_rxs : list pn -> list rx -> Prop :=
| shs_nil : shows_rxs [] []
| shs_cons t e ts l : shows_rx t e -> shows_rxs ts l -> shows_rxs (t :: ts) (e :: l).

(** Productions; a ContinueProd belongs to the non-terminal of the one before. *)
Inductive shows_prods : gostring -> list pn -> rxs -> Prop :=
| shp_nil cur : shows_prods cur [] []
| shp_prod cur lx cs es ts R : lx_kind lx = L "Production" -> shows_rxs cs es ->
    shows_prods (lx_val lx) ts R -> shows_prods cur (PN lx cs :: ts) ((lx_val lx, es) :: R)
| shp_more cur lx cs es ts R : lx_kind lx = L "ContinueProd" -> shows_rxs cs es ->
    shows_prods cur ts R -> shows_prods cur (PN lx cs :: ts) ((cur, es) :: R).
Definition shows_grammar (t : pn) (R : rxs) : Prop := shows_prods [] (pn_children t) R.

(** The repeated expressions of an expression, the outer before the inner. *)
Fixpoint repeats (e : rx) : list rx :=
  match e with
  | XSym _ => []
  | XOpt e => repeats e
  | XRep e => e :: repeats e
  | XOr l => flat_map repeats l
  | XGroup l => flat_map repeats l
  end.
Definition all_repeats (R : rxs) : list rx := flat_map (fun p => flat_map repeats (snd p)) R.

(** The generated name of a repetition: the expression as it is written, items of a group
    separated by underscores. *)
Fixpoint written (e : rx) : gostring :=
  match e with
  | XSym v => v
  | XOpt e => written e ++ L "?"
  | XRep e => written e ++ L "*"
  | XOr l => strjoin (L "|") (map written l)
  | XGroup l => L "(" ++ strjoin (L "_") (map written l) ++ L ")"
  end.
Definition rep_name (e : rx) : gostring := written e ++ L "*".
Definition generated (R : rxs) (s : gostring) : Prop := exists e, e ∈ all_repeats R /\ s = rep_name e.

(** Symbols occurring in an expression. *)
Fixpoint symbols (e : rx) : list gostring :=
  match e with
  | XSym v => [v]
  | XOpt e => symbols e
  | XRep e => symbols e
  | XOr l => flat_map symbols l
  | XGroup l => flat_map symbols l
  end.
Definition all_symbols (R : rxs) : list gostring :=
  flat_map (fun p => fst p :: flat_map symbols (snd p)) R.

(** Groups inside an expression hold something, unless directly optional or repeated. *)
Fixpoint no_empty_group (e : rx) : Prop :=
  match e with
  | XSym _ => True
  | XOpt e => e = XGroup [] \/ no_empty_group e
  | XRep e => e = XGroup [] \/ no_empty_group e
  | XOr l => l <> [] /\ foldr (fun e P => no_empty_group e /\ P) True l
  | XGroup l => l <> [] /\ foldr (fun e P => no_empty_group e /\ P) True l
  end.
Definition no_empty_groups (R : rxs) : Prop := forall s es e, (s, es) ∈ R -> e ∈ es -> no_empty_group e.

(** What the concrete syntax allows: symbols are words, ? and * follow a symbol or a group,
    and | joins two or more expressions without a | of their own. *)
Definition word_char (c : N) : bool :=
  ((48 <=? c) && (c <=? 57) || (65 <=? c) && (c <=? 90) || (c =? 95) || (97 <=? c) && (c <=? 122))%N.
Definition is_word (v : gostring) : Prop := v <> [] /\ Forall (fun c => word_char c = true) v.
Definition atom (e : rx) : Prop := match e with XSym _ | XGroup _ => True | _ => False end.
Definition no_bar (e : rx) : Prop := match e with XOr _ => False | _ => True end.
Fixpoint proper (e : rx) : Prop :=
  match e with
  | XSym v => is_word v
  | XOpt e => atom e /\ proper e
  | XRep e => atom e /\ proper e
  | XOr l => 2 <= length l /\ foldr (fun e P => (no_bar e /\ proper e) /\ P) True l
  | XGroup l => foldr (fun e P => proper e /\ P) True l
  end.
Definition proper_rxs (R : rxs) : Prop :=
  forall s es, (s, es) ∈ R -> is_word s /\ forall e, e ∈ es -> proper e.
Definition no_underscores (R : rxs) : Prop := forall s, s ∈ all_symbols R -> 95%N ∉ s.

(** Different repetitions have different names, none of them a symbol of the text. *)
Definition distinct_names (R : rxs) : Prop :=
  (forall e e', e ∈ all_repeats R -> e' ∈ all_repeats R -> rep_name e = rep_name e' -> e = e')
  /\ forall s, s ∈ all_symbols R -> ~ generated R s.

(** The plain productions an item list stands for, in order of preference: something before
    nothing, earlier alternatives before later ones, and a repetition by its name. *)
Definition pairs (a b : list (list gostring)) : list (list gostring) :=
  flat_map (fun x => map (fun y => x ++ y) b) a.
Fixpoint expansions (e : rx) : list (list gostring) :=
  match e with
  | XSym v => [[v]]
  | XOpt e => expansions e ++ [[]]
  | XRep e => [[rep_name e]]
  | XOr l => flat_map expansions l
  | XGroup [] => []
  | XGroup l => foldr (fun e ps => pairs (expansions e) ps) [[]] l
  end.
Definition expansions_seq (es : list rx) : list (list gostring) :=
  foldr (fun e ps => pairs (expansions e) ps) [[]] es.

(** Trees with the repetitions dissolved: a generated node is replaced by the items below it. *)
Section Flat.
  Variable gen : gostring -> bool.
  Fixpoint items_of (t : pn) : list pn :=
    match t with
    | PN lx cs =>
        if gen (lx_kind lx) then flat_map items_of cs
        else [PN lx (flat_map items_of cs)]
    end.
End Flat.
Definition is_generated (R : rxs) (s : gostring) : bool := bool_decide (s ∈ map rep_name (all_repeats R)).
Definition dissolved (R : rxs) (t : pn) : pn :=
  PN (pn_lexeme t) (flat_map (items_of (is_generated R)) (pn_children t)).

(** Below a node of a clean tree nothing generated is left. *)
Fixpoint clean_below (R : rxs) (t : pn) : Prop :=
  match t with PN _ cs => foldr (fun c P => (~ generated R (lx_kind (pn_lexeme c)) /\ clean_below R c) /\ P) True cs end.
(** A tree of the grammar as written: the kinds of a node's children, as they stand, are a
    string its production's items match. (With no productions every symbol stands for itself.) *)
Section Trees.
  Variable R : rxs.
  Inductive rx_tree : gostring -> pn -> list lexeme -> Prop :=
  | rt_leaf lx : lx_kind lx ∉ map fst R -> rx_tree (lx_kind lx) (PN lx []) [lx]
  | rt_node lx es ks cs lxs : (lx_kind lx, es) ∈ R -> matches_seq [] es ks -> rx_trees ks cs lxs ->
      rx_tree (lx_kind lx) (PN lx cs) lxs
  with rx_trees : list gostring -> list pn -> list lexeme -> Prop :=
  | rts_nil : rx_trees [] [] []
  | rts_cons s r c cs u v : rx_tree s c u -> rx_trees r cs v -> rx_trees (s :: r) (c :: cs) (u ++ v).
End Trees.

(** Splicing nodes of the given kinds, and those that come up. *)
Fixpoint splice (ks : list gostring) (t : pn) : list pn :=
  match t with
  | PN lx cs => if bool_decide (lx_kind lx ∈ ks) then flat_map (splice ks) cs else [PN lx cs]
  end.
