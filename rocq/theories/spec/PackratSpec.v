(** What is demanded of packrat trees beyond being derivation trees. *)
From Verif.spec Require Export CFG.

Section S.
  Variable g : grammar.

  (** A derivation tree in which every inner node uses the first listed
      production of its symbol that derives the lexemes below the node. *)
  Inductive earliest_tree : gostring -> pn -> list lexeme -> Prop :=
  | et_leaf lx : g_prods g (lx_kind lx) = None -> earliest_tree (lx_kind lx) (PN lx []) [lx]
  | et_node lx ps k p cs lxs :
      g_prods g (lx_kind lx) = Some ps -> ps !! k = Some p -> earliest_trees p cs lxs ->
      (forall k' p', k' < k -> ps !! k' = Some p' -> ~ derives_seq g p' (map lx_kind lxs)) ->
      earliest_tree (lx_kind lx) (PN lx cs) lxs
  with earliest_trees : list gostring -> list pn -> list lexeme -> Prop :=
  | ets_nil : earliest_trees [] [] []
  | ets_cons s r c cs u v :
      earliest_tree s c u -> earliest_trees r cs v -> earliest_trees (s :: r) (c :: cs) (u ++ v).

  (** The productions of [y] that derive [u] are listed before those that derive [u2]. *)
  Definition before (y : gostring) (u u2 : list gostring) : Prop :=
    exists ps, g_prods g y = Some ps /\
      forall q q2 p p2, ps !! q = Some p -> ps !! q2 = Some p2 -> derives_seq g p u -> derives_seq g p2 u2 -> q < q2.
  (** The symbols of [p] derive the parts one by one. *)
  Definition splits (p : list gostring) (w : list gostring) (parts : list (list gostring)) : Prop :=
    concat parts = w /\ Forall2 (derives g) p parts.
  (** This holds for the parts of the first symbol whose parts differ. *)
  Definition outranks (p : list gostring) (parts parts2 : list (list gostring)) : Prop :=
    exists a y b pre u u2 r r2, p = a ++ y :: b /\ length a = length pre /\
      parts = pre ++ u :: r /\ parts2 = pre ++ u2 :: r2 /\ u <> u2 /\ before y u u2.
  Definition best_split (p : list gostring) (w : list gostring) (parts : list (list gostring)) : Prop :=
    splits p w parts /\ forall parts2, splits p w parts2 -> parts2 = parts \/ outranks p parts parts2.
  (** An earliest tree in which every inner node whose production has a best split of the
      node's lexemes uses that split. *)
  Inductive ranked_tree : gostring -> pn -> list lexeme -> Prop :=
  | rt_leaf lx : g_prods g (lx_kind lx) = None -> ranked_tree (lx_kind lx) (PN lx []) [lx]
  | rt_node lx ps k p cs lxss :
      g_prods g (lx_kind lx) = Some ps -> ps !! k = Some p -> ranked_trees p cs lxss ->
      (forall k' p', k' < k -> ps !! k' = Some p' -> ~ derives_seq g p' (map lx_kind (concat lxss))) ->
      (forall parts, best_split p (map lx_kind (concat lxss)) parts -> map (map lx_kind) lxss = parts) ->
      ranked_tree (lx_kind lx) (PN lx cs) (concat lxss)
  with ranked_trees : list gostring -> list pn -> list (list lexeme) -> Prop :=
  | rts_nil : ranked_trees [] [] []
  | rts_cons s r c cs u v :
      ranked_tree s c u -> ranked_trees r cs v -> ranked_trees (s :: r) (c :: cs) (u :: v).

  (** Positions: inner nodes carry no value and sit at their first child's position,
      or at (-1, 0) when they have none. *)
  Inductive positioned : pn -> Prop :=
  | pos_leaf lx : g_prods g (lx_kind lx) = None -> positioned (PN lx [])
  | pos_empty lx : is_Some (g_prods g (lx_kind lx)) ->
      lx_val lx = [] -> lx_line lx = (-1)%Z -> lx_col lx = 0%Z -> positioned (PN lx [])
  | pos_inner lx c cs : is_Some (g_prods g (lx_kind lx)) -> lx_val lx = [] ->
      lx_line lx = lx_line (pn_lexeme c) -> lx_col lx = lx_col (pn_lexeme c) ->
      Forall positioned (c :: cs) -> positioned (PN lx (c :: cs)).

  (** No lexeme is named like a non-terminal. *)
  Definition terminal_kinds (lxs : list lexeme) : Prop :=
    forall lx, lx ∈ lxs -> g_prods g (lx_kind lx) = None.

  (** A symbol may stand after the kinds [u] in a derivation from the start symbol. *)
  Inductive may_begin : gostring -> list gostring -> Prop :=
  | mb_start s0 rest : g_nts g = s0 :: rest -> may_begin s0 []
  | mb_step A u ps a B b v : may_begin A u -> g_prods g A = Some ps -> (a ++ B :: b) ∈ ps -> derives_seq g a v -> may_begin B (u ++ v).
  (** No lexeme is named like a non-terminal that may begin there and has a production of
      two or more symbols whose first symbol derives the empty string. *)
  Definition not_mistaken (lxs : list lexeme) : Prop :=
    forall u lx r ps X Y p, lxs = u ++ lx :: r -> may_begin (lx_kind lx) (map lx_kind u) ->
      g_prods g (lx_kind lx) = Some ps -> (X :: Y :: p) ∈ ps -> ~ derives g X [].
End S.

(** Kinds and shape of a tree, forgetting values and positions. *)
Fixpoint shape (t : pn) : pn :=
  match t with PN lx cs => PN (Lx (lx_kind lx) [] 0 0) (map shape cs) end.
