(** How a grammar with operators is written, as a sequence of tokens. *)
From Coq Require Import String.
From Verif.spec Require Export RegexGramSpec LexTable.
Local Open Scope nat_scope.
Local Open Scope list_scope.

Inductive spells_rx : rx -> list lexeme -> Prop :=
| sp_sym x : lx_kind x = L "symbol" -> spells_rx (XSym (lx_val x)) [x]
| sp_group o l u c : lx_kind o = L "(" -> spells_seq l u -> lx_kind c = L ")" ->
    spells_rx (XGroup l) (o :: u ++ [c])
| sp_opt e u q : atom e -> spells_rx e u -> lx_kind q = L "optional" -> spells_rx (XOpt e) (u ++ [q])
| sp_rep e u q : atom e -> spells_rx e u -> lx_kind q = L "repeats" -> spells_rx (XRep e) (u ++ [q])
| sp_or e u b l v : no_bar e -> spells_rx e u -> lx_kind b = L "or" -> spells_bar l v ->
    spells_rx (XOr (e :: l)) (u ++ b :: v)
with spells_bar : list rx -> list lexeme -> Prop :=
| spb_one e u : no_bar e -> spells_rx e u -> spells_bar [e] u
| spb_more e u b l v : no_bar e -> spells_rx e u -> lx_kind b = L "or" -> spells_bar l v ->
    spells_bar (e :: l) (u ++ b :: v)
with spells_seq : list rx -> list lexeme -> Prop :=
| sps_nil : spells_seq [] []
| sps_cons e u es v : spells_rx e u -> spells_seq es v -> spells_seq (e :: es) (u ++ v).

(** Each production on a line of its own; one that starts with the arrow belongs to the
    non-terminal before, and the first does not. *)
Inductive spells_prods : option gostring -> rxs -> list lexeme -> Prop :=
| spp_nil cur : spells_prods cur [] []
| spp_prod cur n s a es u R v : lx_kind n = L "nl" -> lx_kind s = L "symbol" -> lx_kind a = L "rarr" ->
    spells_seq es u -> spells_prods (Some (lx_val s)) R v ->
    spells_prods cur ((lx_val s, es) :: R) (n :: s :: a :: u ++ v)
| spp_more cur n a es u R v : lx_kind n = L "nl" -> lx_kind a = L "rarr" ->
    spells_seq es u -> spells_prods (Some cur) R v ->
    spells_prods (Some cur) ((cur, es) :: R) (n :: a :: u ++ v).
(** At least one production; a line break may come before and after. *)
Definition blank (u : list lexeme) : Prop := u = [] \/ exists n, u = [n] /\ lx_kind n = L "nl".
Definition spells (R : rxs) (lxs : list lexeme) : Prop :=
  R <> [] /\ exists pre u post, blank pre /\ blank post /\ spells_prods None R u /\ lxs = pre ++ u ++ post.

Scheme spells_rx_mut := Induction for spells_rx Sort Prop
  with spells_bar_mut := Induction for spells_bar Sort Prop
  with spells_seq_mut := Induction for spells_seq Sort Prop.
Combined Scheme spells_mut from spells_rx_mut, spells_bar_mut, spells_seq_mut.

(** regexgram.go:15-26: the lexer's rules as a table. *)
Definition one (a : string) : re := RSet (N.eqb (hd 0%N (L a))).
Definition line_break (x : N) : bool := (x =? 10)%N || (x =? 13)%N.
Definition rg_table : list lrow := [
  LRow (L "rarr") (L "->") (RCat (one "-") (one ">")) false;
  LRow (L "symbol") (L "\w+") (RPlus (RSet word_char)) false;
  LRow (L "repeats") (L "\*") (one "*") false;
  LRow (L "optional") (L "\?") (one "?") false;
  LRow (L "or") (L "\|") (one "|") false;
  LRow (L "(") (L "\(") (one "(") false;
  LRow (L ")") (L "\)") (one ")") false;
  LRow (L "comment") (L "[\n\r]\s*\/\/[^\n\r]*")
    (RCat (RSet line_break) (RCat (RStar (RSet lx_space))
      (RCat (one "/") (RCat (one "/") (RStar (RSet (fun x => negb (line_break x)))))))) true;
  LRow (L "nl") (L "[\n\r]\s*") (RCat (RSet line_break) (RStar (RSet lx_space))) false;
  LRow (L "space") (L "[ \t]+") (RPlus (RSet (fun x => (x =? 32) || (x =? 9))%N)) true].
(** The package's lexer, after some texts; a line break is put before every text. *)
Definition rg_calls (texts : list gostring) : list sl_call := table_calls rg_table [CStart (L "nl") [c_nl]] texts.
(** The text [s] is the grammar [R]. *)
Definition reads (s : gostring) (R : rxs) : Prop := exists lxs, lexes_to (rg_calls []) s lxs /\ spells R lxs.
