(** Lexers written as a fixed table: kind, expression as written, what it matches, and
    whether matches are discarded. *)
From Coq Require Import String.
From Verif.model Require Export Run.
From Verif.spec Require Export LexSpec RunSpec.

Record lrow := LRow { lw_kind : gostring; lw_src : gostring; lw_re : re; lw_discard : bool }.

(** regexp.Compile reads the expressions of the table as what they match. *)
Definition compiles (compile : compiler) (T : list lrow) : Prop :=
  forall r, r ∈ T -> compile (lw_src r) = Some (rx_of (lw_re r) (lw_src r)).
Definition row_def (r : lrow) : rdef := RDef (lw_kind r) (rx_of (lw_re r) (lw_src r)) (lw_discard r).
(** The calls that make such a lexer, settings that follow, and texts lexed since. *)
Definition table_calls (T : list lrow) (more : list sl_call) (texts : list gostring) : list sl_call :=
  adds (map row_def T) ++ more ++ map CLex texts.

(** The lexemes of a text without junk; the first junk of one with junk. *)
Definition lexes_to (cs : list sl_call) (s : gostring) (lxs : list lexeme) : Prop :=
  exists ps, tokenises (rules_of cs) s ps /\ junks ps = [] /\ all_lexemes cs ps lxs.
Definition lexes_not (cs : list sl_call) (s : gostring) (v : gostring) : Prop :=
  exists ps vs, tokenises (rules_of cs) s ps /\ junks ps = v :: vs.
