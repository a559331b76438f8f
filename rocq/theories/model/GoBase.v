(** Conventions shared by all model files: Go strings, results, lexemes, parse
    nodes, and the parlex interfaces. *)
From stdpp Require Export base list gmap.
From Coq Require Export NArith ZArith.
From Coq Require Import Ascii String.
Open Scope list_scope.

(** Go strings. Elements are Unicode code points in text-level code and bytes in
    the lexers (DESIGN.md, conventions). *)
Notation gostring := (list N).

(** Literal ASCII strings, for examples and for constants in the Go source. *)
Fixpoint L (x : string) : gostring :=
  match x with
  | EmptyString => []
  | String a r => N_of_ascii a :: L r
  end.
Arguments L x%string_scope.

(** Outcome of a Go call: a value, a run-time panic, or fuel exhausted. *)
Inductive res (A : Type) : Type :=
| Ok (a : A)
| Panic
| OutOfFuel.
Arguments Ok {A} a.
Arguments Panic {A}.
Arguments OutOfFuel {A}.

Definition rbind {A B} (r : res A) (k : A -> res B) : res B :=
  match r with Ok a => k a | Panic => Panic | OutOfFuel => OutOfFuel end.
Notation "x <-! e ; k" := (rbind e (fun x => k))
  (at level 100, e at next level, k at level 200, right associativity).
Notation "' p <-! e ; k" := (rbind e (fun x => match x with p => k end))
  (at level 100, p pattern, e at next level, k at level 200, right associativity).

(** [for _, x := range l { s = body(s, x) }] *)
Fixpoint rfold {A S} (body : S -> A -> res S) (l : list A) (s : S) : res S :=
  match l with
  | [] => Ok s
  | x :: r => s' <-! body s x; rfold body r s'
  end.

Fixpoint rmap {A B} (f : A -> res B) (l : list A) : res (list B) :=
  match l with
  | [] => Ok []
  | x :: r => y <-! f x; ys <-! rmap f r; Ok (y :: ys)
  end.

(** interfaces.go:25-30 [Lexeme] / lexeme/lexeme.go:14-18 [lexeme.Lexeme]:
    K (as its string), V, L, C. *)
Record lexeme := Lx {
  lx_kind : gostring;
  lx_val : gostring;
  lx_line : Z;
  lx_col : Z
}.

(** lexeme/lexeme.go:22-27 [New]: no value, line -1, column 0. *)
Definition lexeme_new (k : gostring) : lexeme := Lx k [] (-1)%Z 0%Z.

(** interfaces.go:39-44 [ParseNode], tree/parsetree.go:51-55 [PN], as a value:
    lexeme and children. Parent pointers and slice sharing are not part of this
    value; they are modelled in model/Heap.v. *)
Inductive pn := PN (pn_lx : lexeme) (pn_ch : list pn).
Definition pn_lexeme (t : pn) : lexeme := match t with PN l _ => l end.
Definition pn_children (t : pn) : list pn := match t with PN _ c => c end.

(** interfaces.go:56-59 [Grammar]: NonTerminals() and Productions(symbol), the
    latter [None] when Go returns nil. A production is the list of its symbols'
    strings (interfaces.go:3-4: symbols with the same string are the same). *)
Record grammar := Gram {
  g_nts : list gostring;
  g_prods : gostring -> option (list (list gostring))
}.

(** A grammar given as an association list (used for concrete grammars). *)
Fixpoint assoc_prods (l : list (gostring * list (list gostring))) (s : gostring)
  : option (list (list gostring)) :=
  match l with
  | [] => None
  | (k, ps) :: r => if decide (k = s) then Some ps else assoc_prods r s
  end.
Definition gram_of (l : list (gostring * list (list gostring))) : grammar :=
  Gram (map fst l) (assoc_prods l).

(** The two methods of the Grammar interface agree on which symbols are
    non-terminals. Proved of every grammar.Grammar in proofs/GrammarProofs.v. *)
Definition g_wf (g : grammar) : Prop :=
  forall s, s ∈ g_nts g <-> is_Some (g_prods g s).
