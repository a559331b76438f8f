(** Descriptions of reducers: what they mean and how they are written. *)
From Coq Require Import String.
From Verif.model Require Export ReducerText.
From Verif.spec Require Export RegexGramText LexTable.
Local Open Scope nat_scope.
Local Open Scope list_scope.

(** Numbers and strings as they are written, strings without the quotes. *)
Inductive rstep :=
| SNil
| SSingle
| SGrand
| SRemoveChildren (ns : list gostring)
| SChildValue (n : gostring)
| SRemoveChild (n : gostring)
| SReplace (n : gostring)
| SChildrenOf (n : gostring)
| SChild (n : gostring)
| SRemoveAll (xs : list gostring)
| SIf (n x : gostring) (th el : list rstep).
Notation description := (list (gostring * list rstep)).

(** The integer written as digits with an optional sign, brought into the range of int. *)
Definition digits_value (s : gostring) : Z := fold_left (fun n c => (n * 10 + (Z.of_N c - 48))%Z) s 0%Z.
Definition int_value (s : gostring) : Z :=
  (match s with
   | 45%N :: t => Z.max (- 2 ^ 63) (- digits_value t)
   | _ => Z.min (2 ^ 63 - 1) (digits_value s)
   end)%Z.

(** Texts that are integers. *)
Definition int_text (v : gostring) : Prop :=
  exists sg ds, v = sg ++ ds /\ (sg = [] \/ sg = [45%N]) /\ ds <> [] /\ Forall (fun c => (48 <= c <= 57)%N) ds.

(** The effect of a step on a node, with the methods of tree.PN. *)
Fixpoint step_means (s : rstep) (n : pn) : pn :=
  let go := fix go (ss : list rstep) (n : pn) : pn :=
    match ss with [] => n | s :: r => go r (step_means s n) end in
  match s with
  | SNil => n
  | SSingle => fst (promote_single_child n)
  | SGrand => promote_grand_children n
  | SRemoveChildren ns => remove_children (map int_value ns) n
  | SChildValue i => promote_child_value (int_value i) n
  | SRemoveChild i => fst (remove_child (int_value i) n)
  | SReplace i => fst (replace_with_child (int_value i) n)
  | SChildrenOf i => fst (promote_children_of (int_value i) n)
  | SChild i => fst (promote_child (int_value i) n)
  | SRemoveAll xs => remove_all xs n
  | SIf i x th el => if child_is n (int_value i) x then go th n else go el n
  end.
Definition steps_mean (ss : list rstep) (n : pn) : pn := fold_left (fun n s => step_means s n) ss n.
(** All numbers of the description are integers. *)
Fixpoint ints_only (s : rstep) : Prop :=
  let go := fix go (ss : list rstep) : Prop := match ss with [] => True | s :: r => ints_only s /\ go r end in
  match s with
  | SNil | SSingle | SGrand | SRemoveAll _ => True
  | SRemoveChildren ns => Forall int_text ns
  | SChildValue i | SRemoveChild i | SReplace i | SChildrenOf i | SChild i => int_text i
  | SIf i _ th el => int_text i /\ go th /\ go el
  end.
Definition ints_in (D : description) : Prop := Forall (fun r => Forall ints_only (snd r)) D.
(** The steps for a kind: those of its last rule. *)
Definition steps_for (D : description) (k : gostring) : list rstep :=
  match list_find (fun r => fst r = k) (reverse D) with Some (_, (_, ss)) => ss | None => [] end.

(** The lexemes that write a description. *)
Definition tk (k : string) (x : lexeme) : Prop := lx_kind x = L k.
Definition quoted (x : gostring) : gostring := [34%N] ++ x ++ [34%N].
(** a, b, ..., z *)
Inductive writes_args (k : string) (text : gostring -> gostring) : list gostring -> list lexeme -> Prop :=
| wa_one v x : tk k x -> lx_val x = text v -> writes_args k text [v] [x]
| wa_more v vs x c u : tk k x -> lx_val x = text v -> tk "comma" c -> writes_args k text vs u ->
    writes_args k text (v :: vs) (x :: c :: u).
Inductive writes_step : rstep -> list lexeme -> Prop :=
| ws_nil x : tk "Nil" x -> writes_step SNil [x]
| ws_single x o c : tk "PromoteSingleChild" x -> tk "lp" o -> tk "rp" c -> writes_step SSingle [x; o; c]
| ws_grand x o c : tk "PromoteGrandChildren" x -> tk "lp" o -> tk "rp" c -> writes_step SGrand [x; o; c]
| ws_remove_children x o c ns u : tk "RemoveChildren" x -> tk "lp" o -> tk "rp" c ->
    writes_args "number" id ns u -> writes_step (SRemoveChildren ns) (x :: o :: u ++ [c])
| ws_remove_all x o c xs u : tk "RemoveAll" x -> tk "lp" o -> tk "rp" c ->
    writes_args "string" quoted xs u -> writes_step (SRemoveAll xs) (x :: o :: u ++ [c])
| ws_child_value x o i c : tk "PromoteChildValue" x -> tk "lp" o -> tk "number" i -> tk "rp" c ->
    writes_step (SChildValue (lx_val i)) [x; o; i; c]
| ws_remove_child x o i c : tk "RemoveChild" x -> tk "lp" o -> tk "number" i -> tk "rp" c ->
    writes_step (SRemoveChild (lx_val i)) [x; o; i; c]
| ws_replace x o i c : tk "ReplaceWithChild" x -> tk "lp" o -> tk "number" i -> tk "rp" c ->
    writes_step (SReplace (lx_val i)) [x; o; i; c]
| ws_children_of x o i c : tk "PromoteChildrenOf" x -> tk "lp" o -> tk "number" i -> tk "rp" c ->
    writes_step (SChildrenOf (lx_val i)) [x; o; i; c]
| ws_child x o i c : tk "PromoteChild" x -> tk "lp" o -> tk "number" i -> tk "rp" c ->
    writes_step (SChild (lx_val i)) [x; o; i; c]
| ws_if x o q o1 i m1 s c1 m2 th ut m3 el ue c v :
    tk "If" x -> tk "lp" o ->
    tk "ChildIs" q -> tk "lp" o1 -> tk "number" i -> tk "comma" m1 -> tk "string" s -> lx_val s = quoted v -> tk "rp" c1 ->
    tk "comma" m2 -> writes_steps th ut -> tk "comma" m3 -> writes_steps el ue -> tk "rp" c ->
    writes_step (SIf (lx_val i) v th el) (x :: o :: q :: o1 :: i :: m1 :: s :: c1 :: m2 :: ut ++ m3 :: ue ++ [c])
(** Steps joined by periods. *)
with writes_steps : list rstep -> list lexeme -> Prop :=
| wss_one s u : writes_step s u -> writes_steps [s] u
| wss_more s u p ss v : writes_step s u -> tk "period" p -> writes_steps ss v -> writes_steps (s :: ss) (u ++ p :: v).
Inductive writes : description -> list lexeme -> Prop :=
| w_none : writes [] []
| w_rule k ss D x u v : tk "rule" x -> lx_val x = k -> writes_steps ss u -> writes D v ->
    writes ((k, ss) :: D) (x :: u ++ v).

(** reducer.go:13-35, the lexer as a table. *)
Definition rd_one (a : string) : re := RSet (N.eqb (hd 0%N (L a))).
Fixpoint rd_lit (s : gostring) : re :=
  match s with [] => REps | [c] => RSet (N.eqb c) | c :: r => RCat (RSet (N.eqb c)) (rd_lit r) end.
Definition rd_digit (x : N) : bool := ((48 <=? x) && (x <=? 57))%N.
Definition rd_quote : re := RSet (N.eqb 34).
Definition rd_word (s : string) : lrow := LRow (L s) (L s) (rd_lit (L s)) false.
Definition rd_table : list lrow := [
  rd_word "If"; rd_word "ChildIs"; rd_word "PromoteChild"; rd_word "PromoteChildrenOf"; rd_word "PromoteChildValue";
  rd_word "PromoteGrandChildren"; rd_word "RemoveAll"; rd_word "RemoveChild"; rd_word "RemoveChildren";
  rd_word "PromoteSingleChild"; rd_word "ReplaceWithChild"; rd_word "Nil";
  LRow (L "number") (L "-?\d*\.?\d+")
    (RCat (ROpt (rd_one "-")) (RCat (RStar (RSet rd_digit)) (RCat (ROpt (rd_one ".")) (RPlus (RSet rd_digit))))) false;
  LRow (L "rule") (L "(\w+)") (RGroup 1 (RPlus (RSet word_char))) false;
  LRow (L "string") (L "\""([^\""\\]|(\\.))*\""")
    (RCat rd_quote (RCat (RStar (RGroup 1 (RAlt (RSet (fun x => negb ((x =? 34) || (x =? 92))%N))
       (RGroup 2 (RCat (RSet (N.eqb 92)) (RSet (fun x => negb (x =? 10)%N))))))) rd_quote)) false;
  LRow (L "lp") (L "\(") (rd_one "(") false;
  LRow (L "rp") (L "\)") (rd_one ")") false;
  LRow (L "comma") (L ",") (rd_one ",") false;
  LRow (L "period") (L "\.") (rd_one ".") false;
  LRow (L "comment") (L "\/\/[^\n]*") (RCat (rd_one "/") (RCat (rd_one "/") (RStar (RSet (fun x => negb (x =? 10)%N))))) true;
  LRow (L "space") (L "\s+") (RPlus (RSet lx_space)) true].
Definition rd_calls (texts : list gostring) : list sl_call := table_calls rd_table [] texts.
(** What a text describes. *)
Definition describes (s : gostring) (D : description) : Prop :=
  exists lxs, lexes_to (rd_calls []) s lxs /\ writes D lxs.
(** A reducer doing what a description says: it has the description's kinds, and each
    reduction whose numbers are integers does the steps. *)
Definition reducer_means (r : reducer) (D : description) : Prop :=
  (forall k, is_Some (r !! k) <-> k ∈ map fst D)
  /\ forall k, Forall ints_only (steps_for D k) -> forall n, run_red (reduction_for r k) n = steps_mean (steps_for D k) n.

(** The package's variables, reducer.go:37, 62-72: the lexer [l0], the grammar [g] and the
    reducer [rd], made by regexgram after it has read [rtexts], with Merge ranging over its
    arguments in any order. *)
Definition orders (ks : list gostring) (r : reducer) : Prop := forall k, k ∈ ks <-> is_Some (r !! k).
Definition rd_package (compile : compiler) (l0 : slexer) (g : gr) (rd : reducer) : Prop :=
  exists lr0 lr lr' rtexts gg made ks1 ks2,
    compiles compile rg_table /\ rg_lexer compile = Some lr0 /\ returns (sl_calls (map CLex rtexts) lr0) lr
    /\ rg_grammar = Some gg /\ returns (rd_made lr gg) (g, made, lr')
    /\ orders ks1 made /\ orders ks2 rd_own /\ rd = rd_rdcr ks1 ks2 made
    /\ compiles compile rd_table /\ rd_lexer compile = Some l0.
