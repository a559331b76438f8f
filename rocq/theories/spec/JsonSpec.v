(** JSON documents, their texts, and the layout Format gives them. *)
From Coq Require Import String.
From Verif.model Require Export JsonEx.
From Verif.spec Require Export ReducerSpec.
Local Open Scope nat_scope.
Local Open Scope list_scope.

(** A leaf is a number, a string, true, false or null as written; keys are written strings. *)
Inductive json :=
| JLeaf (v : gostring)
| JArr (l : list json)
| JObj (l : list (gostring * json)).

Section Texts.
  (** What counts as a number, a string and white space. *)
  Variables number string : gostring -> Prop.
  Variable space : N -> Prop.

  Definition blank (w : gostring) : Prop := Forall space w.
  Definition leaf (v : gostring) : Prop :=
    number v \/ string v \/ v = L "true" \/ v = L "false" \/ v = L "null".

  Inductive value_text : json -> gostring -> Prop :=
  | vt_leaf v : leaf v -> value_text (JLeaf v) v
  | vt_no_items w : blank w -> value_text (JArr []) (L "[" ++ w ++ L "]")
  | vt_items l t : items_text l t -> value_text (JArr l) (L "[" ++ t ++ L "]")
  | vt_no_entries w : blank w -> value_text (JObj []) (L "{" ++ w ++ L "}")
  | vt_entries l t : entries_text l t -> value_text (JObj l) (L "{" ++ t ++ L "}")
  with items_text : list json -> gostring -> Prop :=
  | it_one J w1 s w2 : blank w1 -> value_text J s -> blank w2 -> items_text [J] (w1 ++ s ++ w2)
  | it_more J l w1 s w2 t : blank w1 -> value_text J s -> blank w2 -> items_text l t ->
      items_text (J :: l) (w1 ++ s ++ w2 ++ L "," ++ t)
  with entries_text : list (gostring * json) -> gostring -> Prop :=
  | en_one k J w1 w2 w3 s w4 : blank w1 -> string k -> blank w2 -> blank w3 -> value_text J s -> blank w4 ->
      entries_text [(k, J)] (w1 ++ k ++ w2 ++ L ":" ++ w3 ++ s ++ w4)
  | en_more k J l w1 w2 w3 s w4 t : blank w1 -> string k -> blank w2 -> blank w3 -> value_text J s -> blank w4 ->
      entries_text l t -> entries_text ((k, J) :: l) (w1 ++ k ++ w2 ++ L ":" ++ w3 ++ s ++ w4 ++ L "," ++ t).
  Definition doc (J : json) (s : gostring) : Prop :=
    exists w1 t w2, blank w1 /\ value_text J t /\ blank w2 /\ s = w1 ++ t ++ w2.
End Texts.
Scheme value_text_mut := Induction for value_text Sort Prop
  with items_text_mut := Induction for items_text Sort Prop
  with entries_text_mut := Induction for entries_text Sort Prop.
Combined Scheme texts_mut from value_text_mut, items_text_mut, entries_text_mut.

(** What the package reads: digits with at most one point, not after the last digit... *)
Definition digits (v : gostring) : Prop := Forall (fun c => (48 <= c <= 57)%N) v.
Definition number_text (v : gostring) : Prop :=
  exists a p b, v = a ++ p ++ b /\ digits a /\ (p = [] \/ p = L ".") /\ b <> [] /\ digits b.
(** ... strings in which a backslash takes the next byte along, which is no line break ... *)
Inductive string_body : gostring -> Prop :=
| sb_nil : string_body []
| sb_plain c s : c <> 34%N -> c <> 92%N -> string_body s -> string_body (c :: s)
| sb_escape c s : c <> 10%N -> string_body s -> string_body (92%N :: c :: s).
Definition string_text (v : gostring) : Prop := exists b, v = quoted b /\ string_body b.
(** ... and the white space of regexp. *)
Definition space_char (c : N) : Prop := lx_space c = true.
Definition js_doc : json -> gostring -> Prop := doc number_text string_text space_char.

(** RFC 8259. *)
Definition rfc_int (v : gostring) : Prop := v = L "0" \/ exists c r, v = c :: r /\ (49 <= c <= 57)%N /\ digits r.
Definition rfc_frac (v : gostring) : Prop := v = [] \/ exists r, v = L "." ++ r /\ r <> [] /\ digits r.
Definition rfc_exp (v : gostring) : Prop :=
  v = [] \/ exists e s r, v = e ++ s ++ r /\ (e = L "e" \/ e = L "E") /\ (s = [] \/ s = L "+" \/ s = L "-") /\ r <> [] /\ digits r.
Definition rfc_number (v : gostring) : Prop :=
  exists m i f e, v = m ++ i ++ f ++ e /\ (m = [] \/ m = L "-") /\ rfc_int i /\ rfc_frac f /\ rfc_exp e.
Definition rfc_unsigned (v : gostring) : Prop := exists i f, v = i ++ f /\ rfc_int i /\ rfc_frac f.
Definition hex (c : N) : Prop := (48 <= c <= 57 \/ 65 <= c <= 70 \/ 97 <= c <= 102)%N.
Inductive rfc_body : gostring -> Prop :=
| rb_nil : rfc_body []
| rb_plain c s : (32 <= c)%N -> c <> 34%N -> c <> 92%N -> rfc_body s -> rfc_body (c :: s)
| rb_escape c s : c ∈ [34%N; 92%N] ++ L "/bfnrt" -> rfc_body s -> rfc_body (92%N :: c :: s)
| rb_unicode a b c d s : hex a -> hex b -> hex c -> hex d -> rfc_body s -> rfc_body (L "\u" ++ [a; b; c; d] ++ s).
Definition rfc_string (v : gostring) : Prop := exists b, v = quoted b /\ rfc_body b.
Definition rfc_space (c : N) : Prop := c = 32%N \/ c = 9%N \/ c = 10%N \/ c = 13%N.
Definition rfc_doc : json -> gostring -> Prop := doc rfc_number rfc_string rfc_space.
(** Leaves and keys of a document. *)
Fixpoint json_all (Q K : gostring -> Prop) (J : json) : Prop :=
  match J with
  | JLeaf v => Q v
  | JArr l => foldr (fun J P => json_all Q K J /\ P) True l
  | JObj l => foldr (fun e P => K (fst e) /\ json_all Q K (snd e) /\ P) True l
  end.

(** The layout: arrays and objects in an array start a line and so does the array's end;
    the entries of an object of two or more are on lines of their own. *)
Definition line (n : nat) : gostring := [c_nl] ++ repeat 32%N (2 * n).
Definition nested (J : json) : bool := match J with JLeaf _ => false | _ => true end.
Fixpoint layout (n : nat) (J : json) : gostring :=
  match J with
  | JLeaf v => v
  | JArr l =>
      L "[" ++ strjoin (L ",") (map (fun J => (if nested J then line (S n) else []) ++ layout (S n) J) l)
      ++ (if existsb nested l then line n else []) ++ L "]"
  | JObj [(k, J)] => L "{" ++ k ++ L ": " ++ layout n J ++ L "}"
  | JObj l =>
      L "{" ++ strjoin (L ",") (map (fun e => line (S n) ++ fst e ++ L ": " ++ layout (S n) (snd e)) l)
      ++ (if l then [] else line n) ++ L "}"
  end.

(** json.go:15-27, the lexer as a table. *)
Definition js_table : list lrow := [
  LRow (L "space") (L "\s+") (RPlus (RSet lx_space)) true;
  LRow (L "number") (L "\d*\.?\d+") (RCat (RStar (RSet rd_digit)) (RCat (ROpt (rd_one ".")) (RPlus (RSet rd_digit)))) false;
  LRow (L "string") (L "(\""([^\""\\]|(\\.))*\"")")
    (RGroup 1 (RCat rd_quote (RCat (RStar (RGroup 2 (RAlt (RSet (fun x => negb ((x =? 34) || (x =? 92))%N))
       (RGroup 3 (RCat (RSet (N.eqb 92)) (RSet (fun x => negb (x =? 10)%N))))))) rd_quote))) false;
  LRow (L "bool") (L "(true)|(false)") (RAlt (RGroup 1 (rd_lit (L "true"))) (RGroup 2 (rd_lit (L "false")))) false;
  rd_word "null";
  LRow (L "comma") (L ",") (rd_one ",") false;
  LRow (L "lcb") (L "\{") (rd_one "{") false;
  LRow (L "rcb") (L "\}") (rd_one "}") false;
  LRow (L "lb") (L "\[") (rd_one "[") false;
  LRow (L "rb") (L "\]") (rd_one "]") false;
  LRow (L "colon") (L ":") (rd_one ":") false].
Definition js_calls (texts : list gostring) : list sl_call := table_calls js_table [] texts.

(** The package's variables, json.go:49-53: the lexer [l0], the grammar [g] and the reducer
    [rd], made by regexgram after it has read [rtexts] and by reducer after it has read
    [dtexts], with Merge ranging over its arguments in any order. *)
Definition js_package (compile : compiler) (l0 : slexer) (g : gr) (rd : reducer) : Prop :=
  exists lr0 lr lr' rtexts gg made ld0 ld ld' dtexts dg drd described ks1 ks2,
    compiles compile rg_table /\ rg_lexer compile = Some lr0 /\ returns (sl_calls (map CLex rtexts) lr0) lr
    /\ rg_grammar = Some gg /\ returns (js_made lr gg) (g, made, lr')
    /\ rd_package compile ld0 dg drd /\ returns (sl_calls (map CLex dtexts) ld0) ld
    /\ returns (js_described ld dg drd) (described, ld')
    /\ orders ks1 made /\ orders ks2 described /\ rd = js_rdcr ks1 ks2 made described
    /\ compiles compile js_table /\ js_lexer compile = Some l0.
