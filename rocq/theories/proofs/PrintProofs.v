(** The texts of lexemes. *)
From Coq Require Import String.
From Coq Require Import Lia Decimal DecimalFacts DecimalPos DecimalN DecimalZ.
From Verif.spec Require Import PrintSpec.
From Verif.proofs Require TreeNewProofs.
From Verif.proofs Require Import LexMain Fuel.
Local Open Scope nat_scope.
Local Open Scope list_scope.

(** * Decimal numbers *)
Lemma uint_digits u : forall c, c ∈ uint_text u -> (48 <= c <= 57)%N.
Proof.
  induction u as [|u IH|u IH|u IH|u IH|u IH|u IH|u IH|u IH|u IH|u IH]; intros c; cbn [uint_text];
    [intros H; by apply elem_of_nil in H|..]; (intros [->|H]%elem_of_cons; [lia|by apply IH]).
Qed.
Lemma int_clean z c : c ∈ int_text z -> c = 45%N \/ (48 <= c <= 57)%N.
Proof.
  unfold int_text. destruct (Z.to_int z) as [u|u]; [intros H; right; by apply (uint_digits u)|].
  rewrite elem_of_app. intros [H|H]; [left; by apply elem_of_list_singleton in H|right; by apply (uint_digits u)].
Qed.
Lemma uint_text_inj u : forall v, uint_text u = uint_text v -> u = v.
Proof. induction u as [|u IH|u IH|u IH|u IH|u IH|u IH|u IH|u IH|u IH|u IH]; intros [|v|v|v|v|v|v|v|v|v|v]; cbn [uint_text]; intros E; try discriminate E; try done; injection E as E; f_equal; by apply IH. Qed.
Lemma int_text_inj z w : int_text z = int_text w -> z = w.
Proof.
  unfold int_text. intros E. cut (Z.to_int z = Z.to_int w); [intros H; by rewrite <- (DecimalZ.of_to z), <- (DecimalZ.of_to w), H|].
  destruct (Z.to_int z) as [u|u], (Z.to_int w) as [v|v].
  - f_equal. by apply uint_text_inj.
  - exfalso. assert (H : (45%N) ∈ uint_text u) by (rewrite E; by left). apply uint_digits in H. lia.
  - exfalso. assert (H : (45%N) ∈ uint_text v) by (rewrite <- E; by left). apply uint_digits in H. lia.
  - f_equal. by apply uint_text_inj, (app_inv_head (L "-")).
Qed.
Definition dstep (n : Z) (c : N) : Z := (n * 10 + (Z.of_N c - 48))%Z.
Lemma number_acc u : forall p, Z.pos (Pos.of_uint_acc u p) = fold_left dstep (uint_text u) (Z.pos p).
Proof.
  induction u as [|u IH|u IH|u IH|u IH|u IH|u IH|u IH|u IH|u IH|u IH]; intros p; [done|..];
    (cbn [Pos.of_uint_acc uint_text fold_left]; rewrite IH; f_equal; unfold dstep; lia).
Qed.
Lemma number_uint u : number_of (uint_text u) = Z.of_N (Pos.of_uint u).
Proof.
  unfold number_of. change (fun (n : Z) (c : N) => (n * 10 + (Z.of_N c - 48))%Z) with dstep.
  induction u as [|u IH|u IH|u IH|u IH|u IH|u IH|u IH|u IH|u IH|u IH]; [done|exact IH|..];
    (cbn [Pos.of_uint uint_text fold_left Z.of_N]; rewrite number_acc; f_equal).
Qed.
Lemma unorm_digits u : decimal_digits (uint_text (unorm u)).
Proof.
  split; [apply uint_digits|].
  induction u as [|u IH|u IH|u IH|u IH|u IH|u IH|u IH|u IH|u IH|u IH]; [by left|exact IH|..]; right; cbn; eexists _, _; (split; [reflexivity|lia]).
Qed.
Lemma pos_digits p : decimal_digits (uint_text (Pos.to_uint p)) /\ number_of (uint_text (Pos.to_uint p)) = Z.pos p.
Proof.
  split.
  - assert (E : Pos.to_uint p = unorm (Pos.to_uint p)).
    { pose proof (DecimalN.Unsigned.to_of (Pos.to_uint p)) as H. rewrite <- H.
      change (N.of_uint (Pos.to_uint p)) with (Pos.of_uint (Pos.to_uint p)). by rewrite DecimalPos.Unsigned.of_to. }
    rewrite E. apply unorm_digits.
  - by rewrite number_uint, DecimalPos.Unsigned.of_to.
Qed.
Lemma int_decimal z : decimal z (int_text z).
Proof.
  destruct z as [|p|p].
  - exists (L "0"). change (L "0") with [48%N]. split; [|done]. split; [|by left]. intros c [->|H]%elem_of_cons; [lia|by apply elem_of_nil in H].
  - exists (uint_text (Pos.to_uint p)). destruct (pos_digits p) as [H1 H2]. exact (conj H1 (conj H2 eq_refl)).
  - exists (uint_text (Pos.to_uint p)). destruct (pos_digits p) as [H1 H2]. exact (conj H1 (conj H2 eq_refl)).
Qed.

(** * Cutting texts *)
Lemma cut_first (c : N) a : forall a' r r', c ∉ a -> c ∉ a' -> a ++ c :: r = a' ++ c :: r' -> a = a' /\ r = r'.
Proof.
  induction a as [|x a IH]; intros [|y a'] r r' H H' E; cbn [app] in E.
  - by injection E as ->.
  - exfalso. injection E as -> _. apply H'. by left.
  - exfalso. injection E as -> _. apply H. by left.
  - injection E as -> E. destruct (IH a' r r') as [-> ->]; try done; [intros Hc; apply H; by right|intros Hc; apply H'; by right].
Qed.
Lemma cut_last (c : N) a a' r r' : c ∉ r -> c ∉ r' -> a ++ c :: r = a' ++ c :: r' -> a = a' /\ r = r'.
Proof.
  intros H H' E. assert (E' : reverse r ++ c :: reverse a = reverse r' ++ c :: reverse a').
  { apply (f_equal reverse) in E. rewrite !reverse_app, !reverse_cons in E. by rewrite <- !app_assoc in E. }
  apply cut_first in E' as [E1 E2]; [|by rewrite elem_of_reverse..]. split; by apply (inj reverse).
Qed.
Lemma cut_none (c : N) a b r : c ∉ a -> a <> b ++ c :: r.
Proof. intros H ->. apply H. rewrite elem_of_app. right. by left. Qed.
Lemma strjoin_more sep (x y : gostring) l : strjoin sep (x :: y :: l) = x ++ sep ++ strjoin sep (y :: l).
Proof. done. Qed.
Lemma join_inj (c : N) s l : forall l', l <> [] -> l' <> [] -> (forall x, x ∈ l -> c ∉ x) -> (forall x, x ∈ l' -> c ∉ x) ->
  strjoin (c :: s) l = strjoin (c :: s) l' -> l = l'.
Proof.
  induction l as [|x [|y l] IH]; intros [|x' [|y' l']] H1 H2 H H' E; try done; rewrite ?strjoin_more in E; cbn [strjoin] in E.
  - by rewrite E.
  - exfalso. by apply (cut_none c) in E; [|apply H; left].
  - exfalso. symmetry in E. by apply (cut_none c) in E; [|apply H'; left].
  - cbn [app] in E. apply cut_first in E as [-> E]; [|apply H; by left|apply H'; by left]. apply app_inv_head in E.
    f_equal. apply IH; try done; [intros z Hz; apply H; by right|intros z Hz; apply H'; by right].
Qed.

(** * Quoting *)
Definition unhex_digit (c : N) : N := if (c <? 58)%N then (c - 48)%N else (c - 87)%N.
Definition unhex (w : gostring) : N := fold_left (fun n c => (n * 16 + unhex_digit c)%N) w 0%N.
Lemma unhex_hex_digit n : (n < 16)%N -> unhex_digit (hex_digit n) = n.
Proof. intros H. unfold hex_digit, unhex_digit. destruct (N.ltb_spec n 10); [destruct (N.ltb_spec (48 + n) 58)|destruct (N.ltb_spec (87 + n) 58)]; lia. Qed.
Lemma unhex_hex d : forall n, (n < 16 ^ N.of_nat d)%N -> unhex (hex d n) = n.
Proof.
  induction d as [|d IH]; intros n H; [cbn in *; lia|]. cbn [hex]. unfold unhex. rewrite fold_left_app. cbn [fold_left].
  change (fold_left _ (hex d (n / 16)) 0%N) with (unhex (hex d (n / 16))). rewrite IH.
  - rewrite unhex_hex_digit by (by apply N.mod_lt). pose proof (N.div_mod n 16). lia.
  - rewrite Nat2N.inj_succ, N.pow_succ_r' in H. apply N.div_lt_upper_bound; lia.
Qed.
Lemma hex_len d n : length (hex d n) = d.
Proof. revert n. induction d as [|d IH]; intros n; [done|]. cbn [hex]. rewrite app_length, IH. cbn [length]. lia. Qed.
(** The first code point of a quoted text, and what is after it. *)
Definition unquote1 (s : gostring) : option (N * gostring) :=
  match s with
  | [] => None
  | x :: r =>
      if decide (x = 92%N) then
        match r with
        | [] => None
        | d :: r' =>
            if decide (d = 120%N) then Some (unhex (take 2 r'), drop 2 r')
            else if decide (d = 117%N) then Some (unhex (take 4 r'), drop 4 r')
            else if decide (d = 85%N) then Some (unhex (take 8 r'), drop 8 r')
            else Some ((if decide (d = 97%N) then 7 else if decide (d = 98%N) then 8 else if decide (d = 102%N) then 12
                        else if decide (d = 110%N) then 10 else if decide (d = 114%N) then 13 else if decide (d = 116%N) then 9
                        else if decide (d = 118%N) then 11 else d)%N, r')
        end
      else Some (x, r)
  end.
Lemma unquote1_hex k d c r : (d = 120%N /\ k = 2 \/ d = 117%N /\ k = 4 \/ d = 85%N /\ k = 8) -> (c < 16 ^ N.of_nat k)%N ->
  unquote1 (92%N :: d :: hex k c ++ r) = Some (c, r).
Proof.
  intros Hd Hc. pose proof (hex_len k c) as Hl. pose proof (unhex_hex k c Hc) as Hx.
  assert (Ht : take k (hex k c ++ r) = hex k c) by (rewrite <- Hl at 1; apply take_app).
  assert (Hr : drop k (hex k c ++ r) = r) by (rewrite <- Hl at 1; apply drop_app).
  unfold unquote1. rewrite decide_True by done.
  destruct Hd as [[-> ->]|[[-> ->]|[-> ->]]].
  - rewrite decide_True by done. by rewrite Ht, Hr, Hx.
  - rewrite decide_False by done. rewrite decide_True by done. by rewrite Ht, Hr, Hx.
  - rewrite !decide_False by done. rewrite decide_True by done. by rewrite Ht, Hr, Hx.
Qed.
Lemma unquote1_quote print c r : (c < 1114112)%N -> unquote1 (quote_rune print c ++ r) = Some (c, r).
Proof.
  intros Hc. unfold quote_rune.
  destruct (N.eqb_spec c 34) as [->|N34]; [done|].
  destruct (N.eqb_spec c 92) as [->|N92]; [done|].
  destruct ((32 <=? c)%N && (c <? 127)%N). { cbn [app]. unfold unquote1. by rewrite decide_False. }
  destruct ((128 <=? c)%N && print c). { cbn [app]. unfold unquote1. by rewrite decide_False. }
  destruct (N.eqb_spec c 7) as [->|N7]; [done|].
  destruct (N.eqb_spec c 8) as [->|N8]; [done|].
  destruct (N.eqb_spec c 12) as [->|N12]; [done|].
  destruct (N.eqb_spec c 10) as [->|N10]; [done|].
  destruct (N.eqb_spec c 13) as [->|N13]; [done|].
  destruct (N.eqb_spec c 9) as [->|N9]; [done|].
  destruct (N.eqb_spec c 11) as [->|N11]; [done|].
  destruct ((c <? 32)%N || (c =? 127)%N) eqn:E.
  { rewrite <- app_assoc. apply (unquote1_hex 2 120%N c r); [by left|]. cbn [N.of_nat]. change (16 ^ N.of_nat 2)%N with 256%N.
    apply orb_true_iff in E as [E|E]; [apply N.ltb_lt in E|apply N.eqb_eq in E]; lia. }
  destruct (N.ltb_spec c 65536) as [E'|E'].
  { rewrite <- app_assoc. apply (unquote1_hex 4 117%N c r); [right; by left|]. exact E'. }
  rewrite <- app_assoc. apply (unquote1_hex 8 85%N c r); [right; by right|]. change (16 ^ N.of_nat 8)%N with 4294967296%N. lia.
Qed.
Definition body (print : N -> bool) (v : gostring) : gostring := List.concat (map (quote_rune print) v).
Lemma quote_rune_some print c : quote_rune print c <> [].
Proof. unfold quote_rune. repeat match goal with |- (if ?b then _ else _) <> _ => destruct b end; done. Qed.
Lemma body_inj print v : forall v', code_points v -> code_points v' -> body print v = body print v' -> v = v'.
Proof.
  induction v as [|c v IH]; intros [|c' v'] H H' E; unfold body in *; cbn [map List.concat] in E.
  - done.
  - exfalso. symmetry in E. apply app_eq_nil in E as [E _]. by apply (quote_rune_some print c').
  - exfalso. apply app_eq_nil in E as [E _]. by apply (quote_rune_some print c).
  - assert (Hc : (c < 1114112)%N) by (apply H; by left). assert (Hc' : (c' < 1114112)%N) by (apply H'; by left).
    pose proof (unquote1_quote print c (List.concat (map (quote_rune print) v)) Hc) as E1.
    rewrite E, (unquote1_quote print c' _ Hc') in E1. injection E1 as E1 E2. subst c'. f_equal.
    apply IH; [intros x Hx; apply H; by right|intros x Hx; apply H'; by right|done].
Qed.
Lemma quote_body print v : quote print v = 34%N :: body print v ++ [34%N].
Proof. done. Qed.

(** * Positions *)
Definition place (l c : Z) : gostring := L " (" ++ int_text l ++ L ", " ++ int_text c ++ L ")".
Lemma int_no z c : c <> 45%N -> (c < 48 \/ 57 < c)%N -> c ∉ int_text z.
Proof. intros H1 H2 H. apply int_clean in H. lia. Qed.
Lemma place_inj l c l' c' : place l c = place l' c' -> l = l' /\ c = c'.
Proof.
  unfold place. intros E. apply (app_inv_head (L " (")) in E.
  apply (cut_first 44%N) in E as [E1 E2]; [|apply int_no; lia..]. apply (app_inv_head (L " ")) in E2. apply app_inv_tail in E2.
  split; by apply int_text_inj.
Qed.
Lemma place_no l c x : x <> 45%N -> x <> 32%N -> x <> 40%N -> x <> 41%N -> x <> 44%N -> (x < 48 \/ 57 < x)%N -> x ∉ place l c.
Proof.
  intros H1 H2 H3 H4 H5 H6. unfold place. rewrite !elem_of_app. intros [H|[H|[H|[H|H]]]].
  - change (L " (") with [32; 40]%N in H. apply elem_of_cons in H as [?|H]; [done|]. apply elem_of_list_singleton in H. done.
  - by apply int_no in H.
  - change (L ", ") with [44; 32]%N in H. apply elem_of_cons in H as [?|H]; [done|]. apply elem_of_list_singleton in H. done.
  - by apply int_no in H.
  - apply elem_of_list_singleton in H. done.
Qed.
Lemma place_some l c : place l c <> [].
Proof. unfold place. intros E. by apply app_eq_nil in E as [E _]. Qed.

(** * LexemeList *)
Definition shown_place (x : lexeme) : gostring := if (0 <? lx_line x)%Z || (0 <? lx_col x)%Z then place (lx_line x) (lx_col x) else [].
Definition row (print : N -> bool) (x : lexeme) : gostring := lx_kind x ++ L ": " ++ quote print (lx_val x) ++ shown_place x.
Lemma list_rows print ls : lexeme_list print ls = match ls with [] => [] | _ => strjoin [c_nl] (map (row print) ls) end.
Proof.
  unfold lexeme_list. destruct ls as [|x ls]; [done|]. f_equal. apply map_ext. intros y. unfold row, shown_place, place.
  destruct ((0 <? lx_line y)%Z || (0 <? lx_col y)%Z); [done|]. by rewrite app_nil_r.
Qed.
Lemma shown_placed x : (placed x /\ shown_place x = place (lx_line x) (lx_col x)) \/ (~ placed x /\ shown_place x = []).
Proof.
  unfold shown_place, placed. destruct (Z.ltb_spec 0 (lx_line x)), (Z.ltb_spec 0 (lx_col x)); cbn [orb]; [left|left|left|right]; (split; [lia|done]).
Qed.
Lemma shown_no x c : c <> 45%N -> c <> 32%N -> c <> 40%N -> c <> 41%N -> c <> 44%N -> (c < 48 \/ 57 < c)%N -> c ∉ shown_place x.
Proof. intros. destruct (shown_placed x) as [[_ ->]|[_ ->]]; [by apply place_no|apply not_elem_of_nil]. Qed.
Lemma body_no_nl print v : 10%N ∉ body print v.
Proof. exact (TreeNewProofs.quoted_no_nl print v). Qed.
Lemma row_no_nl print x : listable x -> 10%N ∉ row print x.
Proof.
  intros (H & _ & _). unfold row. rewrite quote_body. rewrite !elem_of_app. intros [H1|[H1|[H1|H1]]].
  - done.
  - change (L ": ") with [58; 32]%N in H1. apply elem_of_cons in H1 as [?|H1]; [done|]. by apply elem_of_list_singleton in H1.
  - apply elem_of_cons in H1 as [?|H1]; [done|]. apply elem_of_app in H1 as [H1|H1]; [by apply body_no_nl in H1|]. by apply elem_of_list_singleton in H1.
  - revert H1. apply shown_no; lia.
Qed.
Lemma quoted_inj print (a a' : gostring) v v' r r' : 34%N ∉ a -> 34%N ∉ a' -> 34%N ∉ r -> 34%N ∉ r' -> code_points v -> code_points v' ->
  a ++ quote print v ++ r = a' ++ quote print v' ++ r' -> a = a' /\ v = v' /\ r = r'.
Proof.
  rewrite !quote_body. intros Ha Ha' Hr Hr' Hv Hv' E. cbn [app] in E. rewrite <- !app_assoc in E. cbn [app] in E.
  apply cut_first in E as [-> E]; [|done..]. apply cut_last in E as [E ->]; [|done..]. by apply body_inj in E as ->.
Qed.
Lemma row_inj print x y : listable x -> listable y -> row print x = row print y ->
  same_token x y /\ (placed x \/ placed y -> same_place x y).
Proof.
  intros (Hx1 & Hx2 & Hx3) (Hy1 & Hy2 & Hy3) E. unfold row in E.
  assert (E' : (lx_kind x ++ L ": ") ++ quote print (lx_val x) ++ shown_place x = (lx_kind y ++ L ": ") ++ quote print (lx_val y) ++ shown_place y)
    by (by rewrite <- !app_assoc).
  assert (Hk : forall k, 34%N ∉ k -> 34%N ∉ k ++ L ": ").
  { intros k Hk. rewrite elem_of_app. intros [H|H]; [done|]. change (L ": ") with [58; 32]%N in H.
    apply elem_of_cons in H as [?|H]; [done|]. by apply elem_of_list_singleton in H. }
  apply quoted_inj in E' as (Ek & Ev & Ep); [|by apply Hk|by apply Hk|apply shown_no; lia|apply shown_no; lia|done|done].
  apply app_inv_tail in Ek. split; [done|].
  destruct (shown_placed x) as [[Px E1]|[Px E1]], (shown_placed y) as [[Py E2]|[Py E2]]; rewrite E1, E2 in Ep.
  - intros _. by apply place_inj in Ep.
  - exfalso. by apply place_some in Ep.
  - exfalso. symmetry in Ep. by apply place_some in Ep.
  - by intros [?|?].
Qed.
Lemma row_some print x : row print x <> [].
Proof. unfold row. intros E. apply app_eq_nil in E as [_ E]. by apply app_eq_nil in E as [E _]. Qed.
Lemma join_some (c : N) l : l <> [] -> (forall x : gostring, x ∈ l -> x <> []) -> strjoin [c] l <> [].
Proof.
  destruct l as [|x [|y l]]; [done|intros _ H; apply H; by left|]. intros _ H. rewrite strjoin_more. intros E.
  apply app_eq_nil in E as [E _]. revert E. apply H. by left.
Qed.
Lemma rows_inj (R : lexeme -> gostring) (P : lexeme -> Prop) (Q : lexeme -> lexeme -> Prop) xs : (forall x y, P x -> P y -> R x = R y -> Q x y) ->
  forall ys, Forall P xs -> Forall P ys -> map R xs = map R ys -> Forall2 Q xs ys.
Proof.
  intros HR. induction xs as [|x xs IH]; intros [|y ys] H H' E; try discriminate E; [constructor|].
  cbn [map] in E. injection E as E1 E2. inversion H; subst. inversion H'; subst. constructor; [by apply HR|by apply IH].
Qed.
Lemma list_apart print xs ys : Forall listable xs -> Forall listable ys -> lexeme_list print xs = lexeme_list print ys ->
  Forall2 (fun x y => same_token x y /\ (placed x \/ placed y -> same_place x y)) xs ys.
Proof.
  intros Hx Hy E. rewrite !list_rows in E.
  assert (Hn : forall l, l <> [] -> strjoin [c_nl] (map (row print) l) <> []).
  { intros l Hl. apply join_some; [by destruct l|]. intros x Hx' ->. apply elem_of_list_fmap in Hx' as (z & Ez & _). by apply (row_some print z). }
  destruct xs as [|x xs], ys as [|y ys].
  - constructor.
  - exfalso. symmetry in E. revert E. by apply Hn.
  - exfalso. revert E. by apply Hn.
  - apply join_inj in E; [|done|done|..].
    + apply (rows_inj (row print) listable); [apply row_inj|done|done|done].
    + intros z Hz. apply elem_of_list_fmap in Hz as (u & -> & Hu). apply row_no_nl. exact (proj1 (list.Forall_forall _ _) Hx u Hu).
    + intros z Hz. apply elem_of_list_fmap in Hz as (u & -> & Hu). apply row_no_nl. exact (proj1 (list.Forall_forall _ _) Hy u Hu).
Qed.

(** Lexemes of the simple lexer. *)
Lemma lexed_places xs x : lexed xs -> x ∈ xs -> placed x \/ (lx_line x = -1 /\ lx_col x = 0)%Z.
Proof.
  intros (cs & l & s & ys & l' & H1 & H2 & H3 & H4 & ->) Hx. apply elem_of_list_fmap in Hx as (o & -> & Ho).
  destruct (lex_lossless cs s H1 H2) as (l2 & l2' & ps & pre & out & post & R1 & R2 & Hpre & Hpost & Hem & _).
  pose proof (returns_fun _ _ _ H3 R1) as <-. pose proof (returns_fun _ _ _ H4 R2) as E. injection E as -> _.
  assert (Hextra : forall kv w, extra kv w -> o ∈ w -> (lx_line (olex_lx o) = -1 /\ lx_col (olex_lx o) = 0)%Z).
  { intros kv w [[_ ->]|[_ ->]] Hw; [by apply elem_of_nil in Hw|]. apply elem_of_list_singleton in Hw as ->. done. }
  rewrite !elem_of_app in Ho. destruct Ho as [Ho|[Ho|Ho]]; [right; by apply (Hextra _ _ Hpre)| |right; by apply (Hextra _ _ Hpost)].
  clear - Hem Ho. remember (@nil piece) as b eqn:Eb. clear Eb. induction Hem as [|before z ps out rest Hs Hem IH]; [by apply elem_of_nil in Ho|].
  apply elem_of_app in Ho as [Ho|Ho]; [|by apply IH]. destruct z as [p v|v]; cbn [shows] in Hs.
  - destruct Hs as (d & _ & Hs). destruct (rd_discard d); [subst out; by apply elem_of_nil in Ho|].
    destruct Hs as (last & _ & ->). apply elem_of_list_singleton in Ho as ->. left. right. cbn [olex_lx lx_col]. lia.
  - subst out. apply elem_of_list_singleton in Ho as ->. by right.
Qed.
Lemma lexed_apart print xs ys : lexed xs -> lexed ys -> Forall listable xs -> Forall listable ys -> lexeme_list print xs = lexeme_list print ys -> xs = ys.
Proof.
  intros Hx Hy Lx Ly E. pose proof (list_apart print xs ys Lx Ly E) as H. pose proof (lexed_places xs) as Px. pose proof (lexed_places ys) as Py.
  assert (Px' : forall x, x ∈ xs -> placed x \/ (lx_line x = -1 /\ lx_col x = 0)%Z) by (intros; by apply Px).
  assert (Py' : forall x, x ∈ ys -> placed x \/ (lx_line x = -1 /\ lx_col x = 0)%Z) by (intros; by apply Py).
  clear - H Px' Py'. induction H as [|x y xs ys [[Ek Ev] Hp] H IH]; [done|].
  f_equal; [|apply IH; intros; [apply Px'|apply Py']; by right].
  assert (Es : same_place x y).
  { destruct (Px' x) as [P|[P1 P2]]; [by left|apply Hp; by left|]. destruct (Py' y) as [Q|[Q1 Q2]]; [by left|apply Hp; by right|].
    split; congruence. }
  destruct Es as [El Ec]. destruct x, y. cbn in *. congruence.
Qed.

(** * Lexeme.String *)
Definition set_place (x : lexeme) : gostring := if (lx_line x =? -1)%Z then [] else place (lx_line x) (lx_col x).
Lemma set_place_cases x : (lx_line x = -1 /\ set_place x = [])%Z \/ (lx_line x <> -1 /\ set_place x = place (lx_line x) (lx_col x))%Z.
Proof. unfold set_place. destruct (Z.eqb_spec (lx_line x) (-1)); [by left|by right]. Qed.
Lemma set_place_inj x y : textable x -> textable y -> set_place x = set_place y -> same_place x y.
Proof.
  intros (_ & _ & _ & Hx) (_ & _ & _ & Hy) E. destruct (set_place_cases x) as [[A1 B1]|[A1 B1]], (set_place_cases y) as [[A2 B2]|[A2 B2]]; rewrite B1, B2 in E.
  - split; [congruence|]. by rewrite Hx, Hy.
  - exfalso. symmetry in E. by apply place_some in E.
  - exfalso. by apply place_some in E.
  - by apply place_inj in E.
Qed.
Lemma set_place_no x c : c <> 45%N -> c <> 32%N -> c <> 40%N -> c <> 41%N -> c <> 44%N -> (c < 48 \/ 57 < c)%N -> c ∉ set_place x.
Proof. intros. destruct (set_place_cases x) as [[_ ->]|[_ ->]]; [apply not_elem_of_nil|by apply place_no]. Qed.
Lemma place_cut l c : exists r, place l c = [32%N] ++ 40%N :: r.
Proof. eexists. unfold place. reflexivity. Qed.
Lemma bare_inj x y : textable x -> textable y -> lx_kind x ++ set_place x = lx_kind y ++ set_place y -> lx_kind x = lx_kind y /\ same_place x y.
Proof.
  intros Hx Hy E. cut (lx_kind x = lx_kind y).
  { intros Ek. split; [done|]. rewrite Ek in E. apply app_inv_head in E. by apply set_place_inj. }
  pose proof Hx as (_ & Hx2 & _). pose proof Hy as (_ & Hy2 & _).
  assert (Hno : forall k, 40%N ∉ k -> 40%N ∉ k ++ [32%N]).
  { intros k Hk. rewrite elem_of_app, elem_of_list_singleton. by intros [?|?]. }
  destruct (set_place_cases x) as [[A1 B1]|[A1 B1]], (set_place_cases y) as [[A2 B2]|[A2 B2]]; rewrite B1, B2 in E.
  - by rewrite !app_nil_r in E.
  - exfalso. destruct (place_cut (lx_line y) (lx_col y)) as (r & Er). rewrite Er, app_nil_r, app_assoc in E. by apply (cut_none 40%N) in E.
  - exfalso. destruct (place_cut (lx_line x) (lx_col x)) as (r & Er). rewrite Er, app_nil_r, app_assoc in E. symmetry in E. by apply (cut_none 40%N) in E.
  - destruct (place_cut (lx_line x) (lx_col x)) as (r & Er), (place_cut (lx_line y) (lx_col y)) as (r' & Er'). rewrite Er, Er', !app_assoc in E.
    apply cut_first in E as [E _]; [|by apply Hno..]. by apply app_inv_tail in E.
Qed.
Lemma text_apart print x y : textable x -> textable y -> lexeme_text print x = lexeme_text print y -> x = y.
Proof.
  intros Hx Hy E. cut (same_token x y /\ same_place x y).
  { intros [[? ?] [? ?]]. destruct x, y. cbn in *. congruence. }
  unfold lexeme_text in E. fold (place (lx_line x) (lx_col x)) (place (lx_line y) (lx_col y)) in E. fold (set_place x) (set_place y) in E.
  pose proof Hx as (Hx1 & Hx2 & Hx3 & _). pose proof Hy as (Hy1 & Hy2 & Hy3 & _).
  assert (Hb : forall z, textable z -> 34%N ∉ (lx_kind z ++ set_place z) ++ L "}").
  { intros z (H1 & _). rewrite !elem_of_app. intros [[H|H]|H]; [done|revert H; apply set_place_no; lia|]. by apply elem_of_list_singleton in H. }
  assert (Hc : forall k, 34%N ∉ k -> 34%N ∉ k ++ L ":").
  { intros k Hk. rewrite elem_of_app. intros [H|H]; [done|]. by apply elem_of_list_singleton in H. }
  assert (Hd : forall z, 34%N ∉ set_place z ++ L "}").
  { intros z. rewrite elem_of_app. intros [H|H]; [revert H; apply set_place_no; lia|]. by apply elem_of_list_singleton in H. }
  assert (Hq : forall (k v r : gostring), exists t, L "Lexeme{" ++ k ++ L ":" ++ quote print v ++ r = L "Lexeme{" ++ (k ++ L ":") ++ 34%N :: t).
  { intros k v r. exists (body print v ++ [34%N] ++ r). rewrite quote_body, <- (app_assoc k). do 3 f_equal. cbn [app]. by rewrite <- app_assoc. }
  destruct (lx_val x) as [|a v] eqn:Vx, (lx_val y) as [|b w] eqn:Vy.
  - apply app_inv_head in E. rewrite !app_assoc in E. apply app_inv_tail in E. apply bare_inj in E as [Ek Ep]; [|done..]. split; [split; [done|congruence]|done].
  - exfalso. destruct (Hq (lx_kind y) (b :: w) (set_place y ++ L "}")) as (t & Et). rewrite Et in E. apply app_inv_head in E.
    rewrite (app_assoc (lx_kind x)) in E. by apply cut_none in E; [|apply Hb].
  - exfalso. destruct (Hq (lx_kind x) (a :: v) (set_place x ++ L "}")) as (t & Et). rewrite Et in E. apply app_inv_head in E.
    rewrite (app_assoc (lx_kind y)) in E. symmetry in E. by apply cut_none in E; [|apply Hb].
  - apply app_inv_head in E. rewrite (app_assoc (lx_kind x)), (app_assoc (lx_kind y)) in E.
    apply quoted_inj in E as (Ek & Ev & Ep); [|by apply Hc|by apply Hc|apply Hd|apply Hd|done|done].
    apply app_inv_tail in Ek. apply app_inv_tail in Ep. split; [split; [done|congruence]|]. by apply set_place_inj.
Qed.

Lemma copy_same x : lexeme_copy x = x /\ lexeme_at (lx_line x) (lx_col x) (lexeme_set (lx_val x) (lexeme_of (lx_kind x))) = x.
Proof. by destruct x. Qed.
