(** When Lex writes to its lexer. *)
From Coq Require Import Lia.
From Verif.model Require Import SimpleLexer StackLexer.

Lemma errors_app a b : lex_errors (a ++ b) = lex_errors a ++ lex_errors b.
Proof. induction a as [|[x|x] a IH]; cbn [lex_errors app]; [done|done|by rewrite IH]. Qed.
Lemma errors_inserted kv : lex_errors (inserted kv) = [].
Proof. unfold inserted. by destruct (fst kv). Qed.

Lemma str_again s x : snd (set_str (snd (set_str s x)) x) = snd (set_str s x).
Proof.
  unfold set_str at 2 3. destruct (str2sym s !! x) as [v|] eqn:E; cbn [snd].
  - unfold set_str. by rewrite E.
  - unfold set_str. cbn [str2sym]. by rewrite lookup_insert.
Qed.
Lemma str_same s x : snd (set_str s x) = s <-> set_has s x = true.
Proof.
  unfold set_str, set_has. destruct (str2sym s !! x) as [v|] eqn:E; cbn [snd]; [done|]. split; [|done].
  intros H. apply (f_equal (fun s => length (symb2str s))) in H. cbn [symb2str] in H. rewrite app_length in H. cbn in H. lia.
Qed.

Section S.
  Variable l : slexer.
  Variable b : gostring.
  Notation s0 := (sl_set l).
  Notation s1 := (snd (set_str (sl_set l) (sl_error l))).
  Definition J (op : sop) : Prop :=
    (so_set op = s0 /\ lex_errors (so_lxs op) = []) \/ (so_set op = s1 /\ lex_errors (so_lxs op) <> []).

  Lemma check_J op op' : J op -> check_error l b op = Ok op' -> J op'.
  Proof.
    unfold check_error. intros H. destruct (so_err op) as [st|]; [|by intros [= <-]].
    destruct (length b <? so_cur op); [by intros [= <-]|].
    destruct (go_slice b st (so_cur op)) as [v| |]; cbn [rbind]; try done.
    destruct (set_str (so_set op) (sl_error l)) as [k s'] eqn:E.
    destruct (sym_string s' (Z.of_nat k)) as [nm| |]; cbn [rbind]; try done. intros [= <-]. right. cbn [so_set so_lxs].
    apply (f_equal snd) in E. cbn [snd] in E. rewrite errors_app. split.
    - rewrite <- E. destruct H as [[-> _]|[-> _]]; [done|]. apply str_again.
    - destruct (lex_errors (so_lxs op)); done.
  Qed.
  Lemma round_J op op' : J op -> lex_round l b op = Ok op' -> J op'.
  Proof.
    unfold lex_round. intros H. destruct (find_next_match _ _ _ _) as [[[[k v] e] p]| |]; cbn [rbind]; try done.
    destruct (e =? so_cur op); [intros [= <-]; exact H|].
    destruct (check_error l b op) as [op1| |] eqn:E; cbn [rbind]; try done. apply check_J in E; [|done].
    destruct k as [k|]; [|done]. destruct (rule_at _ _) as [r| |]; cbn [rbind]; try done.
    destruct (sym_string _ _) as [nm| |]; cbn [rbind]; try done. intros [= <-]. destruct E as [[E1 E2]|[E1 E2]]; [left|right]; cbn [so_set so_lxs].
    - split; [done|]. destruct (lr_discard r); [done|]. by rewrite errors_app, E2.
    - split; [done|]. destruct (lr_discard r); [done|]. rewrite errors_app. cbn [lex_errors]. by rewrite app_nil_r.
  Qed.
  Lemma loop_J f : forall op op', J op -> lex_loop f l b op = Ok op' -> J op'.
  Proof.
    induction f as [|f IH]; intros op op' H; cbn [lex_loop]; [done|].
    destruct (lex_round l b op) as [op1| |] eqn:E; cbn [rbind]; try done. apply round_J in E; [|done].
    destruct (length b <=? so_cur op1); [by intros [= <-]|].
    destruct (update_next _ _ _ _) as [nx| |]; cbn [rbind]; try done. by apply IH.
  Qed.
  Lemma slex_J fuel xs l' : slex l b fuel = Ok (xs, l') ->
    (l' = l /\ lex_errors xs = []) \/ (l' = with_set l s1 /\ lex_errors xs <> []).
  Proof.
    unfold slex. destruct (populate_next _ _) as [nx| |]; cbn [rbind]; try done.
    destruct (lex_loop _ _ _ _) as [op| |] eqn:E; cbn [rbind]; try done.
    apply loop_J in E; [|left; split; [done|]; cbn [so_lxs]; apply errors_inserted].
    destruct (check_error l b op) as [op'| |] eqn:E2; cbn [rbind]; try done. apply check_J in E2; [|done].
    intros [= <- <-]. rewrite errors_app, errors_inserted, app_nil_r.
    destruct E2 as [[-> ?]|[-> ?]]; [left|right]; (split; [|done]); by destruct l.
  Qed.
End S.

Lemma with_set_same l s : with_set l s = l <-> s = sl_set l.
Proof. destruct l. cbn. split; [by intros [= ->]|by intros ->]. Qed.

(** Lex writes exactly when it meets junk for the first time. *)
Lemma slex_writes l b fuel xs l' : slex l b fuel = Ok (xs, l') ->
  (l' = l <-> lex_errors xs = [] \/ set_has (sl_set l) (sl_error l) = true).
Proof.
  intros H. apply slex_J in H as [[-> H]|[-> H]]; [tauto|]. rewrite with_set_same, str_same. naive_solver.
Qed.
Lemma slex_after_junk l b fuel xs l1 : slex l b fuel = Ok (xs, l1) -> lex_errors xs <> [] ->
  forall b2 fuel2 ys l2, slex l1 b2 fuel2 = Ok (ys, l2) -> l2 = l1.
Proof.
  intros H He b2 fuel2 ys l2 H2. apply (slex_writes l1 b2 fuel2 ys l2 H2). right.
  apply slex_J in H as [[_ H]|[-> _]]; [done|]. apply str_same. destruct l. cbn. apply str_again.
Qed.

Lemma st_lex_set l b fuel xs l' : st_lex l b fuel = Ok (xs, l') ->
  l' = StLexer (stl_subs l) (stl_lexers l) (stl_first l) (snd (set_str (stl_set l) (stl_error l)))
               (stl_error l) (stl_compare l) (stl_start l) (stl_end l).
Proof.
  unfold st_lex. destruct (stl_first l) as [id|] eqn:Ef; [|done].
  repeat match goal with |- rbind ?w _ = _ -> _ => destruct w; cbn [rbind]; try done; cbv zeta end. by intros [= _ <-].
Qed.
Lemma st_lex_writes l b fuel xs l' : st_lex l b fuel = Ok (xs, l') ->
  (l' = l <-> set_has (stl_set l) (stl_error l) = true).
Proof.
  intros H. apply st_lex_set in H as ->. rewrite <- str_same. destruct l. cbn. split; [by intros [= ->]|by intros ->].
Qed.
Lemma st_lex_again l b fuel xs l1 : st_lex l b fuel = Ok (xs, l1) ->
  forall b2 fuel2 ys l2, st_lex l1 b2 fuel2 = Ok (ys, l2) -> l2 = l1.
Proof.
  intros H b2 fuel2 ys l2 H2. apply (st_lex_writes l1 b2 fuel2 ys l2 H2). apply st_lex_set in H as ->.
  apply str_same. cbn. apply str_again.
Qed.
