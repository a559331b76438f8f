(** What regexgram.New makes of a fixed text, computed once. *)
From Coq Require Import String.
From Verif.spec Require Import RegexGramText.
From Verif.proofs Require Import Fuel GramRows LexMain LexTableProofs RunProofs PackratThms PackratFuel RgParse RgText RgTextWit RgPrint RegexGramProofs.
Local Open Scope nat_scope.
Local Open Scope list_scope.

(** Lexemes, tree and evaluation of a text, with the lexer's own table. *)
Definition rg_lx (s : gostring) (n : nat) : list lexeme :=
  match rg_lexer the_compiler with
  | Some l => match slex l s n with Ok (xs, _) => map olex_lx xs | _ => [] end
  | None => []
  end.
Definition rg_ok (s : gostring) (n : nat) : bool :=
  match rg_lexer the_compiler with
  | Some l => match slex l s n with Ok (xs, _) => match lex_errors xs with [] => true | _ => false end | _ => false end
  | None => false
  end.
Definition rg_op (s : gostring) (n : nat) : option rgop :=
  if rg_ok s n then
    match packrat_parse n rg_g (rg_lx s n) with
    | Ok (Some t) =>
        match rg_loop n (RgOp gr_empty (rg_fill (pn_children (raw_reduce rg_rdcr t)) []) [] ∅ ∅) with
        | Ok op => Some op
        | _ => None
        end
    | _ => None
    end
  else None.
Lemma rg_lx_ok s n : rg_ok s n = true -> lexes_to (rg_calls []) s (rg_lx s n).
Proof.
  unfold rg_ok, rg_lx. destruct (rg_lexer_some the_compiler the_compiles) as (l & -> & Hl).
  destruct (slex l s n) as [[xs l']| |] eqn:E; [|done|done]. destruct (lex_errors xs) eqn:He; [|done].
  intros _. exact (table_run rg_table rg_more rg_more_adds rg_length l s n xs l' Hl E He).
Qed.
Definition blunted (bl : gmap gostring (list gostring)) : reducer := (fun symbols => Some (bludgeon symbols)) <$> bl.
Lemma must_runs s n op : rg_op s n = Some op -> forall compile l0 l gg (texts : list gostring),
  compiles compile rg_table -> rg_lexer compile = Some l0 -> returns (sl_calls (map CLex texts) l0) l -> rg_grammar = Some gg ->
  exists l', returns (rg_new l gg s) (inl (rg_gram op, blunted (rg_bludgeons op)), l').
Proof.
  intros H compile l0 l gg texts HC Hl0 Hl Hgg. rewrite (gg_is gg Hgg). unfold rg_op in H.
  destruct (rg_ok s n) eqn:E; [|discriminate H]. apply rg_lx_ok in E. rewrite (rg_lexes_any texts) in E.
  destruct (packrat_parse n rg_g (rg_lx s n)) as [[t|]| |] eqn:Ep; [|discriminate H|discriminate H|discriminate H].
  set (op0 := RgOp gr_empty (rg_fill (pn_children (raw_reduce rg_rdcr t)) []) [] ∅ ∅) in H.
  destruct (rg_loop n op0) as [op'| |] eqn:Eo; [|discriminate H|discriminate H]. injection H as ->.
  assert (Hp : returns (fun f => packrat_parse f rg_g (rg_lx s n)) (Some t)) by (apply (returns_at _ n); [intros ???; by apply packrat_parse_mono|exact Ep]).
  assert (Ho : returns (fun f => rg_loop f op0) op) by (apply (returns_at _ n); [apply rg_loop_mono|exact Eo]).
  destruct E as (ps & Ht & HJ & Ha).
  destruct (pipe_parse (rg_calls texts) l rg_g [rg_rdcr] s ps (rg_lx s n)) with (r := Some t) as [l' [F HF]]; try assumption.
  - exact (table_first rg_table rg_more texts rg_more_adds).
  - exact (table_regexps rg_table rg_more texts rg_more_adds).
  - exact (cs_length rg_table rg_more texts rg_length).
  - exact (rg_lexer_after compile l0 l texts HC Hl0 Hl).
  - destruct Ho as [G HG]. exists l', (F + G). intros m Hm. unfold rg_new. fold rg_g. rewrite HF by lia.
    cbn [rbind reduced fold_left]. unfold eval_grammar. fold op0. rewrite HG by lia. reflexivity.
Qed.
Lemma must_wf s n op : rg_op s n = Some op -> g_wf (gr_view (rg_gram op)).
Proof.
  intros H. unfold rg_op in H.
  destruct (rg_ok s n) eqn:E; [|discriminate H]. apply rg_lx_ok in E.
  destruct (packrat_parse n rg_g (rg_lx s n)) as [[t|]| |] eqn:Ep; [|discriminate H|discriminate H|discriminate H].
  set (op0 := RgOp gr_empty (rg_fill (pn_children (raw_reduce rg_rdcr t)) []) [] ∅ ∅) in H.
  destruct (rg_loop n op0) as [op'| |] eqn:Eo; [|discriminate H|discriminate H]. injection H as ->.
  assert (Hp : returns (fun f => packrat_parse f rg_g (rg_lx s n)) (Some t)) by (apply (returns_at _ n); [intros ???; by apply packrat_parse_mono|exact Ep]).
  destruct (packrat_sound rg_g (rg_lx s n) rg_wf (rg_terminals [] s _ E) t (rg_lexes_ne [] s _ E) Hp) as (s0 & rest & Hn & Ht).
  destruct rg_first as [rest' Hf]. rewrite Hf in Hn. injection Hn as <- _.
  destruct (tree_shows t _ Ht) as (R & Hsh & _).
  destruct (eval_grammar_result _ R Hsh) as (g & A & B & P & new & He & HR & _).
  assert (Hg : returns (eval_grammar (raw_reduce rg_rdcr t)) (rg_gram op, blunted (rg_bludgeons op))).
  { apply (returns_at _ n); [apply eval_grammar_mono|]. unfold eval_grammar. fold op0. by rewrite Eo. }
  assert (g = rg_gram op) as -> by (pose proof (returns_fun _ _ _ He Hg) as E2; by injection E2).
  by eapply GrammarProofs.gr_view_wf.
Qed.
