(** Concrete runs. *)
From Coq Require Import String.
From Verif.spec Require Import RunSpec.
From Verif.proofs Require Import LexWit PackratWit.
From Coq Require Import Lia.
Local Open Scope nat_scope.
Local Open Scope list_scope.

(** Components that count their calls. *)
Definition count_lexer (o : option (list olex)) : lexer_fn nat := fun _ w => Ok (o, S w).
Definition count_parser (o : option nat) : parser_fn nat nat := fun _ w => Ok (o, S w).
Definition count_reducer (f : nat -> option nat) : reducer_fn nat nat := fun t w => Ok (f t, S w).
Definition a_tok : olex := LTok (Lx (L "a") (L "a") 0 1).
Definition an_err (v : gostring) : olex := LErr (Lx (L "Error") v (-1) 0).
Lemma runs :
  run (L "x") (count_lexer None) (count_parser (Some 1)) [] 0 = Ok (None, Some ErrCouldNotLex, 1)
  /\ run (L "x") (count_lexer (Some [a_tok; an_err (L "?"); an_err (L "!")])) (count_parser (Some 1)) [] 0
     = Ok (None, Some (ErrLex (Lx (L "Error") (L "?") (-1) 0)), 1)
  /\ run (L "x") (count_lexer (Some [])) (count_parser None) [] 0 = Ok (None, Some ErrCouldNotParse, 2)
  /\ run (L "x") (count_lexer (Some [a_tok])) (count_parser (Some 1))
       [None; Some (count_reducer (fun _ => None)); Some (count_reducer Some)] 0 = Ok (None, Some ErrCouldNotReduce, 3)
  /\ run (L "x") (count_lexer (Some [a_tok])) (count_parser (Some 1))
       [Some (count_reducer (fun t => Some (t + 4))); None; Some (count_reducer (fun t => Some (t * 2)))] 0 = Ok (Some 10, None, 4).
Proof. vm_compute. split_and!; reflexivity. Qed.

(** Words between a begin and an end. *)
Definition doc : grammar :=
  gram_of [(L "Doc", [[L "begin"; L "Ws"; L "end"]]); (L "Ws", [[L "Ws"; L "word"]; [L "word"]])].
Definition doc_input : gostring := L "a" ++ nl ++ L "b".
Definition doc_pieces : list piece := [Tok 1 (L "a"); Tok 3 nl; Tok 1 (L "b")].
Definition lx_begin : lexeme := Lx (L "begin") [] (-1) 0.
Definition lx_a : lexeme := Lx (L "word") (L "a") 0 1.
Definition lx_b : lexeme := Lx (L "word") (L "b") 1 1.
Definition lx_end : lexeme := Lx (L "end") (L "$") (-1) 0.
Definition doc_lexemes : list lexeme := [lx_begin; lx_a; lx_b; lx_end].
Definition doc_reducer : reducer := <[L "Doc" := Some (remove_all [L "begin"; L "end"])]> ∅.
Lemma doc_tokenises : tokenises (rules_of demo) doc_input doc_pieces.
Proof.
  unfold tokenises, doc_pieces.
  apply (cut_tok _ _ (L "a" ++ nl ++ L "b") 1 1); [demo_tok|].
  apply (cut_tok _ _ (nl ++ L "b") 3 1); [demo_tok|].
  apply (cut_tok _ _ (L "b") 1 1); [demo_tok|]. constructor.
Qed.
Lemma doc_all : all_lexemes demo doc_pieces doc_lexemes.
Proof.
  exists [LTok lx_begin], ([LTok lx_a] ++ [] ++ [LTok lx_b] ++ []), [LTok lx_end].
  split; [right; done|]. split; [right; done|]. split; [|done].
  rewrite demo_rules. unfold doc_pieces. eapply em_cons; [|eapply em_cons; [|eapply em_cons; [|constructor]]].
  - exists (RDef (L "word") rx_word false). split; [done|]. exists []. split; [|done].
    split; [apply not_elem_of_nil|by left].
  - exists (RDef (L "space") rx_space true). done.
  - exists (RDef (L "word") rx_word false). split; [done|]. exists []. split; [|done].
    split; [apply not_elem_of_nil|]. right. exists (L "a"). done.
Qed.
Lemma doc_terminals : terminal_kinds doc doc_lexemes.
Proof.
  intros lx H. unfold doc_lexemes in H. rewrite !elem_of_cons, elem_of_nil in H.
  repeat destruct H as [->|H]; done.
Qed.
Lemma doc_derives : derives doc (L "Doc") (map lx_kind doc_lexemes).
Proof.
  eapply der_nt; [reflexivity|left|].
  apply (der_cons _ _ _ [L "begin"] [L "word"; L "word"; L "end"]); [by apply der_term|].
  apply (der_cons _ _ _ [L "word"; L "word"] [L "end"]); [|apply (der_cons _ _ _ [L "end"] []); [by apply der_term|constructor]].
  eapply der_nt; [reflexivity|left|].
  apply (der_cons _ _ _ [L "word"] [L "word"]); [|apply (der_cons _ _ _ [L "word"] []); [by apply der_term|constructor]].
  eapply der_nt; [reflexivity|right; left|].
  apply (der_cons _ _ _ [L "word"] []); [by apply der_term|constructor].
Qed.
Lemma doc_runs : exists l', pipeline demo_lexer doc [doc_reducer] doc_input 60
  = Ok (Some (PN (Lx (L "Doc") [] (-1) 0)
      [PN (Lx (L "Ws") [] 0 1) [PN (Lx (L "Ws") [] 0 1) [PN lx_a []]; PN lx_b []]]), None, l').
Proof. eexists. vm_compute. reflexivity. Qed.
Lemma doc_example : adds_first demo /\ regexps_in no_lookbehind demo /\ st_length (settings_of demo) = true
  /\ returns (sl_calls demo slexer_empty) demo_lexer /\ tokenises (rules_of demo) doc_input doc_pieces
  /\ all_lexemes demo doc_pieces doc_lexemes /\ g_wf doc /\ terminal_kinds doc doc_lexemes
  /\ junks doc_pieces = [] /\ derives doc (L "Doc") (map lx_kind doc_lexemes).
Proof.
  split; [apply demo_first|]. split; [apply demo_regexps|]. split; [done|]. split; [apply demo_returns|].
  split; [apply doc_tokenises|]. split; [apply doc_all|]. split; [apply gram_of_wf|]. split; [apply doc_terminals|].
  split; [done|]. apply doc_derives.
Qed.
