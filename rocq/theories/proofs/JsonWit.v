(** Concrete documents. *)
From Coq Require Import String.
From Verif.spec Require Import JsonSpec.
From Verif.proofs Require Import Fuel LexTableProofs RgTextWit RdWit JsonThms JsonRfc JsonSame.
Local Open Scope nat_scope.
Local Open Scope list_scope.

Definition three : compiler := fun src => match table_compiler js_table src with Some x => Some x | None => both src end.
Lemma three_js : compiles three js_table.
Proof.
  assert (H : compiles (table_compiler js_table) js_table) by (apply table_compiles; apply (bool_decide_unpack _); vm_compute; exact I).
  intros r Hr. unfold three. by rewrite (H r Hr).
Qed.
Lemma three_rd : compiles three rd_table.
Proof. unfold compiles. apply Forall_forall. unfold rd_table. repeat (apply List.Forall_cons; [reflexivity|]). apply List.Forall_nil. Qed.
Lemma three_rg : compiles three rg_table.
Proof. unfold compiles. apply Forall_forall. unfold rg_table. repeat (apply List.Forall_cons; [reflexivity|]). apply List.Forall_nil. Qed.
Lemma three_package : exists l0 g rd, js_package three l0 g rd /\ returns (sl_calls (map CLex []) l0) l0.
Proof.
  destruct (js_package_ready three three_rg three_rd three_js) as (l0 & g & rd & H). exists l0, g, rd. split; [exact H|]. exists 0. intros n _. reflexivity.
Qed.

Definition q (s : string) : gostring := quoted (L s).
(** An object with a nested array and an escaped quote, with spaces here and there. *)
Definition demo : json := JObj [
  (q "a", JArr [JLeaf (L "1"); JObj [(q "b", JLeaf (L "null")); (q "c", JArr [])]; JLeaf (L ".5")]);
  (q "d", JLeaf (q "x\""y"))].
Definition demo_text : gostring :=
  L " {" ++ q "a" ++ L " : [1,{" ++ q "b" ++ L ":null," ++ q "c" ++ L ":[ ]}, .5]," ++ q "d" ++ L ":" ++ q "x\""y" ++ L "} ".
Definition demo_out : gostring :=
  L "{" ++ [c_nl] ++ L "  " ++ q "a" ++ L ": [1," ++ [c_nl] ++ L "    {" ++ [c_nl] ++ L "      " ++ q "b" ++ L ": null,"
  ++ [c_nl] ++ L "      " ++ q "c" ++ L ": []" ++ [c_nl] ++ L "    },.5" ++ [c_nl] ++ L "  ]," ++ [c_nl] ++ L "  " ++ q "d" ++ L ": " ++ q "x\""y" ++ [c_nl] ++ L "}".
Lemma word_string s : Forall (fun c => c <> 34%N /\ c <> 92%N) (L s) -> string_text (q s).
Proof. intros H. exists (L s). split; [done|]. induction H as [|c r [H1 H2] _ IH]; constructor; done. Qed.
Lemma letter s : bool_decide (Forall (fun c => c <> 34%N /\ c <> 92%N) (L s)) = true -> string_text (q s).
Proof. intros H. apply word_string. by apply bool_decide_eq_true in H. Qed.
Lemma escaped : string_text (q "x\""y").
Proof. exists (L "x\""y"). split; [done|]. apply sb_plain; [done|done|]. apply sb_escape; [done|]. apply sb_plain; [done|done|]. constructor. Qed.
Lemma digit_number : number_text (L "1").
Proof. exists [], [], (L "1"). split; [done|]. split; [constructor|]. split; [by left|]. split; [done|]. by repeat constructor. Qed.
Lemma half_number : number_text (L ".5").
Proof. exists [], (L "."), (L "5"). split; [done|]. split; [constructor|]. split; [by right|]. split; [done|]. by repeat constructor. Qed.
Lemma one_space : blank space_char (L " "). Proof. by repeat constructor. Qed.
Lemma no_space : blank space_char []. Proof. constructor. Qed.
Lemma demo_doc : js_doc demo demo_text.
Proof.
  assert (Hq : string_text (q "a") /\ string_text (q "b") /\ string_text (q "c") /\ string_text (q "d")) by (repeat split; by apply letter).
  destruct Hq as (Ha & Hb & Hc & Hd). pose proof one_space as H1. pose proof no_space as H0.
  assert (V1 : value_text number_text string_text space_char (JLeaf (L "null")) (L "null")) by (constructor; unfold leaf; tauto).
  assert (V2 : value_text number_text string_text space_char (JArr []) (L "[" ++ L " " ++ L "]")) by (by constructor).
  assert (V3 : value_text number_text string_text space_char (JObj [(q "b", JLeaf (L "null")); (q "c", JArr [])])
    (L "{" ++ ([] ++ q "b" ++ [] ++ L ":" ++ [] ++ L "null" ++ [] ++ L "," ++ ([] ++ q "c" ++ [] ++ L ":" ++ [] ++ (L "[" ++ L " " ++ L "]") ++ [])) ++ L "}")).
  { apply vt_entries. apply en_more; try assumption. by apply en_one. }
  assert (V4 : value_text number_text string_text space_char (JLeaf (L "1")) (L "1")) by (constructor; left; exact digit_number).
  assert (V5 : value_text number_text string_text space_char (JLeaf (L ".5")) (L ".5")) by (constructor; left; exact half_number).
  assert (V6 : value_text number_text string_text space_char (JLeaf (q "x\""y")) (q "x\""y")) by (constructor; right; left; exact escaped).
  pose proof (vt_items _ _ _ _ _ (it_more _ _ _ _ _ [] _ [] _ H0 V4 H0 (it_more _ _ _ _ _ [] _ [] _ H0 V3 H0 (it_one _ _ _ _ (L " ") _ [] H1 V5 H0)))) as V7.
  pose proof (vt_entries _ _ _ _ _ (en_more _ _ _ _ _ _ [] (L " ") (L " ") _ [] _ H0 Ha H1 H1 V7 H0 (en_one _ _ _ _ _ [] [] [] _ [] H0 Hd H0 H0 V6 H0))) as V8.
  exists (L " "). eexists. exists (L " "). split; [exact H1|]. split; [exact V8|]. split; [exact H1|]. vm_compute. reflexivity.
Qed.
Lemma demo_layout : layout 0 demo = demo_out. Proof. vm_compute. reflexivity. Qed.

(** * RFC 8259 *)
Lemma rfc_minus : rfc_doc (JLeaf (L "-1")) (L "-1") /\ ~ json_all (fun v => rfc_number v -> rfc_unsigned v) (fun _ => True) (JLeaf (L "-1")).
Proof.
  assert (H : rfc_number (L "-1")).
  { exists (L "-"), (L "1"), [], []. split; [done|]. split; [by right|]. split; [right; exists 49%N, []; by repeat constructor|]. split; by left. }
  split.
  - exists [], (L "-1"), []. split; [constructor|]. split; [constructor; by left|]. split; [constructor|done].
  - intros Hu. apply Hu, unsigned_number, scans_number in H. discriminate H.
Qed.
Lemma rfc_exponent : rfc_doc (JLeaf (L "1e5")) (L "1e5") /\ ~ json_all (fun v => rfc_number v -> rfc_unsigned v) (fun _ => True) (JLeaf (L "1e5")).
Proof.
  assert (H : rfc_number (L "1e5")).
  { exists [], (L "1"), [], (L "e5"). split; [done|]. split; [by left|]. split; [right; exists 49%N, []; by repeat constructor|]. split; [by left|].
    right. exists (L "e"), [], (L "5"). split; [done|]. split; [by left|]. split; [by left|]. split; [done|by repeat constructor]. }
  split.
  - exists [], (L "1e5"), []. split; [constructor|]. split; [constructor; by left|]. split; [constructor|done].
  - intros Hu. apply Hu, unsigned_number, scans_number in H. discriminate H.
Qed.
Lemma number_doc v : number_text v -> js_doc (JLeaf v) v.
Proof. intros H. exists [], v, []. split; [constructor|]. split; [constructor; by left|]. split; [constructor|by rewrite app_nil_r]. Qed.
Lemma zeros_number : number_text (L "007").
Proof. exists [], [], (L "007"). split; [done|]. split; [constructor|]. split; [by left|]. split; [done|]. by repeat constructor. Qed.
Lemma rfc_value J c (s : gostring) d : rfc_doc J (c :: s ++ [d]) -> ~ rfc_space c -> ~ rfc_space d -> value_text rfc_number rfc_string rfc_space J (c :: s ++ [d]).
Proof.
  intros (w1 & t & w2 & H1 & Ht & H2 & E) Hc Hd. destruct H1 as [|x w1 Hx H1].
  - cbn [app] in E. destruct w2 as [|y w2 _] using rev_ind; [rewrite app_nil_r in E; by rewrite E|].
    exfalso. apply Forall_app in H2 as [_ H2]. apply Forall_cons in H2 as [Hy _]. rewrite app_assoc in E. change (c :: s ++ [d]) with ((c :: s) ++ [d]) in E.
    apply app_inj_tail in E as [_ ->]. by apply Hd.
  - exfalso. cbn [app] in E. injection E as -> _. by apply Hc.
Qed.
Lemma rfc_leaf J c s : value_text rfc_number rfc_string rfc_space J (c :: s) -> c <> 91%N -> c <> 123%N -> leaf rfc_number rfc_string (c :: s).
Proof.
  intros H H1 H2. remember (c :: s) as u eqn:E. destruct H as [v Hv|w _|l t _|w _|l t _]; [exact Hv|..];
  exfalso; cbn [app L] in E; injection E as E _; by subst c.
Qed.
Lemma zeros_not_rfc J : ~ rfc_doc J (L "007").
Proof.
  intros H. change (L "007") with (48%N :: [48%N] ++ [55%N]) in H. apply rfc_value in H; [|unfold rfc_space; lia|unfold rfc_space; lia].
  apply rfc_leaf in H; [|lia|lia]. destruct H as [(m & i & f & e & E & Hm & Hi & Hf & He)|[(b & E & _)|[E|[E|E]]]]; [|discriminate E..].
  destruct Hm as [->| ->]; [|discriminate E]. destruct Hi as [->|(c & r & -> & Hc & _)].
  - cbn [app L] in E. injection E as E. destruct Hf as [->|(r & -> & _)]; [|discriminate E].
    destruct He as [->|(e0 & s0 & r & -> & [->| ->] & _)]; discriminate E.
  - cbn [app] in E. injection E as <- _. lia.
Qed.
Lemma minus_not J : ~ js_doc J (L "-1").
Proof. intros H. destruct rfc_minus as [H1 H2]. exact (H2 (rfc_accepted _ _ _ H1 H)). Qed.
Lemma rfc_plain : rfc_doc (JArr [JLeaf (L "10.5"); JLeaf (q "a")]) (L "[ 10.5," ++ q "a" ++ L "]")
  /\ json_all (fun v => rfc_number v -> rfc_unsigned v) (fun _ => True) (JArr [JLeaf (L "10.5"); JLeaf (q "a")])
  /\ json_all (fun v => leaf rfc_number rfc_string v) rfc_string (JArr [JLeaf (L "10.5"); JLeaf (q "a")])
  /\ 12%N ∉ L "[ 10.5," ++ q "a" ++ L "]".
Proof.
  assert (Hu : rfc_unsigned (L "10.5")).
  { exists (L "10"), (L ".5"). split; [done|]. split; [right; exists 49%N, (L "0"); by repeat constructor|]. right. exists (L "5"). by repeat constructor. }
  assert (Hn : rfc_number (L "10.5")).
  { destruct Hu as (i & f & E & Hi & Hf). exists [], i, f, []. rewrite app_nil_r. split; [exact E|]. split; [by left|]. split; [exact Hi|]. split; [exact Hf|by left]. }
  assert (Hs : rfc_string (q "a")). { exists (L "a"). split; [done|]. apply rb_plain; [done|done|done|constructor]. }
  assert (H0 : blank rfc_space []) by constructor. assert (H1 : blank rfc_space (L " ")) by (constructor; [by left|constructor]).
  split; [|split; [|split]].
  - exists [], (L "[" ++ (L " " ++ L "10.5" ++ [] ++ L "," ++ ([] ++ q "a" ++ [])) ++ L "]"), []. split; [exact H0|]. split; [|split; [exact H0|reflexivity]].
    apply vt_items. apply it_more; [exact H1|constructor; by left|exact H0|]. apply it_one; [exact H0|constructor; by right; left|exact H0].
  - split; [intros _; exact Hu|]. split; [|done]. intros Hv. exfalso. destruct Hv as (m & i & f & e & E & Hm & Hi & _).
    change (q "a") with (34%N :: L "a" ++ [34%N]) in E.
    destruct Hm as [->| ->]; [|discriminate E]. destruct Hi as [->|(c & r & -> & Hc & _)]; [discriminate E|]. cbn [app] in E. injection E as <- _. lia.
  - split; [by left|]. split; [by right; left|done].
  - apply (bool_decide_unpack _). vm_compute. exact I.
Qed.
Lemma minus_refused : exists J s, rfc_doc J s /\ forall compile l0 l g rd (texts : list gostring),
  js_package compile l0 g rd -> returns (sl_calls (map CLex texts) l0) l -> exists e l', returns (js_format l g rd s) (([], Some e), l').
Proof.
  exists (JLeaf (L "-1")), (L "-1"). destruct rfc_minus as [H1 H2]. split; [exact H1|]. intros c l0 l g rd texts Hp Hl.
  exact (format_error c l0 l g rd texts Hp Hl (L "-1") minus_not).
Qed.
Lemma zeros_taken : exists s, (forall J, ~ rfc_doc J s) /\ forall compile l0 l g rd (texts : list gostring),
  js_package compile l0 g rd -> returns (sl_calls (map CLex texts) l0) l -> exists o l', returns (js_format l g rd s) ((o, None), l').
Proof.
  exists (L "007"). split; [exact zeros_not_rfc|]. intros c l0 l g rd texts Hp Hl. exists (layout 0 (JLeaf (L "007"))).
  exact (format_ok c l0 l g rd texts Hp Hl _ _ (number_doc _ zeros_number)).
Qed.
Definition run_lex (s : gostring) : option (list lexeme) :=
  match js_lexer three with
  | Some l => match slex l s 200 with
      | Ok (xs, _) => match lex_errors xs with [] => Some (map olex_lx xs) | _ => None end
      | _ => None end
  | None => None end.
Lemma run_tokens s lxs : run_lex s = Some lxs -> lexes_to (js_calls []) s lxs.
Proof.
  unfold run_lex. destruct (js_lexer_some three three_js) as (l & -> & Hl). intros H.
  destruct (slex l s 200) as [[ys l2]| |] eqn:E; [|discriminate H|discriminate H].
  destruct (lex_errors ys) as [|e es] eqn:He; [|discriminate H]. injection H as <-.
  exact (table_run js_table [] JsonText.js_more js_length l s 200 ys l2 Hl E He).
Qed.

Lemma run_junk s v : match js_lexer three with Some l => match slex l s 200 with Ok (xs, _) => head (lex_errors xs) = Some (Lx (L "Error") v (-1) 0) | _ => False end | None => False end ->
  lexes_not (js_calls []) s v.
Proof.
  destruct (js_lexer_some three three_js) as (l & -> & Hl). intros H. destruct (slex l s 200) as [[ys l2]| |] eqn:E; [|done|done].
  assert (Hs : returns (slex l s) (ys, l2)) by (exact (LexMain.slex_returns l s 200 _ E)).
  destruct (table_lexes js_table [] [] JsonText.js_more JsonText.js_nodup js_length s) as [[lxs (ps & Ht & HJ & Ha)]|(v' & ps & vs & Ht & HJ)].
  - exfalso. destruct (lex_now l [] Hl s ps lxs Ht Ha) as (xs & l' & Hx & _ & He). pose proof (returns_fun _ _ _ Hs Hx) as Eq. injection Eq as -> _.
    rewrite He, HJ in H. discriminate H.
  - destruct (LexMain.lex_longest (js_calls []) l s (table_first js_table [] [] JsonText.js_more) (table_regexps js_table [] [] JsonText.js_more)
      (cs_length js_table [] [] js_length) Hl) as (l1 & ps' & pre & out & post & _ & H1 & H2 & Ht' & Hem).
    assert (ps' = ps) as -> by (eapply LexMain.tokenises_unique; [apply (table_regexps js_table [] [] JsonText.js_more)|exact Ht'|exact Ht]).
    destruct (lex_now l [] Hl s ps (map olex_lx (pre ++ out ++ post)) Ht) as (xs & l' & Hx & _ & He). { exists pre, out, post. done. }
    pose proof (returns_fun _ _ _ Hs Hx) as Eq. injection Eq as -> _. rewrite He, HJ in H. cbn [map head] in H. injection H as <-. exists ps, vs. done.
Qed.
Lemma two_errors : lexes_not (js_calls []) (L "[1,-]") (L "-")
  /\ (exists lxs, lexes_to (js_calls []) (L "[1,]") lxs) /\ forall J, ~ js_doc J (L "[1,]").
Proof.
  split; [apply run_junk; vm_compute; reflexivity|].
  destruct (run_lex (L "[1,]")) as [lxs|] eqn:E; [|vm_compute in E; discriminate E]. pose proof (run_tokens _ _ E) as Ht. split; [by exists lxs|].
  intros J HJ. apply (JsonText.doc_lexes []) in HJ as (lxs' & Hl & Hw). rewrite (table_unique js_table [] [] JsonText.js_more _ _ _ Hl Ht) in Hw.
  destruct (JsonParse.parse_doc lxs J Hw) as (t & Hp & _).
  assert (Hn : match run_lex (L "[1,]") with Some lxs => td_parse 200 JsonParse.js_g lxs = Ok None | None => False end) by (vm_compute; reflexivity).
  rewrite E in Hn. pose proof (returns_fun _ _ _ Hp (returns_at (fun n => td_parse n JsonParse.js_g lxs) 200 None (TopdownProofs.td_parse_mono _ _) Hn)) as D. discriminate D.
Qed.
