(** Descriptions: their derivations, that their tokens determine them, and their evaluation. *)
From Coq Require Import String.
From Verif.spec Require Import ReducerSpec.
From Verif.proofs Require Import GramRows TreeProofs RdParse.
Local Open Scope nat_scope.
Local Open Scope list_scope.

Scheme ws_mut := Induction for writes_step Sort Prop with wss_mut := Induction for writes_steps Sort Prop.
Combined Scheme writes_mut from ws_mut, wss_mut.

(** * Derivations *)
Notation kinds := (map lx_kind).
Lemma tok_none k : k ∉ map fst rd_rows -> g_prods rd_g k = None.
Proof. apply (rows_none rd_g rd_rows rd_wf rd_nts). Qed.
Ltac rl k p := apply (rows_derive rd_g rd_rows rd_prods k p);
  [apply (bool_decide_unpack _); vm_compute; exact I|].
Lemma dtok x k r w : lx_kind x = k -> bool_decide (k ∈ map fst rd_rows) = false ->
  derives_seq rd_g r w -> derives_seq rd_g (k :: r) (lx_kind x :: w).
Proof. intros <- Hk Hr. apply derives_tok; [|done]. apply tok_none. by apply bool_decide_eq_false in Hk. Qed.
Lemma drv s r u v : derives rd_g s u -> derives_seq rd_g r v -> derives_seq rd_g (s :: r) (u ++ v).
Proof. apply der_cons. Qed.
Ltac dt := apply dtok; [assumption|vm_compute; reflexivity|].
Lemma args_derive k f vs u (K : gostring) : L k ∉ map fst rd_rows ->
  (forall w, derives_seq rd_g [L k; L "comma"; K] w -> derives rd_g K w) -> derives rd_g K [] ->
  writes_args k f vs u -> exists a x, kinds u = a ++ [L k] /\ lx_kind x = L k /\ derives rd_g K a.
Proof.
  intros Hn Hm H0. induction 1 as [v x Hx _|v vs x c u Hx _ Hc _ (a & y & E & Hy & Ha)].
  - exists [], x. cbn [map app]. rewrite Hx. done.
  - exists (L k :: L "comma" :: a), y. split; [cbn [map app]; rewrite E, Hx, Hc; done|]. split; [done|]. apply Hm.
    enough (Hd : derives_seq rd_g [L k; L "comma"; K] (lx_kind x :: lx_kind c :: a)) by (rewrite Hx, Hc in Hd; exact Hd).
    apply dtok; [exact Hx|by apply bool_decide_eq_false|]. dt. by apply derives_one.
Qed.
Lemma nums_derive vs u : writes_args "number" id vs u -> exists a, kinds u = a ++ [L "number"] /\ derives rd_g k_nums a.
Proof.
  intros H. destruct (args_derive "number" id vs u k_nums) as (a & x & E & _ & Ha); [notin| | |exact H|by exists a].
  - intros w Hw. rl k_nums [L "number"; L "comma"; k_nums]. exact Hw.
  - rl k_nums (@nil gostring). constructor.
Qed.
Lemma strs_derive vs u : writes_args "string" quoted vs u -> exists a, kinds u = a ++ [L "string"] /\ derives rd_g k_strs a.
Proof.
  intros H. destruct (args_derive "string" quoted vs u k_strs) as (a & x & E & _ & Ha); [notin| | |exact H|by exists a].
  - intros w Hw. rl k_strs [L "string"; L "comma"; k_strs]. exact Hw.
  - rl k_strs (@nil gostring). constructor.
Qed.
Lemma noargs_derive o c : tk "lp" o -> tk "rp" c -> derives rd_g (L "NoArgs") (kinds [o; c]).
Proof. intros H1 H2. rl (L "NoArgs") [L "lp"; L "rp"]. cbn [map]. dt. dt. constructor. Qed.
Lemma num_derive o i c : tk "lp" o -> tk "number" i -> tk "rp" c -> derives rd_g (L "OneNumArg") (kinds [o; i; c]).
Proof. intros H1 H2 H3. rl (L "OneNumArg") [L "lp"; L "number"; L "rp"]. cbn [map]. dt. dt. dt. constructor. Qed.
Ltac call p := cbn [map]; rl (L "Reduction") p; dt; apply derives_one.
Lemma steps_derive :
  (forall s u, writes_step s u -> derives rd_g (L "Reduction") (kinds u))
  /\ (forall ss u, writes_steps ss u -> exists a b, kinds u = a ++ b /\ derives rd_g k_star a /\ derives rd_g (L "Reduction") b).
Proof.
  assert (Hchain : forall w, (exists a b, w = a ++ b /\ derives rd_g k_star a /\ derives rd_g (L "Reduction") b) -> derives rd_g (L "Chain") w).
  { intros w (a & b & -> & Ha & Hb). rl (L "Chain") [k_star; L "Reduction"]. apply drv; [done|]. by apply derives_one. }
  apply (writes_mut (fun s u _ => derives rd_g (L "Reduction") (kinds u))
    (fun ss u _ => exists a b, kinds u = a ++ b /\ derives rd_g k_star a /\ derives rd_g (L "Reduction") b)).
  - intros x Hx. rl (L "Reduction") [L "Nil"]. cbn [map]. dt. constructor.
  - intros x o c Hx Ho Hc. call [L "PromoteSingleChild"; L "NoArgs"]. by apply (noargs_derive o c).
  - intros x o c Hx Ho Hc. call [L "PromoteGrandChildren"; L "NoArgs"]. by apply (noargs_derive o c).
  - intros x o c ns u Hx Ho Hc Hu. call [L "RemoveChildren"; L "VarNumArg"]. apply nums_derive in Hu as (a & E & Ha).
    rl (L "VarNumArg") [L "lp"; k_nums; L "number"; L "rp"]. dt. rewrite map_app, E, <- app_assoc. apply drv; [exact Ha|].
    cbn [map app]. apply (dtok (Lx (L "number") [] 0 0)); [done|vm_compute; reflexivity|]. dt. constructor.
  - intros x o c ns u Hx Ho Hc Hu. call [L "RemoveAll"; L "VarStrArg"]. apply strs_derive in Hu as (a & E & Ha).
    rl (L "VarStrArg") [L "lp"; k_strs; L "string"; L "rp"]. dt. rewrite map_app, E, <- app_assoc. apply drv; [exact Ha|].
    cbn [map app]. apply (dtok (Lx (L "string") [] 0 0)); [done|vm_compute; reflexivity|]. dt. constructor.
  - intros x o i c Hx Ho Hi Hc. call [L "PromoteChildValue"; L "OneNumArg"]. by apply (num_derive o i c).
  - intros x o i c Hx Ho Hi Hc. call [L "RemoveChild"; L "OneNumArg"]. by apply (num_derive o i c).
  - intros x o i c Hx Ho Hi Hc. call [L "ReplaceWithChild"; L "OneNumArg"]. by apply (num_derive o i c).
  - intros x o i c Hx Ho Hi Hc. call [L "PromoteChildrenOf"; L "OneNumArg"]. by apply (num_derive o i c).
  - intros x o i c Hx Ho Hi Hc. call [L "PromoteChild"; L "OneNumArg"]. by apply (num_derive o i c).
  - intros x o q o1 i m1 s c1 m2 th ut m3 el ue c v Hx Ho Hq Ho1 Hi Hm1 Hs Hv Hc1 Hm2 _ IHt Hm3 _ IHe Hc.
    apply Hchain in IHt, IHe.
    rl (L "Reduction") [L "If"; L "lp"; L "Condition"; L "comma"; L "Chain"; L "comma"; L "Chain"; L "rp"]. cbn [map]. dt. dt.
    change (lx_kind q :: ?r) with (kinds [q; o1; i; m1; s; c1] ++ tail (tail (tail (tail (tail r))))). apply drv.
    { rl (L "Condition") [L "ChildIs"; L "lp"; L "number"; L "comma"; L "string"; L "rp"]. cbn [map]. dt. dt. dt. dt. dt. dt. constructor. }
    cbn [tail]. dt. rewrite map_app. apply drv; [done|]. cbn [map]. dt. rewrite map_app. apply drv; [done|]. cbn [map]. dt. constructor.
  - intros s u _ IH. exists [], (kinds u). split; [done|]. split; [|done]. rl k_star (@nil gostring). constructor.
  - intros s u p ss v _ IH Hp _ (a & b & E & Ha & Hb). exists (kinds u ++ lx_kind p :: a), b.
    split; [rewrite map_app; cbn [map]; rewrite E, <- app_assoc; done|]. split; [|done].
    rl k_star [L "Reduction"; L "period"; k_star]. apply drv; [done|]. dt. by apply derives_one.
Qed.
Theorem written_derives D u : writes D u -> derives rd_g (L "Rules") (kinds u).
Proof.
  intros H. rl (L "Rules") [L "Rule*"]. apply derives_one. induction H as [|k ss D x u v Hx Hv Hw _ IH].
  - rl (L "Rule*") (@nil gostring). constructor.
  - change (x :: u ++ v) with ((x :: u) ++ v). rewrite map_app. rl (L "Rule*") [L "Rule"; L "Rule*"]. apply drv; [|by apply derives_one].
    rl (L "Rule") [L "rule"; L "Chain"]. cbn [map]. dt. apply derives_one.
    apply steps_derive in Hw as (a & b & -> & Ha & Hb). rl (L "Chain") [k_star; L "Reduction"]. apply drv; [done|]. by apply derives_one.
Qed.

(** * The tokens determine the description *)
Definition starts (k : string) (w : list lexeme) : Prop := exists x r, w = x :: r /\ tk k x.
Ltac clash := exfalso; unfold tk in *; match goal with H1 : lx_kind ?x = _, H2 : lx_kind ?x = _ |- _ => rewrite H1 in H2; revert H2; notin end.
Lemma args_unique k f : (forall a b, f a = f b -> a = b) -> L k <> L "comma" -> forall vs u, writes_args k f vs u ->
  forall vs' u' w w', writes_args k f vs' u' -> u ++ w = u' ++ w' -> ~ starts "comma" w -> ~ starts "comma" w' ->
  vs = vs' /\ u = u' /\ w = w'.
Proof.
  intros Hf Hk. induction 1 as [v x Hx Hv|v vs x c u Hx Hv Hc _ IH]; intros vs' u' w w' H' E Hw Hw'.
  - destruct H' as [v' x' Hx' Hv'|v' vs' x' c' u' Hx' Hv' Hc' H'].
    + cbn [app] in E. injection E as <- <-. split; [f_equal; apply Hf; congruence|done].
    + cbn [app] in E. injection E as <- ->. exfalso. apply Hw. exists c', (u' ++ w'). done.
  - destruct H' as [v' x' Hx' Hv'|v' vs' x' c' u' Hx' Hv' Hc' H'].
    + cbn [app] in E. injection E as <- <-. exfalso. apply Hw'. exists c, (u ++ w). done.
    + cbn [app] in E. injection E as <- <- E. destruct (IH _ _ _ _ H' E Hw Hw') as (-> & -> & ->).
      split; [f_equal; apply Hf; congruence|done].
Qed.
Lemma quoted_inj a b : quoted a = quoted b -> a = b.
Proof. unfold quoted. intros E. injection E as E. by apply app_inj_tail in E as [-> _]. Qed.
Lemma not_starts k x r : lx_kind x <> L k -> ~ starts k (x :: r).
Proof. intros H (y & r' & E & Hy). injection E as <- _. by apply H. Qed.
Ltac nstart := apply not_starts; unfold tk in *; match goal with H : lx_kind ?x = _ |- lx_kind ?x <> _ => rewrite H end; notin.

Definition word (s : rstep) : gostring :=
  L (match s with
  | SNil => "Nil" | SSingle => "PromoteSingleChild" | SGrand => "PromoteGrandChildren" | SRemoveChildren _ => "RemoveChildren"
  | SRemoveAll _ => "RemoveAll" | SChildValue _ => "PromoteChildValue" | SRemoveChild _ => "RemoveChild" | SReplace _ => "ReplaceWithChild"
  | SChildrenOf _ => "PromoteChildrenOf" | SChild _ => "PromoteChild" | SIf _ _ _ _ => "If" end)%string.
Definition rest_of (s : rstep) (r : list lexeme) : Prop :=
  match s with
  | SNil => r = []
  | SSingle | SGrand => exists o c, tk "lp" o /\ tk "rp" c /\ r = [o; c]
  | SRemoveChildren ns => exists o u c, tk "lp" o /\ tk "rp" c /\ writes_args "number" id ns u /\ r = o :: u ++ [c]
  | SRemoveAll ns => exists o u c, tk "lp" o /\ tk "rp" c /\ writes_args "string" quoted ns u /\ r = o :: u ++ [c]
  | SChildValue n | SRemoveChild n | SReplace n | SChildrenOf n | SChild n =>
      exists o i c, tk "lp" o /\ tk "number" i /\ tk "rp" c /\ n = lx_val i /\ r = [o; i; c]
  | SIf n v th el => exists o q o1 i m1 s c1 m2 ut m3 ue c,
      tk "lp" o /\ tk "ChildIs" q /\ tk "lp" o1 /\ tk "number" i /\ tk "comma" m1 /\ tk "string" s /\ lx_val s = quoted v /\ tk "rp" c1 /\
      tk "comma" m2 /\ writes_steps th ut /\ tk "comma" m3 /\ writes_steps el ue /\ tk "rp" c /\ n = lx_val i
      /\ r = o :: q :: o1 :: i :: m1 :: s :: c1 :: m2 :: ut ++ m3 :: ue ++ [c]
  end.
Lemma step_shape s u : writes_step s u -> exists x r, u = x :: r /\ lx_kind x = word s /\ rest_of s r.
Proof.
  intros H. destruct H; do 2 eexists; (split; [reflexivity|]); (split; [assumption|]); cbn [rest_of]; eauto 10.
  exists o, q, o1, i, m1, s, c1, m2, ut, m3, ue, c. repeat (split; [assumption|]). split; reflexivity.
Qed.
Ltac same x Hx :=
  let s' := fresh "s'" in let u' := fresh "u'" in let w := fresh "w" in let w' := fresh "w'" in let H' := fresh "H'" in
  let x' := fresh "x'" in let r' := fresh "r'" in let Hk := fresh "Hk" in
  intros s' u' w w' H' E; apply step_shape in H' as (x' & r' & -> & Hk & Hr); cbn [app] in E; injection E as <- E;
  unfold tk in Hx; rewrite Hx in Hk; destruct s'; try (exfalso; revert Hk; cbn [word]; notin); clear Hk; cbn [rest_of] in Hr.
Lemma unique :
  (forall s u, writes_step s u -> forall s' u' w w', writes_step s' u' -> u ++ w = u' ++ w' -> s = s' /\ u = u' /\ w = w')
  /\ (forall ss u, writes_steps ss u -> forall ss' u' w w', writes_steps ss' u' -> u ++ w = u' ++ w' ->
      ~ starts "period" w -> ~ starts "period" w' -> ss = ss' /\ u = u' /\ w = w').
Proof.
  apply (writes_mut
    (fun s u _ => forall s' u' w w', writes_step s' u' -> u ++ w = u' ++ w' -> s = s' /\ u = u' /\ w = w')
    (fun ss u _ => forall ss' u' w w', writes_steps ss' u' -> u ++ w = u' ++ w' ->
      ~ starts "period" w -> ~ starts "period" w' -> ss = ss' /\ u = u' /\ w = w')).
  - intros x Hx. same x Hx. subst r'. done.
  - intros x o c Hx Ho Hc. same x Hx. destruct Hr as (o' & c' & _ & _ & ->). injection E as <- <- <-. done.
  - intros x o c Hx Ho Hc. same x Hx. destruct Hr as (o' & c' & _ & _ & ->). injection E as <- <- <-. done.
  - intros x o c ns u Hx Ho Hc Hu. same x Hx. destruct Hr as (o' & u2 & c' & _ & Hc' & Hu' & ->).
    cbn [app] in E. injection E as <- E. rewrite <- !app_assoc in E. cbn [app] in E.
    destruct (args_unique "number" id (fun a b H => H) ltac:(notin) _ _ Hu _ _ _ _ Hu' E ltac:(nstart) ltac:(nstart)) as (-> & -> & E').
    injection E' as <- <-. done.
  - intros x o c ns u Hx Ho Hc Hu. same x Hx. destruct Hr as (o' & u2 & c' & _ & Hc' & Hu' & ->).
    cbn [app] in E. injection E as <- E. rewrite <- !app_assoc in E. cbn [app] in E.
    destruct (args_unique "string" quoted quoted_inj ltac:(notin) _ _ Hu _ _ _ _ Hu' E ltac:(nstart) ltac:(nstart)) as (-> & -> & E').
    injection E' as <- <-. done.
  - intros x o i c Hx Ho Hi Hc. same x Hx. destruct Hr as (o' & i' & c' & _ & _ & _ & -> & ->). injection E as <- <- <- <-. done.
  - intros x o i c Hx Ho Hi Hc. same x Hx. destruct Hr as (o' & i' & c' & _ & _ & _ & -> & ->). injection E as <- <- <- <-. done.
  - intros x o i c Hx Ho Hi Hc. same x Hx. destruct Hr as (o' & i' & c' & _ & _ & _ & -> & ->). injection E as <- <- <- <-. done.
  - intros x o i c Hx Ho Hi Hc. same x Hx. destruct Hr as (o' & i' & c' & _ & _ & _ & -> & ->). injection E as <- <- <- <-. done.
  - intros x o i c Hx Ho Hi Hc. same x Hx. destruct Hr as (o' & i' & c' & _ & _ & _ & -> & ->). injection E as <- <- <- <-. done.
  - intros x o q o1 i m1 s c1 m2 th ut m3 el ue c v Hx Ho Hq Ho1 Hi Hm1 Hs Hv Hc1 Hm2 _ IHt Hm3 _ IHe Hc. same x Hx.
    destruct Hr as (o' & q' & o1' & i' & m1' & s' & c1' & m2' & ut' & m3' & ue' & c' & _ & _ & _ & _ & _ & _ & Hv' & _ & _ & Ht' & Hm3' & He' & Hc' & -> & ->).
    cbn [app] in E. injection E as <- <- <- <- <- <- <- <- E. rewrite <- !app_assoc in E. cbn [app] in E.
    destruct (IHt _ _ _ _ Ht' E ltac:(nstart) ltac:(nstart)) as (-> & -> & E1). injection E1 as <- E1.
    rewrite <- !app_assoc in E1. cbn [app] in E1.
    destruct (IHe _ _ _ _ He' E1 ltac:(nstart) ltac:(nstart)) as (-> & -> & E2). injection E2 as <- <-.
    rewrite Hv in Hv'. apply quoted_inj in Hv' as ->. done.
  - intros s u _ IH ss' u' w w' H' E Hw Hw'. destruct H' as [s' u' H'|s' u' p' ss' v' H' Hp' Hs'].
    + destruct (IH _ _ _ _ H' E) as (-> & -> & ->). done.
    + rewrite <- app_assoc in E. destruct (IH _ _ _ _ H' E) as (-> & -> & ->). exfalso. apply Hw. exists p', (v' ++ w'). done.
  - intros s u p ss v _ IH Hp _ IHs ss' u' w w' H' E Hw Hw'. rewrite <- app_assoc in E. destruct H' as [s' u' H'|s' u' p' ss' v' H' Hp' Hs'].
    + destruct (IH _ _ _ _ H' E) as (-> & -> & <-). exfalso. apply Hw'. exists p, (v ++ w). done.
    + rewrite <- app_assoc in E. destruct (IH _ _ _ _ H' E) as (-> & -> & E'). cbn [app] in E'. injection E' as <- E'.
      destruct (IHs _ _ _ _ Hs' E' Hw Hw') as (-> & -> & ->). done.
Qed.
Theorem writes_unique D u D' : writes D u -> writes D' u -> D = D'.
Proof.
  intros H. revert D'. induction H as [|k ss D x u v Hx <- Hw H IH]; intros D' H'.
  - by inversion H'.
  - inversion H' as [|k' ss' E' x' u' v' Hx' Hv' Hw' HD' E1 E2]; subst.
    assert (Hns : forall E w, writes E w -> ~ starts "period" w).
    { intros E w [|k ss2 E2' y a b Hy _ _ _]; [by intros (y & r & ? & _)|]. nstart. }
    match goal with H3 : _ ++ _ = _ ++ _ |- _ => destruct (proj2 unique _ _ Hw _ _ _ _ Hw' (eq_sym H3) (Hns _ _ H) (Hns _ _ HD')) as (-> & -> & ->) end.
    f_equal. by apply IH.
Qed.

(** * Evaluation *)
Lemma digit_ok c : (48 <= c <= 57)%N -> digit_of c = Some (Z.of_N c - 48)%Z.
Proof. intros [H1 H2]. unfold digit_of. by rewrite (proj2 (N.leb_le _ _) H1), (proj2 (N.leb_le _ _) H2). Qed.
Notation isdigit := (fun c : N => (48 <= c <= 57)%N).
Notation dstep := (fun (n : Z) (c : N) => (n * 10 + (Z.of_N c - 48))%Z).
Lemma digits_grow s : forall n, (0 <= n)%Z -> Forall isdigit s -> (n <= fold_left dstep s n)%Z.
Proof.
  induction s as [|c s IH]; intros n Hn H; cbn [fold_left]; [lia|]. apply Forall_cons in H as [Hc H].
  specialize (IH (n * 10 + (Z.of_N c - 48))%Z ltac:(lia) H). lia.
Qed.
Lemma parse_uint_spec s : forall n, (0 <= n <= max_uint64)%Z -> Forall isdigit s ->
  parse_uint s n = Some (Z.min max_uint64 (fold_left dstep s n)).
Proof.
  induction s as [|c s IH]; intros n Hn H; cbn [parse_uint fold_left]; [f_equal; lia|]. apply Forall_cons in H as [Hc H].
  rewrite digit_ok by exact Hc. cbv zeta. destruct (Z.gtb_spec (n * 10 + (Z.of_N c - 48)) max_uint64) as [Hg|Hg].
  - pose proof (digits_grow s (n * 10 + (Z.of_N c - 48))%Z ltac:(lia) H). f_equal. lia.
  - apply IH; [lia|exact H].
Qed.
Lemma atoi_int v : int_text v -> atoi v = int_value v.
Proof.
  intros (sg & ds & -> & Hsg & Hne & Hd). pose proof (digits_grow ds 0 ltac:(lia) Hd) as Hg.
  pose proof (parse_uint_spec ds 0 ltac:(unfold max_uint64; lia) Hd) as Hp. unfold int_value, digits_value.
  destruct Hsg as [->| ->]; cbn [app].
  - destruct ds as [|d ds]; [done|]. assert (Hh := Forall_inv Hd). cbn beta in Hh.
    assert (Hd43 : d <> 43%N) by lia. assert (Hd45 : d <> 45%N) by lia. unfold atoi.
    replace (match d :: ds with 43%N :: t => (false, t) | 45%N :: t => (true, t) | _ => (false, d :: ds) end) with (false, d :: ds).
    2: { destruct d as [|p]; [done|]. do 6 (destruct p; try done). }
    rewrite Hp. set (V := fold_left dstep (d :: ds) 0%Z) in *. clearbody V.
    replace (match d :: ds with 45%N :: t => Z.max (- 2 ^ 63) (- fold_left dstep t 0) | _ => Z.min (2 ^ 63 - 1) V end)%Z with (Z.min (2 ^ 63 - 1) V).
    2: { destruct d as [|p]; [done|]. do 6 (destruct p; try done). }
    unfold max_uint64. destruct (Z.geb_spec (Z.min (2 ^ 64 - 1) V) (2 ^ 63)); lia.
  - unfold atoi. destruct ds as [|d ds]; [done|]. rewrite Hp. set (V := fold_left dstep (d :: ds) 0%Z) in *. clearbody V.
    unfold max_uint64. destruct (Z.gtb_spec (Z.min (2 ^ 64 - 1) V) (2 ^ 63)); lia.
Qed.
Lemma unquote_quoted x : unquote (quoted x) = Ok x.
Proof.
  unfold unquote, quoted. cbn [app]. set (n := length _).
  assert (Hn : n = S (S (length x))) by (subst n; cbn [length]; rewrite app_length; cbn [length]; lia).
  rewrite Hn. cbn [Nat.ltb Nat.leb]. change (drop 1 (34%N :: x ++ [34%N])) with (x ++ [34%N]). cbn [Nat.sub]. rewrite Nat.sub_0_r. f_equal. by apply take_app_alt.
Qed.
Lemma run_chain r f p : run_red (chain r (Some f)) p = f (run_red r p).
Proof. by destruct r. Qed.
Lemma args_vals f T vs : shows_args f T vs -> map (fun c => lx_val (pn_lexeme c)) T = map f vs.
Proof. induction 1 as [|t v T vs H _ IH]; [done|]. cbn [map]. by rewrite H, IH. Qed.
Lemma nums_eval la T ns : shows_args id T ns -> Forall int_text ns -> eval_var_num_args (PN la T) = map int_value ns.
Proof.
  intros H. unfold eval_var_num_args. cbn [pn_children]. induction H as [|t v T vs H _ IH]; intros Hi; [done|].
  apply Forall_cons in Hi as [H1 Hi]. cbn [map]. rewrite H. by rewrite <- (atoi_int v H1), IH.
Qed.
Lemma strs_eval la T xs : shows_args quoted T xs -> eval_var_str_args (PN la T) = Ok xs.
Proof.
  intros H. unfold eval_var_str_args. cbn [pn_children]. induction H as [|t v T vs H _ IH]; [done|].
  cbn [rmap]. rewrite H, unquote_quoted. cbn [rbind]. by rewrite IH.
Qed.
Lemma step_unfold lx cs r : eval_step (PN lx cs) r =
      let arg0 (f : pn -> reduction) :=
        rbind (child_or_panic cs 0) (fun c => Ok (chain r (Some (f c)))) in
      let k := lx_kind lx in
      if decide (k = L "PromoteSingleChild") then Ok (chain r (Some (fun p => fst (promote_single_child p))))
      else if decide (k = L "RemoveChildren") then arg0 (fun c p => remove_children (eval_var_num_args c) p)
      else if decide (k = L "PromoteChildValue") then arg0 (fun c p => promote_child_value (eval_one_num_arg c) p)
      else if decide (k = L "RemoveChild") then arg0 (fun c p => fst (remove_child (eval_one_num_arg c) p))
      else if decide (k = L "ReplaceWithChild") then arg0 (fun c p => fst (replace_with_child (eval_one_num_arg c) p))
      else if decide (k = L "PromoteGrandChildren") then Ok (chain r (Some promote_grand_children))
      else if decide (k = L "PromoteChildrenOf") then arg0 (fun c p => fst (promote_children_of (eval_one_num_arg c) p))
      else if decide (k = L "RemoveAll") then
        c <-! child_or_panic cs 0;
        xs <-! eval_var_str_args c;
        Ok (chain r (Some (remove_all xs)))
      else if decide (k = L "PromoteChild") then arg0 (fun c p => fst (promote_child (eval_one_num_arg c) p))
      else if decide (k = L "If") then
        match cs with
        | [] => Panic
        | c0 :: rest =>
            c <-! eval_conditional c0;
            match rest with
            | [] => Panic
            | PN _ ts :: rest =>
                t <-! eval_steps ts None;
                match rest with
                | [] => Panic
                | PN _ es :: _ => e <-! eval_steps es None; Ok (chain r (Some (if_ c t e)))
                end
            end
        end
      else Ok r.
Proof. reflexivity. Qed.
Ltac decs := repeat first [rewrite decide_True by reflexivity | rewrite decide_False by notin].
Definition step_runs (t : pn) (s : rstep) : Prop :=
  forall r, exists r', eval_step t r = Ok r' /\ (ints_only s -> forall p, run_red r' p = step_means s (run_red r p)).
Definition steps_run (T : list pn) (ss : list rstep) : Prop :=
  forall r, exists r', eval_steps T r = Ok r' /\ (Forall ints_only ss -> forall p, run_red r' p = steps_mean ss (run_red r p)).
Lemma means_if i x th el n : step_means (SIf i x th el) n = if child_is n (int_value i) x then steps_mean th n else steps_mean el n.
Proof.
  cbn [step_means].
  assert (H : forall ss n, (fix go (ss : list rstep) (n : pn) : pn := match ss with [] => n | s :: r => go r (step_means s n) end) ss n = steps_mean ss n).
  { induction ss as [|s ss IH]; intros m; [done|]. cbn [steps_mean fold_left]. apply IH. }
  by rewrite !H.
Qed.
Lemma ints_if i x th el : ints_only (SIf i x th el) <-> int_text i /\ Forall ints_only th /\ Forall ints_only el.
Proof.
  cbn [ints_only].
  assert (H : forall ss, (fix go (ss : list rstep) : Prop := match ss with [] => True | s :: r => ints_only s /\ go r end) ss <-> Forall ints_only ss).
  { induction ss as [|s ss IH]; [split; [constructor|done]|]. rewrite Forall_cons, IH. done. }
  by rewrite !H.
Qed.
Lemma one_num la i : int_text (lx_val i) -> eval_one_num_arg (PN la [PN i []]) = int_value (lx_val i).
Proof. intros H. cbn. by apply atoi_int. Qed.
Lemma conditional_runs lq i s v : tk "ChildIs" lq -> lx_val s = quoted v ->
  exists c, eval_conditional (PN lq [PN i []; PN s []]) = Ok (Some c)
    /\ (int_text (lx_val i) -> forall p, c p = child_is p (int_value (lx_val i)) v).
Proof.
  intros Hq Hs. exists (fun p => child_is p (atoi (lx_val i)) v). split.
  - unfold eval_conditional. cbn [pn_lexeme]. rewrite Hq. rewrite decide_True by reflexivity. cbn [pn_children child_or_panic].
    change (child_or_panic [PN i []; PN s []] 0) with (Ok (PN i [])). change (child_or_panic [PN i []; PN s []] 1) with (Ok (PN s [])).
    cbn [rbind pn_lexeme]. rewrite Hs, unquote_quoted. reflexivity.
  - intros H p. by rewrite atoi_int.
Qed.
Lemma evaluated : (forall t s, shows_step t s -> step_runs t s) /\ (forall T ss, shows_steps T ss -> steps_run T ss).
Proof.
  apply (shows_mut (fun t s _ => step_runs t s) (fun T ss _ => steps_run T ss)).
  - intros lx cs Hx r. rewrite step_unfold. cbv zeta. rewrite Hx. decs. eexists. split; [reflexivity|]. done.
  - intros lx cs Hx r. rewrite step_unfold. cbv zeta. rewrite Hx. decs. eexists. split; [reflexivity|]. intros _ p. apply run_chain.
  - intros lx cs Hx r. rewrite step_unfold. cbv zeta. rewrite Hx. decs. eexists. split; [reflexivity|]. intros _ p. apply run_chain.
  - intros lx la T ns Hx Ha r. rewrite step_unfold. cbv zeta. rewrite Hx. decs. eexists. split; [reflexivity|].
    intros Hi p. rewrite run_chain. cbn [step_means]. by rewrite (nums_eval la T ns Ha Hi).
  - intros lx la T ns Hx Ha r. rewrite step_unfold. cbv zeta. rewrite Hx. decs.
    change (child_or_panic [PN la T] 0) with (Ok (PN la T)). cbn [rbind]. rewrite (strs_eval la T ns Ha). cbn [rbind].
    eexists. split; [reflexivity|]. intros Hi p. apply run_chain.
  - intros lx la i Hx r. rewrite step_unfold. cbv zeta. rewrite Hx. decs. eexists. split; [reflexivity|].
    intros Hi p. rewrite run_chain, (one_num la i Hi). reflexivity.
  - intros lx la i Hx r. rewrite step_unfold. cbv zeta. rewrite Hx. decs. eexists. split; [reflexivity|].
    intros Hi p. rewrite run_chain, (one_num la i Hi). reflexivity.
  - intros lx la i Hx r. rewrite step_unfold. cbv zeta. rewrite Hx. decs. eexists. split; [reflexivity|].
    intros Hi p. rewrite run_chain, (one_num la i Hi). reflexivity.
  - intros lx la i Hx r. rewrite step_unfold. cbv zeta. rewrite Hx. decs. eexists. split; [reflexivity|].
    intros Hi p. rewrite run_chain, (one_num la i Hi). reflexivity.
  - intros lx la i Hx r. rewrite step_unfold. cbv zeta. rewrite Hx. decs. eexists. split; [reflexivity|].
    intros Hi p. rewrite run_chain, (one_num la i Hi). reflexivity.
  - intros lx lq i s v lt ts le es th el Hx Hq Hv _ IHt _ IHe r. rewrite step_unfold. cbv zeta. rewrite Hx. decs.
    destruct (conditional_runs lq i s v Hq Hv) as (c & -> & Hc). cbn [rbind].
    destruct (IHt None) as (rt & -> & Ht). cbn [rbind]. destruct (IHe None) as (re & -> & He). cbn [rbind].
    eexists. split; [reflexivity|]. rewrite ints_if. intros (Hi & Hit & Hie) p. rewrite run_chain, means_if. unfold if_.
    rewrite (Hc Hi). destruct (child_is _ _ _); [by apply Ht|by apply He].
  - intros r. exists r. done.
  - intros t s ts ss _ IHs _ IHss r. cbn [eval_steps]. destruct (IHs r) as (r1 & -> & H1). cbn [rbind].
    destruct (IHss r1) as (r2 & -> & H2). exists r2. split; [done|]. rewrite Forall_cons. intros [Hi His] p.
    rewrite H2, H1 by done. reflexivity.
  - intros x cs ts ss Hx _ IH r. cbn [eval_steps]. rewrite step_unfold. cbv zeta. rewrite Hx. decs. cbn [rbind]. apply IH.
Qed.
Lemma steps_for_snoc D k ss k' : steps_for (D ++ [(k, ss)]) k' = if decide (k = k') then ss else steps_for D k'.
Proof.
  unfold steps_for. rewrite reverse_app. cbn [reverse rev_append app]. change (reverse [(k, ss)]) with [(k, ss)]. cbn [app list_find fst].
  destruct (decide (k = k')); [done|]. destruct (list_find _ (reverse D)) as [[i [k2 s2]]|]; done.
Qed.
Lemma rules_run T : forall D D0 r0, shows_rules T D -> reducer_means r0 D0 ->
  exists r, rfold rd_rule T r0 = Ok r /\ reducer_means r (D0 ++ D).
Proof.
  induction T as [|t T IH]; intros D D0 r0 H H0; inversion H as [|? [k ss] ? D' Ht HT]; subst.
  - exists r0. rewrite app_nil_r. done.
  - destruct Ht as (Hk & Hv & Hs). cbn [fst snd] in *. destruct (proj2 evaluated _ _ Hs None) as (v & Ev & Mv).
    cbn [rfold]. unfold rd_rule at 1. rewrite Hk. rewrite decide_True by reflexivity. unfold eval_reduction. rewrite Ev. cbn [rbind]. rewrite Hv.
    destruct (IH D' (D0 ++ [(k, ss)]) (<[k := v]> r0) HT) as (r & Er & Mr).
    + destruct H0 as [K0 M0]. split.
      * intros k'. rewrite map_app, elem_of_app. cbn [map fst]. rewrite elem_of_list_singleton, <- K0.
        destruct (decide (k = k')) as [->|Hne]; [rewrite lookup_insert; split; [by right|by eexists]|].
        rewrite lookup_insert_ne by done. split; [by left|]. intros [?|?]; [done|by subst].
      * intros k'. rewrite steps_for_snoc. unfold reduction_for. destruct (decide (k = k')) as [->|Hne].
        -- rewrite lookup_insert. intros Hi n. by apply Mv.
        -- rewrite lookup_insert_ne by done. apply M0.
    + exists r. split; [exact Er|]. by rewrite <- app_assoc in Mr.
Qed.
Lemma means_empty : reducer_means ∅ [].
Proof. split; [|done]. intros k. rewrite lookup_empty. split; [by intros []|by intros ?%elem_of_nil]. Qed.
Theorem rules_mean T D : shows_rules T D -> exists r, rfold rd_rule T ∅ = Ok r /\ reducer_means r D.
Proof. intros H. exact (rules_run T D [] ∅ H means_empty). Qed.
