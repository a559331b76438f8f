From Verif.spec Require Import AnalyzeSpec.
From Verif.proofs Require Import Fuel SetProofs.
From Coq Require Import Lia.
Local Open Scope nat_scope.
Local Open Scope list_scope.

(** ** Derivations *)
Section D.
  Variable g : grammar.

  Lemma leftmost_inv x t : leftmost g x t -> exists y, left_child g x y /\ (y = t \/ leftmost g y t).
  Proof. intros H. inversion H; subst; eauto. Qed.
  Lemma left_child_nt x y : left_child g x y -> is_Some (g_prods g x).
  Proof. intros (ps & a & b & H & _). eauto. Qed.
  Lemma leftmost_nt x t : leftmost g x t -> is_Some (g_prods g x).
  Proof. intros H. destruct (leftmost_inv _ _ H) as (y & H1 & _). by eapply left_child_nt. Qed.
  Lemma left_empty_nt x : left_empty g x -> is_Some (g_prods g x).
  Proof. intros [? ? ?|? ? ? ? ?]; eauto. Qed.

  Lemma cons_app_inv {A} (a : list A) y b u w : a ++ y :: b = u ++ w ->
    (exists k, u = a ++ y :: k /\ b = k ++ w) \/ (exists k, a = u ++ k /\ w = k ++ y :: b).
  Proof.
    revert u. induction a as [|z a IH]; intros [|z' u]; cbn [app]; intros E.
    - right. exists []. done.
    - injection E as -> ->. left. by exists u.
    - right. exists (z :: a). done.
    - injection E as -> E. destruct (IH _ E) as [(k & -> & ->)|(k & -> & ->)]; [left|right]; eauto.
  Qed.

  Lemma all_left_empty_head x ps p : g_prods g x = Some ps -> p ∈ ps -> Forall (left_empty g) p -> left_empty g x.
  Proof.
    intros H Hp Hall. destruct p as [|y r]; [by eapply le_here|].
    apply Forall_cons in Hall as [Hy _]. by eapply le_left.
  Qed.

  Lemma rewrites_first t alpha r : rtc (rewrites g) alpha (t :: r) ->
    exists a y b, alpha = a ++ y :: b /\ Forall (left_empty g) a /\ (y = t \/ leftmost g y t).
  Proof.
    intros H. remember (t :: r) as w eqn:E. revert E.
    induction H as [w|alpha beta w Hs _ IH]; intros E.
    - subst w. exists [], t, r. split; [done|]. split; [constructor|]. by left.
    - destruct (IH E) as (a & y & b & Hab & Ha & Hy). clear IH E. destruct Hs as [u x v ps p Hx Hp].
      symmetry in Hab. destruct (cons_app_inv _ _ _ _ _ Hab) as [(k & -> & _)|(k & -> & Hk)].
      { exists a, y, (k ++ x :: v). split; [by rewrite <- app_assoc|]. done. }
      symmetry in Hk. destruct (cons_app_inv _ _ _ _ _ Hk) as [(k1 & -> & ->)|(k1 & -> & ->)].
      + apply Forall_app in Ha as [Hu Hk1]. exists u, x, v. split; [done|]. split; [done|]. right.
        assert (left_child g x y) as Hc by (exists ps, k, k1; done).
        destruct Hy as [<-|Hy]; [by apply tc_once|]. by eapply tc_l.
      + rewrite !Forall_app in Ha. destruct Ha as (Hu & Hpp & Hk1).
        exists (u ++ x :: k1), y, b. split; [by rewrite <- app_assoc|]. split; [|done].
        apply Forall_app. split; [done|]. constructor; [|done]. by eapply all_left_empty_head.
  Qed.
  Lemma first_leftmost x t : terminal g t -> is_Some (g_prods g x) -> first_of g x t -> leftmost g x t.
  Proof.
    intros Ht Hx [r Hr]. destruct (rewrites_first _ _ _ Hr) as (a & y & b & E & Ha & Hy).
    destruct a as [|z a]; [|destruct a; done]. injection E as <- <-.
    destruct Hy as [->|Hy]; [|done]. exfalso. unfold terminal in Ht. rewrite Ht in Hx. by destruct Hx.
  Qed.

  Lemma rewrites_ctx a b u v : rewrites g u v -> rewrites g (a ++ u ++ b) (a ++ v ++ b).
  Proof.
    intros [a' x b' ps p Hx Hp]. rewrite <- !app_assoc. cbn [app].
    rewrite !(app_assoc a a'). by econstructor.
  Qed.
  Lemma rtc_ctx a b u v : rtc (rewrites g) u v -> rtc (rewrites g) (a ++ u ++ b) (a ++ v ++ b).
  Proof. induction 1 as [|u v w H _ IH]; [done|]. eapply rtc_l; [|exact IH]. by apply rewrites_ctx. Qed.
  Lemma derives_rewrites :
    (forall x w, derives g x w -> rtc (rewrites g) [x] w) /\ (forall p w, derives_seq g p w -> rtc (rewrites g) p w).
  Proof.
    enough (H : forall x w, derives g x w -> rtc (rewrites g) [x] w).
    { split; [done|]. induction 1 as [|x r u v H1 _ IH]; [done|].
      etransitivity; [apply (rtc_ctx [] r [x] u), H, H1|]. cbn [app].
      pose proof (rtc_ctx u [] _ _ IH) as E. by rewrite !app_nil_r in E. }
    apply (derives_mut g (fun x w _ => rtc (rewrites g) [x] w) (fun p w _ => rtc (rewrites g) p w)).
    - done.
    - intros x ps p w Hx Hp _ IH. eapply rtc_l; [|exact IH].
      pose proof (rw_step g [] x [] ps p Hx Hp) as E. cbn [app] in E. by rewrite app_nil_r in E.
    - done.
    - intros x r u v _ IH1 _ IH2. etransitivity; [apply (rtc_ctx [] r [x] u), IH1|]. cbn [app].
      pose proof (rtc_ctx u [] _ _ IH2) as E. by rewrite !app_nil_r in E.
  Qed.
  Lemma leftmost_first x t : skips_empty g -> leftmost g x t -> first_of g x t.
  Proof.
    intros Hn.
    assert (Hc : forall x y, left_child g x y -> exists r, rtc (rewrites g) [x] (y :: r)).
    { clear x. intros x y (ps & a & b & Hx & Hp & Ha). exists b. eapply rtc_l.
      - pose proof (rw_step g [] x [] _ _ Hx Hp) as E. cbn [app] in E. rewrite app_nil_r in E. exact E.
      - assert (Ha' : Forall (fun z => derives g z []) a).
        { apply Forall_forall. intros z Hz. rewrite Forall_forall in Ha. eapply Hn; eauto. }
        clear Hp Ha. induction Ha' as [|z a Hz Ha IH]; [done|]. cbn [app].
        etransitivity; [|exact IH].
        apply (rtc_ctx [] (a ++ y :: b) [z] []). by apply (proj1 derives_rewrites). }
    induction 1 as [x y H|x y z H _ [r IH]]; [by apply Hc|].
    destruct (Hc _ _ H) as [r' Hr']. exists (r ++ r'). etransitivity; [exact Hr'|].
    apply (rtc_ctx [] r' [y] _ IH).
  Qed.
  Lemma first_occurs x t : leftmost g x t -> occurs g t.
  Proof.
    induction 1 as [x y (ps & a & b & Hx & Hp & _)|]; [|done]. right. exists x, ps, (a ++ y :: b).
    split; [done|]. split; [done|]. set_solver.
  Qed.
End D.

(** ** More fuel *)
Lemma an_symbols_mono rec rec' g : (forall i st, rle (rec i st) (rec' i st)) ->
  forall p fs nf st, rle (an_symbols rec g p fs nf st) (an_symbols rec' g p fs nf st).
Proof.
  intros H. induction p as [|x p IH]; intros fs nf st; cbn [an_symbols]; [apply rle_refl|].
  destruct (set_str (as_set st) x) as [i s']. destruct (g_prods g x); [|apply rle_refl].
  apply rle_bind; [apply H|]. intros [[fs1 dn] st1]. destruct dn; [apply IH|apply rle_refl].
Qed.
Lemma an_prods_mono rec rec' g : (forall i st, rle (rec i st) (rec' i st)) ->
  forall ps fs nf st, rle (an_prods rec g ps fs nf st) (an_prods rec' g ps fs nf st).
Proof.
  intros H. induction ps as [|[|x p] ps IH]; intros fs nf st; [apply rle_refl|apply IH|].
  cbn [an_prods]. apply rle_bind; [by apply an_symbols_mono|]. intros [[fs1 nf1] st1]. apply IH.
Qed.
Lemma an_firsts_mono g : forall n m, n <= m -> forall i st, rle (an_firsts n g i st) (an_firsts m g i st).
Proof.
  induction n as [|n IH]; intros m Hm i st; [apply rle_oof|]. destruct m as [|m]; [lia|].
  cbn [an_firsts]. apply rle_bind; [apply rle_refl|]. intros [|]; [apply rle_refl|].
  apply rle_bind; [apply rle_refl|]. intros d. apply rle_bind; [apply rle_refl|]. intros name.
  destruct (g_prods g name); [|apply rle_refl]. apply rle_bind.
  - apply an_prods_mono. intros. apply IH. lia.
  - intros [[fs nf] st1]. apply rle_refl.
Qed.
Lemma analyze_mono g : fuel_mono (fun n => analyze n g).
Proof.
  intros n m Hm. unfold analyze. apply rle_bind; [apply rle_refl|]. intros s. apply rle_bind.
  - apply rle_rfold. intros st nt. unfold an_nonterm. destruct (set_str (as_set st) nt) as [i s'].
    apply rle_bind; [by apply an_firsts_mono|]. intros [[fs nf] st1]. apply rle_refl.
  - intros st. apply rle_refl.
Qed.
