(** Casting productions; productions in memory. *)
From Verif.spec Require Import SymProdSpec.
From Coq Require Import Lia.
From Verif.proofs Require Import SetProofs.
Local Open Scope nat_scope.
Local Open Scope list_scope.

(** * Casting *)
Definition sets_wf (W : nat -> set) : Prop := forall k, set_wf (W k).
Definition sets_le (W W' : nat -> set) : Prop := forall k, set_le (W k) (W' k).

Lemma reached_wf W : reached W -> sets_wf W.
Proof. intros H k. destruct (H k) as [ops Ho]. exact (proj1 (set_after_le _ _ _ set_new_wf Ho)). Qed.
Lemma sets_le_refl W : sets_le W W.
Proof. intros k. apply set_le_refl. Qed.
Lemma sets_le_trans a b c : sets_le a b -> sets_le b c -> sets_le a c.
Proof. intros H H' k. eapply set_le_trans; [apply H|apply H']. Qed.

Lemma names_spec s vs : forall xs, names s vs = Ok xs <-> Forall2 (fun x v => symb2str s !! v = Some x) xs vs.
Proof.
  unfold names. induction vs as [|v vs IH]; intros xs; cbn [rmap rbind].
  - split; [intros [= <-]; constructor|intros H; inversion H; done].
  - split.
    + destruct (sym_string s (Z.of_nat v)) as [x| |] eqn:E; cbn [rbind]; [|done|done].
      destruct (rmap _ vs) as [r| |] eqn:Er; cbn [rbind]; [|done|done]. intros [= <-].
      constructor; [by apply sym_string_nat|by apply IH].
    + intros H. inversion H as [|x v' xs' vs' Hx Hr]; subst.
      apply sym_string_nat in Hx. rewrite Hx. cbn [rbind]. apply IH in Hr. rewrite Hr. done.
Qed.

Lemma names_le s s' vs xs : set_le s s' -> names s vs = Ok xs -> names s' vs = Ok xs.
Proof.
  intros [l Hl] H. apply names_spec in H. apply names_spec. eapply Forall2_impl; [exact H|].
  intros x v Hv. rewrite Hl. by apply lookup_app_l_Some.
Qed.

Lemma symbols_le W W' p xs : sets_le W W' -> symbols W p = Ok xs -> symbols W' p = Ok xs.
Proof.
  intros Hl. destruct p as [|ys|k [vs|]|ys]; try done. cbn [symbols]. apply names_le, Hl.
Qed.

Lemma upd_same W k s : upd W k s k = s.
Proof. unfold upd. by rewrite Nat.eqb_refl. Qed.
Lemma upd_step W k xs is s' : sets_wf W -> set_syms (W k) (map Foreign xs) = (is, s') ->
  sets_wf (upd W k s') /\ sets_le W (upd W k s') /\ names s' is = Ok xs.
Proof.
  intros Hw E. destruct (set_syms_spec _ _ _ _ (Hw k) E) as (Hw' & Hl & HF & _).
  split_and!.
  - intros j. unfold upd. destruct (Nat.eqb_spec j k); [done|apply Hw].
  - intros j. unfold upd. destruct (Nat.eqb_spec j k) as [->|]; [done|apply set_le_refl].
  - by apply names_spec.
Qed.

(** What a cast to the set [k] gives. *)
Definition cast_to (W : nat -> set) (k : nat) (xs : list gostring) (vs : list nat) (W' : nat -> set) : Prop :=
  sets_wf W' /\ sets_le W W' /\ symbols W' (PrSet k (Some vs)) = Ok xs.

Lemma cast_prod_ok W k p xs : sets_wf W -> (forall j, p <> PrSet j None) -> symbols W p = Ok xs ->
  exists vs W', cast_prod W k p = Ok (Some vs, W') /\ cast_to W k xs vs W'.
Proof.
  intros Hw Hn Hs.
  destruct p as [|ys|j [vs|]|ys].
  - done.
  - cbn [symbols] in Hs. injection Hs as ->.
    cbn [cast_prod symbols rbind]. destruct (set_syms (W k) (map Foreign xs)) as [is s'] eqn:E.
    destruct (upd_step _ _ _ _ _ Hw E) as (A & B & C).
    exists is, (upd W k s'). split; [done|]. split_and!; [done|done|].
    cbn [symbols]. by rewrite upd_same.
  - cbn [cast_prod]. destruct (Nat.eqb_spec j k) as [->|Hne].
    + exists vs, W. split; [done|]. split_and!; [done|apply sets_le_refl|done].
    + cbn [symbols] in Hs. rewrite Hs. cbn [rbind].
      destruct (set_syms (W k) (map Foreign xs)) as [is s'] eqn:E.
      destruct (upd_step _ _ _ _ _ Hw E) as (A & B & C).
      exists is, (upd W k s'). split; [done|]. split_and!; [done|done|].
      cbn [symbols]. by rewrite upd_same.
  - by destruct (Hn j).
  - change (cast_prod W k (PrOther ys)) with
      (xs <-! symbols W (PrOther ys); let '(is, s') := set_syms (W k) (map Foreign xs) in Ok (Some is, upd W k s')).
    rewrite Hs. cbn [rbind].
    destruct (set_syms (W k) (map Foreign xs)) as [is s'] eqn:E.
    destruct (upd_step _ _ _ _ _ Hw E) as (A & B & C).
    exists is, (upd W k s'). split; [done|]. split_and!; [done|done|].
    cbn [symbols]. by rewrite upd_same.
Qed.

Lemma cast_members_ok k ps : forall W xss, sets_wf W ->
  Forall2 (fun p xs => (forall j, p <> PrSet j None) /\ symbols W p = Ok xs) ps xss ->
  exists vss W', cast_members W k ps = Ok (vss, W') /\ sets_wf W' /\ sets_le W W'
    /\ Forall2 (fun vs xs => symbols W' (PrSet k (Some vs)) = Ok xs) vss xss.
Proof.
  induction ps as [|p ps IH]; intros W xss Hw HF; inversion HF as [|? xs ? xss' [Hn Hs] Hr]; subst; cbn [cast_members].
  - exists [], W. split_and!; [done|done|apply sets_le_refl|constructor].
  - destruct (cast_prod_ok W k p xs Hw Hn Hs) as (vs & W1 & -> & Hw1 & Hl1 & Hs1). cbn [rbind].
    destruct (IH W1 xss' Hw1) as (vss & W2 & -> & Hw2 & Hl2 & HF2).
    { eapply Forall2_impl; [exact Hr|]. intros q ys [A B]. split; [done|]. by eapply symbols_le. }
    cbn [rbind]. exists (vs :: vss), W2. split_and!; [done|done|by eapply sets_le_trans|].
    constructor; [|done]. by eapply symbols_le.
Qed.

Lemma cast_prod_full W k p xs : reached W -> (forall j, p <> PrSet j None) -> symbols W p = Ok xs ->
  exists vs W', cast_prod W k p = Ok (Some vs, W')
    /\ symbols W' (PrSet k (Some vs)) = Ok xs
    /\ cast_prod W' k (PrSet k (Some vs)) = Ok (Some vs, W')
    /\ (forall q ys, symbols W q = Ok ys -> symbols W' q = Ok ys)
    /\ str_cast W p = Ok xs.
Proof.
  intros Hr Hn Hs. destruct (cast_prod_ok W k p xs (reached_wf _ Hr) Hn Hs) as (vs & W' & E & Hw & Hl & Hs').
  exists vs, W'. split_and!; [done|done| | |].
  - cbn [cast_prod]. by rewrite Nat.eqb_refl.
  - intros q ys. by apply symbols_le.
  - destruct p as [|ys|j [us|]|ys]; done.
Qed.

Lemma cast_prods_full W k q xss : reached W -> q <> PsNil -> (forall j, q <> PsSet j None) ->
  Forall2 (fun p xs => (forall j, p <> PrSet j None) /\ symbols W p = Ok xs) (members q) xss ->
  exists vss W', cast_prods W k q = Ok (Some vss, W')
    /\ Forall2 (fun vs xs => symbols W' (PrSet k (Some vs)) = Ok xs) vss xss
    /\ cast_prods W' k (PsSet k (Some vss)) = Ok (Some vss, W')
    /\ (forall p ys, symbols W p = Ok ys -> symbols W' p = Ok ys)
    /\ str_casts W q = Ok xss.
Proof.
  intros Hr H0 Hn HF. pose proof (reached_wf _ Hr) as Hw.
  assert (Hstr : str_casts W q = Ok xss).
  { assert (Hm : rmap (str_cast W) (members q) = Ok xss).
    { clear H0 Hn. revert HF. generalize (members q). intros ps HF.
      induction HF as [|p xs ps xss [A B] _ IH]; [done|]. cbn [rmap].
      assert (E : str_cast W p = Ok xs) by (destruct p as [|ys|j [us|]|ys]; done).
      rewrite E. cbn [rbind]. rewrite IH. done. }
    destruct q as [|ps|j o|ps]; try done.
    cbn [members] in Hm. cbn [str_casts].
    rewrite <- Hm. symmetry. clear. induction ps as [|p ps IH]; [done|]. cbn [map rmap str_cast rbind].
    rewrite IH. done. }
  destruct (cast_members_ok k _ W xss Hw HF) as (vss & W' & E & Hw' & Hl' & HF').
  assert (Hre : forall vs W, cast_prods W k (PsSet k (Some vs)) = Ok (Some vs, W)).
  { intros vs V. cbn [cast_prods]. by rewrite Nat.eqb_refl. }
  destruct q as [|ps|j [ps|]|ps].
  - done.
  - exists vss, W'. split_and!; [|done|done| |done].
    + unfold cast_prods. rewrite E. done.
    + intros p ys. by apply symbols_le.
  - cbn [cast_prods]. destruct (Nat.eqb_spec j k) as [->|Hne].
    + exists ps, W. split_and!; [done| |apply Hre|done|done].
      cbn [members] in HF. clear -HF. remember (map _ ps) as l eqn:El. revert ps El.
      induction HF as [|p xs l xss [A B] _ IH]; intros [|v ps]; try done; cbn [map].
      intros [= -> ->]. constructor; [done|by apply IH].
    + exists vss, W'. rewrite E. split_and!; [done|done|apply Hre| |done].
      intros p ys. by apply symbols_le.
  - by destruct (Hn j).
  - exists vss, W'. split_and!; [|done|done| |done].
    + unfold cast_prods. rewrite E. done.
    + intros p ys. by apply symbols_le.
Qed.

(** * Lookups by index *)
Lemma at_index_exact {A} (l : list A) i :
  ((i < 0)%Z -> at_index l i = Panic)
  /\ ((0 <= i)%Z -> at_index l i = Ok (l !! Z.to_nat i)).
Proof.
  unfold at_index. split; intros Hi.
  - destruct (Z.ltb_spec i (Z.of_nat (length l))); [|lia].
    destruct (Z.ltb_spec i 0); [done|lia].
  - destruct (Z.ltb_spec i (Z.of_nat (length l))).
    + destruct (Z.ltb_spec i 0); [lia|done].
    + symmetry. f_equal. apply lookup_ge_None. lia.
Qed.

(** * Memory *)
Lemma Forall2_impl_in {A B} (P Q : A -> B -> Prop) l k :
  Forall2 P l k -> (forall x y, x ∈ l -> P x y -> Q x y) -> Forall2 Q l k.
Proof.
  induction 1 as [|x y l k H HF IH]; intros HQ; constructor.
  - apply HQ; [left|done].
  - apply IH. intros a b Ha. apply HQ. by right.
Qed.

Section Run.
  Variable grow : nat -> nat.
  (** Which production, first made as which, is extended in the whole run. *)
  Variable W : list (nat * nat).
  Hypothesis Hone : one_writer W.

  Definition arr_of (arrs : list (list nat)) (a : nat) : list nat := default [] (arrs !! a).
  (** The slice [x] reads as [y] says; [fam] has the production each array was first made for. *)
  Definition R (fam : list nat) (arrs : list (list nat)) (x : islice) (y : nat * list nat) : Prop :=
    fam !! fst x = Some (fst y) /\ snd x <= length (arr_of arrs (fst x)) /\ take (snd x) (arr_of arrs (fst x)) = snd y.

  Definition live (ps : list islice) (ls : list (list islice)) (x : islice) : Prop :=
    x ∈ ps \/ exists l, l ∈ ls /\ x ∈ l.

  Record Inv (fam : list nat) (m : pmem) (r : rmem) : Prop := {
    i_set : pm_set m = r_set r;
    i_fam : length fam = length (pm_arrs m);
    i_new : forall f, f ∈ fam -> f < length (pm_prods m);
    i_prods : Forall2 (R fam (pm_arrs m)) (pm_prods m) (r_prods r);
    i_lists : Forall2 (Forall2 (R fam (pm_arrs m))) (pm_lists m) (r_lists r);
    (** a writer's slice is the longest of its array *)
    i_old : forall f p x v, (f, p) ∈ W -> pm_prods m !! p = Some x -> r_prods r !! p = Some (f, v) ->
      forall y, live (pm_prods m) (pm_lists m) y -> fst y = fst x -> snd y <= snd x;
    (** before a writer is made all slices of its family are the same *)
    i_yet : forall f p, (f, p) ∈ W -> length (pm_prods m) <= p ->
      forall y z, live (pm_prods m) (pm_lists m) y -> live (pm_prods m) (pm_lists m) z ->
        fam !! fst y = Some f -> fam !! fst z = Some f -> y = z
  }.

  Lemma inv_empty : Inv [] pmem_empty rmem_empty.
  Proof.
    split.
    - done.
    - done.
    - intros f Hf. inversion Hf.
    - constructor.
    - constructor.
    - intros f p x v _ Hx. done.
    - intros f p _ _ y z [Hy|(l & Hl & _)]; [inversion Hy|inversion Hl].
  Qed.

  Lemma live_R fam m r y : Inv fam m r -> live (pm_prods m) (pm_lists m) y -> exists z, R fam (pm_arrs m) y z.
  Proof.
    intros I [Hy|(l & Hl & Hy)].
    - apply elem_of_list_lookup in Hy as [i Hi].
      destruct (Forall2_lookup_l _ _ _ _ _ (i_prods _ _ _ I) Hi) as (z & _ & Hz). by exists z.
    - apply elem_of_list_lookup in Hl as [i Hi].
      destruct (Forall2_lookup_l _ _ _ _ _ (i_lists _ _ _ I) Hi) as (zs & _ & Hz).
      apply elem_of_list_lookup in Hy as [j Hj].
      destruct (Forall2_lookup_l _ _ _ _ _ Hz Hj) as (z & _ & Hz'). by exists z.
  Qed.

  (** Appending one value to the production [p]. *)
  Lemma append_inv fam m r p x f v w arrs' x' : Inv fam m r -> (f, p) ∈ W ->
    pm_prods m !! p = Some x -> r_prods r !! p = Some (f, v) ->
    append_one grow (pm_arrs m) x w = (arrs', x') ->
    exists fam', forall s ws, Inv fam' (PMem s arrs' (<[p := x']> (pm_prods m)) (pm_lists m))
      (RMem s (<[p := (f, v ++ [w])]> (r_prods r)) (r_lists r) ws).
  Proof.
    intros I HW Hx Hr E.
    assert (Hlen : p < length (pm_prods m)) by (by apply lookup_lt_Some in Hx).
    assert (HRx : R fam (pm_arrs m) x (f, v)).
    { destruct (Forall2_lookup_l _ _ _ _ _ (i_prods _ _ _ I) Hx) as (z & Hz & HR). congruence. }
    destruct HRx as (Hfx & Hlx & Htx). cbn [fst snd] in Hfx, Htx.
    assert (Hax : fst x < length (pm_arrs m)).
    { rewrite <- (i_fam _ _ _ I). by apply lookup_lt_Some in Hfx. }
    assert (Hbig := i_old _ _ _ I f p x v HW Hx Hr).
    (* what the step keeps *)
    assert (K : exists fam', length fam' = length arrs'
      /\ (forall g, g ∈ fam' -> g ∈ fam)
      /\ (forall a g, fam !! a = Some g -> fam' !! a = Some g)
      /\ (forall y z, (fst y = fst x -> snd y <= snd x) -> R fam (pm_arrs m) y z -> R fam' arrs' y z)
      /\ R fam' arrs' x' (f, v ++ [w])
      /\ (forall y z, R fam (pm_arrs m) y z -> fst y = fst x' -> fst y = fst x)
      /\ (fst x' = fst x -> snd x < snd x')).
    { unfold append_one in E. fold (arr_of (pm_arrs m) (fst x)) in E.
      destruct (Nat.ltb_spec (snd x) (length (arr_of (pm_arrs m) (fst x)))) as [Hlt|Hge]; injection E as <- <-.
      - assert (Ea : arr_of (<[fst x:=<[snd x:=w]> (arr_of (pm_arrs m) (fst x))]> (pm_arrs m)) (fst x)
            = <[snd x:=w]> (arr_of (pm_arrs m) (fst x))).
        { unfold arr_of at 1. rewrite list_lookup_insert by done. done. }
        exists fam. split_and!.
        + by rewrite insert_length, (i_fam _ _ _ I).
        + done.
        + done.
        + intros y z Hy (A & B & C). destruct (decide (fst y = fst x)) as [e|ne].
          * split; [done|]. rewrite e in *. rewrite Ea.
            rewrite insert_length. split; [done|]. rewrite take_insert by (by apply Hy). done.
          * split; [done|]. unfold arr_of. rewrite list_lookup_insert_ne by done. done.
        + unfold R. cbn [fst snd]. split; [done|].
          rewrite Ea, insert_length. split; [lia|].
          erewrite take_S_r by (by apply list_lookup_insert).
          rewrite take_insert by lia. by rewrite Htx.
        + done.
        + cbn [fst snd]. lia.
      - exists (fam ++ [f]). split_and!.
        + rewrite !app_length, (i_fam _ _ _ I). done.
        + intros g Hg. apply elem_of_app in Hg as [Hg|Hg]; [done|]. apply elem_of_list_singleton in Hg as ->.
          by apply elem_of_list_lookup_2 in Hfx.
        + intros a g Ha. by apply lookup_app_l_Some.
        + intros y z Hy (A & B & C).
          assert (fst y < length (pm_arrs m)) by (rewrite <- (i_fam _ _ _ I); by apply lookup_lt_Some in A).
          split; [by apply lookup_app_l_Some|]. unfold arr_of in *. by rewrite lookup_app_l by done.
        + unfold R. cbn [fst snd]. split.
          { rewrite <- (i_fam _ _ _ I). rewrite lookup_app_r by lia. by rewrite Nat.sub_diag. }
          assert (Ht : length (take (snd x) (arr_of (pm_arrs m) (fst x))) = snd x) by (rewrite take_length; lia).
          assert (Eb : forall l, arr_of (pm_arrs m ++ [l]) (length (pm_arrs m)) = l).
          { intros l. unfold arr_of. rewrite lookup_app_r by lia. by rewrite Nat.sub_diag. }
          rewrite Eb.
          rewrite !app_length, Ht. cbn [length]. split; [lia|].
          rewrite cons_middle, app_assoc. rewrite take_app_alt by (rewrite app_length, Ht; cbn [length]; lia).
          by rewrite Htx.
        + intros y z (A & _ & _) e. cbn [fst] in e. apply lookup_lt_Some in A. rewrite (i_fam _ _ _ I) in A. lia.
        + cbn [fst snd]. lia. }
    destruct K as (fam' & K1 & K2 & K3 & K4 & K5 & K6 & K7).
    exists fam'. intros s ws.
    assert (Hfam : forall y, live (pm_prods m) (pm_lists m) y -> fam' !! fst y = fam !! fst y).
    { intros y Hy. destruct (live_R _ _ _ _ I Hy) as (z & A & _ & _). rewrite A. by apply K3. }
    (* slices afterwards: the old ones but perhaps the extended one, and the extended one *)
    assert (Hlive : forall y, live (<[p := x']> (pm_prods m)) (pm_lists m) y -> y = x' \/ live (pm_prods m) (pm_lists m) y).
    { intros y [Hy|Hy]; [|right; by right].
      apply elem_of_list_lookup in Hy as [i Hi]. apply list_lookup_insert_Some in Hi as [(_ & -> & _)|(_ & Hi)]; [by left|].
      right. left. by apply elem_of_list_lookup_2 in Hi. }
    split; cbn [pm_set pm_arrs pm_prods pm_lists r_set r_prods r_lists].
    - done.
    - done.
    - intros g Hg. rewrite insert_length. apply (i_new _ _ _ I). by apply K2.
    - apply Forall2_insert; [|done].
      eapply Forall2_impl_in; [apply (i_prods _ _ _ I)|]. intros y z Hy. apply K4. apply Hbig. by left.
    - eapply Forall2_impl_in; [apply (i_lists _ _ _ I)|]. intros l k Hl Hlk.
      eapply Forall2_impl_in; [exact Hlk|]. intros y z Hy. apply K4. apply Hbig. right. by exists l.
    - intros g q y u Hgq Hy Hu z Hz Hzy.
      destruct (decide (q = p)) as [->|Hne].
      + rewrite list_lookup_insert in Hy by done. injection Hy as <-.
        apply Hlive in Hz as [->|Hz]; [done|].
        destruct (live_R _ _ _ _ I Hz) as (zz & HR).
        pose proof (K6 _ _ HR Hzy) as e. pose proof (Hbig z Hz e). assert (snd x < snd x') by (apply K7; congruence). lia.
      + rewrite list_lookup_insert_ne in Hy by done. rewrite list_lookup_insert_ne in Hu by done.
        assert (Hgf : g <> f) by (intros ->; apply Hne; eapply Hone; eauto).
        assert (Ly : live (pm_prods m) (pm_lists m) y) by (left; by apply elem_of_list_lookup_2 in Hy).
        apply Hlive in Hz as [->|Hz]; [|by eapply (i_old _ _ _ I)].
        exfalso. destruct K5 as (A & _ & _). cbn [fst] in A.
        destruct (Forall2_lookup_l _ _ _ _ _ (i_prods _ _ _ I) Hy) as (zz & Hzz & HR).
        assert (zz = (g, u)) as -> by congruence. destruct HR as (B & _ & _). cbn [fst] in B.
        rewrite Hzy in A. rewrite (Hfam _ Ly) in A. congruence.
    - rewrite insert_length. intros g q Hgq Hq.
      assert (Hgf : g <> f).
      { intros ->. assert (q = p) by (eapply Hone; eauto). lia. }
      assert (HA : fam' !! fst x' = Some f) by (by destruct K5).
      intros y z Hy Hz Ey Ez.
      apply Hlive in Hy as [->|Hy]; [congruence|]. apply Hlive in Hz as [->|Hz]; [congruence|].
      rewrite (Hfam _ Hy) in Ey. rewrite (Hfam _ Hz) in Ez.
      by eapply (i_yet _ _ _ I g q).
  Qed.

  Lemma appends_inv xs : forall fam s arrs ps ls rps rls ws p x f v s' arrs' x',
    Inv fam (PMem s arrs ps ls) (RMem s rps rls ws) -> (f, p) ∈ W ->
    ps !! p = Some x -> rps !! p = Some (f, v) ->
    append_syms grow s arrs x xs = (s', arrs', x') ->
    exists fam' vs, set_syms s xs = (vs, s')
      /\ forall ws', Inv fam' (PMem s' arrs' (<[p := x']> ps) ls) (RMem s' (<[p := (f, v ++ vs)]> rps) rls ws').
  Proof.
    induction xs as [|y xs IH]; intros fam s arrs ps ls rps rls ws p x f v s' arrs' x' I HW Hx Hr; cbn [append_syms set_syms].
    - intros [= <- <- <-]. exists fam, []. split; [done|]. intros ws'.
      rewrite app_nil_r. rewrite !list_insert_id by done. destruct I. split; done.
    - destruct (set_symbol s y) as [w s1] eqn:Ey.
      destruct (append_one grow arrs x w) as [arrs1 x1] eqn:Ea. intros E.
      destruct (append_inv _ _ _ _ _ _ _ _ _ _ I HW Hx Hr Ea) as (fam1 & I1). cbn [pm_prods pm_lists r_prods r_lists] in I1.
      edestruct (IH fam1 s1 arrs1 (<[p:=x1]> ps) ls (<[p:=(f, v ++ [w])]> rps) rls [] p x1 f (v ++ [w])) as (fam' & vs & Ev & I').
      + apply I1.
      + done.
      + apply list_lookup_insert. by apply lookup_lt_Some in Hx.
      + apply list_lookup_insert. by apply lookup_lt_Some in Hr.
      + exact E.
      + exists fam', (w :: vs). rewrite Ev. split; [done|]. intros ws'.
        specialize (I' ws'). rewrite !list_insert_insert in I'. rewrite <- app_assoc in I'. exact I'.
  Qed.

  Lemma pick_R fam m r ps xs : Inv fam m r -> r_pick r ps = Ok xs ->
    exists ys, rmap (fun p => match pm_prods m !! p with Some x => Ok x | None => Panic end) ps = Ok ys
      /\ Forall2 (R fam (pm_arrs m)) ys xs /\ (forall y, y ∈ ys -> y ∈ pm_prods m).
  Proof.
    intros I. unfold r_pick. revert xs. induction ps as [|p ps IH]; intros xs; cbn [rmap].
    - intros [= <-]. exists []. split_and!; [done|constructor|]. intros y Hy. inversion Hy.
    - destruct (r_prods r !! p) as [z|] eqn:E; [|done]. cbn [rbind].
      destruct (rmap _ ps) as [zs| |] eqn:Ez; [|done|done]. intros [= <-].
      destruct (IH _ eq_refl) as (ys & Ey & HF & Hin).
      destruct (Forall2_lookup_r _ _ _ _ _ (i_prods _ _ _ I) E) as (y & Hy & HR).
      exists (y :: ys). rewrite Hy. cbn [rbind]. rewrite Ey. split_and!; [done|by constructor|].
      intros u Hu. apply elem_of_cons in Hu as [->|Hu]; [by apply elem_of_list_lookup_2 in Hy|auto].
  Qed.

  Lemma step_inv fam m r c r' : Inv fam m r -> ref_step r c = Ok r' -> (forall f p, (f, p) ∈ r_writes r' -> (f, p) ∈ W) ->
    exists fam' m', pcall_step grow m c = Ok m' /\ Inv fam' m' r'.
  Proof.
    intros I E HW. destruct c as [xs|p xs|ps|l ps|l i]; cbn [ref_step pcall_step] in *.
    - (* CNew *)
      rewrite (i_set _ _ _ I). destruct (set_syms (r_set r) xs) as [vs s'] eqn:Es. injection E as <-.
      pose proof (Forall2_length _ _ _ (i_prods _ _ _ I)) as Hlen.
      exists (fam ++ [length (pm_prods m)]). eexists. split; [reflexivity|].
      assert (Hold : forall y, live (pm_prods m) (pm_lists m) y -> fst y < length (pm_arrs m)).
      { intros y Hy. destruct (live_R _ _ _ _ I Hy) as (z & A & _ & _). apply lookup_lt_Some in A.
        by rewrite (i_fam _ _ _ I) in A. }
      assert (HR : forall y z, R fam (pm_arrs m) y z -> R (fam ++ [length (pm_prods m)]) (pm_arrs m ++ [vs]) y z).
      { intros y z (A & B & C).
        assert (fst y < length (pm_arrs m)) by (rewrite <- (i_fam _ _ _ I); by apply lookup_lt_Some in A).
        split; [by apply lookup_app_l_Some|]. unfold arr_of in *. by rewrite lookup_app_l. }
      assert (Hlive : forall y, live (pm_prods m ++ [(length (pm_arrs m), length vs)]) (pm_lists m) y ->
        y = (length (pm_arrs m), length vs) \/ live (pm_prods m) (pm_lists m) y).
      { intros y [Hy|Hy]; [|right; by right]. apply elem_of_app in Hy as [Hy|Hy]; [right; by left|].
        left. by apply elem_of_list_singleton in Hy. }
      assert (Hfam : forall y, live (pm_prods m) (pm_lists m) y -> (fam ++ [length (pm_prods m)]) !! fst y = fam !! fst y).
      { intros y Hy. apply lookup_app_l. rewrite (i_fam _ _ _ I). by apply Hold. }
      split; cbn [pm_set pm_arrs pm_prods pm_lists r_set r_prods r_lists].
      + done.
      + rewrite !app_length, (i_fam _ _ _ I). done.
      + intros f Hf. rewrite app_length. cbn [length]. apply elem_of_app in Hf as [Hf|Hf].
        * apply (i_new _ _ _ I) in Hf. lia.
        * apply elem_of_list_singleton in Hf as ->. lia.
      + apply Forall2_app; [eapply Forall2_impl; [apply (i_prods _ _ _ I)|exact HR]|].
        constructor; [|constructor]. unfold R. cbn [fst snd]. rewrite <- Hlen. split_and!.
        * rewrite <- (i_fam _ _ _ I). rewrite lookup_app_r by lia. by rewrite Nat.sub_diag.
        * unfold arr_of. rewrite lookup_app_r by lia. rewrite Nat.sub_diag. done.
        * unfold arr_of. rewrite lookup_app_r by lia. rewrite Nat.sub_diag. cbn. by rewrite firstn_all.
      + eapply Forall2_impl; [apply (i_lists _ _ _ I)|]. intros a b Hab. eapply Forall2_impl; [exact Hab|exact HR].
      + intros f p x v Hfp Hx Hr y Hy Hyx.
        apply lookup_app_Some in Hx as [Hx|[Hp Hx]].
        * rewrite lookup_app_l in Hr by (rewrite <- Hlen; by apply lookup_lt_Some in Hx).
          apply Hlive in Hy as [->|Hy]; [|by eapply (i_old _ _ _ I)].
          exfalso. assert (fst x < length (pm_arrs m)) by (apply Hold; left; by apply elem_of_list_lookup_2 in Hx).
          cbn [fst] in Hyx. lia.
        * apply list_lookup_singleton_Some in Hx as [_ <-].
          apply Hlive in Hy as [->|Hy]; [done|]. apply Hold in Hy. cbn [fst] in Hyx. lia.
      + intros f p Hfp Hp y z Hy Hz Ey Ez. rewrite app_length in Hp. cbn [length] in Hp.
        assert (Hnew : forall y, live (pm_prods m) (pm_lists m) y -> fam !! fst y <> Some (length (pm_prods m))).
        { intros u Hu e. apply elem_of_list_lookup_2 in e. apply (i_new _ _ _ I) in e. lia. }
        assert (Hself : (fam ++ [length (pm_prods m)]) !! length (pm_arrs m) = Some (length (pm_prods m))).
        { rewrite <- (i_fam _ _ _ I). rewrite lookup_app_r by lia. by rewrite Nat.sub_diag. }
        apply Hlive in Hy as [->|Hy]; apply Hlive in Hz as [->|Hz].
        * done.
        * exfalso. cbn [fst] in Ey. rewrite (Hfam _ Hz) in Ez. apply (Hnew _ Hz). congruence.
        * exfalso. cbn [fst] in Ez. rewrite (Hfam _ Hy) in Ey. apply (Hnew _ Hy). congruence.
        * rewrite (Hfam _ Hy) in Ey. rewrite (Hfam _ Hz) in Ez. eapply (i_yet _ _ _ I f p); eauto. lia.
    - (* CAddSymbols *)
      destruct (r_prods r !! p) as [[f v]|] eqn:Er; [|done].
      destruct (set_syms (r_set r) xs) as [ws s'] eqn:Es. injection E as <-.
      destruct (Forall2_lookup_r _ _ _ _ _ (i_prods _ _ _ I) Er) as (x & Hx & _). rewrite Hx.
      destruct (append_syms grow (pm_set m) (pm_arrs m) x xs) as [[s1 arrs1] x1] eqn:Ea.
      cbn [r_writes] in HW.
      assert (HfW : (f, p) ∈ W) by (apply HW; apply elem_of_app; right; by apply elem_of_list_singleton).
      destruct m as [ms marrs mps mls], r as [rs rps rls rws]. cbn [pm_set pm_arrs pm_prods pm_lists r_set r_prods r_lists r_writes] in *.
      pose proof (i_set _ _ _ I) as Hs. cbn [pm_set r_set] in Hs. subst rs.
      destruct (appends_inv _ _ _ _ _ _ _ _ _ _ _ _ _ _ _ _ I HfW Hx Er Ea) as (fam' & vs & Ev & I').
      rewrite Es in Ev. injection Ev as <- <-.
      exists fam'. eexists. split; [reflexivity|]. apply I'.
    - (* CProds *)
      destruct (r_pick r ps) as [xs| |] eqn:Ep; [|done|done]. cbn [rbind] in E. injection E as <-.
      destruct (pick_R _ _ _ _ _ I Ep) as (ys & Ey & HF & Hin). rewrite Ey. cbn [rbind].
      exists fam. eexists. split; [reflexivity|].
      assert (Hlive : forall y, live (pm_prods m) (pm_lists m ++ [ys]) y -> live (pm_prods m) (pm_lists m) y).
      { intros y [Hy|(l & Hl & Hy)]; [by left|]. apply elem_of_app in Hl as [Hl|Hl]; [right; by exists l|].
        apply elem_of_list_singleton in Hl as ->. left. by apply Hin. }
      destruct I as [I1 I2 I3 I4 I5 I6 I7]. split; cbn [pm_set pm_arrs pm_prods pm_lists r_set r_prods r_lists]; try done.
      + apply Forall2_app; [done|]. by constructor.
      + intros f p x v A B C y Hy. eapply I6; eauto.
      + intros f p A B y z Hy Hz. eapply I7; eauto.
    - (* CAddProds *)
      destruct (r_lists r !! l) as [zs|] eqn:El; [|done].
      destruct (r_pick r ps) as [xs| |] eqn:Ep; [|done|done]. cbn [rbind] in E. injection E as <-.
      destruct (pick_R _ _ _ _ _ I Ep) as (ys & Ey & HF & Hin).
      destruct (Forall2_lookup_r _ _ _ _ _ (i_lists _ _ _ I) El) as (us & Hus & HRu).
      rewrite Hus, Ey. cbn [rbind].
      exists fam. eexists. split; [reflexivity|].
      assert (Hlive : forall y, live (pm_prods m) (<[l := us ++ ys]> (pm_lists m)) y -> live (pm_prods m) (pm_lists m) y).
      { intros y [Hy|(k & Hk & Hy)]; [by left|]. apply elem_of_list_lookup in Hk as [i Hi].
        apply list_lookup_insert_Some in Hi as [(_ & <- & _)|(_ & Hi)].
        - apply elem_of_app in Hy as [Hy|Hy]; [right; exists us; split; [by apply elem_of_list_lookup_2 in Hus|done]|].
          left. by apply Hin.
        - right. exists k. split; [by apply elem_of_list_lookup_2 in Hi|done]. }
      destruct I as [I1 I2 I3 I4 I5 I6 I7]. split; cbn [pm_set pm_arrs pm_prods pm_lists r_set r_prods r_lists]; try done.
      + apply Forall2_insert; [done|]. by apply Forall2_app.
      + intros f p x v A B C y Hy. eapply I6; eauto.
      + intros f p A B y z Hy Hz. eapply I7; eauto.
    - (* CGet *)
      destruct (r_lists r !! l) as [zs|] eqn:El; [|done].
      destruct (zs !! i) as [[f v]|] eqn:Ei; [|done]. injection E as <-.
      destruct (Forall2_lookup_r _ _ _ _ _ (i_lists _ _ _ I) El) as (us & Hus & HRu).
      destruct (Forall2_lookup_r _ _ _ _ _ HRu Ei) as (x & Hx & HR).
      rewrite Hus, Hx.
      exists fam. eexists. split; [reflexivity|].
      pose proof (Forall2_length _ _ _ (i_prods _ _ _ I)) as Hlen.
      assert (Lx : live (pm_prods m) (pm_lists m) x).
      { right. exists us. split; [by apply elem_of_list_lookup_2 in Hus|by apply elem_of_list_lookup_2 in Hx]. }
      assert (Hlive : forall y, live (pm_prods m ++ [x]) (pm_lists m) y -> live (pm_prods m) (pm_lists m) y).
      { intros y [Hy|Hy]; [|by right]. apply elem_of_app in Hy as [Hy|Hy]; [by left|].
        by apply elem_of_list_singleton in Hy as ->. }
      destruct I as [I1 I2 I3 I4 I5 I6 I7]. split; cbn [pm_set pm_arrs pm_prods pm_lists r_set r_prods r_lists]; try done.
      + intros g Hg. rewrite app_length. cbn [length]. apply I3 in Hg. lia.
      + apply Forall2_app; [done|]. by constructor.
      + intros g p u w A B C y Hy Hyu.
        apply lookup_app_Some in B as [B|[Hp B]].
        * rewrite lookup_app_l in C by (rewrite <- Hlen; by apply lookup_lt_Some in B). eapply I6; eauto.
        * apply list_lookup_singleton_Some in B as [Hp0 <-].
          assert (p = length (r_prods r)) as -> by lia.
          rewrite lookup_app_r in C by lia. rewrite Nat.sub_diag in C. injection C as <- <-.
          apply Hlive in Hy. destruct HR as (HRf & _ & _). cbn [fst] in HRf.
          assert (y = x) as ->; [|done].
          apply (I7 f (length (r_prods r)) A); [lia|done|done| |done]. by rewrite Hyu.
      + intros g p A B y z Hy Hz. rewrite app_length in B. cbn [length] in B. eapply (I7 g p); eauto. lia.
  Qed.
End Run.

Lemma writes_grow r c r' : ref_step r c = Ok r' -> forall x, x ∈ r_writes r -> x ∈ r_writes r'.
Proof.
  destruct c as [xs|p xs|ps|l ps|l i]; cbn [ref_step].
  - destruct (set_syms _ xs). by intros [= <-].
  - destruct (r_prods r !! p) as [[f v]|]; [|done]. destruct (set_syms _ xs). intros [= <-] x Hx.
    cbn [r_writes]. apply elem_of_app. by left.
  - destruct (r_pick r ps); [|done|done]. by intros [= <-].
  - destruct (r_lists r !! l); [|done]. destruct (r_pick r ps); [|done|done]. by intros [= <-].
  - destruct (r_lists r !! l) as [zs|]; [|done]. destruct (zs !! i); [|done]. by intros [= <-].
Qed.
Lemma writes_grows cs : forall r r', ref_calls cs r = Ok r' -> forall x, x ∈ r_writes r -> x ∈ r_writes r'.
Proof.
  unfold ref_calls. induction cs as [|c cs IH]; intros r r'; cbn [rfold]; [by intros [= <-]|].
  destruct (ref_step r c) as [r1| |] eqn:E; [|done|done]. cbn [rbind]. intros H x Hx.
  eapply IH; [exact H|]. by eapply writes_grow.
Qed.

Lemma calls_inv grow W cs : one_writer W -> forall fam m r r', Inv W fam m r -> ref_calls cs r = Ok r' ->
  (forall x, x ∈ r_writes r' -> x ∈ W) -> exists fam' m', pcalls grow cs m = Ok m' /\ Inv W fam' m' r'.
Proof.
  intros Hone. unfold ref_calls, pcalls. induction cs as [|c cs IH]; intros fam m r r' I; cbn [rfold].
  - intros [= <-] _. exists fam, m. done.
  - destruct (ref_step r c) as [r1| |] eqn:E; [|done|done]. cbn [rbind]. intros Hr HW.
    destruct (step_inv grow W Hone fam m r c r1 I E) as (fam1 & m1 & -> & I1).
    { intros f p Hfp. apply HW. by eapply writes_grows. }
    cbn [rbind]. by eapply IH.
Qed.

Lemma one_writer_reads grow cs r : ref_calls cs rmem_empty = Ok r -> one_writer (r_writes r) ->
  exists m, pcalls grow cs pmem_empty = Ok m /\ reads_as m r.
Proof.
  intros H Hone. destruct (calls_inv grow _ cs Hone _ _ _ _ (inv_empty _) H) as (fam & m & E & I); [done|].
  exists m. split; [done|]. destruct I as [I1 _ _ I4 I5 _ _]. split_and!; [done| |].
  - clear -I4. unfold slice_of, arr. unfold R, arr_of in I4.
    induction I4 as [|x y l k (_ & _ & A) _ IH]; [done|]. cbn [map]. by f_equal.
  - clear -I5. unfold slice_of, arr. unfold R, arr_of in I5.
    induction I5 as [|x y l k Hxy _ IH]; [done|]. cbn [map]. f_equal; [|done].
    clear -Hxy. induction Hxy as [|x y l k (_ & _ & A) _ IH]; [done|]. cbn [map]. by f_equal.
Qed.
