(** Topdown's tree in memory. *)
From Coq Require Import Lia.
From Verif.model Require Import HeapTopdown.
From Verif.spec Require Import TdHeapSpec TopdownSpec Outcome.
From Verif.proofs Require Import Fuel HeapProofs HeapBuild TopdownProofs SetProofs.
Local Open Scope nat_scope.

(** Everything but the arrays in [pend] is kept. *)
Definition ext_but (pend : list nat) (h h' : heap) : Prop :=
  (forall n x, h_nodes h !! n = Some x -> h_nodes h' !! n = Some x)
  /\ length (h_arrs h) <= length (h_arrs h')
  /\ forall a x, a ∉ pend -> h_arrs h !! a = Some x -> h_arrs h' !! a = Some x.
Lemma ext_but_refl pend h : ext_but pend h h.
Proof. split_and!; auto. Qed.
Lemma ext_but_trans pend h1 h2 h3 : ext_but pend h1 h2 -> ext_but pend h2 h3 -> ext_but pend h1 h3.
Proof. intros (A1 & A2 & A3) (B1 & B2 & B3). split_and!; auto; lia. Qed.
Lemma ext_but_extends pend h h' : extends h h' -> ext_but pend h h'.
Proof.
  intros He. split_and!.
  - intros n x. by apply extends_node.
  - by apply extends_arrs_len.
  - intros a x _. by apply extends_arr.
Qed.
Lemma ext_but_nil h h' : ext_but [] h h' -> extends h h'.
Proof. intros (A1 & A2 & A3). apply extends_lookup; [done|]. intros a x. apply A3. apply not_elem_of_nil. Qed.

Lemma insert_mid {A} (l m : list A) i x y : i = length l -> <[i := x]> (l ++ y :: m) = l ++ x :: m.
Proof. intros ->. rewrite <- (Nat.add_0_r (length l)), insert_app_r. done. Qed.

Section K.
  Variable g : grammar.
  Variable h0 : heap.
  Notation N0 := (length (h_nodes h0)).
  Notation A0 := (length (h_arrs h0)).

  (** Trees built for the input from [lo] to [hi]. [nl] and [al] give the position each
      node and array was made for, [pend] are the arrays still being filled. *)
  Definition kids (nl al pend : list nat) (h : heap) (lo : nat) (Bs : list atree) (hi : nat) : Prop :=
    Forall (holds h) Bs
    /\ (forall n, n ∈ fnodes Bs -> N0 <= n /\ exists x, h_nodes h !! n = Some x /\ h_par x = None)
    /\ (forall a, a ∈ farrs Bs -> A0 <= a /\ a ∉ pend)
    /\ (Forall (full g) (map a_val Bs) ->
          lo + length Bs <= hi
          /\ (forall n, n ∈ fnodes Bs -> exists l, nl !! n = Some l /\ lo <= l < hi)
          /\ (forall a, a ∈ farrs Bs -> exists l, al !! a = Some l /\ lo <= l < hi)
          /\ NoDup (fnodes Bs) /\ NoDup (farrs Bs)).

  Lemma kids_nil nl al pend h lo : kids nl al pend h lo [] lo.
  Proof.
    split_and!; [constructor| | |].
    - intros n H. inversion H.
    - intros n H. inversion H.
    - intros _. split_and!; [cbn [length]; lia|intros n H; inversion H|intros n H; inversion H|constructor|constructor].
  Qed.
  Lemma kids_app nl al pend h lo Bs mid Cs hi :
    kids nl al pend h lo Bs mid -> kids nl al pend h mid Cs hi -> kids nl al pend h lo (Bs ++ Cs) hi.
  Proof.
    intros (B1 & B2 & B3 & B4) (C1 & C2 & C3 & C4). unfold kids. rewrite fnodes_app, farrs_app, map_app, app_length.
    split_and!.
    - by apply Forall_app.
    - intros n [H|H]%elem_of_app; auto.
    - intros n [H|H]%elem_of_app; auto.
    - intros [F1 F2]%Forall_app. destruct (B4 F1) as (P1 & P2 & P3 & P4 & P5). destruct (C4 F2) as (Q1 & Q2 & Q3 & Q4 & Q5).
      split_and!; [lia| | | |].
      + intros n [H|H]%elem_of_app; [destruct (P2 n H) as (l & ? & ?)|destruct (Q2 n H) as (l & ? & ?)]; exists l; split; auto; lia.
      + intros n [H|H]%elem_of_app; [destruct (P3 n H) as (l & ? & ?)|destruct (Q3 n H) as (l & ? & ?)]; exists l; split; auto; lia.
      + apply NoDup_app. split_and!; [done| |done]. intros n H H'. destruct (P2 n H) as (l & E & ?). destruct (Q2 n H') as (l' & E' & ?).
        rewrite E in E'. injection E' as ->. lia.
      + apply NoDup_app. split_and!; [done| |done]. intros n H H'. destruct (P3 n H) as (l & E & ?). destruct (Q3 n H') as (l' & E' & ?).
        rewrite E in E'. injection E' as ->. lia.
  Qed.
  Lemma kids_mono nl al pend h lo Bs hi nl' al' pend' h' :
    kids nl al pend h lo Bs hi -> nl `prefix_of` nl' -> al `prefix_of` al' -> ext_but pend h h' ->
    (forall a, a ∈ pend' -> a ∈ pend) -> kids nl' al' pend' h' lo Bs hi.
  Proof.
    intros (B1 & B2 & B3 & B4) Hn Ha (E1 & E2 & E3) Hp. split_and!.
    - apply (holds_all_agree h); [done|]. apply agree_eq.
      + intros n Hin. destruct (B2 n Hin) as (_ & x & Hx & _). rewrite Hx. by apply E1.
      + intros a Hin. destruct (B3 a Hin) as (_ & Hni).
        assert (Hlt : a < length (h_arrs h)).
        { apply elem_of_list_In in Hin. apply in_concat in Hin as (l & Hl & Hin). apply in_map_iff in Hl as (B & <- & HB).
          eapply holds_arr_lt; [|by apply elem_of_list_In]. rewrite List.Forall_forall in B1. by apply B1. }
        destruct (lookup_lt_is_Some_2 _ _ Hlt) as [x Hx]. rewrite Hx. by apply E3.
    - intros n Hin. destruct (B2 n Hin) as (? & x & Hx & ?). split; [done|]. exists x. auto.
    - intros a Hin. destruct (B3 a Hin). split; [done|]. auto.
    - intros F. destruct (B4 F) as (P1 & P2 & P3 & P4 & P5). split_and!; [done| | |done|done].
      + intros n Hin. destruct (P2 n Hin) as (l & ? & ?). exists l. split; [by eapply prefix_lookup|done].
      + intros n Hin. destruct (P3 n Hin) as (l & ? & ?). exists l. split; [by eapply prefix_lookup|done].
  Qed.

  Lemma fnodes_one A : fnodes [A] = a_nodes A.
  Proof. cbn [map List.concat]. apply app_nil_r. Qed.
  Lemma farrs_one A : farrs [A] = a_arrs A.
  Proof. cbn [map List.concat]. apply app_nil_r. Qed.

  Lemma kids_leaf nl al pend h pos lx q h' :
    length nl = length (h_nodes h) -> N0 <= length (h_nodes h) ->
    alloc h (HN lx None None) = (h', q) ->
    kids (nl ++ [pos]) al pend h' pos [AT q lx None []] (S pos).
  Proof.
    intros Hn H0 E. unfold alloc in E. injection E as <- <-.
    assert (Hq : (h_nodes h ++ [HN lx None None]) !! length (h_nodes h) = Some (HN lx None None)) by by apply list_lookup_middle.
    unfold kids. rewrite fnodes_one, farrs_one, nodes_AT, arrs_AT. cbn [map List.concat sl_arr app].
    split_and!.
    - constructor; [|constructor]. econstructor; [exact Hq|done|constructor].
    - intros n ->%elem_of_list_singleton. split; [done|]. cbn [h_nodes]. rewrite Hq. eauto.
    - intros a H. inversion H.
    - intros _. split_and!; [cbn [length]; lia| | |apply NoDup_singleton|constructor].
      + intros n ->%elem_of_list_singleton. exists pos. split; [|lia]. by apply list_lookup_middle.
      + intros a H. inversion H.
  Qed.

  Lemma kids_node nl al pend h pos e name a Bs q h' ps :
    length nl = length (h_nodes h) -> N0 <= length (h_nodes h) -> A0 <= a -> al !! a = Some pos -> a ∉ pend ->
    g_prods g name = Some ps ->
    kids nl al (a :: pend) h pos Bs e ->
    h_arrs h !! a = Some (map Some (map a_ptr Bs)) ->
    alloc h (HN (lexeme_new name) None (Some (a, length Bs))) = (h', q) ->
    kids (nl ++ [pos]) al pend h' pos [AT q (lexeme_new name) (Some (a, length Bs)) Bs] e.
  Proof.
    intros Hn H0 Ha0 Hal Hpend Hps Hk Harr E. unfold alloc in E. injection E as <- <-.
    set (nd := HN (lexeme_new name) None (Some (a, length Bs))) in *. set (h' := Heap (h_nodes h ++ [nd]) (h_arrs h)) in *.
    assert (Hq : h_nodes h' !! length (h_nodes h) = Some nd) by by apply list_lookup_middle.
    assert (He : extends h h') by (split; [by exists [nd]|done]).
    assert (Hk' : kids (nl ++ [pos]) al (a :: pend) h' pos Bs e).
    { eapply kids_mono; [exact Hk|by exists [pos]|done|by apply ext_but_extends|done]. }
    destruct Hk' as (B1 & B2 & B3 & B4).
    assert (Hnew : length (h_nodes h) ∉ fnodes Bs).
    { intros Hin. destruct Hk as (_ & K2 & _). destruct (K2 _ Hin) as (_ & x & Hx & _). apply lookup_lt_Some in Hx. lia. }
    unfold kids. rewrite fnodes_one, farrs_one, nodes_AT, arrs_AT. cbn [sl_arr app]. split_and!.
    - constructor; [|constructor]. econstructor; [exact Hq| |done]. cbn [slice_is]. rewrite map_length. split; [done|].
      exists []. by rewrite app_nil_r.
    - intros n [->|Hin]%elem_of_cons; [|by apply B2]. split; [done|]. rewrite Hq. by exists nd.
    - intros b [->|Hin]%elem_of_cons; [done|]. destruct (B3 b Hin) as (? & Hb). split; [done|]. intros Hi. apply Hb. by right.
    - intros F. cbn [map] in F. apply List.Forall_inv in F. rewrite val_AT in F. inversion F as [lx cs F1 F2]; subst.
      cbn [lx_kind lexeme_new] in F1.
      assert (Hpos : pos < e).
      { destruct (B4 F2) as (P1 & _). destruct Bs as [|B Bs]; [|cbn [length] in P1; lia]. rewrite F1 in Hps by done. done. }
      destruct (B4 F2) as (P1 & P2 & P3 & P4 & P5). split_and!; [cbn [length]; lia| | | |].
      + intros n [->|Hin]%elem_of_cons; [|by apply P2]. exists pos. split; [|lia]. rewrite <- Hn. by apply list_lookup_middle.
      + intros b [->|Hin]%elem_of_cons; [|by apply P3]. exists pos. split; [done|lia].
      + by constructor.
      + constructor; [|done]. intros Hin. destruct (B3 a Hin) as (_ & Hb). apply Hb. by left.
  Qed.

  (** * Simulation *)
  Variable lxs : list (nat * lexeme).
  Variable s : set.
  Hypothesis Hw : set_wf s.
  Hypothesis Hknown : forall A ps p x, g_prods g A = Some ps -> p ∈ ps -> x ∈ p -> known s x.

  Definition entry (nl al pend : list nat) (h : heap) (pos : nat) (x : haresp) (a : aresp) : Prop :=
    match x, a with
    | None, None => True
    | Some (p, e), Some (t, e') => e' = e /\ exists A, a_ptr A = p /\ a_val A = t /\ kids nl al pend h pos [A] e
    | _, _ => False
    end.
  Lemma entry_mono nl al pend h pos x a nl' al' pend' h' :
    entry nl al pend h pos x a -> nl `prefix_of` nl' -> al `prefix_of` al' -> ext_but pend h h' ->
    (forall a, a ∈ pend' -> a ∈ pend) -> entry nl' al' pend' h' pos x a.
  Proof.
    destruct x as [[p e]|], a as [[t e']|]; cbn [entry]; try done. intros (-> & A & H1 & H2 & H3) ? ? ? ?.
    split; [done|]. exists A. split_and!; [done|done|]. by eapply kids_mono.
  Qed.

  Record rel (nl al pend : list nat) (hs : htdst) (st : tdst) : Prop := Rel {
    r_set : td_set st = s; r_hset : ht_set hs = s;
    r_nl : length nl = length (h_nodes (ht_heap hs)); r_al : length al = length (h_arrs (ht_heap hs));
    r_n0 : N0 <= length (h_nodes (ht_heap hs)); r_a0 : A0 <= length (h_arrs (ht_heap hs));
    r_pend : forall a, a ∈ pend -> a < length (h_arrs (ht_heap hs));
    r_memo : forall k, match ht_memo hs !! k, td_memo st !! k with
                       | Some x, Some a => entry nl al pend (ht_heap hs) (snd k) x a
                       | None, None => True
                       | _, _ => False
                       end }.

  Lemma rel_step nl al pend hs st nl' al' pend' h' :
    rel nl al pend hs st -> nl `prefix_of` nl' -> al `prefix_of` al' -> ext_but pend (ht_heap hs) h' ->
    (forall a, a ∈ pend' -> a ∈ pend \/ length (h_arrs (ht_heap hs)) <= a < length (h_arrs h')) ->
    length nl' = length (h_nodes h') -> length al' = length (h_arrs h') ->
    rel nl' al' pend' (HTd (ht_memo hs) (ht_set hs) h') st.
  Proof.
    intros [R1 R2 R3 R4 R5 R6 R7 R8] Hn Ha He Hp Hn' Ha'. pose proof (prefix_length _ _ Hn). pose proof (prefix_length _ _ Ha).
    split; cbn [ht_memo ht_set ht_heap]; try done; try lia.
    - intros a Hin. destruct (Hp a Hin) as [Hi|Hi]; [apply R7 in Hi; lia|lia].
    - intros k. specialize (R8 k). destruct (ht_memo hs !! k) as [x|], (td_memo st !! k) as [a|]; try done.
      destruct x as [[p e]|], a as [[t e']|]; cbn [entry] in *; try done. destruct R8 as (-> & A & H1 & H2 & H3).
      split; [done|]. exists A. split_and!; [done|done|].
      assert (Hk : kids nl' al' pend h' (snd k) [A] e) by (eapply kids_mono; eauto).
      destruct Hk as (K1 & K2 & K3 & K4). split_and!; [done|done| |done].
      intros b Hb. destruct (K3 b Hb) as [? Hni]. split; [done|]. intros Hi. apply Hp in Hi as [Hi|Hi]; [done|].
      destruct H3 as (L1 & _). apply List.Forall_inv in L1. rewrite farrs_one in Hb. pose proof (holds_arr_lt _ _ _ L1 Hb). lia.
  Qed.

  Definition post (nl al pend : list nat) (hs : htdst) (k : tdkey) (r : res (aresp * tdst)) (hr : res (haresp * htdst)) : Prop :=
    match r, hr with
    | Ok (a, st'), Ok (x, hs') => exists nl' al', nl `prefix_of` nl' /\ al `prefix_of` al'
        /\ rel nl' al' pend hs' st' /\ entry nl' al' pend (ht_heap hs') (snd k) x a /\ extends (ht_heap hs) (ht_heap hs')
    | Panic, Panic | OutOfFuel, OutOfFuel => True
    | _, _ => False
    end.

  Section Acc.
    Variable f : tdst -> tdkey -> bool -> res (aresp * tdst).
    Variable hf : htdst -> tdkey -> bool -> res (haresp * htdst).
    Hypothesis Hf : forall nl al pend hs st k all nm, rel nl al pend hs st -> symb2str s !! fst k = Some nm ->
      post nl al pend hs k (f st k all) (hf hs k all).

    Lemma seq_sim p : forall nl al pend a n pos0 Bs pos hs st,
      (forall x, x ∈ p -> known s x) -> rel nl al (a :: pend) hs st ->
      h_arrs (ht_heap hs) !! a = Some (map Some (map a_ptr Bs) ++ replicate (length p) None) ->
      length Bs + length p = n -> kids nl al (a :: pend) (ht_heap hs) pos0 Bs pos ->
      match accept_seq f p pos st, h_accept_seq hf (Some (a, n)) (length Bs) p pos hs with
      | Ok (r, st'), Ok (hr, hs') => exists nl' al', nl `prefix_of` nl' /\ al `prefix_of` al'
          /\ rel nl' al' (a :: pend) hs' st' /\ ext_but [a] (ht_heap hs) (ht_heap hs')
          /\ match r, hr with
             | None, None => True
             | Some (cs, e), Some e' => e' = e /\ exists Cs, map a_val Cs = cs
                 /\ length (Bs ++ Cs) = n /\ h_arrs (ht_heap hs') !! a = Some (map Some (map a_ptr (Bs ++ Cs)))
                 /\ kids nl' al' (a :: pend) (ht_heap hs') pos0 (Bs ++ Cs) e
             | _, _ => False
             end
      | Panic, Panic | OutOfFuel, OutOfFuel => True
      | _, _ => False
      end.
    Proof using Hf Hw.
      induction p as [|x p IH]; intros nl al pend a n pos0 Bs pos hs st Hk Hr Harr Hlen Hkids; cbn [accept_seq h_accept_seq].
      - exists nl, al. split_and!; [done|done|done|apply ext_but_refl|done|]. exists [].
        cbn [length replicate] in Harr. rewrite app_nil_r in *. cbn [length] in Hlen. split_and!; [done|lia|done|done].
      - cbn [set_symbol]. destruct (Hk x) as [v Hv]; [left|]. pose proof Hr as Hr0. destruct Hr0 as [R1 R2 R3 R4 R5 R6 R7 R8].
        rewrite R1, R2, (set_str_known _ _ _ Hv).
        assert (Hst : TdSt (td_memo st) s = st) by (rewrite <- R1; destruct st; done).
        assert (Hhst : HTd (ht_memo hs) s (ht_heap hs) = hs) by (rewrite <- R2; destruct hs; done). rewrite Hst, Hhst.
        assert (Hv' : symb2str s !! v = Some x) by (apply Hw; done).
        pose proof (Hf nl al (a :: pend) hs st (v, pos) false x Hr Hv') as H1. unfold post in H1.
        destruct (f st (v, pos) false) as [[[[c e]|] st1]| |], (hf hs (v, pos) false) as [[[[q e']|] hs1]| |]; cbn [rbind]; try done;
          destruct H1 as (nl1 & al1 & P1 & P2 & P3 & P4 & P5); cbn [entry] in P4; try done.
        + destruct P4 as (<- & A & PA & PV & PK). cbn [snd] in PK.
          assert (Harr1 : h_arrs (ht_heap hs1) !! a = Some (map Some (map a_ptr Bs) ++ replicate (S (length p)) None)).
          { by apply (extends_arr _ _ _ _ P5). }
          cbn [slice_set]. destruct (Nat.ltb_spec (length Bs) n) as [_|Hge]; [|cbn [length] in Hlen; lia]. cbn [rbind].
          unfold array. rewrite Harr1. cbn [default].
          set (h2 := Heap (h_nodes (ht_heap hs1)) (<[a:=_]> (h_arrs (ht_heap hs1)))).
          assert (Hbut : ext_but [a] (ht_heap hs1) h2).
          { split_and!; [done|by cbn [h_arrs h2]; rewrite insert_length|]. intros b y Hb Hy. cbn [h_arrs h2]. rewrite list_lookup_insert_ne; [done|].
            intros ->. apply Hb. by left. }
          assert (Hbut' : forall pd, ext_but (a :: pd) (ht_heap hs1) h2).
          { intros pd. destruct Hbut as (B1 & B2 & B3). split_and!; [done|done|]. intros b y Hb. apply B3. intros Hi.
            apply Hb. apply elem_of_list_singleton in Hi as ->. by left. }
          assert (Hr2 : rel nl1 al1 (a :: pend) (HTd (ht_memo hs1) (ht_set hs1) h2) st1).
          { destruct P3. eapply rel_step; [split; eassumption|done|done|apply Hbut'|by left|done|]. cbn [h_arrs h2]. by rewrite insert_length. }
          assert (Hk2 : kids nl1 al1 (a :: pend) h2 pos0 (Bs ++ [A]) e).
          { apply (kids_app _ _ _ _ _ _ pos).
            - eapply kids_mono; [eapply kids_mono; [exact Hkids|exact P1|exact P2|by apply ext_but_extends|done]|done|done|apply Hbut'|done].
            - eapply kids_mono; [exact PK|done|done|apply Hbut'|done]. }
          assert (Harr2 : h_arrs h2 !! a = Some (map Some (map a_ptr (Bs ++ [A])) ++ replicate (length p) None)).
          { cbn [h_arrs h2]. rewrite list_lookup_insert by (by apply lookup_lt_Some in Harr1). f_equal.
            trans (<[length Bs := Some q]> (map Some (map a_ptr Bs) ++ None :: replicate (length p) None)); [reflexivity|].
            rewrite insert_mid by by rewrite !map_length. rewrite !map_app. cbn [map]. rewrite <- app_assoc. by rewrite PA. }
          assert (Hl2 : length (Bs ++ [A]) = S (length Bs)) by (rewrite app_length; cbn [length]; lia).
          specialize (IH nl1 al1 pend a n pos0 (Bs ++ [A]) e (HTd (ht_memo hs1) (ht_set hs1) h2) st1
            ltac:(intros y Hy; apply Hk; by right) Hr2 Harr2 ltac:(rewrite Hl2; cbn [length] in Hlen; lia) Hk2).
          rewrite Hl2 in IH.
          destruct (accept_seq f p e st1) as [[[[cs e2]|] st2]| |], (h_accept_seq hf (Some (a, n)) (S (length Bs)) p e (HTd (ht_memo hs1) (ht_set hs1) h2)) as [[[e2'|] hs2]| |]; cbn [rbind]; try done;
            destruct IH as (nl2 & al2 & Q1 & Q2 & Q3 & Q4 & Q5); try done.
          * destruct Q5 as (-> & Cs & C1 & C2 & C3 & C4). exists nl2, al2. split_and!; [by etrans|by etrans|done| |done|].
            { eapply ext_but_trans; [by apply ext_but_extends|]. eapply ext_but_trans; [exact Hbut|exact Q4]. }
            exists (A :: Cs). rewrite <- !app_assoc in C2, C3, C4. cbn [app] in C2, C3, C4. split_and!; [|done|done|done].
            cbn [map]. by rewrite C1, PV.
          * exists nl2, al2. split_and!; [by etrans|by etrans|done| |done].
            eapply ext_but_trans; [by apply ext_but_extends|]. eapply ext_but_trans; [exact Hbut|exact Q4].
        + exists nl1, al1. split_and!; [done|done|done|by apply ext_but_extends|done].
    Qed.

    Lemma prod_sim nl al pend hs st k p name ps : symb2str s !! fst k = Some name -> g_prods g name = Some ps -> p ∈ ps ->
      rel nl al pend hs st -> post nl al pend hs k (accept_prod f k p st) (h_accept_prod hf k p hs).
    Proof using Hf Hw Hknown.
      intros Hv Hps Hin Hr. unfold accept_prod, h_accept_prod, make_slice.
      set (h1 := Heap (h_nodes (ht_heap hs)) (h_arrs (ht_heap hs) ++ [replicate (length p) None])).
      set (a := length (h_arrs (ht_heap hs))).
      assert (E1 : extends (ht_heap hs) h1) by (split; [done|by eexists]).
      pose proof Hr as Hr0. destruct Hr0 as [R1 R2 R3 R4 R5 R6 R7 R8].
      assert (Hr1 : rel nl (al ++ [snd k]) (a :: pend) (HTd (ht_memo hs) (ht_set hs) h1) st).
      { eapply rel_step; [exact Hr|done|by eexists|by apply ext_but_extends| |done|].
        - intros b [->|Hb]%elem_of_cons; [right|by left]. cbn [h_arrs h1]. rewrite app_length. cbn [length]. unfold a. lia.
        - cbn [h_arrs h1]. rewrite !app_length. cbn [length]. lia. }
      assert (Ha1 : h_arrs h1 !! a = Some (replicate (length p) None)) by by apply list_lookup_middle.
      assert (Hal : (al ++ [snd k]) !! a = Some (snd k)) by (unfold a; rewrite <- R4; by apply list_lookup_middle).
      assert (Hap : a ∉ pend) by (intros Hi; apply R7 in Hi; unfold a in Hi; lia).
      pose proof (seq_sim p nl (al ++ [snd k]) pend a (length p) (snd k) [] (snd k) (HTd (ht_memo hs) (ht_set hs) h1) st
        ltac:(intros x; by eapply Hknown) Hr1 Ha1 eq_refl (kids_nil _ _ _ _ _)) as H1. cbn [length] in H1.
      assert (Hback : forall h', ext_but [a] h1 h' -> extends (ht_heap hs) h').
      { intros h' (B1 & B2 & B3). apply extends_lookup.
        - intros n x Hx. apply B1. by apply (extends_node _ _ _ _ E1).
        - intros b x Hx. apply B3; [|by apply (extends_arr _ _ _ _ E1)]. intros ->%elem_of_list_singleton. apply lookup_lt_Some in Hx. unfold a in Hx. lia. }
      destruct (accept_seq f p (snd k) st) as [[[[cs e]|] st1]| |],
        (h_accept_seq hf (Some (a, length p)) 0 p (snd k) (HTd (ht_memo hs) (ht_set hs) h1)) as [[[e'|] hs1]| |]; cbn [rbind]; try done;
        destruct H1 as (nl1 & al1 & P1 & P2 & P3 & P4 & P5); try done.
      - destruct P5 as (-> & Cs & C1 & C2 & C3 & C4). cbn [app] in C2, C3, C4. pose proof P3 as P3'. destruct P3' as [S1 S2 S3 S4 S5 S6 S7 S8].
        rewrite S1, S2, (proj2 (sym_string_nat s (fst k) name) Hv). cbn [rbind]. rewrite <- C2.
        destruct (alloc (ht_heap hs1) (HN (lexeme_new name) None (Some (a, length Cs)))) as [h2 q] eqn:E2.
        assert (Hk2 : kids (nl1 ++ [snd k]) al1 pend h2 (snd k) [AT q (lexeme_new name) (Some (a, length Cs)) Cs] e).
        { eapply kids_node; eauto. by eapply prefix_lookup. }
        assert (X2 : extends (ht_heap hs1) h2) by (unfold alloc in E2; injection E2 as <- <-; split; [by eexists|done]).
        cbn [post]. exists (nl1 ++ [snd k]), al1. split_and!.
        + etrans; [exact P1|by eexists].
        + etrans; [by eexists|exact P2].
        + rewrite <- S2. eapply rel_step; [exact P3|by eexists|done|by apply ext_but_extends| | |].
          * intros b Hb. left. by right.
          * unfold alloc in E2. injection E2 as <- <-. cbn [h_nodes]. rewrite !app_length. cbn [length]. lia.
          * unfold alloc in E2. by injection E2 as <- <-.
        + cbn [entry ht_heap]. split; [done|]. eexists. split_and!; [| |exact Hk2]; [done|]. rewrite val_AT. by rewrite C1.
        + cbn [ht_heap]. eapply extends_trans; [apply Hback; exact P4|exact X2].
      - cbn [post]. exists nl1, al1. split_and!; [done|etrans; [by eexists|exact P2]| |done|by apply Hback].
        assert (hs1 = HTd (ht_memo hs1) (ht_set hs1) (ht_heap hs1)) as -> by (destruct hs1; done).
        pose proof P3 as [S1 S2 S3 S4 S5 S6 S7 S8].
        eapply rel_step; [exact P3|done|done|apply ext_but_refl| |done|done]. intros b Hb. left. by right.
    Qed.

    Lemma prods_sim k all name ps qs : symb2str s !! fst k = Some name -> g_prods g name = Some ps -> (forall p, p ∈ qs -> p ∈ ps) ->
      forall nl al pend hs st, rel nl al pend hs st ->
      post nl al pend hs k (accept_prods lxs f k all qs st) (h_accept_prods lxs hf k all qs hs).
    Proof using Hf Hw Hknown.
      intros Hv Hps. induction qs as [|p qs IH]; intros Hin nl al pend hs st Hr; cbn [accept_prods h_accept_prods].
      - cbn [post]. exists nl, al. split_and!; [done|done|done|done|apply extends_refl].
      - pose proof (prod_sim nl al pend hs st k p name ps Hv Hps (Hin p ltac:(left)) Hr) as H1. unfold post in H1.
        assert (Hnext : forall nl1 al1 hs1 st1, nl `prefix_of` nl1 -> al `prefix_of` al1 -> rel nl1 al1 pend hs1 st1 ->
          extends (ht_heap hs) (ht_heap hs1) ->
          post nl al pend hs k (accept_prods lxs f k all qs st1) (h_accept_prods lxs hf k all qs hs1)).
        { intros nl1 al1 hs1 st1 P1 P2 P3 P5. pose proof (IH ltac:(intros q Hq; apply Hin; by right) nl1 al1 pend hs1 st1 P3) as H2. unfold post in *.
          destruct (accept_prods lxs f k all qs st1) as [[a st2]| |], (h_accept_prods lxs hf k all qs hs1) as [[y hs2]| |]; try done.
          destruct H2 as (nl2 & al2 & Q1 & Q2 & Q3 & Q4 & Q5). exists nl2, al2. split_and!; [by etrans|by etrans|done|done|by eapply extends_trans]. }
        destruct (accept_prod f k p st) as [[[[t e]|] st1]| |], (h_accept_prod hf k p hs) as [[[[q e']|] hs1]| |]; cbn [rbind]; try done;
          destruct H1 as (nl1 & al1 & P1 & P2 & P3 & P4 & P5); cbn [entry] in P4; try done.
        + destruct P4 as (-> & P4). destruct (negb all || (e' =? length lxs)); [|by eapply Hnext].
          cbn [post]. exists nl1, al1. split_and!; [done|done|done|done|done].
        + by eapply Hnext.
    Qed.

    Lemma try_sim k all name nl al pend hs st : symb2str s !! fst k = Some name -> rel nl al pend hs st ->
      post nl al pend hs k (try_accept g lxs f k all st) (h_try_accept g lxs hf k all hs).
    Proof using Hf Hw Hknown.
      intros Hv Hr. pose proof Hr as [R1 R2 R3 R4 R5 R6 R7 R8]. unfold try_accept, h_try_accept.
      rewrite R1, R2, (proj2 (sym_string_nat s (fst k) name) Hv). cbn [rbind].
      destruct (g_prods g name) as [ps|] eqn:Hps; [by eapply prods_sim|].
      destruct (lxs !! snd k) as [[v lx]|].
      - destruct (fst k =? v).
        + destruct (alloc (ht_heap hs) (HN lx None None)) as [h2 q] eqn:E2.
          assert (X2 : extends (ht_heap hs) h2) by (unfold alloc in E2; injection E2 as <- <-; split; [by eexists|done]).
          cbn [post]. exists (nl ++ [snd k]), al. split_and!; [by eexists|done| | |done].
          * rewrite <- R2. eapply rel_step; [exact Hr|by eexists|done|by apply ext_but_extends|by left| |].
            -- unfold alloc in E2. injection E2 as <- <-. cbn [h_nodes]. rewrite !app_length. cbn [length]. lia.
            -- unfold alloc in E2. by injection E2 as <- <-.
          * cbn [entry ht_heap]. split; [done|]. exists (AT q lx None []). split_and!; [done|done|]. by eapply kids_leaf.
        + cbn [post]. exists nl, al. split_and!; [done|done|done|done|apply extends_refl].
      - cbn [post]. exists nl, al. split_and!; [done|done|done|done|apply extends_refl].
    Qed.
  End Acc.

  Lemma accept_sim n : forall nl al pend hs st k all nm, rel nl al pend hs st -> symb2str s !! fst k = Some nm ->
    post nl al pend hs k (td_accept n g lxs st k all) (h_td_accept n g lxs hs k all).
  Proof using Hw Hknown.
    induction n as [|n IH]; intros nl al pend hs st k all nm Hr Hv; [done|]. cbn [td_accept h_td_accept].
    pose proof Hr as [R1 R2 R3 R4 R5 R6 R7 R8]. pose proof (R8 k) as Hm.
    destruct (ht_memo hs !! k) as [x|], (td_memo st !! k) as [a|]; try done.
    - cbn [post]. exists nl, al. split_and!; [done|done|done|done|apply extends_refl].
    - pose proof (try_sim _ _ IH k all nm nl al pend hs st Hv Hr) as H1. unfold post in H1.
      destruct (try_accept g lxs (td_accept n g lxs) k all st) as [[a st1]| |], (h_try_accept g lxs (h_td_accept n g lxs) k all hs) as [[x hs1]| |];
        cbn [rbind]; try done.
      destruct H1 as (nl1 & al1 & P1 & P2 & P3 & P4 & P5). cbn [post]. exists nl1, al1. split_and!; [done|done| |done|done].
      destruct P3 as [S1 S2 S3 S4 S5 S6 S7 S8]. split; cbn [td_set td_memo ht_memo ht_set ht_heap]; try done.
      intros k'. destruct (decide (k = k')) as [<-|Hne].
      + rewrite !lookup_insert. done.
      + rewrite !lookup_insert_ne by done. apply S8.
  Qed.
End K.

Lemma h_td_setup g lexemes h s0 rest : g_wf g -> g_nts g = s0 :: rest ->
  exists s lxs v, set_wf s
  /\ (forall A ps p x, g_prods g A = Some ps -> p ∈ ps -> x ∈ p -> known s x)
  /\ symb2str s !! v = Some s0
  /\ (forall n, td_parse n g lexemes =
       (' (a, _) <-! td_accept n g lxs (TdSt ∅ s) (v, 0) true; Ok (option_map fst a)))
  /\ forall n, h_td_parse n g lexemes h =
       (' (a, st) <-! h_td_accept n g lxs (HTd ∅ s h) (v, 0) true; Ok (ht_heap st, option_map fst a)).
Proof.
  intros Hg Hn. destruct (load_grammar_ok g Hg) as (s1 & H1 & Hw1 & Hk1 & Hk1').
  destruct (load_lexemes s1 lexemes) as [lxs s2] eqn:E2.
  destruct (load_lexemes_spec _ _ _ _ Hw1 E2) as (Hw2 & Hl2 & Hm & HF).
  assert (Hs0 : s0 ∈ g_nts g) by (rewrite Hn; left).
  pose proof (known_le _ _ _ Hw1 Hw2 Hl2 (Hk1 _ Hs0)) as [v Hv].
  exists s2, lxs, v. split_and!; try done.
  - intros A qs p x HA Hp Hx. eapply known_le; [exact Hw1|exact Hw2|done|]. eauto.
  - apply Hw2; done.
  - intros n. unfold td_parse. rewrite Hn, H1. cbn [rbind]. rewrite E2. cbn [set_symbol].
    rewrite (set_str_known _ _ _ Hv). done.
  - intros n. unfold h_td_parse. rewrite Hn, H1. cbn [rbind]. rewrite E2. cbn [set_symbol].
    rewrite (set_str_known _ _ _ Hv). done.
Qed.

Definition built_at (g : grammar) (h : heap) (r : option pn) (x : heap * option nat) : Prop :=
  extends h (fst x) /\
  match r, snd x with
  | None, None => True
  | Some t, Some p => exists A, a_ptr A = p /\ a_val A = t /\ holds (fst x) A /\ orphans (fst x) A /\ fresh_from h A
      /\ (full g t -> tree_at (fst x) A)
  | _, _ => False
  end.
Lemma td_parse_in_memory g lexemes h n : g_wf g ->
  match td_parse n g lexemes, h_td_parse n g lexemes h with
  | Ok r, Ok x => built_at g h r x
  | Panic, Panic | OutOfFuel, OutOfFuel => True
  | _, _ => False
  end.
Proof.
  intros Hg. destruct (g_nts g) as [|s0 rest] eqn:Hn.
  { unfold td_parse, h_td_parse. rewrite Hn. split; [apply extends_refl|done]. }
  destruct (h_td_setup g lexemes h s0 rest Hg Hn) as (s & lxs & v & Hw & Hk & Hv & -> & ->).
  set (nl := replicate (length (h_nodes h)) 0). set (al := replicate (length (h_arrs h)) 0).
  assert (Hr : rel g h s nl al [] (HTd ∅ s h) (TdSt ∅ s)).
  { split; cbn [td_set td_memo ht_memo ht_set ht_heap]; try done; try (intros a H; by inversion H).
    all: apply replicate_length. }
  pose proof (accept_sim g h lxs s Hw Hk n nl al [] (HTd ∅ s h) (TdSt ∅ s) (v, 0) true s0 Hr Hv) as H. unfold post in H.
  destruct (td_accept n g lxs (TdSt ∅ s) (v, 0) true) as [[a st1]| |], (h_td_accept n g lxs (HTd ∅ s h) (v, 0) true) as [[x hs1]| |]; cbn [rbind]; try done.
  destruct H as (nl1 & al1 & P1 & P2 & P3 & P4 & P5). cbn [ht_heap] in P5. split; [done|]. cbn [fst snd].
  destruct a as [[t e]|], x as [[p e']|]; cbn [entry option_map fst] in *; try done.
  destruct P4 as (_ & A & PA & PV & K1 & K2 & K3 & K4). rewrite fnodes_one in K2, K4. rewrite farrs_one in K3, K4.
  apply List.Forall_inv in K1. exists A. split_and!; [done|done|done| | |].
  - intros m Hm. by destruct (K2 m Hm).
  - split; [intros m Hm; by destruct (K2 m Hm)|intros m Hm; by destruct (K3 m Hm)].
  - intros F. destruct K4 as (_ & _ & _ & K5 & K6); [|done]. cbn [map]. constructor; [|constructor]. by rewrite PV.
Qed.

(** ** More fuel changes nothing *)
Section Mono.
  Variable g : grammar.
  Variable lxs : list (nat * lexeme).
  Definition hacc_le (f f' : htdst -> tdkey -> bool -> res (haresp * htdst)) :=
    forall st k all, rle (f st k all) (f' st k all).
  Lemma h_accept_seq_mono f f' sl p : hacc_le f f' -> forall i pos st, rle (h_accept_seq f sl i p pos st) (h_accept_seq f' sl i p pos st).
  Proof.
    intros H. induction p as [|x r IH]; intros i pos st; cbn [h_accept_seq set_symbol]; [apply rle_refl|].
    destruct (set_str (ht_set st) x) as [v s1]. apply rle_bind; [apply H|]. intros [[[c e]|] st1]; [|apply rle_refl].
    apply rle_bind; [apply rle_refl|]. intros h. apply IH.
  Qed.
  Lemma h_accept_prod_mono f f' k p st : hacc_le f f' -> rle (h_accept_prod f k p st) (h_accept_prod f' k p st).
  Proof.
    intros H. unfold h_accept_prod. destruct (make_slice _ _ _) as [h ch]. apply rle_bind; [apply h_accept_seq_mono; done|]. intros [b st1]. apply rle_refl.
  Qed.
  Lemma h_accept_prods_mono f f' k all ps : hacc_le f f' -> forall st,
    rle (h_accept_prods lxs f k all ps st) (h_accept_prods lxs f' k all ps st).
  Proof.
    intros H. induction ps as [|p r IH]; intros st; cbn [h_accept_prods]; [apply rle_refl|].
    apply rle_bind; [apply h_accept_prod_mono; done|]. intros [[[t e]|] st1]; [|apply IH].
    destruct (_ || _); [apply rle_refl|apply IH].
  Qed.
  Lemma h_try_accept_mono f f' k all st : hacc_le f f' -> rle (h_try_accept g lxs f k all st) (h_try_accept g lxs f' k all st).
  Proof.
    intros H. unfold h_try_accept. apply rle_bind; [apply rle_refl|]. intros name.
    destruct (g_prods g name); [|apply rle_refl]. apply h_accept_prods_mono; done.
  Qed.
  Lemma h_td_accept_S n : hacc_le (h_td_accept n g lxs) (h_td_accept (S n) g lxs).
  Proof.
    induction n as [|n IH]; intros st k all; [apply rle_oof|].
    cbn [h_td_accept]. destruct (ht_memo st !! k); [apply rle_refl|].
    apply rle_bind; [|intros [a st1]; apply rle_refl]. apply (h_try_accept_mono _ _ _ _ _ IH).
  Qed.
  Lemma h_td_accept_mono n m : n <= m -> hacc_le (h_td_accept n g lxs) (h_td_accept m g lxs).
  Proof.
    induction 1 as [|m Hle IH]; intros st k all; [apply rle_refl|].
    eapply rle_trans; [apply IH|apply h_td_accept_S].
  Qed.
End Mono.
Lemma h_td_parse_mono g lexemes h : fuel_mono (fun n => h_td_parse n g lexemes h).
Proof.
  intros n m Hle. unfold h_td_parse. destruct (g_nts g) as [|s0 r]; [apply rle_refl|].
  apply rle_bind; [apply rle_refl|]. intros s1. destruct (load_lexemes s1 lexemes) as [lxs s2].
  cbn [set_symbol]. destruct (set_str s2 s0) as [v s3]. apply rle_bind; [apply h_td_accept_mono; done|]. intros [a st]. apply rle_refl.
Qed.

Lemma h_td_parse_returns g lexemes h r : g_wf g -> returns (fun n => td_parse n g lexemes) r ->
  exists x, returns (fun n => h_td_parse n g lexemes h) x /\ built_at g h r x.
Proof.
  intros Hg [F HF]. pose proof (HF F ltac:(lia)) as E. cbn beta in E.
  pose proof (td_parse_in_memory g lexemes h F Hg) as H. rewrite E in H.
  destruct (h_td_parse F g lexemes h) as [x| |] eqn:Ex; try done. exists x. split; [|done].
  apply (returns_at _ F); [apply h_td_parse_mono|done].
Qed.
Lemma h_td_parse_diverges g lexemes h : g_wf g -> diverges (fun n => td_parse n g lexemes) ->
  diverges (fun n => h_td_parse n g lexemes h).
Proof.
  intros Hg Hd n. pose proof (Hd n) as E. cbn beta in E |- *. pose proof (td_parse_in_memory g lexemes h n Hg) as H. rewrite E in H.
  by destruct (h_td_parse n g lexemes h).
Qed.

(** The theorems' form. *)
Lemma td_some g lexemes h t : g_wf g -> returns (fun n => td_parse n g lexemes) (Some t) ->
  exists h' A, returns (fun n => h_td_parse n g lexemes h) (h', Some (a_ptr A))
    /\ holds h' A /\ a_val A = t /\ orphans h' A /\ extends h h' /\ fresh_from h A /\ (full g t -> tree_at h' A).
Proof.
  intros Hg H. destruct (h_td_parse_returns g lexemes h (Some t) Hg H) as ([h' [p|]] & Hx & He & Hb); cbn [fst snd] in *; [|done].
  destruct Hb as (A & <- & HA). exists h', A. tauto.
Qed.
Lemma td_none g lexemes h : g_wf g -> returns (fun n => td_parse n g lexemes) None ->
  exists h', returns (fun n => h_td_parse n g lexemes h) (h', None) /\ extends h h'.
Proof.
  intros Hg H. destruct (h_td_parse_returns g lexemes h None Hg H) as ([h' [p|]] & Hx & He & Hb); cbn [fst snd] in *; [done|]. eauto.
Qed.

(** * Positions *)
Lemma oc_bare g lexemes :
  (forall s pos r, oc_sym g lexemes s pos r -> forall t e, r = Some (t, e) -> bare lexemes t)
  /\ (forall s pos ps r, oc_prods g lexemes s pos ps r -> forall t e, r = Some (t, e) -> bare lexemes t)
  /\ (forall p pos r, oc_seq g lexemes p pos r -> forall cs e, r = Some (cs, e) -> Forall (bare lexemes) cs).
Proof.
  apply oc_mut; try (intros; congruence).
  - intros s pos lx _ Hl _ t e [= <- <-]. constructor. by eapply elem_of_list_lookup_2.
  - intros. eauto.
  - intros s pos p ps cs e _ IH t e' [= <- <-]. constructor. eauto.
  - intros. eauto.
  - intros pos cs e [= <- <-]. constructor.
  - intros x r pos c e cs e' _ IH1 _ IH2 cs' e'' [= <- <-]. constructor; eauto.
Qed.
Lemma td_bare g lexemes t : g_wf g -> returns (fun n => td_parse n g lexemes) (Some t) -> bare lexemes t.
Proof.
  intros Hg H%td_parse_oc; [|done]. inversion H as [|s0 rest ps r Hn Hps Ht]; subst.
  remember (Some t) as r eqn:E. clear H. revert E. clear Hps. induction Ht; intros E; try done; auto.
  injection E as <-. constructor. by eapply (proj2 (proj2 (oc_bare g lexemes))).
Qed.
