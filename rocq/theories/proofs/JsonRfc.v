(** Layouts are documents, and how the documents of the package relate to RFC 8259. *)
From Coq Require Import String.
From Verif.spec Require Import JsonSpec.
Local Open Scope nat_scope.
Local Open Scope list_scope.

Fixpoint json_induct (P : json -> Prop) (HL : forall v, P (JLeaf v)) (HA : forall l, Forall P l -> P (JArr l))
  (HO : forall l, Forall (fun e => P (snd e)) l -> P (JObj l)) (J : json) : P J :=
  match J with
  | JLeaf v => HL v
  | JArr l => HA l ((fix go l : Forall P l := match l with [] => Forall_nil_2 P | J :: r => Forall_cons_2 P J r (json_induct P HL HA HO J) (go r) end) l)
  | JObj l => HO l ((fix go l : Forall (fun e => P (snd e)) l := match l with [] => Forall_nil_2 _ | e :: r => Forall_cons_2 (fun e => P (snd e)) e r (json_induct P HL HA HO (snd e)) (go r) end) l)
  end.
Lemma all_arr Q K l : json_all Q K (JArr l) <-> Forall (json_all Q K) l.
Proof. induction l as [|J l IH]; cbn. { by split; intros; [constructor|]. } rewrite Forall_cons. cbn in IH. by rewrite IH. Qed.
Lemma all_obj Q K l : json_all Q K (JObj l) <-> Forall (fun e => K (fst e) /\ json_all Q K (snd e)) l.
Proof. induction l as [|J l IH]; cbn. { by split; intros; [constructor|]. } rewrite Forall_cons. cbn in IH. rewrite IH. tauto. Qed.

Section Texts.
  Variables (Nu St : gostring -> Prop) (W : N -> Prop).
  (** What a text's leaves and keys are. *)
  Lemma text_leaves :
    (forall J s, value_text Nu St W J s -> json_all (leaf Nu St) St J)
    /\ (forall l s, items_text Nu St W l s -> Forall (json_all (leaf Nu St) St) l)
    /\ (forall l s, entries_text Nu St W l s -> Forall (fun e => St (fst e) /\ json_all (leaf Nu St) St (snd e)) l).
  Proof using.
    apply texts_mut.
    - intros v Hv. exact Hv.
    - intros w _. exact I.
    - intros l t _ IH. by apply all_arr.
    - intros w _. exact I.
    - intros l t _ IH. by apply all_obj.
    - intros. by constructor.
    - intros. by constructor.
    - intros. by constructor.
    - intros. by constructor.
  Qed.
  Hypothesis Hsp : W 32%N.
  Hypothesis Hnl : W 10%N.
  Lemma blank_line n : blank W (line n).
  Proof using All. unfold line. apply Forall_app. split; [by repeat constructor|]. apply Forall_forall. intros x Hx. apply elem_of_list_In, repeat_spec in Hx. by subst. Qed.
  Lemma blank_nil : blank W []. Proof using. constructor. Qed.
  Lemma items_join (f : json -> gostring) (g : json -> gostring) w : blank W w -> forall l, l <> [] ->
    Forall (fun J => blank W (g J) /\ value_text Nu St W J (f J)) l ->
    items_text Nu St W l (strjoin (L ",") (map (fun J => g J ++ f J) l) ++ w).
  Proof using.
    intros Hw. induction l as [|J l IH]; [done|]. intros _ H. apply Forall_cons in H as [[Hg Hf] H]. destruct l as [|J' l].
    - cbn [map strjoin]. rewrite <- app_assoc. by constructor.
    - specialize (IH ltac:(discriminate) H). replace (_ ++ w) with (g J ++ f J ++ [] ++ L "," ++ (strjoin (L ",") (map (fun J => g J ++ f J) (J' :: l)) ++ w)).
      + constructor; [done|done|constructor|exact IH].
      + cbn [map strjoin]. rewrite <- !app_assoc. done.
  Qed.
  Lemma entries_join (f : json -> gostring) w0 w : blank W w0 -> blank W w -> forall l, l <> [] ->
    Forall (fun e => St (fst e) /\ value_text Nu St W (snd e) (f (snd e))) l ->
    entries_text Nu St W l (strjoin (L ",") (map (fun e => w0 ++ fst e ++ L ": " ++ f (snd e)) l) ++ w).
  Proof using Hsp.
    intros Hw0 Hw. assert (Hs : blank W (L " ")) by (repeat constructor; exact Hsp).
    induction l as [|[k J] l IH]; [done|]. intros _ H. apply Forall_cons in H as [[Hg Hf] H]. cbn [fst snd] in *. destruct l as [|J' l].
    - cbn [map strjoin fst snd]. replace (_ ++ w) with (w0 ++ k ++ [] ++ L ":" ++ L " " ++ f J ++ w) by (rewrite <- !app_assoc; done).
      by constructor; [| |constructor|..].
    - specialize (IH ltac:(discriminate) H).
      replace (_ ++ w) with (w0 ++ k ++ [] ++ L ":" ++ L " " ++ f J ++ [] ++ L "," ++ (strjoin (L ",") (map (fun e => w0 ++ fst e ++ L ": " ++ f (snd e)) (J' :: l)) ++ w)).
      + by constructor; [| |constructor| | |constructor|].
      + cbn [map strjoin fst snd]. rewrite <- !app_assoc. done.
  Qed.
  Lemma layout_text J : json_all (leaf Nu St) St J -> forall n, value_text Nu St W J (layout n J).
  Proof using All.
    induction J as [v|l IH|l IH] using json_induct; intros H n.
    - by constructor.
    - apply all_arr in H. cbn [layout]. destruct l as [|J l].
      + apply (vt_no_items Nu St W []). constructor.
      + rewrite (app_assoc (strjoin _ _)). apply vt_items. apply (items_join (layout (S n)) (fun J => if nested J then line (S n) else [])); [|discriminate|].
        * destruct (existsb _ _); [apply blank_line|constructor].
        * rewrite Forall_forall in IH, H |- *. intros J' HJ. split; [destruct (nested J'); [apply blank_line|constructor]|]. apply IH; [done|]. by apply H.
    - apply all_obj in H. destruct l as [|[k J] [|e l]].
      + apply (vt_no_entries Nu St W []). constructor.
      + apply Forall_cons in H as [[Hk HJ] _]. apply Forall_cons in IH as [IH _]. cbn [fst snd] in *. cbn [layout].
        replace (_ ++ _) with (L "{" ++ ([] ++ k ++ [] ++ L ":" ++ L " " ++ layout n J ++ []) ++ L "}") by (rewrite !app_nil_r, <- !app_assoc; done).
        apply vt_entries. constructor; try constructor; try done. by apply IH.
      + set (l' := (k, J) :: e :: l) in *. change (layout n (JObj l')) with
          (L "{" ++ strjoin (L ",") (map (fun e => line (S n) ++ fst e ++ L ": " ++ layout (S n) (snd e)) l') ++ line n ++ L "}").
        replace (_ ++ strjoin _ _ ++ line n ++ L "}") with (L "{" ++ (strjoin (L ",") (map (fun e => line (S n) ++ fst e ++ L ": " ++ layout (S n) (snd e)) l') ++ line n) ++ L "}") by (rewrite <- !app_assoc; done).
        apply vt_entries. apply (entries_join (layout (S n))); [apply blank_line|apply blank_line|discriminate|].
        rewrite Forall_forall in IH, H |- *. intros e' He. destruct (H e' He) as [Hk HJ]. split; [exact Hk|]. by apply IH.
  Qed.
  Lemma doc_leaves J s : doc Nu St W J s -> json_all (leaf Nu St) St J.
  Proof using. intros (w1 & t & w2 & _ & Ht & _). by apply (proj1 text_leaves J t). Qed.
  Lemma doc_layout J s : doc Nu St W J s -> doc Nu St W J (layout 0 J).
  Proof using All.
    intros H. exists [], (layout 0 J), []. split; [constructor|]. split; [|split; [constructor|by rewrite app_nil_r]].
    apply layout_text. by eapply doc_leaves.
  Qed.
End Texts.

(** Texts of one kind as texts of another. *)
Section Other.
  Variables (Nu St Nu' St' Q K : gostring -> Prop) (W W' : N -> Prop) (u : gostring).
  Hypothesis HQ : forall v, leaf Nu St v -> Q v -> leaf Nu' St' v.
  Hypothesis HK : forall v, St v -> K v -> St' v.
  Hypothesis HW : forall c, W c -> c ∈ u -> W' c.
  Local Notation inside t := (forall c, c ∈ t -> c ∈ u).
  Lemma inside_app (a b : gostring) : inside (a ++ b) -> inside a /\ inside b.
  Proof using. intros H. split; intros c Hc; apply H; apply elem_of_app; [by left|by right]. Qed.
  Lemma blank_other w : inside w -> blank W w -> blank W' w.
  Proof using HW. intros Hi H. apply Forall_forall. intros c Hc. apply HW; [by eapply Forall_forall in H|by apply Hi]. Qed.
  Local Ltac cutup := repeat match goal with H : forall c, c ∈ (_ ++ _) -> c ∈ u |- _ => apply inside_app in H as [? H] end.
  Lemma text_other :
    (forall J s, value_text Nu St W J s -> inside s -> json_all Q K J -> value_text Nu' St' W' J s)
    /\ (forall l s, items_text Nu St W l s -> inside s -> Forall (json_all Q K) l -> items_text Nu' St' W' l s)
    /\ (forall l s, entries_text Nu St W l s -> inside s -> Forall (fun e => K (fst e) /\ json_all Q K (snd e)) l -> entries_text Nu' St' W' l s).
  Proof using All.
    apply texts_mut.
    - intros v Hv _ Hq. constructor. by apply HQ.
    - intros w Hw Hi _. cutup. constructor. by apply blank_other.
    - intros l t Ht IH Hi Ha. apply all_arr in Ha. cutup. constructor. by apply IH.
    - intros w Hw Hi _. cutup. constructor. by apply blank_other.
    - intros l t Ht IH Hi Ha. apply all_obj in Ha. cutup. constructor. by apply IH.
    - intros J w1 s w2 H1 Hs IH H2 Hi Ha. cutup. apply Forall_cons in Ha as [Ha _]. constructor; [by apply blank_other|by apply IH|by apply blank_other].
    - intros J l w1 s w2 t H1 Hs IH H2 Ht IH2 Hi Ha. cutup. apply Forall_cons in Ha as [Ha Hb]. constructor; [by apply blank_other|by apply IH|by apply blank_other|by apply IH2].
    - intros k J w1 w2 w3 s w4 H1 Hk H2 H3 Hs IH H4 Hi Ha. cutup. apply Forall_cons in Ha as [[Ha Hb] _]. cbn [fst snd] in *.
      constructor; [by apply blank_other|by apply HK|by apply blank_other|by apply blank_other|by apply IH|by apply blank_other].
    - intros k J l w1 w2 w3 s w4 t H1 Hk H2 H3 Hs IH H4 Ht IH2 Hi Ha. cutup. apply Forall_cons in Ha as [[Ha Hb] Hc]. cbn [fst snd] in *.
      constructor; [by apply blank_other|by apply HK|by apply blank_other|by apply blank_other|by apply IH|by apply blank_other|by apply IH2].
  Qed.
  Lemma doc_other J : doc Nu St W J u -> json_all Q K J -> doc Nu' St' W' J u.
  Proof using All.
    intros (w1 & t & w2 & H1 & Ht & H2 & E) Ha. assert (Hi : inside (w1 ++ t ++ w2)) by (intros c Hc; by rewrite E). cutup.
    exists w1, t, w2. split; [by apply blank_other|]. split; [by apply (proj1 text_other)|]. split; [by apply blank_other|done].
  Qed.
End Other.

(** * RFC 8259 *)
Lemma digits_in c v : digits v -> c ∈ v -> (48 <= c <= 57)%N.
Proof. intros H Hc. unfold digits in H. rewrite Forall_forall in H. by apply H. Qed.
Lemma unsigned_number v : rfc_unsigned v -> number_text v.
Proof.
  intros (i & f & -> & Hi & Hf). assert (Hd : digits i /\ i <> []).
  { destruct Hi as [->|(c & r & -> & Hc & Hr)]; split; try discriminate; [by repeat constructor|]. constructor; [lia|exact Hr]. }
  destruct Hd as [Hd Hne]. destruct Hf as [->|(r & -> & Hr & Hdr)].
  - exists [], [], i. rewrite app_nil_r. split; [done|]. split; [constructor|]. split; [by left|done].
  - exists i, (L "."), r. split; [done|]. split; [done|]. split; [by right|done].
Qed.
Lemma hex_escape a : hex a -> a <> 34%N /\ a <> 92%N. Proof. unfold hex. lia. Qed.
Lemma rfc_string_body b : rfc_body b -> string_body b.
Proof.
  induction 1 as [|c s H1 H2 H3 H IH|c s Hc H IH|a b c d s Ha Hb Hc Hd H IH].
  - constructor.
  - by constructor.
  - constructor; [|exact IH]. intros ->. revert Hc. apply (bool_decide_unpack (_ ∉ _)). vm_compute. exact I.
  - apply hex_escape in Ha as [? ?], Hb as [? ?], Hc as [? ?], Hd as [? ?]. apply (sb_escape 117 (a :: b :: c :: d :: s)); [lia|]. by repeat (constructor; [done|done|]).
Qed.
Lemma rfc_string_text v : rfc_string v -> string_text v.
Proof. intros (b & -> & H). exists b. split; [done|by apply rfc_string_body]. Qed.
Lemma rfc_spaces c : rfc_space c -> space_char c.
Proof. intros [->|[->|[->| ->]]]; reflexivity. Qed.
Lemma space_rfc c : space_char c -> c <> 12%N -> rfc_space c.
Proof. unfold space_char, lx_space, rfc_space. intros H Hn. repeat (rewrite ?orb_true_iff, ?andb_true_iff, ?N.eqb_eq, ?N.leb_le in H). lia. Qed.

(** Signs and exponents show outside the strings of a text. *)
Inductive scan := Out | Dig | Inside | Esc | Bad.
Definition scan1 (q : scan) (c : N) : scan :=
  match q with
  | Out => if (c =? 34)%N then Inside else if (c =? 45)%N then Bad else if rd_digit c then Dig else Out
  | Dig => if (c =? 34)%N then Inside else if (c =? 45)%N then Bad else if ((c =? 101) || (c =? 69))%N then Bad
      else if rd_digit c || (c =? 46)%N then Dig else Out
  | Inside => if (c =? 34)%N then Out else if (c =? 92)%N then Esc else Inside
  | Esc => Inside
  | Bad => Bad
  end.
Notation scans := (foldl scan1).
Definition calm (q : scan) : Prop := q = Out \/ q = Dig.
Lemma scans_app q a b : scans q (a ++ b) = scans (scans q a) b. Proof. apply foldl_app. Qed.
Lemma scans_bad a : scans Bad a = Bad. Proof. induction a; [done|]. assumption. Qed.
Lemma scans_digits q a : q = Dig \/ (q = Out /\ a <> []) -> digits a -> scans q a = Dig.
Proof.
  intros Hq H. revert q Hq. induction H as [|c r Hc Hr IH]; intros q Hq. { destruct Hq as [->|[_ E]]; [done|by destruct E]. }
  cbn [foldl]. apply IH. left. assert (Hd : rd_digit c = true) by (unfold rd_digit; apply andb_true_iff; rewrite !N.leb_le; lia).
  assert ((c =? 34)%N = false /\ (c =? 45)%N = false /\ (c =? 101)%N = false /\ (c =? 69)%N = false) as (E1 & E2 & E3 & E4) by (rewrite !N.eqb_neq; lia).
  destruct Hq as [->|[-> _]]; unfold scan1; by rewrite ?E1, ?E2, ?E3, ?E4, Hd.
Qed.
Lemma scans_body b q : string_body b -> q = Inside -> scans q b = Inside.
Proof.
  intros H. revert q. induction H as [|c s H1 H2 H IH|c s Hc H IH]; intros q ->; [done| |].
  - cbn [foldl]. apply IH. unfold scan1. apply N.eqb_neq in H1, H2. by rewrite H1, H2.
  - cbn [foldl]. by apply IH.
Qed.
Lemma scans_string v q : calm q -> string_text v -> scans q v = Out.
Proof.
  intros Hq (b & -> & Hb). unfold quoted. rewrite !scans_app. assert (E : scans q [34%N] = Inside) by (by destruct Hq as [->| ->]).
  by rewrite E, (scans_body b _ Hb eq_refl).
Qed.
Lemma scans_number v : number_text v -> scans Out v = Dig.
Proof.
  intros (a & p & b & -> & Ha & Hp & Hb & Hd). rewrite !scans_app. assert (Hc : calm (scans Out a)).
  { destruct a as [|c r]; [by left|]. right. by apply scans_digits; [by right|]. }
  assert (Hc2 : calm (scans (scans Out a) p)). { destruct Hc as [->| ->], Hp as [->| ->]; vm_compute; auto. }
  destruct Hc2 as [->| ->]; apply scans_digits; try done; [by right|by left].
Qed.
Section Scan.
  Variables (Nu St Q : gostring -> Prop) (W : N -> Prop).
  Definition verdict (P : Prop) (q : scan) : Prop := (calm q /\ P) \/ (q = Bad /\ ~ P).
  Hypothesis Hleaf : forall v, leaf Nu St v -> verdict (Q v) (scans Out v).
  Hypothesis HSt : forall v, St v -> string_text v.
  Hypothesis HW : forall c, W c -> space_char c.
  Local Notation K := (fun _ : gostring => True).
  Lemma scans_blank w q : blank W w -> calm q -> calm (scans q w).
  Proof using HW.
    intros H. revert q. induction H as [|c r Hc Hr IH]; intros q Hq; [done|]. cbn [foldl]. apply IH. left.
    apply HW in Hc. unfold space_char, lx_space in Hc. repeat rewrite ?orb_true_iff, ?N.eqb_eq in Hc.
    destruct Hq as [->| ->]; destruct Hc as [[[[->| ->]| ->]| ->]| ->]; reflexivity.
  Qed.
  Lemma blank_out w : blank W w -> scans Out w = Out.
  Proof using HW.
    induction 1 as [|c r Hc Hr IH]; [done|]. cbn [foldl]. replace (scan1 Out c) with Out; [done|].
    apply HW in Hc. unfold space_char, lx_space in Hc. repeat rewrite ?orb_true_iff, ?N.eqb_eq in Hc. by destruct Hc as [[[[->| ->]| ->]| ->]| ->].
  Qed.
  Lemma sep_out q c : calm q -> c ∈ L ",:]}" -> scan1 q c = Out.
  Proof using.
    intros Hq. assert (H : Forall (fun c => scan1 Out c = Out /\ scan1 Dig c = Out) (L ",:]}")) by (repeat constructor).
    rewrite Forall_forall in H. intros Hc. destruct (H c Hc), Hq as [->| ->]; done.
  Qed.
  Lemma verdict_end P q (w : gostring) c : verdict P q -> blank W w -> c ∈ L ",:]}" -> verdict P (scans q (w ++ [c])) /\ (P -> scans q (w ++ [c]) = Out).
  Proof using HW.
    intros [[Hq HP]|[-> HP]] Hw Hc; rewrite scans_app.
    - assert (E : scans (scans q w) [c] = Out). { cbn [foldl]. apply sep_out; [by apply scans_blank|done]. }
      rewrite E. split; [|done]. left. split; [by left|done].
    - rewrite !scans_bad. split; [|done]. by right.
  Qed.
  Lemma verdict_blank P q w : verdict P q -> blank W w -> verdict P (scans q w).
  Proof using HW. intros [[Hq HP]|[-> HP]] Hw. - left. split; [by apply scans_blank|done]. - right. by rewrite scans_bad. Qed.
  Lemma verdict_and P P' q t : verdict P q -> (P -> verdict P' (scans q t)) -> verdict (P /\ P') (scans q t).
  Proof using.
    intros [[Hq HP]|[-> HP]] H.
    - destruct (H HP) as [[Hq' HP']|[E HP']]; [left|right]; tauto.
    - right. rewrite scans_bad. tauto.
  Qed.
  Lemma verdict_iff P P' q : (P <-> P') -> verdict P q -> verdict P' q.
  Proof using. unfold verdict. tauto. Qed.
  Lemma key_colon k w2 w3 : St k -> blank W w2 -> blank W w3 -> scans Out (k ++ w2 ++ L ":" ++ w3) = Out.
  Proof using HSt HW.
    intros Hk H2 H3. rewrite !scans_app, (scans_string k Out (or_introl eq_refl) (HSt k Hk)), (blank_out w2 H2). change (scans Out (L ":")) with Out. by apply blank_out.
  Qed.
  Lemma scan_texts :
    (forall J s, value_text Nu St W J s -> verdict (json_all Q K J) (scans Out s))
    /\ (forall l s, items_text Nu St W l s -> verdict (Forall (json_all Q K) l) (scans Out s))
    /\ (forall l s, entries_text Nu St W l s -> verdict (Forall (fun e => K (fst e) /\ json_all Q K (snd e)) l) (scans Out s)).
  Proof using All.
    apply texts_mut.
    - intros v Hv. by apply Hleaf.
    - intros w Hw. left. split; [|done]. rewrite !scans_app. change (scans Out (L "[")) with Out. rewrite (blank_out w Hw). by left.
    - intros l t _ IH. rewrite scans_app. change (scans Out (L "[")) with Out. rewrite scans_app.
      apply (verdict_iff (Forall (json_all Q K) l)); [by rewrite all_arr|]. apply (verdict_end _ _ [] 93); [exact IH|constructor|].
      apply (bool_decide_unpack _). vm_compute. exact I.
    - intros w Hw. left. split; [|done]. rewrite !scans_app. change (scans Out (L "{")) with Out. rewrite (blank_out w Hw). by left.
    - intros l t _ IH. rewrite scans_app. change (scans Out (L "{")) with Out. rewrite scans_app.
      apply (verdict_iff (Forall (fun e => K (fst e) /\ json_all Q K (snd e)) l)); [by rewrite all_obj|]. apply (verdict_end _ _ [] 125); [exact IH|constructor|].
      apply (bool_decide_unpack _). vm_compute. exact I.
    - intros J w1 s w2 H1 _ IH H2. rewrite !scans_app, (blank_out w1 H1).
      apply (verdict_iff (json_all Q K J)); [rewrite Forall_singleton; done|]. by apply verdict_blank.
    - intros J l w1 s w2 t H1 _ IH H2 _ IH2.
      replace (w1 ++ s ++ w2 ++ L "," ++ t) with (w1 ++ s ++ (w2 ++ [44%N]) ++ t) by (rewrite <- !app_assoc; done).
      rewrite scans_app, (blank_out w1 H1), scans_app, scans_app. apply (verdict_iff (json_all Q K J /\ Forall (json_all Q K) l)); [by rewrite Forall_cons|].
      destruct (verdict_end _ _ w2 44%N IH H2) as [Hv He]. { apply (bool_decide_unpack _). vm_compute. exact I. }
      apply verdict_and; [exact Hv|]. intros HP. by rewrite (He HP).
    - intros k J w1 w2 w3 s w4 H1 Hk H2 H3 _ IH H4.
      replace (w1 ++ k ++ w2 ++ L ":" ++ w3 ++ s ++ w4) with (w1 ++ (k ++ w2 ++ L ":" ++ w3) ++ s ++ w4) by (rewrite <- !app_assoc; done).
      rewrite scans_app, (blank_out w1 H1), scans_app, (key_colon k w2 w3 Hk H2 H3), scans_app.
      apply (verdict_iff (json_all Q K J)); [rewrite Forall_singleton; cbn; tauto|]. by apply verdict_blank.
    - intros k J l w1 w2 w3 s w4 t H1 Hk H2 H3 _ IH H4 _ IH2.
      replace (w1 ++ k ++ w2 ++ L ":" ++ w3 ++ s ++ w4 ++ L "," ++ t) with (w1 ++ (k ++ w2 ++ L ":" ++ w3) ++ s ++ (w4 ++ [44%N]) ++ t) by (rewrite <- !app_assoc; done).
      rewrite scans_app, (blank_out w1 H1), scans_app, (key_colon k w2 w3 Hk H2 H3), scans_app, scans_app.
      apply (verdict_iff (json_all Q K J /\ Forall (fun e => K (fst e) /\ json_all Q K (snd e)) l)); [rewrite Forall_cons; cbn; tauto|].
      destruct (verdict_end _ _ w4 44%N IH H4) as [Hv He]. { apply (bool_decide_unpack _). vm_compute. exact I. }
      apply verdict_and; [exact Hv|]. intros HP. by rewrite (He HP).
  Qed.
  Lemma scan_doc J s : doc Nu St W J s -> verdict (json_all Q K J) (scans Out s).
  Proof using All.
    intros (w1 & t & w2 & H1 & Ht & H2 & ->). rewrite !scans_app, (blank_out w1 H1). apply verdict_blank; [|exact H2]. by apply (proj1 scan_texts).
  Qed.
End Scan.
Lemma word_scans v : v = L "true" \/ v = L "false" \/ v = L "null" -> calm (scans Out v).
Proof. intros [->|[->| ->]]; vm_compute; by left. Qed.
Lemma js_calm J s : js_doc J s -> calm (scans Out s).
Proof.
  intros H. destruct (scan_doc number_text string_text (fun _ => True) space_char) with (J := J) (s := s) as [[Hc _]|[_ Hn]]; try done.
  - intros v [Hv|[Hv|Hv]]; left; (split; [|done]); [right; by apply scans_number|left; apply scans_string; [by left|done]|by apply word_scans].
  - destruct Hn. clear H. induction J as [v|l IH|l IH] using json_induct; [done|apply all_arr|apply all_obj]; [done|].
    eapply Forall_impl; [exact IH|]. done.
Qed.
Lemma number_verdict v : rfc_number v -> verdict (rfc_number v -> rfc_unsigned v) (scans Out v).
Proof.
  intros Hv. destruct Hv as (m & i & f & e & E & Hm & Hi & Hf & He) eqn:HvE. clear HvE.
  assert (Hbad : scans Out v = Bad -> verdict (rfc_number v -> rfc_unsigned v) (scans Out v)).
  { intros Hb. right. split; [done|]. intros Hu. apply Hu in Hv. apply unsigned_number, scans_number in Hv. by rewrite Hb in Hv. }
  destruct Hm as [->| ->]. 2:{ apply Hbad. rewrite E, scans_app. apply scans_bad. }
  assert (Hd : scans Out (i ++ f) = Dig). { apply scans_number, unsigned_number. by exists i, f. }
  destruct He as [->|(e0 & s0 & r & -> & He0 & _)].
  - left. rewrite app_nil_r in E. subst v. cbn [app]. split; [by right|]. intros _. by exists i, f.
  - apply Hbad. rewrite E. cbn [app]. rewrite app_assoc, scans_app, Hd. destruct He0 as [->| ->]; apply scans_bad.
Qed.
Lemma rfc_verdict J s : rfc_doc J s -> verdict (json_all (fun v => rfc_number v -> rfc_unsigned v) (fun _ => True) J) (scans Out s).
Proof.
  apply scan_doc; [|exact rfc_string_text|exact rfc_spaces].
  intros v [Hv|Hv]; [by apply number_verdict|]. left. assert (Hc : calm (scans Out v) /\ scans Out v <> Dig).
  { destruct Hv as [Hv|Hv]; [rewrite scans_string; [|by left|by apply rfc_string_text]; split; [by left|done]|].
    destruct Hv as [->|[->| ->]]; vm_compute; (split; [by left|done]). }
  split; [apply Hc|]. intros (m & i & f & e & E & Hm & Hi & Hf & He). exfalso.
  destruct Hc as [Hc Hn]. destruct (number_verdict v) as [[Hq Hu]|[Hb _]]; [by exists m, i, f, e| |rewrite Hb in Hc; by destruct Hc].
  apply Hn, scans_number, unsigned_number, Hu. by exists m, i, f, e.
Qed.
(** A document of the RFC is one of the package's when no number has a sign or an exponent. *)
Lemma rfc_is_js J s : rfc_doc J s -> json_all (fun v => rfc_number v -> rfc_unsigned v) (fun _ => True) J -> js_doc J s.
Proof.
  apply doc_other.
  - intros v [Hv|[Hv|Hv]] Hq; [left; by apply unsigned_number, Hq|right; left; by apply rfc_string_text|by right; right].
  - intros v Hv _. by apply rfc_string_text.
  - intros c Hc _. by apply rfc_spaces.
Qed.
Lemma rfc_accepted J J' s : rfc_doc J s -> js_doc J' s -> json_all (fun v => rfc_number v -> rfc_unsigned v) (fun _ => True) J.
Proof. intros H H'. apply js_calm in H'. destruct (rfc_verdict J s H) as [[_ Ha]|[Hb _]]; [done|]. rewrite Hb in H'. by destruct H'. Qed.
Lemma js_is_rfc J s : js_doc J s -> 12%N ∉ s -> json_all (fun v => leaf rfc_number rfc_string v) rfc_string J -> rfc_doc J s.
Proof.
  intros H Hn. revert H. apply doc_other.
  - done.
  - done.
  - intros c Hc Hin. apply space_rfc; [done|]. intros ->. by apply Hn.
Qed.
