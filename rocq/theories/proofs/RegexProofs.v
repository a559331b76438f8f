(** The preferred match of a regular expression, built up without backtracking. *)
From Coq Require Import Lia.
From Verif.model Require Import Regex.

Definition hd_is (r : re) (s : gostring) (c : caps) (s' : gostring) (c' : caps) : Prop :=
  exists l, rmatch r s c = (s', c') :: l.

Lemma hd_eps s c : hd_is REps s c s c.
Proof. by exists []. Qed.
Lemma hd_set (p : N -> bool) x t c : p x = true -> hd_is (RSet p) (x :: t) c t c.
Proof. intros H. exists []. cbn [rmatch]. by rewrite H. Qed.
Lemma hd_cat a b s c s1 c1 s2 c2 : hd_is a s c s1 c1 -> hd_is b s1 c1 s2 c2 -> hd_is (RCat a b) s c s2 c2.
Proof. intros [l E] [l2 E2]. eexists. cbn [rmatch]. rewrite E. cbn [flat_map]. rewrite E2. reflexivity. Qed.
Lemma hd_alt_l a b s c s' c' : hd_is a s c s' c' -> hd_is (RAlt a b) s c s' c'.
Proof. intros [l E]. eexists. cbn [rmatch]. rewrite E. reflexivity. Qed.
Lemma hd_alt_r a b s c s' c' : rmatch a s c = [] -> hd_is b s c s' c' -> hd_is (RAlt a b) s c s' c'.
Proof. intros E0 [l E]. eexists. cbn [rmatch]. rewrite E0, E. reflexivity. Qed.
Lemma hd_end c : hd_is REnd [] c [] c.
Proof. by exists []. Qed.
Lemma hd_group n a w s c c' : hd_is a (w ++ s) c s c' -> hd_is (RGroup n a) (w ++ s) c s ((n, w) :: c').
Proof.
  intros [l E]. eexists. cbn [rmatch]. rewrite E. cbn [map]. repeat f_equal.
  rewrite app_length. replace (length w + length s - length s) with (length w) by lia. apply take_app.
Qed.

(** A repetition that reads the pieces [us] and then cannot go on. *)
Lemma star_pieces a : forall us s c f,
  length (List.concat us ++ s) <= f ->
  Forall (fun u => u <> [] /\ forall t, hd_is a (u ++ t) c t c) us -> rmatch a s c = [] ->
  exists l, star_match (rmatch a) f (List.concat us ++ s) c = (s, c) :: l.
Proof.
  induction us as [|u us IH]; intros s c f Hf Hus Hs; cbn [List.concat app] in *.
  - destruct f; cbn [star_match]; [eauto|]. rewrite Hs. cbn [flat_map app]. eauto.
  - apply Forall_cons in Hus as [[Hne Hu] Hus]. rewrite <- app_assoc in *. rewrite app_length in Hf.
    destruct u as [|x u]; [done|]. cbn [length] in Hf. destruct f as [|f]; [lia|]. cbn [star_match].
    destruct (Hu (List.concat us ++ s)) as [l E]. rewrite E. cbn [flat_map].
    assert (Hlt : (length (List.concat us ++ s) <? length ((x :: u) ++ List.concat us ++ s)) = true).
    { apply Nat.ltb_lt. rewrite (app_length (x :: u)). cbn [length]. lia. }
    rewrite Hlt. destruct (IH s c f ltac:(lia) Hus Hs) as [l2 E2]. rewrite E2. cbn [app]. eauto.
Qed.
Lemma hd_star a us s c :
  Forall (fun u => u <> [] /\ forall t, hd_is a (u ++ t) c t c) us -> rmatch a s c = [] ->
  hd_is (RStar a) (List.concat us ++ s) c s c.
Proof. intros H1 H2. unfold hd_is. cbn [rmatch]. by apply star_pieces. Qed.

Definition stops (p : N -> bool) (s : gostring) : Prop := match s with x :: _ => p x = false | [] => True end.
Lemma set_stops p s c : stops p s -> rmatch (RSet p) s c = [].
Proof. destruct s as [|x s]; cbn [stops rmatch]; [done|]. by intros ->. Qed.
Lemma concat_singles {A} (w : list A) : List.concat (map (fun x => [x]) w) = w.
Proof. induction w as [|x w IH]; [done|]. cbn [map List.concat app]. by rewrite IH. Qed.
Lemma hd_run p w s c : (forall x, x ∈ w -> p x = true) -> stops p s -> hd_is (RStar (RSet p)) (w ++ s) c s c.
Proof.
  intros Hw Hs. pose proof (hd_star (RSet p) (map (fun x => [x]) w) s c) as H. rewrite concat_singles in H. apply H.
  - rewrite Forall_forall. intros u Hu. apply elem_of_list_In, in_map_iff in Hu as (x & <- & Hx).
    split; [done|]. intros t. apply hd_set. apply Hw. by apply elem_of_list_In.
  - by apply set_stops.
Qed.
Lemma hd_none p s c : stops p s -> hd_is (RStar (RSet p)) s c s c.
Proof. intros Hs. apply (hd_run p [] s c); [|done]. intros x Hx. by apply elem_of_nil in Hx. Qed.
Lemma hd_plus p x w s c : (forall y, y ∈ x :: w -> p y = true) -> stops p s ->
  hd_is (RPlus (RSet p)) (x :: w ++ s) c s c.
Proof.
  intros Hw Hs. eapply hd_cat; [apply hd_set; apply Hw; by left|]. apply hd_run; [|done]. intros y Hy. apply Hw. by right.
Qed.
Lemma find_hd r s c s' : hd_is r s [] s' c -> find_sub r s = Some (0, take (length s - length s') s, c).
Proof. intros [l E]. destruct s; cbn [find_sub]; by rewrite E. Qed.
Lemma find_some r s : (exists x, x ∈ rmatch r [] []) -> exists m, find_sub r s = Some m.
Proof.
  intros [x Hx]. induction s as [|y s [[[i m] c] IH]]; cbn [find_sub].
  - destruct (rmatch r [] []) as [|[? ?] ?]; [by apply elem_of_nil in Hx|]. eauto.
  - destruct (rmatch r (y :: s) []) as [|[? ?] ?]; [|eauto]. rewrite IH. eauto.
Qed.
