(** Goroutines sharing a small grammar. *)
From Coq Require Import String.
From Verif.model Require Import Threads.
From Verif.spec Require Import GrammarSpec ThreadSpec.
From Verif.proofs Require Import ThreadProofs.
Local Open Scope nat_scope.
Local Open Scope list_scope.

Definition sh_def : gostring := L "S -> a S" ++ [c_nl] ++ L "-> b".
Definition sh_g : gr := default gr_empty (gr_new sh_def).
Definition sh_lx (k : gostring) : lexeme := Lx k k 1 1.
Definition sh_ab : list lexeme := [sh_lx (L "a"); sh_lx (L "b")].
Definition sh_jobs : list job :=
  [JPackrat sh_ab; JTopdown sh_ab; JLeftRecursive; JPackrat [sh_lx (L "zzz")]; JCall (CProductions (L "a", false)); JCall CString].

Lemma sh_built : built sh_g.
Proof. exists sh_g, []. split; [|done]. right. exists sh_def. vm_compute. reflexivity. Qed.

(** The goroutines take turns in the given order. *)
Fixpoint play {R} (order : list nat) (cf : gr * list (prog R)) : gr * list (prog R) :=
  match order with
  | [] => cf
  | i :: r =>
      play r (match snd cf !! i with
              | Some (Call c k) => (snd (gr_call (fst cf) c), <[i := k (fst (gr_call (fst cf) c))]> (snd cf))
              | _ => cf
              end)
  end.
Lemma play_turns {R} order : forall cf : gr * list (prog R), rtc turn cf (play order cf).
Proof.
  induction order as [|i order IH]; intros [g ts]; cbn [play]; [apply rtc_refl|].
  cbn [fst snd]. destruct (ts !! i) as [[r|c k]|] eqn:E; [apply IH| |apply IH].
  eapply rtc_l; [|apply IH]. by constructor.
Qed.
Definition finished {R} (p : prog R) : option R := match p with Done r => Some r | Call _ _ => None end.
Definition sh_order : list nat := mjoin (replicate 12 [0; 1; 2; 3; 4; 5]).
Definition sh_tree : pn :=
  PN (Lx (L "S") [] 1 1) [PN (sh_lx (L "a")) []; PN (Lx (L "S") [] 1 1) [PN (sh_lx (L "b")) []]].

Lemma sh_runs :
  built sh_g /\ Forall reading sh_jobs /\ Forall (polite (gr_view sh_g)) sh_jobs
  /\ exists ts, rtc turn (sh_g, map (job_prog 40) sh_jobs) (sh_g, ts)
       /\ exists t2, map finished ts
          = [Some (OTree (Ok (Some sh_tree))); Some (OTree (Ok (Some t2))); Some (OBool (Ok false)); Some (OTree (Ok None));
             Some (OAnswer (AProds None)); Some (OAnswer (AText (L "S -> a S" ++ [c_nl] ++ L "  -> b")))].
Proof.
  split_and!; [apply sh_built|repeat constructor| |].
  - do 4 (constructor; [exact I|]). constructor; [|constructor; [exact I|constructor]]. right. exists (L "S"), [[L "a"; L "S"]; [L "b"]], [L "a"; L "S"]. split_and!; [vm_compute; reflexivity|left|left].
  - exists (snd (play sh_order (sh_g, map (job_prog 40) sh_jobs))). split.
    + pose proof (play_turns sh_order (sh_g, map (job_prog 40) sh_jobs)) as H.
      rewrite (surjective_pairing (play sh_order _)) in H.
      replace (fst (play sh_order (sh_g, map (job_prog 40) sh_jobs))) with sh_g in H by (vm_compute; reflexivity). exact H.
    + eexists. vm_compute. reflexivity.
Qed.

Lemma sh_race : exists g jobs, built g /\ Forall reading jobs
  /\ exists j j2, jobs = [j; j2] /\ forall fuel, about_to_write g (job_prog fuel j) /\ about_to_write g (job_prog fuel j2).
Proof.
  exists sh_g, [JCall (CProductions (L "x", false)); JCall (CProductions (L "y", false))].
  split_and!; [apply sh_built|repeat constructor|]. do 2 eexists. split; [reflexivity|]. intros fuel.
  split; do 2 eexists; (split; [reflexivity|]).
  all: intros E; apply (f_equal (fun g => sym_count (gr_set g))) in E; vm_compute in E; discriminate E.
Qed.
