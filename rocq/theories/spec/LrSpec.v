(** Left recursion elimination, on grammars as the interface shows them. *)
From Coq Require Import String.
From Verif.spec Require Export CFG GrammarSpec TopdownSpec.
Local Open Scope list_scope.

Section LR.
  Variable g : grammar.

  (** One unfolding: a production that begins with one of the non-terminals [dn]
      has it replaced by one of its productions. *)
  Definition unfold_step (dn : list gostring) (p q : list gostring) : Prop :=
    exists B t ps lead, p = B :: t /\ B ∈ dn /\ g_prods g B = Some ps /\ lead ∈ ps /\ q = lead ++ t.
  Definition unfolded (dn : list gostring) (p : list gostring) : Prop :=
    forall B t, p = B :: t -> B ∉ dn.

  (** [unfolds dn p qs]: unfolding [p] as often as possible gives [qs], in order. *)
  Inductive unfolds (dn : list gostring) : list gostring -> list (list gostring) -> Prop :=
  | unf_stop p : unfolded dn p -> unfolds dn p [p]
  | unf_go B t ps qs : B ∈ dn -> g_prods g B = Some ps -> unfolds_each dn t ps qs -> unfolds dn (B :: t) qs
  with unfolds_each (dn : list gostring) : list gostring -> list (list gostring) -> list (list gostring) -> Prop :=
  | une_nil t : unfolds_each dn t [] []
  | une_cons t p ps qs rs : unfolds dn (p ++ t) qs -> unfolds_each dn t ps rs ->
      unfolds_each dn t (p :: ps) (qs ++ rs).

  (** The name given to the non-terminal made from [A]. *)
  Definition prime (A : gostring) : gostring := A ++ L "'".
  Definition starts (A : gostring) (p : list gostring) : bool :=
    match p with [] => false | x :: _ => bool_decide (x = A) end.
  Fixpoint drop_self (A : gostring) (p : list gostring) : list gostring :=
    match p with [] => [] | x :: r => if bool_decide (x = A) then drop_self A r else p end.
  Definition bases (A : gostring) (qs : list (list gostring)) : list (list gostring) :=
    List.filter (fun q => negb (starts A q)) qs.
  Definition rests (A : gostring) (qs : list (list gostring)) : list (list gostring) :=
    List.filter (fun q => match q with [] => false | _ => true end)
                (map (drop_self A) (List.filter (starts A) qs)).

  (** [eliminates dn nts M]: with [dn] treated already, treating [nts] in turn gives
      the non-terminals and productions [M]. *)
  Inductive eliminates : list gostring -> list gostring -> amap -> Prop :=
  | el_nil dn : eliminates dn [] []
  | el_plain dn A nts ps qs M : g_prods g A = Some ps -> unfolds_each dn [] ps qs ->
      (forall t, A :: t ∉ qs) -> eliminates (dn ++ [A]) nts M ->
      eliminates dn (A :: nts) ((A, qs) :: M)
  | el_direct dn A nts ps qs t M : g_prods g A = Some ps -> unfolds_each dn [] ps qs ->
      A :: t ∈ qs -> bases A qs <> [] -> eliminates (dn ++ [A]) nts M ->
      eliminates dn (A :: nts)
        ((A, map (fun q => q ++ [prime A]) (bases A qs)) ::
         (prime A, map (fun q => q ++ [prime A]) (rests A qs) ++ [[]]) :: M).

  (** Conditions on the input. *)
  Definition lr_tame : Prop :=
    g_wf g /\ NoDup (g_nts g) /\ (forall A ps, g_prods g A = Some ps -> ps <> []) /\
    (forall A, A ∈ g_nts g -> ~ mentions g (prime A)).
  Definition productive : Prop := forall A, A ∈ g_nts g -> exists w, derives g A w.
  Definition no_empty_productions : Prop := forall A ps, g_prods g A = Some ps -> [] ∉ ps.

  (** Unfolding the productions of each non-terminal at the non-terminals listed
      before it comes to an end. *)
  Definition unfolding_ends : Prop :=
    forall pre A post ps p, g_nts g = pre ++ A :: post -> g_prods g A = Some ps -> p ∈ ps ->
      Acc (fun q p => unfold_step pre p q) p.
  (** No unfolded production of [A] begins with [A] twice. *)
  Definition no_double : Prop :=
    forall pre A post ps p t, g_nts g = pre ++ A :: post -> g_prods g A = Some ps -> p ∈ ps ->
      ~ rtc (unfold_step pre) p (A :: A :: t).

  (** No production begins with a non-terminal listed before its own. *)
  Definition forward_starts : Prop :=
    forall pre A post ps B t, g_nts g = pre ++ A :: post -> g_prods g A = Some ps -> B :: t ∈ ps -> B ∉ pre.
End LR.
Scheme unfolds_mut := Minimality for unfolds Sort Prop
  with unfolds_each_mut := Minimality for unfolds_each Sort Prop.
Combined Scheme unfolds_ind2 from unfolds_mut, unfolds_each_mut.
