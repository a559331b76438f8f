From Verif.model Require Export GoBase.

(** What "the Go call returns r / panics / does not terminate" means for a model
    function of fuel. *)
Definition returns {A} (f : nat -> res A) (r : A) : Prop :=
  exists F, forall fuel, F <= fuel -> f fuel = Ok r.
Definition panics {A} (f : nat -> res A) : Prop :=
  exists F, forall fuel, F <= fuel -> f fuel = Panic.
Definition diverges {A} (f : nat -> res A) : Prop :=
  forall fuel, f fuel = OutOfFuel.
