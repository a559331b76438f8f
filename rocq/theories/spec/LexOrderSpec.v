(** Rules that match the same text. *)
From Verif.spec Require Export LexSpec.

(** Nowhere in the text do two rules share the longest match. *)
Definition no_ties (D : list rdef) (s : gostring) : Prop :=
  forall k d e n, d ∈ D -> e ∈ D -> at_start (rd_re d) (drop k s) = Some n -> at_start (rd_re e) (drop k s) = Some n -> 0 < n ->
    (forall f m, f ∈ D -> at_start (rd_re f) (drop k s) = Some m -> m <= n) -> d = e.
