(** The language of a regular expression. *)
From Verif.model Require Export Regex.

Inductive in_re : re -> gostring -> Prop :=
| in_eps : in_re REps []
| in_set (p : N -> bool) x : p x = true -> in_re (RSet p) [x]
| in_cat a b u v : in_re a u -> in_re b v -> in_re (RCat a b) (u ++ v)
| in_alt_l a b u : in_re a u -> in_re (RAlt a b) u
| in_alt_r a b u : in_re b u -> in_re (RAlt a b) u
| in_star_nil a : in_re (RStar a) []
| in_star_cons a u v : in_re a u -> in_re (RStar a) v -> in_re (RStar a) (u ++ v)
| in_group n a u : in_re a u -> in_re (RGroup n a) u
| in_end : in_re REnd [].
