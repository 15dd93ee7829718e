(** * What is required of floating point rounding. *)
From Coq Require Import ZArith QArith Qabs.

(** 2^n *)
Definition p2 (n : nat) : Q := inject_Z (2 ^ Z.of_nat n).

(** [q] is a dyadic fraction [k / 2^n] in the unit interval. *)
Definition dyadic (n : nat) (q : Q) : Prop := exists k, (0 <= k <= 2 ^ Z.of_nat n)%Z /\ (q == inject_Z k / p2 n)%Q.

(** What is required of the rounding of doubles: it is monotone, keeps every multiple of
    2^-53 in the unit interval, and moves other numbers of the unit interval by at most 2^-54. *)
Record rounding (rnd : Q -> Q) : Prop := {
  rd_mono : forall a b, (a <= b)%Q -> (rnd a <= rnd b)%Q;
  rd_exact : forall q, dyadic 53 q -> (rnd q == q)%Q;
  rd_err : forall q, (0 <= q <= 1)%Q -> (Qabs (rnd q - q) <= 1 / p2 54)%Q
}.
