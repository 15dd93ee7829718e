(** * Queries of the C++ class [Cal] about ranges of BDDs (executable model): /repo/src/calObj.hh:1347-1361, 1951-1969, 2063-2077. *)
From Coq Require Import ZArith.
From Verif Require Import Base BFModel MgrModel ApiModel GraphModel PrintModel FProfModel RangeModel.
Open Scope N_scope.

(** [Cal::Size] (/repo/src/calObj.hh:1347-1361). *)
Definition range_size (ds : nat -> dec) (neg : bool) (m : mgr) (r : range) : outcome (N * mgr) :=
  over m r (fun m1 v => obind (cal_size_multiple ds m1 v neg) (fun '((n, _), m2) => Ok (n, m2))).
(** [Cal::Profile] (/repo/src/calObj.hh:1951-1969): the counts are stored through [data()] of a vector for which storage has been
    reserved. *)
Definition range_profile (ds : nat -> dec) (neg : bool) (m : mgr) (r : range) : outcome (vec * mgr) :=
  over m r (fun m1 v => obind (cal_profile_multiple ds m1 v neg) (fun '((lc, _), m2) =>
    obind (store_counts (vars_of m2 + 1) (Some (fun k => Z.of_N (lc k))) (vec_reserve (vars_of m1 + 1) vec_new)) (fun x => Ok (x, m2)))).
(** [Cal::FunctionProfile] (/repo/src/calObj.hh:2063-2077). *)
Definition range_function_profile (ds : nat -> dec) (m : mgr) (r : range) : outcome (vec * mgr) :=
  over m r (fun m1 v => obind (cal_function_profile_multiple ds m1 v) (fun '(lc, m2) =>
    obind (store_counts (vars_of m2 + 1) (Some lc) (vec_reserve (vars_of m1 + 1) vec_new)) (fun x => Ok (x, m2)))).
