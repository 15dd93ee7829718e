(** * Printing the profile of a range of BDDs (executable model): /repo/src/calObj.hh:2009-2024, 2123-2137. *)
From Coq Require Import ZArith String.
From Verif Require Import Base BFModel MgrModel ApiModel GraphModel PrintModel FProfModel FProfPrint RangeModel.
Open Scope N_scope.

(** [Cal::PrintProfile] (/repo/src/calObj.hh:2009-2024): no naming function. *)
Definition range_print_profile (d1 d2 : nat -> dec) (len : Z) (m : mgr) (r : range) : outcome (option (list string) * mgr) :=
  over m r (fun m1 v => cal_print_profile_multiple d1 d2 m1 v (fun _ => None) len).
(** [Cal::PrintFunctionProfile] (/repo/src/calObj.hh:2123-2137). *)
Definition range_print_function_profile (d1 d2 : nat -> dec) (len : Z) (m : mgr) (r : range) : outcome (option (list string) * mgr) :=
  over m r (fun m1 v => cal_print_function_profile_multiple d1 d2 m1 v (fun _ => None) len).
