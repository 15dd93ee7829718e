(** * Property of the function profile of several functions: C60. *)
From Verif Require Import Base BFModel MgrModel ApiModel GraphModel FProfModel SpecApi SpecGraph Client ApiFacts GraphFacts FProfFacts.
Open Scope N_scope.

(** C60: for an array of functions, the entry for the k-th variable of the order is the number of different functions that
    arise from the functions of the array by fixing the variables above it, if one of the functions depends on that variable,
    and 0 otherwise; the last entry is the number of constant functions that arise in this way.
    Partial: only if the functions below those of the array and the entries of the array are together fewer than 1280; the claim
    without this is false, see below. *)
Theorem C60_function_profile_multiple_partial : forall w l Fs ds n, reachable w -> args (wh w) l -> each (means (wm w)) l Fs ->
  number same (subfunction (ord (mo (wm w))) Fs) n -> n + N.of_nat (length l) < 1280 ->
  exists R m', cal_function_profile_multiple ds (wm w) l = Ok (R, m') /\ mo m' = mo (wm w) /\
  (exists c, R (N.of_nat (length (ord (mo m')))) = Z.of_N c /\
     number same (fun G => subfunction (ord (mo m')) Fs G /\ top_at (ord (mo m')) G (N.of_nat (length (ord (mo m'))))) c) /\
  forall k i, nth_error (ord (mo m')) (N.to_nat k) = Some i ->
    ((exists F, In F Fs /\ depends F i) -> exists c, R k = Z.of_N c /\ number same (fun G => exists F, In F Fs /\ restriction (ord (mo m')) k F G) c) /\
    (~ (exists F, In F Fs /\ depends F i) -> R k = 0%Z).
Proof. exact W_function_profile_multiple. Qed.
Print Assumptions C60_function_profile_multiple_partial.
(** Two functions, x3 and if x3 then x1 and x2 else x4; the order is 1, 4, 2, 3, and x3 arises from the other by fixing 1, 4 and 2. *)
Example C60_example : reachable demo /\ args (wh demo) (h_var 3 :: repeat h_ite 1) /\
  each (means (wm demo)) (h_var 3 :: repeat h_ite 1) (fn3 :: repeat fnite 1) /\
  number same (subfunction (ord (mo (wm demo))) (fn3 :: repeat fnite 1)) 9 /\
  exists R m', cal_function_profile_multiple (fun _ => dec1) (wm demo) (h_var 3 :: repeat h_ite 1) = Ok (R, m') /\
  map R [0; 1; 2; 3; 4] = [2; 3; 5; 4; 2]%Z.
Proof. exact (conj (run_reachable _) (conj (copies_args 1) (conj (copies_means 1) (conj copies_number copies_small)))). Qed.

(** Without the bound: the first entry says one function although the array has two different ones. *)
Theorem C60_rehash_refuted : exists w l Fs R m', reachable w /\ args (wh w) l /\ each (means (wm w)) l Fs /\
  cal_function_profile_multiple (fun _ => dec1) (wm w) l = Ok (R, m') /\
  (exists i F, nth_error (ord (mo (wm w))) 0 = Some i /\ In F Fs /\ depends F i) /\ R 0 = 1%Z /\
  ~ number same (fun G => exists F, In F Fs /\ restriction (ord (mo (wm w))) 0 F G) 1.
Proof. exact rehash_wrong. Qed.
Print Assumptions C60_rehash_refuted.
