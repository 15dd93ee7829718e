(** * The last entry of the function profile (C48). *)
From Verif Require Import Base BFModel MgrModel ApiModel GraphModel SpecApi SpecGraph Client ApiFacts GraphFacts FProfSingle.
Open Scope N_scope.

(** C48, the entry behind those of the variables: the number of constant functions that arise from the function by fixing the
    variables up to some position of the order. *)
Theorem C48_last_entry : forall w f F d1 d2 R m', reachable w -> In f (wh w) -> means (wm w) f F ->
  cal_function_profile d1 d2 (wm w) f = Ok (Some R, m') ->
  exists c, R (N.of_nat (length (ord (mo m')))) = Z.of_N c /\
    number same (fun G => subfunction (ord (mo m')) [F] G /\ top_at (ord (mo m')) G (N.of_nat (length (ord (mo m'))))) c.
Proof. exact W_function_profile_last. Qed.
Print Assumptions C48_last_entry.
Example C48_last_example : exists R m', cal_function_profile dec1 dec1 (wm demo) h_ite = Ok (Some R, m') /\ R 4 = 2%Z.
Proof. exact fprofile_last_example. Qed.
