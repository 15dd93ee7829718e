(** * The profile adds up to the size: property C65.

    [sum_to lc n] is the sum of the counts from level 0 to level n (SpecPrint.v). *)
From Coq Require Import ZArith String.
From Verif Require Import Base BFModel MgrModel ApiModel GraphModel PrintModel FProfPrint SpecApi SpecGraph SpecPrint Client ApiFacts FProfFacts ProfTotal.
Open Scope list_scope.
Open Scope N_scope.

(** C65: the counts of [Cal_BddProfileMultiple] add up to the result of [Cal_BddSizeMultiple]. *)
Theorem C65_profile_total : forall w l Fs, reachable w -> args (wh w) l -> each (means (wm w)) l Fs ->
  forall d1 d2 neg, exists n lc k1 k2 m1 m2,
    cal_size_multiple d1 (wm w) l neg = Ok ((n, k1), m1) /\ cal_profile_multiple d2 (wm w) l neg = Ok ((lc, k2), m2) /\
    n = sum_to lc (List.length (ord (mo (wm w)))).
Proof. exact profile_total. Qed.
Print Assumptions C65_profile_total.
(** The total [Cal_BddPrintProfileMultiple] prints in the last line is that size. *)
Theorem C65_printed_total : forall w l Fs, reachable w -> args (wh w) l -> each (means (wm w)) l Fs ->
  forall d1 d2 d3 naming len, exists n k1 m1 lines m2,
    cal_size_multiple d1 (wm w) l true = Ok ((n, k1), m1) /\ cal_print_profile_multiple d2 d3 (wm w) l naming len = Ok (Some lines, m2) /\
    last lines EmptyString = String.append "Total: " (dec_of n).
Proof. exact printed_total. Qed.
Print Assumptions C65_printed_total.
Example C65_example : reachable demo /\ args (wh demo) (h_var 3 :: repeat h_ite 1) /\ each (means (wm demo)) (h_var 3 :: repeat h_ite 1) (fn3 :: repeat fnite 1).
Proof. exact (conj (run_reachable _) (conj (copies_args 1) (copies_means 1))). Qed.
