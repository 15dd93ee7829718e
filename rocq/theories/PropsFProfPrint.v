(** * Property of the printed profiles of several functions: C61.

    See SpecGraph.v for the counting of subfunctions and SpecPrint.v for the layout of the text. *)
From Coq Require Import String.
From Verif Require Import Base BFModel MgrModel ApiModel GraphModel PrintModel FProfModel FProfPrint SpecApi SpecGraph SpecPrint Client ApiFacts FProfFacts FProfPrintFacts.
Open Scope N_scope.

(** C61: the text [Cal_BddPrintProfileMultiple] prints shows, for every level, the number of nodes below the functions of the array;
    nodes shared by the functions count once. *)
Theorem C61_print_profile_multiple : forall w l Fs d1 d2 naming len, reachable w -> args (wh w) l -> each (means (wm w)) l Fs ->
  exists lines lc m', cal_print_profile_multiple d1 d2 (wm w) l naming len = Ok (Some lines, m') /\
    profile_text naming len (ord (mo m')) lc lines /\
    forall k, number (up_to true) (fun G => subfunction (ord (mo m')) Fs G /\ top_at (ord (mo m')) G k) (lc k).
Proof. exact W_print_profile_multiple. Qed.
Print Assumptions C61_print_profile_multiple.
(** The same for the function profile.  The line for the leaves shows the number of constant functions.  Partial: the bound of C60. *)
Theorem C61_print_function_profile_multiple_partial : forall w l Fs d1 d2 naming len n, reachable w -> args (wh w) l -> each (means (wm w)) l Fs ->
  number same (subfunction (ord (mo (wm w))) Fs) n -> n + N.of_nat (List.length l) < 1280 ->
  exists lines lc m', cal_print_function_profile_multiple d1 d2 (wm w) l naming len = Ok (Some lines, m') /\
    profile_text naming len (ord (mo m')) lc lines /\
    number same (fun G => subfunction (ord (mo m')) Fs G /\ top_at (ord (mo m')) G (N.of_nat (List.length (ord (mo m'))))) (lc (N.of_nat (List.length (ord (mo m'))))) /\
    forall k i, nth_error (ord (mo m')) (N.to_nat k) = Some i ->
      ((exists F, In F Fs /\ depends F i) -> number same (fun G => exists F, In F Fs /\ restriction (ord (mo m')) k F G) (lc k)) /\
      (~ (exists F, In F Fs /\ depends F i) -> lc k = 0).
Proof. exact W_print_function_profile_multiple. Qed.
Print Assumptions C61_print_function_profile_multiple_partial.
(** The array of the example for C60. *)
Example C61_example : reachable demo /\ args (wh demo) (h_var 3 :: repeat h_ite 1) /\
  each (means (wm demo)) (h_var 3 :: repeat h_ite 1) (fn3 :: repeat fnite 1) /\
  number same (subfunction (ord (mo (wm demo))) (fn3 :: repeat fnite 1)) 9 /\
  (exists m', cal_print_profile_multiple (fun _ => dec1) (fun _ => dec1) (wm demo) (h_var 3 :: repeat h_ite 1) (fun _ => None) 79 =
    Ok (Some ["var.0: 1 #"; "var.1: 2 ##"; "var.2: 2 ##"; "var.3: 1 #"; "leaf:  1 #"; "Total: 7"]%string, m')) /\
  (exists m', cal_print_function_profile_multiple (fun _ => dec1) (fun _ => dec1) (wm demo) (h_var 3 :: repeat h_ite 1) (fun _ => None) 79 =
    Ok (Some ["var.0: 2 ##"; "var.1: 3 ###"; "var.2: 5 #####"; "var.3: 4 ####"; "leaf:  2 ##"; "Total: 16"]%string, m')).
Proof.
  exact (conj (run_reachable _) (conj (copies_args 1) (conj (copies_means 1) (conj copies_number (conj print_array_example print_array_function_example))))).
Qed.
