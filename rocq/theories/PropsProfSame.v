(** * Printed profiles depend on the set of functions only: property C63.

    See SpecGraph.v for the counting of subfunctions. *)
From Coq Require Import ZArith String.
From Verif Require Import Base BFModel MgrModel ApiModel GraphModel SpecApi SpecGraph Client ApiFacts FProfPrint FProfFacts ProfSame.
Open Scope list_scope.
Open Scope N_scope.

(** C63: two arrays with the same functions - in another order, with repetitions, through other handles - give the same text, whatever
    collections and reorganisations ([d1] to [d4]) the calls decide on. *)
Theorem C63_print_profile : forall w l Fs l' Fs', reachable w -> args (wh w) l -> each (means (wm w)) l Fs -> args (wh w) l' -> each (means (wm w)) l' Fs' ->
  (forall F, In F Fs -> exists F', In F' Fs' /\ same F F') -> (forall F', In F' Fs' -> exists F, In F Fs /\ same F' F) ->
  forall d1 d2 d3 d4 naming len, exists lines m1 m2,
    cal_print_profile_multiple d1 d2 (wm w) l naming len = Ok (Some lines, m1) /\ cal_print_profile_multiple d3 d4 (wm w) l' naming len = Ok (Some lines, m2).
Proof. exact print_same. Qed.
Print Assumptions C63_print_profile.
(** The same for the function profile. Partial: the bound of C60, for both arrays. *)
Theorem C63_print_function_profile_partial : forall w l Fs l' Fs' n, reachable w -> args (wh w) l -> each (means (wm w)) l Fs -> args (wh w) l' -> each (means (wm w)) l' Fs' ->
  (forall F, In F Fs -> exists F', In F' Fs' /\ same F F') -> (forall F', In F' Fs' -> exists F, In F Fs /\ same F' F) ->
  number same (subfunction (ord (mo (wm w))) Fs) n -> n + N.of_nat (List.length l) < 1280 -> n + N.of_nat (List.length l') < 1280 ->
  forall d1 d2 d3 d4 naming len, exists lines m1 m2,
    cal_print_function_profile_multiple d1 d2 (wm w) l naming len = Ok (Some lines, m1) /\ cal_print_function_profile_multiple d3 d4 (wm w) l' naming len = Ok (Some lines, m2).
Proof. exact fprint_same. Qed.
Print Assumptions C63_print_function_profile_partial.
(** A variable and one copy, or three copies, of another function. *)
Example C63_example : reachable demo /\ args (wh demo) (h_var 3 :: repeat h_ite 1) /\ each (means (wm demo)) (h_var 3 :: repeat h_ite 1) (fn3 :: repeat fnite 1) /\
  args (wh demo) (h_var 3 :: repeat h_ite 3) /\ each (means (wm demo)) (h_var 3 :: repeat h_ite 3) (fn3 :: repeat fnite 3) /\
  (forall F, In F (fn3 :: repeat fnite 1) -> exists F', In F' (fn3 :: repeat fnite 3) /\ same F F') /\
  (forall F', In F' (fn3 :: repeat fnite 3) -> exists F, In F (fn3 :: repeat fnite 1) /\ same F' F) /\
  number same (subfunction (ord (mo (wm demo))) (fn3 :: repeat fnite 1)) 9.
Proof.
  exact (conj (run_reachable _) (conj (copies_args 1) (conj (copies_means 1) (conj (copies_args 3) (conj (copies_means 3) (conj (copies_same 1 2) (conj (copies_same 3 0) copies_number))))))).
Qed.
