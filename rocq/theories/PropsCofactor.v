(** * Properties of the generalized cofactor: C17. *)
From Verif Require Import Base BFModel MgrModel ApiModel CofactorModel SpecApi SpecCofactor Client ApiFacts CofactorWorld.

(** C17: for a satisfiable care set the result agrees with the function where the care set holds; at any other
    assignment it has the value of the function at the projection of the assignment onto the care set. *)
Theorem C17_cofactor : forall w f c F C enum d1 d2, reachable w -> In f (wh w) -> In c (wh w) ->
  means (wm w) f F -> means (wm w) c C -> good_enum enum -> (exists rho, C rho = true) ->
  exists R, constrains (ord (mo (wm w))) F C R /\ computes (wm w) (cal_cofactor enum d1 d2 (wm w) f c) R.
Proof. exact (fun w f c F C enum d1 d2 R => W_cofactor w R f c F C enum d1 d2). Qed.
Print Assumptions C17_cofactor.
(** The documented result for an empty care set is the constant one. *)
Theorem C17_empty : forall w f c enum d1 d2, reachable w -> In f (wh w) -> In c (wh w) ->
  means (wm w) c (fun _ => false) -> good_enum enum ->
  computes (wm w) (cal_cofactor enum d1 d2 (wm w) f c) (fun _ => true).
Proof. exact (fun w f c enum d1 d2 R => W_cofactor_zero w R f c enum d1 d2). Qed.
Print Assumptions C17_empty.
Example C17_example :
  exists h m', cal_cofactor listed dec1 dec1 (wm demo) h_ite h_and = Ok (h, m') /\
     value m' h (fun i => i =? 3) = Some true /\ value m' h (fun i => i =? 4) = Some true /\ value m' h (fun i => i <=? 2) = Some false.
Proof. exact cofactor_example. Qed.
Example C17_projection_example : projection [1; 4; 2; 3] (fun rho => rho 1 && rho 2) (fun i => i =? 4) (fun i => negb (i =? 3)).
Proof. exact projection_example. Qed.
