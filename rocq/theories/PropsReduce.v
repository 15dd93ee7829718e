(** * Properties of reduction by a care set: C18, C19. *)
From Verif Require Import Base BFModel MgrModel ApiModel CofactorModel ReduceOpModel SpecApi SpecGraph SpecReduce Client ApiFacts ReduceWorld.

(** C18 for every care set that is not empty: the result agrees with the function where the care set holds, and has
    no more nodes. *)
Theorem C18_reduce_partial : forall w f c F C enum d1 d2 d3 d4, reachable w -> In f (wh w) -> In c (wh w) ->
  means (wm w) f F -> means (wm w) c C -> good_enum enum -> (exists rho, C rho = true) ->
  exists R, agrees_on C F R /\ no_larger (ord (mo (wm w))) R F /\ computes (wm w) (cal_reduce enum d1 d2 d3 d4 (wm w) f c) R.
Proof. exact (fun w f c F C enum d1 d2 d3 d4 R => W_reduce w R f c F C enum d1 d2 d3 d4). Qed.
Print Assumptions C18_reduce_partial.
(** The claim says "for every care set"; with the empty one the behaviour is undefined: the size of a handle for the null
    node is measured. *)
Theorem C18_refuted : exists w f c F enum d1 d2 d3 d4, reachable w /\ In f (wh w) /\ In c (wh w) /\ means (wm w) f F /\
  means (wm w) c (fun _ => false) /\ good_enum enum /\ cal_reduce enum d1 d2 d3 d4 (wm w) f c = Undefined.
Proof. exact reduce_refuted. Qed.
Print Assumptions C18_refuted.
Example C18_example :
  exists h m', cal_reduce listed dec1 dec1 dec1 dec1 (wm demo) h_ite h_and = Ok (h, m') /\
     value m' h (fun i => i =? 3) = Some true /\ value m' h (fun i => i =? 4) = Some true /\ value m' h (fun i => i <=? 2) = Some false.
Proof. exact reduce_example. Qed.
Example C18_example_below :
  exists h m', cal_reduce listed dec1 dec1 dec1 dec1 (wm demo) (h_var 2) h_and = Ok (h, m') /\
     value m' h (fun _ => true) = Some true /\ value m' h (fun _ => false) = Some true.
Proof. exact reduce_pull_example. Qed.

(** C19 for every interval but the one from zero to one. *)
Theorem C19_between_partial : forall w f g F G enum d1 d2 d3 d4 d5, reachable w -> In f (wh w) -> In g (wh w) ->
  means (wm w) f F -> means (wm w) g G -> good_enum enum -> implies F G -> (exists rho, F rho = true \/ G rho = false) ->
  exists R, implies F R /\ implies R G /\ (no_larger (ord (mo (wm w))) R F \/ no_larger (ord (mo (wm w))) R G) /\
    computes (wm w) (cal_between enum d1 d2 d3 d4 d5 (wm w) f g) R.
Proof. exact (fun w f g F G enum d1 d2 d3 d4 d5 R => W_between w R f g F G enum d1 d2 d3 d4 d5). Qed.
Print Assumptions C19_between_partial.
Theorem C19_refuted : exists w f g F G enum d1 d2 d3 d4 d5, reachable w /\ In f (wh w) /\ In g (wh w) /\ means (wm w) f F /\
  means (wm w) g G /\ implies F G /\ good_enum enum /\ cal_between enum d1 d2 d3 d4 d5 (wm w) f g = Undefined.
Proof. exact between_refuted. Qed.
Print Assumptions C19_refuted.
Example C19_example :
  exists h m', cal_between listed dec1 dec1 dec1 dec1 dec1 (wm demo) h_and (h_var 1) = Ok (h, m') /\
     value m' h (fun i => i =? 1) = Some true /\ value m' h (fun i => i =? 2) = Some false.
Proof. exact between_example. Qed.
