(** * Properties of the substitution of one variable: C13. *)
From Verif Require Import Base BFModel MgrModel ApiModel ComposeModel SpecApi SpecSubst Client ApiFacts ComposeWorld.

(** C13: composing replaces the variable by the function, whatever the order of the variables and the sizes. *)
Theorem C13_compose : forall w f g h F H i enum d, reachable w -> In f (wh w) -> In g (wh w) -> In h (wh w) ->
  means (wm w) f F -> means (wm w) g (fun rho => rho i) -> means (wm w) h H -> good_enum enum ->
  returns (cal_compose enum d (wm w) f g h) (replace_var F i H).
Proof. exact (fun w f g h F H i enum d R => W_compose_variable w R f g h F H i enum d). Qed.
Print Assumptions C13_compose.
(** If the second operand is not a variable, its topmost variable is replaced. *)
Theorem C13_topmost : forall w f g h F G H i enum d, reachable w -> In f (wh w) -> In g (wh w) -> In h (wh w) ->
  means (wm w) f F -> means (wm w) g G -> means (wm w) h H -> good_enum enum -> topmost (wm w) G i ->
  returns (cal_compose enum d (wm w) f g h) (replace_var F i H).
Proof. exact (fun w f g h F G H i enum d R => W_compose w R f g h F G H i enum d). Qed.
Print Assumptions C13_topmost.
(** If it is a constant, the first operand is returned. *)
Theorem C13_constant : forall w f g h F enum d, reachable w -> In f (wh w) -> In g (wh w) -> In h (wh w) ->
  means (wm w) f F -> good_enum enum -> cal_isconst (wm w) g = true -> returns (cal_compose enum d (wm w) f g h) F.
Proof. exact (fun w f g h F enum d R => W_compose_constant w R f g h F enum d). Qed.
Print Assumptions C13_constant.
Example C13_example :
  (exists h m', cal_compose listed dec1 (wm demo) h_ite (h_var 3) h_and = Ok (h, m') /\
     value m' h (fun i => i <=? 2) = Some true /\ value m' h (fun i => i =? 3) = Some false) /\
  (exists h m', cal_compose listed dec1 (wm demo) h_ite h_and (h_var 4) = Ok (h, m') /\
     value m' h (fun i => 2 <=? i) = Some true /\ value m' h (fun i => i =? 4) = Some true /\ value m' h (fun i => i <=? 3) = Some false).
Proof. exact compose_example. Qed.
Example C13_topmost_example : topmost (wm demo) (fun rho => rho 1 && rho 2) 1.
Proof. exact topmost_example. Qed.
(** Unlike the other operations, composition does not check for null operands: it reads through the null handle. *)
Theorem C13_null_refuted : exists w f g, reachable w /\ In f (wh w) /\ In g (wh w) /\
  forall enum d, cal_compose enum d (wm w) f g unull = Undefined.
Proof. exact compose_refuted. Qed.
Print Assumptions C13_null_refuted.
