(** * Properties of the exchange of two variables: C16. *)
From Verif Require Import Base BFModel MgrModel ApiModel SwapModel SpecApi SpecSubst Client ApiFacts ComposeWorld SwapWorld.

(** C16: the two variables are exchanged, whichever of them is above the other in the order. *)
Theorem C16_swapvars : forall w f g h F i j enum d, reachable w -> In f (wh w) -> In g (wh w) -> In h (wh w) ->
  means (wm w) f F -> means (wm w) g (fun rho => rho i) -> means (wm w) h (fun rho => rho j) -> good_enum enum ->
  returns (cal_swapvars enum d (wm w) f g h) (swapped i j F).
Proof. exact (fun w f g h F i j enum d R => W_swapvars_variables w R f g h F i j enum d). Qed.
Print Assumptions C16_swapvars.
(** Operands that are not variables stand for their topmost variables. *)
Theorem C16_topmost : forall w f g h F G H i j enum d, reachable w -> In f (wh w) -> In g (wh w) -> In h (wh w) ->
  means (wm w) f F -> means (wm w) g G -> means (wm w) h H -> good_enum enum ->
  topmost (wm w) G i -> topmost (wm w) H j -> (i = j -> same G H) ->
  returns (cal_swapvars enum d (wm w) f g h) (swapped i j F).
Proof. exact (fun w f g h F G H i j enum d R => W_swapvars w R f g h F G H i j enum d). Qed.
Print Assumptions C16_topmost.
(** A constant operand gives the null handle, and so does a null operand. *)
Theorem C16_constant : forall w f g h enum d, reachable w -> In f (wh w) -> In g (wh w) -> In h (wh w) -> good_enum enum ->
  cal_isconst (wm w) g = true \/ cal_isconst (wm w) h = true ->
  exists m', cal_swapvars enum d (wm w) f g h = Ok (unull, m').
Proof. exact (fun w f g h enum d R => W_swapvars_constant w R f g h enum d). Qed.
Print Assumptions C16_constant.
Theorem C16_null : forall w f g h enum d, reachable w -> arg (wh w) f -> arg (wh w) g -> arg (wh w) h ->
  (exists k, In k [f; g; h] /\ uisnull k = true) -> cal_swapvars enum d (wm w) f g h = Ok (unull, wm w).
Proof. exact (fun w f g h enum d R => W_swapvars_null w R f g h enum d). Qed.
Print Assumptions C16_null.
Example C16_example :
  (exists h m', cal_swapvars listed dec1 (wm demo) h_ite (h_var 3) (h_var 2) = Ok (h, m') /\
     value m' h (fun i => (i =? 1) || (i =? 2)) = Some false /\ value m' h (fun i => negb (i =? 4)) = Some true /\ value m' h (fun i => 3 <=? i) = Some true) /\
  (exists h m', cal_swapvars reversed dec1 (wm demo) h_and (h_var 2) (h_var 4) = Ok (h, m') /\
     value m' h (fun i => (i =? 1) || (i =? 4)) = Some true /\ value m' h (fun i => i <=? 3) = Some false).
Proof. exact swap_example. Qed.
Example C16_constant_example : cal_isconst (wm demo) (cal_one (wm demo)) = true.
Proof. exact swap_constant_example. Qed.
