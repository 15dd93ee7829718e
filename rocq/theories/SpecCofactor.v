(** * Vocabulary for generalized cofactors. *)
From Verif Require Import Base SpecApi.

(** Going through the variables of [l], [r] does not leave [rho] before [s] does: at the first variable
    where [r] and [s] differ, [r] agrees with [rho]. *)
Fixpoint not_farther (l : list N) (rho r s : N -> bool) : Prop :=
  match l with
  | [] => True
  | i :: l => if Bool.eqb (r i) (s i) then not_farther l rho r s else r i = rho i
  end.
(** [r] is the projection of [rho] onto [C]: the assignment satisfying [C] that is nearest to [rho],
    where variables earlier in the order count more than all later ones together. *)
Definition projection (l : list N) (C : bfun) (rho r : N -> bool) : Prop :=
  C r = true /\ forall s, C s = true -> not_farther l rho r s.
(** The constrain operator. *)
Definition constrains (l : list N) (F C R : bfun) : Prop :=
  (forall rho r, projection l C rho r -> R rho = F r) /\ (forall rho, exists r, projection l C rho r) /\
  (forall rho, C rho = true -> R rho = F rho).
