(** * Vocabulary for the properties of the graph algorithms: cubes, counting, restrictions. *)
From Verif Require Import Base BFModel SpecApi.
Open Scope N_scope.

(** The conjunction of literals: [(i, true)] stands for variable [i], [(i, false)] for its negation. *)
Definition cube_of (L : list (N * bool)) : bfun := fun rho => forallb (fun l => Bool.eqb (rho (fst l)) (snd l)) L.
Definition implies (F G : bfun) : Prop := forall rho, F rho = true -> G rho = true.

(** The number of assignments to the variables [vs] that satisfy [F]; the others as in [rho]. *)
Fixpoint sat_count (vs : list N) (F : bfun) (rho : N -> bool) : N :=
  match vs with
  | [] => if F rho then 1 else 0
  | v :: vs => sat_count vs F (assign rho v true) + sat_count vs F (assign rho v false)
  end.

(** [F] with the variables [vs] fixed to their values in [rho]. *)
Definition fixed (vs : list N) (rho : N -> bool) (F : bfun) : bfun :=
  fun r => F (fun v => if existsb (N.eqb v) vs then rho v else r v).
(** [G] arises from [F] by fixing the variables in the first [k] positions of the order. *)
Definition restriction (order : list N) (k : N) (F G : bfun) : Prop :=
  exists rho, same G (fixed (firstn (N.to_nat k) order) rho F).
(** [G] arises from one of the functions [Fs] by fixing some initial segment of the order. *)
Definition subfunction (order : list N) (Fs : list bfun) (G : bfun) : Prop :=
  exists F k, In F Fs /\ restriction order k F G.
(** The first variable in the order that [G] depends on is at position [k]; for a constant
    function [k] is the number of variables. *)
Definition top_at (order : list N) (G : bfun) (k : N) : Prop :=
  (forall j i, nth_error order j = Some i -> (j < N.to_nat k)%nat -> ~ depends G i) /\
  match nth_error order (N.to_nat k) with
  | Some i => depends G i
  | None => k = N.of_nat (length order)
  end.

Definition opposite (F G : bfun) : Prop := forall rho, F rho = negb (G rho).
Definition same_or_opposite (F G : bfun) : Prop := same F G \/ opposite F G.
(** There are exactly [n] functions with the property [P], where functions related by [eqv] count
    as one. *)
Definition number (eqv : bfun -> bfun -> Prop) (P : bfun -> Prop) (n : N) : Prop :=
  exists L, N.of_nat (length L) = n /\ (forall G, In G L -> P G) /\ (forall G, P G -> exists H, In H L /\ eqv G H) /\
    ForallOrdPairs (fun G H => ~ eqv G H) L.
(** What [Cal_BddSize] counts as one. *)
Definition up_to (negout : bool) : bfun -> bfun -> Prop := if negout then same_or_opposite else same.

(** The edges reachable from the edge [e] in the memory [mm]. *)
Inductive reaches (mm : memory) (e : edge) : edge -> Prop :=
| rc_self : reaches mm e e
| rc_then x : reaches mm e x -> isconst x = false -> reaches mm e (thenof mm x)
| rc_else x : reaches mm e x -> isconst x = false -> reaches mm e (elseof mm x).
