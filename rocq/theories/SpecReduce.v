(** * Vocabulary for reduction by a care set. *)
From Verif Require Import Base SpecApi SpecGraph.
Open Scope N_scope.

(** [F] has no more nodes than [G], counted as by [Cal_BddSize] (C22): a function and its complement share a node. *)
Definition no_larger (order : list N) (F G : bfun) : Prop :=
  exists n k, number same_or_opposite (subfunction order [F]) n /\ number same_or_opposite (subfunction order [G]) k /\ n <= k.
(** The functions that agree with [F] wherever [C] holds. *)
Definition agrees_on (C F R : bfun) : Prop := forall rho, C rho = true -> R rho = F rho.
