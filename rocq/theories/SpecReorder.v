(** * Vocabulary for changing the variable order. *)
From Coq Require Import NArith List.
Import ListNotations.
Open Scope N_scope.

(** [l'] is [l] with the elements at the positions [k] and [k + 1] exchanged; unchanged if there are no such positions. *)
Definition exchanged (k : N) (l l' : list N) : Prop :=
  (exists l1 a b l2, l = l1 ++ a :: b :: l2 /\ l' = l1 ++ b :: a :: l2 /\ N.of_nat (length l1) = k) \/
  (N.of_nat (length l) <= k + 1 /\ l' = l).
(** [l'] comes from [l] by these exchanges, one after the other. *)
Fixpoint exchanges (sw : list N) (l l' : list N) : Prop :=
  match sw with [] => l' = l | k :: sw => exists l1, exchanged k l l1 /\ exchanges sw l1 l' end.
