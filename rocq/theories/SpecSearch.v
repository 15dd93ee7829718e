(** * What a search for a better order has to achieve (specification). *)
From Coq Require Import ZArith List Permutation.
From Verif Require Import SearchModel.
Import ListNotations.
Open Scope Z_scope.

(** The outcome [l'] is one of the orders tried, as is the order [l] at the start; none of the orders tried is better, and all
    of them are orders of the same items. *)
Definition best_tried {A} (size : list A -> Z) (l l' : list A) (tried : list (list A)) : Prop :=
  In l' tried /\ In l tried /\ (forall o, In o tried -> size l' <= size o) /\ (forall o, In o tried -> Permutation l o).

(** The same blocks; only blocks marked as reorderable may have their children in another order. *)
Inductive arranged : tree -> tree -> Prop :=
| arr i re ch mid ch' : (re = true -> Permutation ch mid) -> (re = false -> mid = ch) -> all_arranged mid ch' -> arranged (T i re ch) (T i re ch')
with all_arranged : list tree -> list tree -> Prop :=
| aa_nil : all_arranged [] []
| aa_cons t t' l l' : arranged t t' -> all_arranged l l' -> all_arranged (t :: l) (t' :: l').
Definition best_tree (size : tree -> Z) (t t' : tree) (tried : list tree) : Prop :=
  In t' tried /\ In t tried /\ (forall o, In o tried -> size t' <= size o) /\ (forall o, In o tried -> arranged t o).

(** No block has more children than there are variables. *)
Fixpoint at_most (nv : nat) (t : tree) : Prop :=
  let '(T _ _ ch) := t in (length ch <= nv)%nat /\ (fix all l := match l with [] => True | c :: l => at_most nv c /\ all l end) ch.

(** [o] is [l] with the [w] items from position [i] on in another order. *)
Definition window_order {A} (w i : nat) (l o : list A) : Prop :=
  exists p m m' q, l = p ++ m ++ q /\ o = p ++ m' ++ q /\ length p = i /\ length m = w /\ Permutation m m'.
(** [o] is [l] with the item at position [i] at another place. *)
Definition item_elsewhere {A} (i : nat) (l o : list A) : Prop :=
  exists p x q p' q', l = p ++ x :: q /\ length p = i /\ o = p' ++ x :: q' /\ p ++ q = p' ++ q'.
