(** * Specification: node memory. *)
From Verif Require Import Base BFModel MgrModel.

(** A cell of node memory is in use as a node of a variable (or a user node, number 0), or free for new nodes of one. *)
Definition holds_node (m : mgr) (a : N) : Prop := exists v, In v (0 :: ord (mo m)) /\ In a (ut (st (me m)) v).
Definition free_cell (m : mgr) (a : N) : Prop := exists v, In v (0 :: ord (mo m)) /\ In a (fl (st (me m)) v).
(** The cells known before, and those taken from the system in between, are in use or free. *)
Definition no_cell_lost (m m' : mgr) : Prop := forall a,
  holds_node m a \/ free_cell m a \/ nx (st (me m)) <= a < nx (st (me m')) -> holds_node m' a \/ free_cell m' a.
