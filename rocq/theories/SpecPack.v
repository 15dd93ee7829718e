(** * What compaction of the node memory promises.

    The memory of every variable is handed out in pages of [npp] nodes.  Independently of how nodes are moved: the
    number of nodes of each variable and the total stay, and a variable whose pages are thinly filled afterwards has
    no more pages than its nodes need, plus one that is not full. *)
From Verif Require Import Base BFModel MgrModel ApiModel.
Open Scope N_scope.

Definition nodes_of (m : mgr) (i : N) : N := N.of_nat (length (ut (st (me m)) i)).
Definition cells_of (m : mgr) (i : N) : N := N.of_nat (length (ut (st (me m)) i) + length (fl (st (me m)) i)).

(** More than three pages ([CAL_NUM_PAGES_THRESHOLD]), and less than the fraction [tnum]/[tden] of their room is used. *)
Definition thin (npp tnum tden : N) (m : mgr) (i : N) : Prop :=
  exists pages, (pages - 1) * npp < cells_of m i <= pages * npp /\ 3 < pages /\ nodes_of m i * tden < tnum * pages * npp.

Definition compact (npp tnum tden : N) (m m' : mgr) : Prop :=
  nn (st (me m')) = nn (st (me m)) /\
  forall i, nodes_of m' i = nodes_of m i /\
    (In i (ord (mo m)) -> thin npp tnum tden m i -> cells_of m' i <= (nodes_of m i / npp + 1) * npp).

(** The manager's own record of the nodes of the variables leads into the tables. *)
Definition variable_nodes_known (m : mgr) : Prop := forall i, In i (ord (mo m)) -> In (eptr (mvb m i)) (ut (st (me m)) i).
