(** * Property of compacting the node memory: C53. *)
From Coq Require Import Permutation.
From Verif Require Import Base BFModel MgrModel ApiModel AssocModel ReorderModel PackModel SpecApi SpecAssoc Client ApiFacts AssocFacts SpecPack PackWorld.
Open Scope N_scope.

(** C53: garbage collection followed by compaction always ends, keeps the number of nodes of every variable and leaves no
    more pages than they need; every handle and every image keeps its function, and equal handles are equal functions.
    Partial: the nodes of the variables themselves must lie in pages that stay. *)
Theorem C53_compaction_partial : forall w p, reachable w -> 0 < npp p -> tnum p <= tden p ->
  exists m', gc_repack p (wm w) = Ok m' /\ compact (npp p) (tnum p) (tden p) (gc (wm w)) m' /\
  (vars_stay p (gc (wm w)) ->
   reachable (World m' (wh w)) /\ variable_nodes_known m' /\
   (forall h F, In h (wh w) -> means (wm w) h F -> means m' h F) /\
   (forall j S, assoc_means (wm w) j S -> assoc_means m' j S) /\
   (forall S, temp_means (wm w) S -> temp_means m' S) /\
   (forall f g F G, In f (wh w) -> In g (wh w) -> means m' f F -> means m' g G -> (cal_isequal f g = true <-> same F G))).
Proof. exact W_repack. Qed.
Print Assumptions C53_compaction_partial.
Example C53_example : reachable scattered /\ vars_stay pp1 (gc (wm scattered)) /\
  table_of (wm scattered) 2 = [26; 25; 6] /\ cells_of (wm scattered) 2 = 7 /\
  table_of (packed pp1 (wm scattered)) 2 = [21; 22; 6] /\ cells_of (packed pp1 (wm scattered)) 2 = 4.
Proof. exact (conj (run_reachable _) scattered_moves). Qed.
Example C53_example_thin : thin 1 9 10 (gc (wm scattered)) 2.
Proof. exact scattered_thin. Qed.

(** After reordering, the node of a variable can lie in a page that is given back.  The manager's record of it is not
    updated: asking for the variable then gives a handle that does not stand for it. *)
Theorem C53_refuted : exists w p m', reachable w /\ 0 < npp p /\ tnum p <= tden p /\ gc_repack p (wm w) = Ok m' /\
  exists i, In i (ord (mo m')) /\ (forall v, v = 0 \/ In v (ord (mo m')) -> ~ In (eptr (mvb m' i)) (ut (st (me m')) v)) /\
    let '(h, m2) := cal_var_with_id m' i in ~ means m2 h (fun rho => rho i).
Proof. exact repack_refuted. Qed.
Print Assumptions C53_refuted.
