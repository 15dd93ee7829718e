(** * Properties of changing the variable order: C33. *)
From Coq Require Import Permutation.
From Verif Require Import Base BFModel MgrModel ApiModel AssocModel ReorderModel SpecApi SpecAssoc Client ApiFacts AssocFacts SpecReorder ReorderFacts.
Open Scope N_scope.

(** C33: any sequence of exchanges of neighbours keeps the function of every handle and of every image, afterwards equal
    handles are equal functions, and the order is the one the exchanges give.  Partial: variables that occur together in
    an image, or below a node with a saturated count, must occur together in the function of an owned handle. *)
Theorem C33_reorder_partial : forall w sw, reachable w -> ready_to_reorder (wm w) (wh w) ->
  let m' := reorder sw (wm w) in
  reachable (World m' (wh w)) /\
  (forall h F, In h (wh w) -> means (wm w) h F -> means m' h F) /\
  (forall j S, assoc_means (wm w) j S -> assoc_means m' j S) /\
  (forall S, temp_means (wm w) S -> temp_means m' S) /\
  (forall f g F G, In f (wh w) -> In g (wh w) -> means m' f F -> means m' g G -> (cal_isequal f g = true <-> same F G)) /\
  exchanges sw (ord (mo (wm w))) (ord (mo m')).
Proof. exact W_reorder. Qed.
Print Assumptions C33_reorder_partial.
Example C33_example : reachable aworld /\ ready_to_reorder (wm aworld) (wh aworld) /\ assoc_means (wm aworld) 1 s_pair /\ temp_means (wm aworld) s_temp /\
  ord (mo (wm aworld)) = [1; 4; 2; 3] /\ ord (mo (reorder a_moved (wm aworld))) = [2; 3; 4; 1] /\
  (nn (st (me (wm aworld))) =? nn (st (me (reorder a_moved (wm aworld))))) = false.
Proof. exact (conj aworld_reachable (conj aworld_ready (conj aworld_pair (conj aworld_temp aworld_moved)))). Qed.
Example C33_example_demo : reachable demo /\ ready_to_reorder (wm demo) (wh demo).
Proof. exact (conj (run_reachable _) demo_ready). Qed.

(** Without the condition the image of an association can change, and its graph leads to released memory: an address
    in no table of the manager. *)
Theorem C33_association_refuted : exists w sw j S, reachable w /\ assoc_means (wm w) j S /\ ~ assoc_means (reorder sw (wm w)) j S /\
  let m' := reorder sw (wm w) in
  exists a i e, In a (massoc m') /\ amap a i = Some e /\
    eptr (ct (mmem m' (eptr e))) <> 1 /\ forall v, v = 0 \/ In v (ord (mo m')) -> ~ In (eptr (ct (mmem m' (eptr e)))) (ut (st (me m')) v).
Proof. exact association_refuted. Qed.
Print Assumptions C33_association_refuted.
(** The same happens to a node that no handle and no association refers to any more, but whose count is saturated: it
    stays in the table of its variable with a child that does not exist. *)
Theorem C33_saturated_refuted : exists w sw, reachable w /\ massoc (wm w) = [] /\ (forall i, In i (ord (mo (wm w))) -> amap (mtemp (wm w)) i = None) /\
  let m' := reorder sw (wm w) in
  exists i b, In i (ord (mo m')) /\ In b (ut (st (me m')) i) /\
    eptr (ct (mmem m' b)) <> 1 /\ forall v, v = 0 \/ In v (ord (mo m')) -> ~ In (eptr (ct (mmem m' b))) (ut (st (me m')) v).
Proof. exact saturated_refuted. Qed.
Print Assumptions C33_saturated_refuted.
