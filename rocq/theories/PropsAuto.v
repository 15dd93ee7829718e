(** * Property of automatic reordering: C59. *)
From Coq Require Import Permutation.
From Verif Require Import Base BFModel MgrModel ApiModel AssocModel AutoModel SpecApi SpecAssoc Client ApiFacts AssocFacts ReorderFacts BFReorderFacts AutoFacts.
Open Scope N_scope.

(** C59: the check made between operations, whatever technique and method are chosen for automatic reordering, keeps the
    function of every handle and of every image; afterwards equal handles are equal functions, and the order has the same
    variables.  The client may go on with the manager.  An overflow is reported exactly when there is a node limit and the nodes
    left after collection and reordering exceed it.  Nothing happens below the collection limit; the order stays if no
    technique is chosen or the nodes left are not above the threshold.
    Partial: the condition of [C33_reorder_partial]; the reordering has to come to an end. *)
Theorem C59_automatic_partial : forall w d thr t ov m', reachable w -> ready_to_reorder (wm w) (wh w) -> post_auto d thr t (wm w) = Ok (ov, m') ->
  reachable (World m' (wh w)) /\
  (forall h F, In h (wh w) -> means (wm w) h F -> means m' h F) /\
  (forall j S, assoc_means (wm w) j S -> assoc_means m' j S) /\
  (forall S, temp_means (wm w) S -> temp_means m' S) /\
  (forall f g F G, In f (wh w) -> In g (wh w) -> means m' f F -> means m' g G -> (cal_isequal f g = true <-> same F G)) /\
  Permutation (ord (mo (wm w))) (ord (mo m')) /\
  (ov = true -> mov m' = true /\ mnl m' <> 0 /\ mnl m' < nn (st (me m'))) /\
  (ov = false -> d_chk d = false -> mlim (wm w) < nn (st (me (wm w))) -> mnl m' = 0 \/ nn (st (me m')) <= mnl m') /\
  (d_chk d = true \/ nn (st (me (wm w))) <= mlim (wm w) -> m' = wm w) /\
  (t = TNone \/ nn (st (me (gc (wm w)))) <= thr -> mo m' = mo (wm w)).
Proof. exact W_post_auto. Qed.
Print Assumptions C59_automatic_partial.
(** Eleven nodes, a limit of eight: with either technique seven nodes are left, without one the limit is exceeded. *)
Example C59_example : reachable lworld /\ ready_to_reorder (wm lworld) (wh lworld) /\
  (exists m', post_auto dec1 5 (TWindow 1000 20) (wm lworld) = Ok (false, m') /\ ord (mo m') = [3; 4; 1; 2] /\ nn (st (me m')) = 7 /\ mlim m' = 8) /\
  (exists m', post_auto dec1 5 (TSift 1000 1000 1000000 doubled) (wm lworld) = Ok (false, m') /\ ord (mo m') = [3; 4; 1; 2] /\ nn (st (me m')) = 7 /\ mlim m' = 8) /\
  (exists m', post_auto dec1 5 TNone (wm lworld) = Ok (true, m') /\ ord (mo m') = [1; 4; 2; 3] /\ nn (st (me m')) = 11 /\ mlim m' = 8).
Proof. exact (conj lworld_reachable (conj lworld_ready (conj lworld_window (conj lworld_sift lworld_none)))). Qed.
