(** * Properties of breadth-first reordering: C56, C57, C58. *)
From Coq Require Import Permutation.
From Verif Require Import Base BFModel MgrModel ApiModel AssocModel BFReorderModel BFSiftModel SpecMem BFReorderMem SpecApi SpecAssoc Client ApiFacts AssocFacts ReorderFacts BFReorderFacts.
Open Scope N_scope.

(** C56: window reordering by the breadth-first method keeps the function of every handle and of every image, afterwards
    equal handles are equal functions, and the new order has the same variables.  The client may go on with the manager.
    Partial: the condition of [C33_reorder_partial]; the call has to come to an end. *)
Theorem C56_window_partial : forall w lim fuel m', reachable w -> ready_to_reorder (wm w) (wh w) -> reorder_window lim fuel (wm w) = Ok m' ->
  reachable (World m' (wh w)) /\
  (forall h F, In h (wh w) -> means (wm w) h F -> means m' h F) /\
  (forall j S, assoc_means (wm w) j S -> assoc_means m' j S) /\
  (forall S, temp_means (wm w) S -> temp_means m' S) /\
  (forall f g F G, In f (wh w) -> In g (wh w) -> means m' f F -> means m' g G -> (cal_isequal f g = true <-> same F G)) /\
  Permutation (ord (mo (wm w))) (ord (mo m')).
Proof. exact W_reorder_window. Qed.
Print Assumptions C56_window_partial.
Example C56_example : reachable aworld /\ ready_to_reorder (wm aworld) (wh aworld) /\ assoc_means (wm aworld) 1 s_pair /\ temp_means (wm aworld) s_temp /\
  ord (mo (wm aworld)) = [1; 4; 2; 3] /\
  exists m', reorder_window 1000 20 (wm aworld) = Ok m' /\ ord (mo m') = [3; 4; 1; 2] /\ (nn (st (me m')) <? nn (st (me (wm aworld)))) = true.
Proof. exact (conj aworld_reachable (conj aworld_ready (conj aworld_pair (conj aworld_temp (conj (proj1 aworld_moved) aworld_window))))). Qed.

(** C57: the same for sifting, with any limits on the number of variables, of exchanges, on the growth of the size and on
    the forwardings before a repair.  Partial as C56. *)
Theorem C57_sift_partial : forall w lim maxv maxs grow m', reachable w -> ready_to_reorder (wm w) (wh w) -> reorder_sift lim maxv maxs grow (wm w) = Ok m' ->
  reachable (World m' (wh w)) /\
  (forall h F, In h (wh w) -> means (wm w) h F -> means m' h F) /\
  (forall j S, assoc_means (wm w) j S -> assoc_means m' j S) /\
  (forall S, temp_means (wm w) S -> temp_means m' S) /\
  (forall f g F G, In f (wh w) -> In g (wh w) -> means m' f F -> means m' g G -> (cal_isequal f g = true <-> same F G)) /\
  Permutation (ord (mo (wm w))) (ord (mo m')).
Proof. exact W_reorder_sift. Qed.
Print Assumptions C57_sift_partial.
Example C57_example : reachable aworld /\ ready_to_reorder (wm aworld) (wh aworld) /\ assoc_means (wm aworld) 1 s_pair /\ temp_means (wm aworld) s_temp /\
  ord (mo (wm aworld)) = [1; 4; 2; 3] /\
  exists m', reorder_sift 1000 1000 1000000 doubled (wm aworld) = Ok m' /\ ord (mo m') = [3; 4; 1; 2] /\ (nn (st (me m')) <? nn (st (me (wm aworld)))) = true /\
    holds_node (wm aworld) 12 /\ ~ holds_node m' 12 /\ ~ free_cell m' 12.
Proof. exact (conj aworld_reachable (conj aworld_ready (conj aworld_pair (conj aworld_temp (conj (proj1 aworld_moved) aworld_sift))))). Qed.

(** C58: window reordering loses no cell of node memory.  (Example: [C56_example].) *)
Theorem C58_window_partial : forall m lim fuel m', reorder_window lim fuel m = Ok m' -> no_cell_lost m m'.
Proof. exact (fun m lim fuel m' => window_keeps_cells lim fuel m m'). Qed.
Print Assumptions C58_window_partial.
(** Sifting does: some cell that was a node is neither a node nor free afterwards. *)
Theorem C58_sift_refuted : exists w lim maxv maxs grow m', reachable w /\ ready_to_reorder (wm w) (wh w) /\ reorder_sift lim maxv maxs grow (wm w) = Ok m' /\
  exists a, holds_node (wm w) a /\ ~ holds_node m' a /\ ~ free_cell m' a.
Proof. exact sift_loses. Qed.
Print Assumptions C58_sift_refuted.
