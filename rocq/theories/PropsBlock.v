(** * Variable blocks (C43). *)
From Coq Require Import ZArith List Permutation.
From Verif Require Import Base BFModel BlockModel SpecBlock BlockProof BlockExchange.
Import ListNotations.
Open Scope Z_scope.

(** In every history the blocks are ranges of positions, pairwise disjoint or one inside the other, and the children of
    every block cover it without gaps. *)
Theorem C43_blocks_are_ranges : forall n s re f l, block_history n s -> In (re, f, l) (inner s) -> 0 <= f <= l /\ l < n.
Proof. exact block_contiguous. Qed.
Print Assumptions C43_blocks_are_ranges.
Theorem C43_well_nested : forall n s re f l re' f' l', block_history n s ->
  In (re, f, l) (inner s) -> In (re', f', l') (inner s) -> nested (f, l) (f', l').
Proof. exact blocks_nested. Qed.
Print Assumptions C43_well_nested.
Theorem C43_children_cover : forall n s, block_history n s -> 0 <= n /\ wf_super n s.
Proof. exact history_wf. Qed.
Print Assumptions C43_children_cover.
Example C43_example : block_history 4 ex_tree /\ inner ex_tree = [(false, 0, 0); (false, 1, 2); (false, 1, 1); (false, 2, 2); (false, 3, 3)] /\
  (exists s, new_var_block 4 ex_tree 0 3 = Ok s) /\ new_var_block 4 ex_tree 0 2 = Fatal.
Proof. exact blocks_example. Qed.

(** The search among neighbouring blocks finds the only one that contains the position. *)
Theorem C43_search : forall lo hi ch index, tiles lo hi ch -> lo <= index <= hi ->
  exists k c, find_block ch index = Some (Z.of_nat k) /\ nth_error ch k = Some c /\ bfirst c <= index <= blast c /\
    forall j d, nth_error ch j = Some d -> bfirst d <= index <= blast d -> j = k.
Proof. exact smallest_child. Qed.
Print Assumptions C43_search.

(** A new variable gets a block of its own; blocks that contain its position grow, those behind it move. *)
Theorem C43_new_variable : forall n s index, block_history n s -> 0 <= index <= n ->
  exists s', shift_block index s = Some s' /\ Permutation (inner s') ((false, index, index) :: map (moved index) (inner s)).
Proof. exact history_variable. Qed.
Print Assumptions C43_new_variable.

(** A requested block is created exactly if it is nested with all others; otherwise the package stops with a message. *)
Theorem C43_new_block : forall n s index length, block_history n s -> 0 <= index < n ->
  let last := asked_last n index length in
  (fits index last (inner s) -> exists s', new_var_block n s index length = Ok s' /\ Permutation (inner s') ((false, index, last) :: inner s)) /\
  (~ fits index last (inner s) -> new_var_block n s index length = Fatal).
Proof. exact history_block. Qed.
Print Assumptions C43_new_block.

(** Exchanging two neighbouring blocks anywhere: every block still consists of the same variables, at contiguous positions
    ([C43_blocks_are_ranges] applies to the new tree). *)
Theorem C43_exchange : forall n s o o' s', block_history n s -> exchanged o s o' s' ->
  same_blocks o (inner s) o' (inner s') /\ Permutation (map o' (zrange 0 (n - 1))) (map o (zrange 0 (n - 1))).
Proof. exact history_exchange. Qed.
Print Assumptions C43_exchange.
(** Inside the parent the exchange always succeeds and every block below keeps its variables in their order. *)
Theorem C43_exchange_keeps_order : forall o lo hi ch k, tiles lo hi ch -> (S k < length ch)%nat ->
  exists o' ch', exchange_blocks o ch k = Some (o', ch') /\ tiles lo hi ch' /\ length ch' = length ch /\
    Permutation (members o' (flat_map ranges ch')) (members o (flat_map ranges ch)) /\
    (forall x, x < lo \/ hi < x -> o' x = o x) /\
    Permutation (map o' (zrange lo hi)) (map o (zrange lo hi)).
Proof. exact exchange_blocks_spec. Qed.
Print Assumptions C43_exchange_keeps_order.
Example C43_exchange_example : exists o' s', exchanged ex_order ex_tree o' s' /\
  members ex_order (inner ex_tree) = [(false, [1]); (false, [2; 3]); (false, [2]); (false, [3]); (false, [4])]%N /\
  members o' (inner s') = [(false, [2; 3]); (false, [2]); (false, [3]); (false, [1]); (false, [4])]%N.
Proof. exact exchange_example. Qed.
