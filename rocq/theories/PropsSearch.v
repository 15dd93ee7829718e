(** * The searches for a good order (C34). *)
From Coq Require Import ZArith List Permutation.
From Verif Require Import SearchModel SpecSearch SearchProof SearchTree.
Import ListNotations.
Open Scope Z_scope.

(** The number of nodes may depend on the order in any way.  Every search ends; the outcome is the best of all orders tried
    on the way, the order at the start included.  [nv] is the number of variables. *)
Theorem C34_windows_breadth_first : forall nv size l, (forall o, 0 <= size o) -> (length l <= nv)%nat ->
  exists l' tried, bf_windows size nv l = Some (l', tried) /\ best_tried size l l' tried.
Proof. exact bf_windows_best. Qed.
Print Assumptions C34_windows_breadth_first.
Theorem C34_sift_breadth_first : forall width proceed size l, (forall o, 0 <= size o) ->
  exists l' tried, bf_sift size width proceed l = Some (l', tried) /\ best_tried size l l' tried.
Proof. exact bf_sift_best. Qed.
Print Assumptions C34_sift_breadth_first.
Example C34_example : (forall l, 0 <= demo_size l) /\
  option_map fst (bf_windows demo_size 4 [1; 2; 3; 4]%N) = Some [3; 2; 1; 4]%N /\
  option_map fst (bf_sift demo_size (fun _ a => Z.of_N a) (fun _ _ => true) [1; 2; 3; 4]%N) = Some [4; 1; 2; 3]%N.
Proof. exact (conj demo_size_pos demo_results). Qed.

(** The same for the searches that respect variable blocks: only children of reorderable blocks change places. *)
Theorem C34_windows_depth_first : forall nv size t, (forall o, 0 <= size o) -> at_most nv t ->
  exists t' tried, df_windows nv size t = Some (t', tried) /\ best_tree size t t' tried.
Proof. exact df_windows_best. Qed.
Print Assumptions C34_windows_depth_first.
Theorem C34_sift_depth_first : forall limit width proceed nv size t, (forall o, 0 <= size o) -> at_most nv t ->
  exists t' tried, df_sift limit width proceed size t = Some (t', tried) /\ best_tree size t t' tried.
Proof. exact df_sift_best. Qed.
Print Assumptions C34_sift_depth_first.
Example C34_tree_example : at_most 5 demo_tree.
Proof. exact demo_at_most. Qed.

(** A window tries all orders of its two or three items. *)
Theorem C34_one_window : forall (A : Type) (size : list A -> Z) l i, (forall o, 0 <= size o) ->
  ((i + 1 < length l)%nat -> forall win, win = df_window2 A size \/ win = bf_window2 A size ->
     exists moved l' tried, win i (l, [l]) = Some (moved, (l', tried)) /\ In l' tried /\ (forall o, window_order 2 i l o -> In o tried) /\
       (forall o, In o tried -> size l' <= size o) /\ (moved = true -> size l' < size l)) /\
  ((i + 2 < length l)%nat -> forall win, win = df_window3 A size \/ win = bf_window3 A size ->
     exists moved l' tried, win i (l, [l]) = Some (moved, (l', tried)) /\ In l' tried /\ (forall o, window_order 3 i l o -> In o tried) /\
       (forall o, In o tried -> size l' <= size o) /\ (moved = true -> size l' < size l)).
Proof. exact @windows_best. Qed.
Print Assumptions C34_one_window.

(** Sifting an item tries all its places unless the number of nodes grows too much on the way. *)
Theorem C34_one_item : forall (A : Type) (size : list A -> Z) limit l i, (forall o, 0 <= size o) -> (i < length l)%nat ->
  (exists l' tried, df_sift_block A size limit i (l, [l]) = Some (l', tried) /\ best_tried size l l' tried /\
     ((forall o, item_elsewhere i l o -> size o <= 2 * size l /\ (limit = 0 \/ size o <= limit)) -> forall o, item_elsewhere i l o -> In o tried)) /\
  (exists l' tried, bf_sift_block A size i (l, [l]) = Some (l', tried) /\ best_tried size l l' tried /\
     ((forall o o', item_elsewhere i l o -> item_elsewhere i l o' -> size o < 2 * size o') -> forall o, item_elsewhere i l o -> In o tried)).
Proof. exact @sift_block_best. Qed.
Print Assumptions C34_one_item.
