(** * Properties of the block allocator: C44. *)
From Verif Require Import Base BFModel BuddyModel SpecBuddy BuddyFacts.
Open Scope N_scope.

(** C44: in every world the blocks held are aligned, lie in memory obtained from the system over the whole size that was
    asked for, and do not overlap.  The program may write to its blocks and move the break. *)
Theorem C44_blocks : forall w l1 l2 p n, breach w -> held w = l1 ++ (p, n) :: l2 ->
  p <> 0 /\ (8 | p) /\ (forall a, p <= a < p + n -> obtained (bs w) a) /\ forall y, In y (l1 ++ l2) -> apart (p, n) y.
Proof. exact W_blocks. Qed.
Print Assumptions C44_blocks.
Example C44_blocks_example : breach busy /\ held busy = [(49296, 70000); (4160, 300); (12352, 5000); (20544, 9000)].
Proof. split; [exact busy_reach|vm_compute; reflexivity]. Qed.

(** Calls on blocks that are held return: they read no memory the program may have changed, find no
    damaged header and do not loop.  Only want of memory ends the program. *)
Theorem C44_get : forall w r n, breach w -> 0 < n ->
  GetBlock r (bs w) n = Fatal /\ no_memory r (bs w) n \/ exists p s', GetBlock r (bs w) n = Ok (p, s') /\ p <> 0.
Proof. exact W_get. Qed.
Print Assumptions C44_get.
Theorem C44_free : forall w p n, breach w -> In (p, n) (held w) -> exists s', FreeBlock (bs w) p = Ok s'.
Proof. exact W_free. Qed.
Print Assumptions C44_free.
Theorem C44_resize : forall w r p n m, breach w -> In (p, n) (held w) ->
  ResizeBlock r (bs w) p m = Fatal /\ no_memory r (bs w) m \/ exists q s', ResizeBlock r (bs w) p m = Ok (q, s') /\ (q = 0 <-> m = 0).
Proof. exact W_resize. Qed.
Print Assumptions C44_resize.
Example C44_calls_example : breach busy /\ In (12352, 5000) (held busy) /\ ~ no_memory false (bs busy) 9000.
Proof.
  split; [exact busy_reach|]. split; [vm_compute; right; right; left; reflexivity|]. unfold no_memory, TOP. vm_compute. intros [C|[C|C]]; discriminate C.
Qed.

(** Freeing everything coalesces memory, as long as no segment has grown: every segment is one free block again. *)
Theorem C44_coalesce_partial : forall w g, bfresh w -> held w = [] -> In g (segl (bs w)) -> one_free_block (bs w) g.
Proof. exact W_coalesce. Qed.
Print Assumptions C44_coalesce_partial.
Example C44_coalesce_example : bfresh done_with /\ held done_with = [] /\ segl (bs done_with) = [4104; 49240].
Proof. split; [exact done_fresh|split; vm_compute; reflexivity]. Qed.
(** When a segment grows, the new blocks are put on the free lists without looking at their neighbours: after everything has been
    freed, two halves can remain separate. *)
Theorem C44_coalesce_refuted : exists w g, breach w /\ held w = [] /\ In g (segl (bs w)) /\ split_pair (bs w) g.
Proof. exact coalesce_refuted. Qed.
Print Assumptions C44_coalesce_refuted.
