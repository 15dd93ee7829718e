(** * Vocabulary for the block allocator: what a program that uses it can do. *)
From Verif Require Import Base BFModel BuddyModel.
Open Scope N_scope.

(** A process: the allocator and the blocks the program holds, each with the size it asked for. *)
Record bworld := BW { bs : bst; held : list (N * N) }.

(** The allocator's idea of the extent of the block at [p]: up to the end of the power of two its header states. *)
Definition extent (s : bst) (p n : N) : Prop := exists h, hd s (p - HEADER) = Some h /\ n = 2 ^ hidx h - HEADER.

(** The program writes to its block [p] of [n] bytes: every header (40 bytes) and segment record (16 bytes) that overlaps it may be different. *)
Definition scribble (s : bst) (p n : N) (s' : bst) : Prop :=
  (forall a, a + HEADER <= p \/ p + n <= a -> hd s' a = hd s a) /\
  (forall a, a + SEGREC <= p \/ p + n <= a -> sg s' a = sg s a) /\
  cur s' = cur s /\ avl s' = avl s /\ brk s' = brk s /\ ranges s' = ranges s /\ segl s' = segl s.

Inductive bstep : bworld -> bworld -> Prop :=
| bs_get r s l n p s' : 0 < n -> GetBlock r s n = Ok (p, s') -> bstep (BW s l) (BW s' ((p, n) :: l))
| bs_free s l1 l2 p n s' : FreeBlock s p = Ok s' -> bstep (BW s (l1 ++ (p, n) :: l2)) (BW s' (l1 ++ l2))
| bs_resize r s l1 l2 p n m q s' : 0 < m -> ResizeBlock r s p m = Ok (q, s') -> bstep (BW s (l1 ++ (p, n) :: l2)) (BW s' (l1 ++ (q, m) :: l2))
| bs_drop r s l1 l2 p n q s' : ResizeBlock r s p 0 = Ok (q, s') -> bstep (BW s (l1 ++ (p, n) :: l2)) (BW s' (l1 ++ l2))
(** somebody else moves the break upwards *)
| bs_break s l b : brk s <= b <= TOP -> bstep (BW s l) (BW (B (hd s) (sg s) (cur s) (avl s) b (ranges s) (segl s)) l)
| bs_write s l p n k s' : In (p, n) l -> extent s p k -> scribble s p k s' -> bstep (BW s l) (BW s' l).

Inductive breach : bworld -> Prop :=
| br_init b : 0 < b <= TOP -> breach (BW (bst0 b) [])
| br_step w w' : breach w -> bstep w w' -> breach w'.

(** Byte [a] came from sbrk. *)
Definition obtained (s : bst) (a : N) : Prop := exists r, In r (ranges s) /\ fst r <= a < fst r + snd r.
Definition apart (x y : N * N) : Prop := fst x + snd x <= fst y \/ fst y + snd y <= fst x.

(** A segment is one free block. *)
Definition one_free_block (s : bst) (g : N) : Prop :=
  exists base limit h, sg s g = Some (base, limit) /\ hd s base = Some h /\ hused h = false /\ 2 ^ hidx h = limit.
(** [a] is on the free list of index [k]. *)
Definition on_list (s : bst) (k a : N) : Prop :=
  exists i, Nat.iter i (fun x => match hd s x with Some h => hnext h | None => 0 end) (avl s k) = a.
(** Two free blocks that together would form a larger block: on the free list of their size, side by side in a segment, the first at a
    multiple of the double size. *)
Definition split_pair (s : bst) (g : N) : Prop :=
  exists base limit off k h1 h2, sg s g = Some (base, limit) /\ hd s (base + off) = Some h1 /\ hd s (base + off + 2 ^ k) = Some h2 /\
    (2 * 2 ^ k | off) /\ off + 2 * 2 ^ k <= limit /\ hused h1 = false /\ hused h2 = false /\ hidx h1 = k /\ hidx h2 = k /\
    on_list s k (base + off) /\ on_list s k (base + off + 2 ^ k).

(** The worlds that come about without a segment that grows: every request that finds no free block starts a new segment. *)
Inductive bfresh : bworld -> Prop :=
| bf_init b : 0 < b <= TOP -> bfresh (BW (bst0 b) [])
| bf_step w w' : bfresh w -> bstep w w' -> (forall g, In g (segl (bs w)) -> sg (bs w') g = sg (bs w) g) -> bfresh w'.
