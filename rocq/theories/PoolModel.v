(** * Page manager, node managers (calMemoryManagement.c, calInt.h:475-507) and record managers (calMem.c:295-395).

    Memory is a map from addresses to the contents of the 64-bit words there.  The bookkeeping records of the managers
    are values; their own memory, and the growing arrays of segments and pages, are lists.  What the operating
    system or the block allocator answers is a parameter of each operation. *)
From Verif Require Import Base.

Definition mem := N -> N.
Definition poke (m : mem) (a v : N) : mem := fun b => if b =? a then v else m b.

(** Result of an operation: a value, the fatal exit, or (never reached, see PoolProof) a loop out of fuel. *)
Inductive res (A : Type) := Got (x : A) | Exit | Stuck.
Arguments Got {A}. Arguments Exit {A}. Arguments Stuck {A}.

(** calInt.h:95-98, 170-174 *)
Definition PAGE_SIZE : N := 4096.
Definition NODE_SIZE : N := 32.
Definition NUM_NODES_PER_PAGE : nat := Eval compute in N.to_nat (PAGE_SIZE / NODE_SIZE).
Definition MIN_NUM_PAGES_PER_SEGMENT : N := 4.

(** calInt.h:290-301: [psegs] stands for pageSegmentArray and numPagesArray. *)
Record pmgr := PM { pfree : N; pper : N; psegs : list (N * N) }.

(** memset of a segment, calMemoryManagement.c:313 *)
Definition wipe (m : mem) (a n : N) : mem := fun b => if (a <=? b) && (b <? a + n) then 0 else m b.

(** The loop of calMemoryManagement.c:368-373. *)
Fixpoint link_up (n : nat) (a step : N) (m : mem) : mem :=
  match n with
  | O => m
  | Datatypes.S n => link_up n (a + step) step (poke m a (a + step))
  end.

(** SegmentToPageList, calMemoryManagement.c:358-380 *)
Definition segment_to_list (m : mem) (seg n last : N) : mem :=
  poke (link_up (N.to_nat (n - 1)) seg PAGE_SIZE m) (seg + (n - 1) * PAGE_SIZE) last.

(** PageManagerExpandStorage, calMemoryManagement.c:283-335.  [os n] is the answer of aligned_alloc to a request for [n]
    pages; the function calls itself with half the number of pages, so no number is asked twice. *)
Fixpoint expand (fuel : nat) (os : N -> option N) (pm : pmgr) (m : mem) : res (pmgr * mem) :=
  match fuel with
  | O => Stuck
  | Datatypes.S fuel =>
      let n := pper pm in
      match os n with
      | None => let n := n / 2 in
                if n <? MIN_NUM_PAGES_PER_SEGMENT then Exit else expand fuel os (PM (pfree pm) n (psegs pm)) m
      | Some seg => let m := wipe m seg (n * PAGE_SIZE) in
                    if n =? 0 then Exit
                    else Got (PM seg n (psegs pm ++ [(seg, n)]), segment_to_list m seg n (pfree pm))
      end
  end.
Definition expand_fuel (n : N) : nat := Datatypes.S (N.to_nat (N.size n)).
Definition page_expand os pm m := expand (expand_fuel (pper pm)) os pm m.

(** CalPageManagerInit, calMemoryManagement.c:101-122 (Exit: it returns the null manager) *)
Definition page_init (os : N -> option N) (per : N) (m : mem) : res (pmgr * mem) := page_expand os (PM 0 per []) m.

(** CalPageManagerAllocPage, calMemoryManagement.c:240-257 *)
Definition page_alloc (os : N -> option N) (pm : pmgr) (m : mem) : res (pmgr * mem * N) :=
  match (if pfree pm =? 0 then page_expand os pm m else Got (pm, m)) with
  | Got (pm, m) => let page := pfree pm in Got (PM (m page) (pper pm) (psegs pm), m, page)
  | Exit => Exit
  | Stuck => Stuck
  end.

(** CalPageManagerFreePage, calMemoryManagement.c:265-270 *)
Definition page_free (pm : pmgr) (m : mem) (page : N) : pmgr * mem := (PM page (pper pm) (psegs pm), poke m page (pfree pm)).

(** calInt.h:282-289 *)
Record nmgr := NM { nfree : N; npages : list N }.

(** CalNodeManagerInit, calMemoryManagement.c:177-189 *)
Definition node_init : nmgr := NM 0 [].

(** The loop of calInt.h:486-489, from the last node of the page to the second. *)
Fixpoint link_down (n : nat) (a next : N) (m : mem) : mem :=
  match n with
  | O => m
  | Datatypes.S n => link_down n (a - NODE_SIZE) a (poke m a next)
  end.

(** All words of a new node are cleared, calInt.h:498-502. *)
Definition clear_node (m : mem) (a : N) : mem := poke (poke (poke (poke m a 0) (a + 24) 0) (a + 8) 0) (a + 16) 0.

(** CalNodeManagerAllocNode, calInt.h:475-503 *)
Definition node_alloc (os : N -> option N) (pm : pmgr) (nm : nmgr) (m : mem) : res (pmgr * nmgr * mem * N) :=
  if negb (nfree nm =? 0) then
    let node := nfree nm in Got (pm, NM (m node) (npages nm), clear_node m node, node)
  else
    match page_alloc os pm m with
    | Got (pm, m, page) =>
        let m := link_down (NUM_NODES_PER_PAGE - 1) (page + N.of_nat (NUM_NODES_PER_PAGE - 1) * NODE_SIZE) 0 m in
        Got (pm, NM (page + NODE_SIZE) (npages nm ++ [page]), clear_node m page, page)
    | Exit => Exit
    | Stuck => Stuck
    end.

(** CalNodeManagerFreeNode, calInt.h:505-509 *)
Definition node_free (nm : nmgr) (m : mem) (node : N) : nmgr * mem := (NM node (npages nm), poke m node (nfree nm)).

(** CalNodeManagerQuit, calMemoryManagement.c:195-211 *)
Definition node_quit (pm : pmgr) (nm : nmgr) (m : mem) : pmgr * mem :=
  fold_left (fun x page => page_free (fst x) (snd x) page) (npages nm) (pm, m).

(** ** Record managers *)

(** calMem.c:78-83, calMem.h: alignment 8, block header 40 bytes. *)
Definition ALLOC_SIZE : N := PAGE_SIZE - 40.
Definition LIST_SIZE : N := 8.
Definition roundup (n : N) : N := (n + 7) / 8 * 8.

Record rmgr := RM { rsize : N; rper : N; rfree : N; rblocks : N; rnum : N }.

(** Cal_MemNewRecMgr, calMem.c:364-380.  A negative size fails the unsigned comparison as well. *)
Definition rec_init (size : N) : res rmgr :=
  let size := if size <? LIST_SIZE then LIST_SIZE else size in
  let size := roundup size in
  if ALLOC_SIZE - roundup LIST_SIZE <? size then Exit
  else Got (RM size ((ALLOC_SIZE - roundup LIST_SIZE) / size) 0 0 0).

(** Cal_MemNewRec, calMem.c:296-339; [blk] is the answer of Cal_MemGetBlock if it is asked. *)
Definition rec_alloc (blk : N) (r : rmgr) (m : mem) : rmgr * mem * N :=
  let x := if negb (rfree r =? 0) then (r, m)
           else
             let m := poke m blk (rblocks r) in
             let free := blk + roundup LIST_SIZE in
             let m := link_up (N.to_nat (rper r - 1)) free (rsize r) m in
             let m := poke m (free + (rper r - 1) * rsize r) 0 in
             (RM (rsize r) (rper r) free blk (rnum r + 1), m) in
  let r := fst x in let m := snd x in
  (RM (rsize r) (rper r) (m (rfree r)) (rblocks r) (rnum r), m, rfree r).

(** Cal_MemFreeRec, calMem.c:344-358 *)
Definition rec_free (r : rmgr) (m : mem) (a : N) : rmgr * mem := (RM (rsize r) (rper r) a (rblocks r) (rnum r), poke m a (rfree r)).

(** Cal_MemFreeRecMgr, calMem.c:384-395: the blocks that are given back, in order. *)
Fixpoint walk (fuel : nat) (m : mem) (p : N) : res (list N) :=
  if p =? 0 then Got [] else
  match fuel with
  | O => Stuck
  | Datatypes.S fuel => match walk fuel m (m p) with Got l => Got (p :: l) | Exit => Exit | Stuck => Stuck end
  end.
Definition rec_quit (r : rmgr) (m : mem) : res (list N) := walk (N.to_nat (rnum r)) m (rblocks r).
