(** * The block allocator (calMem.c:56-292, 400-531).

    [hd a] is the block header in memory at address [a]: [None] stands for contents that do not form a header the allocator has
    written, reading it is undefined.  Headers, segment records and the memory of the client are kept apart in the
    model; that they do not overlap in the program is part of the invariant, and the client's writes to its own memory may
    change every header and record that overlaps it (SpecBuddy).  Addresses and sizes are unbounded numbers: they stay below 2^63 because
    [sbrk] refuses to pass [TOP].  What the program around the allocator does to the break is a step of the world. *)
From Verif Require Import Base BFModel ApiModel.
Open Scope N_scope.

(** struct BlockStruct and struct SegmentStruct (base address, limit), calMem.c:63-77; constants calMem.c:78-84, calMem.h:62, 97 *)
Record hdr := H { hused : bool; hidx : N; hnext : N; hprev : N; hseg : N }.
Definition ROUNDUP (n : N) : N := (n + 8 - 1) / 8 * 8.
Definition HEADER : N := 40.
Definition SEGREC : N := 16.
Definition MAXIDX : N := 62.
Definition MINIDX : N := 15.
Definition MAXSEG : N := 2 ^ MAXIDX.
Definition TOP : N := 2 ^ 63.

(** The static variables of calMem.c:107-119 and the memory they lead to.  The static record dummySeg is at address 0.
    [brk]: the break of the process.  [ranges] and [segl] are bookkeeping for the specification: the memory obtained by sbrk
    and the segment records made so far; no function reads them. *)
Record bst := B { hd : N -> option hdr; sg : N -> option (N * N); cur : N; avl : N -> N; brk : N; ranges : list (N * N); segl : list N }.
Definition bst0 (b : N) : bst := B (fun _ => None) (fun s => if s =? 0 then Some (0, 0) else None) 0 (fun _ => 0) b [] [].

Definition with_hd (s : bst) h := B h (sg s) (cur s) (avl s) (brk s) (ranges s) (segl s).
Definition with_avl (s : bst) (i b : N) := B (hd s) (sg s) (cur s) (upd (avl s) i b) (brk s) (ranges s) (segl s).
Definition with_sg (s : bst) (g b l : N) := B (hd s) (upd (sg s) g (Some (b, l))) (cur s) (avl s) (brk s) (ranges s) (segl s).
Definition oget {A} (x : option A) : outcome A := match x with Some a => Ok a | None => Undefined end.
(** Write fields of the header at [a]. *)
Definition wr (s : bst) (a : N) (f : hdr -> hdr) : outcome bst := obind (oget (hd s a)) (fun h => Ok (with_hd s (upd (hd s) a (Some (f h))))).
Definition snext n h := H (hused h) (hidx h) n (hprev h) (hseg h).
Definition sprev p h := H (hused h) (hidx h) (hnext h) p (hseg h).
Definition sused u h := H u (hidx h) (hnext h) (hprev h) (hseg h).
Definition sidx k h := H (hused h) k (hnext h) (hprev h) (hseg h).
(** Write the size index and the segment of a new block; the other fields keep what was there. *)
Definition brand (s : bst) (a k g : N) : bst :=
  with_hd s (upd (hd s) a (Some (match hd s a with Some h => H (hused h) k (hnext h) (hprev h) g | None => H true k 0 0 g end))).

(** CeilingLog2, calMem.c:406-415; the loop ends at the first power that is large enough. *)
Fixpoint ceil_log2 (fuel : nat) (r j i : N) : outcome N :=
  match fuel with
  | O => Undefined
  | S fuel => if j <? i then ceil_log2 fuel (r + 1) (j * 2) i else Ok r
  end.
Definition CeilingLog2 (i : N) : outcome N := ceil_log2 64 0 1 i.

(** BlockSizeIndex, calMem.c:419-430; [None] is -1. *)
Definition BlockSizeIndex (size : N) : outcome (option N) :=
  if size <? 1 then Ok None
  else if MAXSEG - HEADER <? size then Fatal
  else obind (CeilingLog2 (size + HEADER)) (fun k => Ok (Some k)).

(** AddToFreeList, calMem.c:435-454 *)
Definition AddToFreeList (s : bst) (b : N) : outcome bst :=
  obind (oget (hd s b)) (fun h =>
  let i := hidx h in
  obind (if avl s i =? 0 then
           obind (wr s b (snext b)) (fun s => obind (wr s b (sprev b)) (fun s => Ok (with_avl s i b)))
         else
           let a := avl s i in
           obind (oget (hd s a)) (fun ha =>
           obind (wr s b (snext (hnext ha))) (fun s =>
           obind (wr s (hnext ha) (sprev b)) (fun s =>
           obind (wr s a (snext b)) (fun s => wr s b (sprev a))))))
    (fun s => wr s b (sused false))).

(** RemoveFromFreeList, calMem.c:459-475 *)
Definition RemoveFromFreeList (s : bst) (b : N) : outcome bst :=
  obind (oget (hd s b)) (fun h =>
  let i := hidx h in
  obind (if hnext h =? b then Ok (with_avl s i 0)
         else obind (wr s (hnext h) (sprev (hprev h))) (fun s =>
              obind (wr s (hprev h) (snext (hnext h))) (fun s =>
              Ok (if avl s i =? b then with_avl s i (hnext h) else s))))
    (fun s => wr s b (sused true))).

(** Buddy, calMem.c:481-493; 0 is the null block. *)
Definition Buddy (s : bst) (b : N) : outcome N :=
  obind (oget (hd s b)) (fun h =>
  obind (oget (sg s (hseg h))) (fun '(base, limit) =>
  let off := N.lxor (b - base) (2 ^ hidx h) in
  Ok (if off <? limit then base + off else 0))).

(** TrimToSize, calMem.c:499-512; [fuel] bounds the number of splits. *)
Fixpoint TrimToSize (fuel : nat) (s : bst) (b k : N) : outcome bst :=
  obind (oget (hd s b)) (fun h =>
  if k <? hidx h then
    match fuel with
    | O => Undefined
    | S fuel =>
        obind (wr s b (sidx (hidx h - 1))) (fun s =>
        obind (Buddy s b) (fun bb =>
        let s := brand s bb (hidx h - 1) (hseg h) in
        obind (AddToFreeList s bb) (fun s => TrimToSize fuel s b k)))
    end
  else Ok s).

(** MergeAndFree, calMem.c:518-531 *)
Fixpoint MergeAndFree (fuel : nat) (s : bst) (b : N) : outcome bst :=
  match fuel with
  | O => Undefined
  | S fuel =>
      obind (Buddy s b) (fun bb =>
      if bb =? 0 then AddToFreeList s b
      else
        obind (oget (hd s b)) (fun h =>
        obind (oget (hd s bb)) (fun hb =>
        if negb (hused hb) && (hidx hb =? hidx h) then
          obind (RemoveFromFreeList s bb) (fun s =>
          let b := if bb <? b then bb else b in
          obind (oget (hd s b)) (fun h =>
          obind (wr s b (sidx (hidx h + 1))) (fun s => MergeAndFree fuel s b)))
        else AddToFreeList s b)))
  end.

(** The search of calMem.c:181, 224: the least index from [i] on with a free block; [fuel] = 63 - i. *)
Fixpoint find (fuel : nat) (s : bst) (i : N) : option N :=
  match fuel with
  | O => None
  | S fuel => if avl s i =? 0 then find fuel s (i + 1) else Some i
  end.
Definition find_from s i := find (N.to_nat (MAXIDX + 1 - i)) s i.

(** The loop of calMem.c:216-223: each block is as large as the lowest bit set in the size that is left. *)
Fixpoint carve (fuel : nat) (s : bst) (size : N) : outcome bst :=
  if size =? 0 then Ok s
  else
    match fuel with
    | O => Undefined
    | S fuel =>
        let one := size - N.land size (size - 1) in
        obind (oget (sg s (cur s))) (fun '(base, limit) =>
        let b := base + limit in
        obind (CeilingLog2 one) (fun k =>
        obind (AddToFreeList (brand s b k (cur s)) b) (fun s =>
        carve fuel (with_sg s (cur s) base (limit + one)) (size - one))))
    end.

(** sbrk (n), n > 0: moves the break; -1 (here [None]) when it [refuses] or there is no more room below [TOP]. *)
Definition sbrk (refuses : bool) (s : bst) (n : N) : option (N * bst) :=
  if refuses || (TOP <? brk s + n) then None
  else Some (brk s, B (hd s) (sg s) (cur s) (avl s) (brk s + n) (ranges s ++ [(brk s, n)]) (segl s)).

(** calMem.c:182-223: get more storage for blocks of index [k]. *)
Definition more (refuses : bool) (s : bst) (k : N) : outcome bst :=
  let ai := if k <? MINIDX then MINIDX else k in
  let size := 2 ^ ai in
  obind (oget (sg s (cur s))) (fun '(base, limit) =>
  let size := size + (N.ldiff (limit + size - 1) (size - 1) - limit) in
  let newseg := negb (brk s =? base + limit) || (MAXSEG <? size + limit) in
  let ask := if newseg then ROUNDUP (brk s) - brk s + (2 ^ ai + ROUNDUP SEGREC) else size in
  match sbrk refuses s ask with
  | None => Fatal
  | Some (r, s) =>
      if newseg then
        let g := ROUNDUP r in
        carve 64 (B (hd s) (upd (sg s) g (Some (g + ROUNDUP SEGREC, 0))) g (avl s) (brk s) (ranges s) (segl s ++ [g])) (2 ^ ai)
      else carve 64 s ask
  end).

(** Cal_MemGetBlock, calMem.c:167-234 *)
Definition GetBlock (refuses : bool) (s : bst) (size : N) : outcome (N * bst) :=
  obind (BlockSizeIndex size) (fun k =>
  match k with
  | None => Ok (0, s)
  | Some k =>
      obind (match find_from s k with
             | Some i => Ok (i, s)
             | None => obind (more refuses s k) (fun s => obind (oget (find_from s k)) (fun i => Ok (i, s)))
             end) (fun '(i, s) =>
      let b := avl s i in
      obind (RemoveFromFreeList s b) (fun s =>
      obind (TrimToSize 64 s b k) (fun s => Ok (b + HEADER, s))))
  end).

(** Cal_MemFreeBlock, calMem.c:238-250 *)
Definition FreeBlock (s : bst) (p : N) : outcome bst :=
  if p =? 0 then Ok s
  else
    let b := p - HEADER in
    obind (oget (hd s b)) (fun h =>
    if negb (hused h) then Fatal else if MAXIDX <? hidx h then Fatal else MergeAndFree 64 s b).

(** The loop of calMem.c:278-283; true: the block has reached index [k]. *)
Fixpoint grow (fuel : nat) (s : bst) (b k : N) : outcome (bool * bst) :=
  match fuel with
  | O => Undefined
  | S fuel =>
      obind (Buddy s b) (fun bb =>
      if bb =? 0 then Ok (false, s)
      else
        obind (oget (hd s b)) (fun h =>
        obind (oget (hd s bb)) (fun hb =>
        if (b <? bb) && negb (hused hb) && (hidx hb =? hidx h) then
          obind (RemoveFromFreeList s bb) (fun s =>
          obind (wr s b (sidx (hidx h + 1))) (fun s =>
          if hidx h + 1 =? k then Ok (true, s) else grow fuel s b k))
        else Ok (false, s))))
  end.

(** Cal_MemResizeBlock, calMem.c:254-292.  The copy of the contents into the new block is a write to memory of the
    client and left out. *)
Definition ResizeBlock (refuses : bool) (s : bst) (p size : N) : outcome (N * bst) :=
  if p =? 0 then GetBlock refuses s size
  else
    let b := p - HEADER in
    obind (oget (hd s b)) (fun h =>
    if negb (hused h) then Fatal else if MAXIDX <? hidx h then Fatal
    else
      obind (BlockSizeIndex size) (fun k =>
      match k with
      | None => obind (FreeBlock s p) (fun s => Ok (0, s))
      | Some k =>
          if k <=? hidx h then obind (TrimToSize 64 s b k) (fun s => Ok (p, s))
          else
            obind (grow 64 s b k) (fun '(done, s) =>
            if done : bool then Ok (p, s)
            else obind (GetBlock refuses s size) (fun '(q, s) => obind (MergeAndFree 64 s b) (fun s => Ok (q, s))))
      end)).
