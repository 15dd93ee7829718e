(** * Vocabulary for the allocators of pages, nodes and records: worlds of allocations and frees. *)
From Verif Require Import Base PoolModel.

(** An interval of memory: start and length. *)
Definition iv := (N * N)%type.
Definition within (a : N) (i : iv) : Prop := fst i <= a < fst i + snd i.
Definition apart (i j : iv) : Prop := forall a, within a i -> ~ within a j.
Definition contained (i j : iv) : Prop := fst j <= fst i /\ fst i + snd i <= fst j + snd j.

(** ** Pages and nodes: a page manager and any number of node managers that share it *)

Inductive owner := Page | Node (i : nat).
Record pworld := PW { pw_pm : pmgr; pw_nms : list (option nmgr); pw_mem : mem; pw_live : list (owner * N) }.

Definition size_of (o : owner) : N := match o with Page => PAGE_SIZE | Node _ => NODE_SIZE end.
(** The memory of something that was handed out. *)
Definition extent (x : owner * N) : iv := (snd x, size_of (fst x)).
(** The memory the operating system gave. *)
Definition segments (pm : pmgr) : list iv := map (fun s => (fst s, snd s * PAGE_SIZE)) (psegs pm).

(** What [aligned_alloc] promises: page alignment, no null, no memory that is in use. *)
Definition honest (os : N -> option N) (pm : pmgr) : Prop :=
  forall n a, os n = Some a -> a <> 0 /\ a mod PAGE_SIZE = 0 /\ forall s, In s (segments pm) -> apart (a, n * PAGE_SIZE) s.

Definition set_nth {A} (l : list A) (i : nat) (x : A) : list A := firstn i l ++ x :: skipn (Datatypes.S i) l.

(** One step: an allocation, a free of something that was handed out and not freed yet, the end of a node manager
    (its nodes are lost with it), or a write by anybody to a word that is not free memory of the managers. *)
Inductive pstep : pworld -> pworld -> Prop :=
| ps_page pm nms m live os pm' m' p : honest os pm ->
    page_alloc os pm m = Got (pm', m', p) -> pstep (PW pm nms m live) (PW pm' nms m' ((Page, p) :: live))
| ps_unpage pm nms m live p l1 l2 : live = l1 ++ (Page, p) :: l2 ->
    pstep (PW pm nms m live) (PW (fst (page_free pm m p)) nms (snd (page_free pm m p)) (l1 ++ l2))
| ps_new pm nms m live : pstep (PW pm nms m live) (PW pm (nms ++ [Some node_init]) m live)
| ps_node pm nms m live os i nm pm' nm' m' a : honest os pm -> nth_error nms i = Some (Some nm) ->
    node_alloc os pm nm m = Got (pm', nm', m', a) ->
    pstep (PW pm nms m live) (PW pm' (set_nth nms i (Some nm')) m' ((Node i, a) :: live))
| ps_unnode pm nms m live i nm a l1 l2 : nth_error nms i = Some (Some nm) -> live = l1 ++ (Node i, a) :: l2 ->
    pstep (PW pm nms m live) (PW pm (set_nth nms i (Some (fst (node_free nm m a)))) (snd (node_free nm m a)) (l1 ++ l2))
| ps_quit pm nms m live i nm : nth_error nms i = Some (Some nm) ->
    pstep (PW pm nms m live) (PW (fst (node_quit pm nm m)) (set_nth nms i None) (snd (node_quit pm nm m))
      (filter (fun x => match fst x with Node j => negb (Nat.eqb i j) | Page => true end) live))
| ps_write pm nms m live a v :
    (exists x, In x live /\ within a (extent x)) \/ (forall s, In s (segments pm) -> ~ within a s) ->
    pstep (PW pm nms m live) (PW pm nms (poke m a v) live).

(** The worlds that can come about after CalPageManagerInit. *)
Inductive preach : pworld -> Prop :=
| pr_init os per pm m m0 : honest os (PM 0 per []) -> page_init os per m0 = Got (pm, m) -> preach (PW pm [] m [])
| pr_step w w' : preach w -> pstep w w' -> preach w'.

(** Pages of the segments, and the pages of them that are in use: handed out as pages or held by a node manager. *)
Definition cut (base size : N) (n : nat) : list N := map (fun j => base + N.of_nat j * size) (seq 0 n).
Definition all_pages (pm : pmgr) : list N := flat_map (fun s => cut (fst s) PAGE_SIZE (N.to_nat (snd s))) (psegs pm).
Definition pages_in_use (w : pworld) : list N :=
  flat_map (fun x => match fst x with Page => [snd x] | Node _ => [] end) (pw_live w) ++
  flat_map (fun n => match n with Some nm => npages nm | None => [] end) (pw_nms w).
Definition nodes_in_use (w : pworld) (i : nat) : list N :=
  flat_map (fun x => match fst x with Node j => if Nat.eqb i j then [snd x] else [] | Page => [] end) (pw_live w).

(** ** Records: any number of record managers on top of a block allocator *)

Record rworld := RW { rw_ms : list (option rmgr); rw_mem : mem; rw_blocks : list N; rw_live : list (nat * N) }.

(** The memory of a record that was handed out. *)
Definition rec_extent (w : rworld) (x : nat * N) : iv :=
  (snd x, match nth_error (rw_ms w) (fst x) with Some (Some r) => rsize r | _ => 0 end).
Definition block_extent (b : N) : iv := (b, ALLOC_SIZE).

(** What the block allocator promises (C44). *)
Definition fresh_block (b : N) (w : rworld) : Prop :=
  b <> 0 /\ b mod 8 = 0 /\ forall x, In x (rw_blocks w) -> apart (block_extent b) (block_extent x).

(** [rw_blocks]: the blocks that were obtained and not given back. *)
Inductive rstep : rworld -> rworld -> Prop :=
| rs_new w size r : rec_init size = Got r -> rstep w (RW (rw_ms w ++ [Some r]) (rw_mem w) (rw_blocks w) (rw_live w))
| rs_alloc w i r b r' m' a : nth_error (rw_ms w) i = Some (Some r) -> fresh_block b w ->
    rec_alloc b r (rw_mem w) = (r', m', a) ->
    rstep w (RW (set_nth (rw_ms w) i (Some r')) m' (if rfree r =? 0 then b :: rw_blocks w else rw_blocks w) ((i, a) :: rw_live w))
| rs_free w i r a l1 l2 : nth_error (rw_ms w) i = Some (Some r) -> rw_live w = l1 ++ (i, a) :: l2 ->
    rstep w (RW (set_nth (rw_ms w) i (Some (fst (rec_free r (rw_mem w) a)))) (snd (rec_free r (rw_mem w) a)) (rw_blocks w) (l1 ++ l2))
| rs_quit w i r l : nth_error (rw_ms w) i = Some (Some r) -> rec_quit r (rw_mem w) = Got l ->
    rstep w (RW (set_nth (rw_ms w) i None) (rw_mem w) (filter (fun b => negb (existsb (N.eqb b) l)) (rw_blocks w))
      (filter (fun x => negb (Nat.eqb i (fst x))) (rw_live w)))
| rs_write w a v :
    (exists x, In x (rw_live w) /\ within a (rec_extent w x)) \/ (forall b, In b (rw_blocks w) -> ~ within a (block_extent b)) ->
    rstep w (RW (rw_ms w) (poke (rw_mem w) a v) (rw_blocks w) (rw_live w)).

Inductive rreach : rworld -> Prop :=
| rr_init m : rreach (RW [] m [] [])
| rr_step w w' : rreach w -> rstep w w' -> rreach w'.

(** The records of one manager that are in use. *)
Definition records_of (w : rworld) (i : nat) : list N := flat_map (fun x => if Nat.eqb i (fst x) then [snd x] else []) (rw_live w).
