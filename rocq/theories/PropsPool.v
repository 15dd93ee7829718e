(** * C45: page manager, node managers and record managers. *)
From Verif Require Import Base PoolModel SpecPool PoolFacts.
Open Scope N_scope.

(** What was handed out and not freed never overlaps, after every sequence of operations ... *)
Theorem C45_pages_and_nodes_apart : forall w, preach w -> forall i j x y, i <> j ->
  nth_error (pw_live w) i = Some x -> nth_error (pw_live w) j = Some y -> apart (extent x) (extent y).
Proof. exact live_apart. Qed.
Print Assumptions C45_pages_and_nodes_apart.

(** ... is aligned and lies in memory that the operating system gave. *)
Theorem C45_pages_and_nodes_place : forall w, preach w -> forall x, In x (pw_live w) ->
  snd x <> 0 /\ snd x mod size_of (fst x) = 0 /\ exists s, In s (segments (pw_pm w)) /\ contained (extent x) s.
Proof. exact live_place. Qed.
Print Assumptions C45_pages_and_nodes_place.

Example C45_pages_example : preach pool_world /\
  map extent (pw_live pool_world) = [(65536 + 8192 + 32, 32); (65536 + 8192, 32); (65536 + 4096, 4096); (65536, 4096)].
Proof. exact (conj pool_world_reach (proj1 pool_world_live)). Qed.

(** As long as a page is not in use, no memory is asked for: a page that is not in use is handed out. *)
Theorem C45_pages_again : forall w p, preach w -> In p (all_pages (pw_pm w)) -> ~ In p (pages_in_use w) -> forall os os',
  page_alloc os (pw_pm w) (pw_mem w) = page_alloc os' (pw_pm w) (pw_mem w) /\
  exists pm' m' q, page_alloc os (pw_pm w) (pw_mem w) = Got (pm', m', q) /\ psegs pm' = psegs (pw_pm w) /\
    In q (all_pages (pw_pm w)) /\ ~ In q (pages_in_use w).
Proof. exact pages_again. Qed.
Print Assumptions C45_pages_again.

Example C45_pages_again_example : In (65536 + 12288) (all_pages (pw_pm pool_world)) /\ pages_in_use pool_world = [65536 + 4096; 65536; 65536 + 8192].
Proof. exact (conj (proj1 (proj2 (proj2 pool_world_live))) (proj1 (proj2 (proj2 (proj2 pool_world_live))))). Qed.

(** As long as a node of the pages of a node manager is not in use, no page is taken: such a node is handed out. *)
Theorem C45_nodes_again : forall w i nm, preach w -> nth_error (pw_nms w) i = Some (Some nm) ->
  (length (nodes_in_use w i) < length (npages nm) * NUM_NODES_PER_PAGE)%nat -> forall os os',
  node_alloc os (pw_pm w) nm (pw_mem w) = node_alloc os' (pw_pm w) nm (pw_mem w) /\
  exists nm' m' a, node_alloc os (pw_pm w) nm (pw_mem w) = Got (pw_pm w, nm', m', a) /\ npages nm' = npages nm /\
    ~ In (Node i, a) (pw_live w) /\ exists p, In p (npages nm) /\ contained (a, NODE_SIZE) (p, PAGE_SIZE).
Proof. exact nodes_again. Qed.
Print Assumptions C45_nodes_again.

Example C45_nodes_again_example : preach pool_world /\ length (nodes_in_use pool_world 0) = 2%nat.
Proof. exact (conj pool_world_reach (proj2 (proj2 (proj2 (proj2 pool_world_live))))). Qed.

(** A new node is all zero. *)
Theorem C45_nodes_clear : forall os pm nm m pm' nm' m' a, node_alloc os pm nm m = Got (pm', nm', m', a) ->
  m' a = 0 /\ m' (a + 8) = 0 /\ m' (a + 16) = 0 /\ m' (a + 24) = 0.
Proof. exact nodes_clear. Qed.
Print Assumptions C45_nodes_clear.

Theorem C45_no_endless_loop : forall os pm nm m, page_alloc os pm m <> Stuck /\ node_alloc os pm nm m <> Stuck.
Proof. exact never_stuck. Qed.
Print Assumptions C45_no_endless_loop.

(** Records. *)
Theorem C45_records_apart : forall w, rreach w -> forall i j x y, i <> j ->
  nth_error (rw_live w) i = Some x -> nth_error (rw_live w) j = Some y -> apart (rec_extent w x) (rec_extent w y).
Proof. exact rec_live_apart. Qed.
Print Assumptions C45_records_apart.

Theorem C45_records_place : forall w, rreach w -> forall x, In x (rw_live w) ->
  snd x <> 0 /\ snd x mod 8 = 0 /\ 8 <= snd (rec_extent w x) /\ exists b, In b (rw_blocks w) /\ contained (rec_extent w x) (block_extent b).
Proof. exact rec_live_place. Qed.
Print Assumptions C45_records_place.

Example C45_records_example : rreach rec_world /\ map (rec_extent rec_world) (rw_live rec_world) = [(40008, 2000); (22008, 2000); (20008, 2000)] /\
  rw_blocks rec_world = [40000; 20000].
Proof. exact (conj rec_world_reach rec_world_live). Qed.

(** As long as a record of the blocks of a manager is not in use, no block is asked for and such a record is handed out. *)
Theorem C45_records_again : forall w i r, rreach w -> nth_error (rw_ms w) i = Some (Some r) ->
  N.of_nat (length (records_of w i)) < rnum r * rper r -> forall b b',
  rec_alloc b r (rw_mem w) = rec_alloc b' r (rw_mem w) /\ ~ In (i, snd (rec_alloc b r (rw_mem w))) (rw_live w).
Proof. exact records_again. Qed.
Print Assumptions C45_records_again.

Theorem C45_record_size : forall size r, rec_init size = Got r -> size <= rsize r /\ rsize r mod 8 = 0 /\ 1 <= rper r.
Proof. exact rec_size. Qed.
Print Assumptions C45_record_size.
Example C45_record_size_example : rec_init 1999 = Got (RM 2000 2 0 0 0) /\ rec_init 4049 = Exit.
Proof. vm_compute. auto. Qed.

(** The end of a record manager gives back its blocks, each once, and no block with a record of another manager. *)
Theorem C45_records_quit : forall w i r, rreach w -> nth_error (rw_ms w) i = Some (Some r) ->
  exists l, rec_quit r (rw_mem w) = Got l /\ NoDup l /\ N.of_nat (length l) = rnum r /\
    forall x, In x (rw_live w) -> (exists b, In b l /\ contained (rec_extent w x) (block_extent b)) <-> fst x = i.
Proof. exact quit_blocks. Qed.
Print Assumptions C45_records_quit.
