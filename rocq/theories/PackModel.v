(** * Model of the compaction of node pages after garbage collection.

    [CalRepackNodesAfterGC] (/repo/src/calGC.c:209-373), called from [CalBddPostProcessing]
    (/repo/src/calUtil.c:234-239).

    Pages.  A node manager fills its pages in order and its free list is used before a new page
    (/repo/src/calInt.h:475-506), and the model's allocator hands out increasing addresses: the pages of a variable
    are the addresses of its table and free list in increasing order, cut into pieces of [npp] cells
    ([NUM_NODES_PER_PAGE], /repo/src/calInt.h:170).  The cells of the last page that were never used are not in the
    model's free list; they are only ever taken before a new page would be, which is what the model's fresh addresses
    stand for.

    The scan takes a cell to be in use when its count is not zero and it is not forwarded; here it is looked up in the
    table, which comes to the same directly after garbage collection: nodes without references have just been removed
    and the count bits of free cells are clear.  The size of the bucket arrays and the chains are left out (the tables
    are sets here; HashModel.v has the chains). *)
From Coq Require Import NArith List Bool.
From Verif Require Import Base BFModel MgrModel ApiModel.
Import ListNotations.
Open Scope N_scope.

Definition inb (a : N) (l : list N) : bool := existsb (N.eqb a) l.

(** Increasing order. *)
Fixpoint insert_addr (a : N) (l : list N) : list N :=
  match l with [] => [a] | b :: l' => if a <=? b then a :: l else b :: insert_addr a l' end.
Definition in_order (l : list N) : list N := fold_right insert_addr [] l.

(** Page size and [tableRepackThreshold] = [tnum]/[tden] (/repo/src/calInt.h:76, /repo/src/calBddManager.c:344-346). *)
Record pack_par := PP { npp : N; tnum : N; tden : N }.

Definition cells (s : store) (i : N) : list N := in_order (ut s i ++ fl s i).
Definition count (l : list N) : N := N.of_nat (length l).
(** [nodeManager->numPages]. *)
Definition pages (p : pack_par) (s : store) (i : N) : N := (count (cells s i) + (npp p - 1)) / npp p.
(** [CalBddIdNeedsRepacking] (/repo/src/calInt.h:586-588), [CAL_NUM_PAGES_THRESHOLD] = 3. *)
Definition needs (p : pack_par) (s : store) (i : N) : bool :=
  (3 <? pages p s i) && (count (ut s i) * tden p <? tnum p * pages p s i * npp p).
(** [numPagesRequired] (/repo/src/calGC.c:292-293). *)
Definition required (p : pack_par) (s : store) (i : N) : N := count (ut s i) / npp p + 1.

(** The cell lies in a page that stays. *)
Definition stays (p : pack_par) (s : store) (i a : N) : bool :=
  negb (needs p s i) || inb a (firstn (N.to_nat (required p s i * npp p)) (cells s i)).

(** The edges of a node with forwardings followed (/repo/src/calGC.c:311-320). *)
Definition fixc (m : memory) (a : N) : cell := let c := m a in C (fwd m (ct c)) (fwd m (ce c)) (cr c).

(** Memory, new table, new free list. *)
Definition pst := (memory * list N * list N)%type.
(** A cell of the pages that stay (/repo/src/calGC.c:302-327). *)
Definition pack_keep (tab : list N) (p : pst) (a : N) : pst :=
  let '(m, T, F) := p in
  if inb a tab then (upd m a (fixc m a), a :: T, F) else (m, T, a :: F).
(** A cell of a page that is given back (/repo/src/calGC.c:328-347): a node is copied to a free cell and becomes a
    forwarding.  With an empty free list the code would write through a null pointer. *)
Definition pack_move (i : N) (tab : list N) (r : outcome pst) (a : N) : outcome pst :=
  match r with
  | Ok (m, T, F) =>
      if inb a tab then
        match F with
        | n :: F' =>
            let m1 := upd m n (fixc m a) in
            Ok (upd m1 a (C (E i n false) efwd (cr (m a))), n :: T, F')
        | [] => Undefined
        end
      else Ok (m, T, F)
  | x => x
  end.
(** One variable that is packed.  [numPages] is set to the number of pages required; should that be more than there
    are, the next scan reads beyond the page list. *)
Definition pack_table (p : pack_par) (s : store) (i : N) : outcome store :=
  let k := N.to_nat (required p s i * npp p) in
  let cs := cells s i in
  if pages p s i <? required p s i then Undefined
  else match fold_left (pack_move i (ut s i)) (skipn k cs)
               (Ok (fold_left (pack_keep (ut s i)) (firstn k cs) (mem s, [], []))) with
       | Ok (m, T, F) => Ok {| mem := m; ut := upd (ut s) i T; fl := upd (fl s) i F; nx := nx s; nn := nn s |}
       | Fatal => Fatal
       | Undefined => Undefined
       end.
(** One variable whose pages stay (/repo/src/calGC.c:229-262). *)
Definition fix1 (m : memory) (a : N) : memory := upd m a (fixc m a).
Definition fix_table (s : store) (i : N) : store := set_mem s (fold_left fix1 (ut s i) (mem s)).

(** The loop over the variables, from the last one up; the flag is [packingFlag]. *)
Definition pack_var (p : pack_par) (r : outcome (store * bool)) (i : N) : outcome (store * bool) :=
  match r with
  | Ok (s, b) =>
      if needs p s i then match pack_table p s i with Ok s' => Ok (s', true) | Fatal => Fatal | Undefined => Undefined end
      else Ok (if b then fix_table s i else s, b)
  | x => x
  end.
Definition pack_vars (p : pack_par) (o : order) (s : store) : outcome (store * bool) :=
  fold_left (pack_var p) (rev (ord o)) (Ok (s, false)).

(** [CalBddReorderFixUserBddPtrs] (/repo/src/calReorderUtil.c:88-133). *)
Definition fix_user (m : memory) (a : N) : memory := let c := m a in upd m a (C (fwd m (ct c)) (ce c) (cr c)).
Definition fix_users (s : store) : store := set_mem s (fold_left fix_user (ut s 0) (mem s)).
(** [CalCacheTableTwoRepackUpdate] (/repo/src/calCacheTableTwo.c:369-389); an entry stays in its bin. *)
Definition fix_entry (m : memory) (e : centry) : centry := CE (cop e) (fwd m (cf e)) (fwd m (cg e)) (fwd m (cres e)) (ctmp e).
Definition fix_cache (m : memory) (c : cache) : cache := fun k => match c k with Some e => Some (fix_entry m e) | None => None end.
(** [CalReorderAssociationFix] (/repo/src/calAssociation.c:426-447). *)
Definition fix_images (m : memory) (a : assoc) : assoc :=
  A (aid a) (fun i => match amap a i with Some e => Some (fwd m e) | None => None end) (alast a) (arc a).

(** [CalRepackNodesAfterGC]; no pipeline is open.  The stored variables ([varBdds]) are not brought up to date. *)
Definition repack (p : pack_par) (m : mgr) : outcome mgr :=
  match pack_vars p (mo m) (st (me m)) with
  | Ok (s, _) =>
      let s1 := fix_users s in
      Ok (M (set_st (me m) s1) (mo m) (muone m) (mvb m) (fix_cache (mem s) (mca m))
            (map (fix_images (mem s)) (massoc m)) (fix_images (mem s) (mtemp m)) (mcur m) (mtop m) (mlim m) (mnl m) (mov m))
  | Fatal => Fatal
  | Undefined => Undefined
  end.

(** Collection, compaction and the new limit, as at the end of a call that exceeds the limit
    (/repo/src/calUtil.c:219-241). *)
Definition gc_repack (p : pack_par) (m : mgr) : outcome mgr :=
  match repack p (gc m) with Ok m' => Ok (set_gclimit m') | Fatal => Fatal | Undefined => Undefined end.

(** The nodes of all variables, which the manager knows by their address ([varBdds], /repo/src/calInt.h:356), lie in
    pages that stay. *)
Definition vars_stay (p : pack_par) (m : mgr) : Prop :=
  forall i, In i (ord (mo m)) -> stays p (st (me m)) i (eptr (mvb m i)) = true.
