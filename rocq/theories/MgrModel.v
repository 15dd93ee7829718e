(** * The manager: interface handles, garbage collection, variables (executable model).

    Models /repo/src/calUtil.c:275-316, /repo/src/calGC.c:90-204, /repo/src/calBddManager.c:139-604
    and the data of /repo/src/calCacheTableTwo.c and /repo/src/calAssociation.c. *)
From Verif Require Import Base BFModel.

(** ** User handles

    [Cal_Bdd] (/repo/src/cal.h, used at /repo/src/calUtil.c:275-316): the tagged address of a
    node of [uniqueTable[0]], null being 0. *)
Record ubdd := U { uptr : N; uneg : bool }.
Definition unull : ubdd := U 0 false.
Definition uisnull (h : ubdd) : bool := (uptr h =? 0) && negb (uneg h).
Definition unot (h : ubdd) : ubdd := U (uptr h) (negb (uneg h)).
Definition ueq (h k : ubdd) : bool := (uptr h =? uptr k) && Bool.eqb (uneg h) (uneg k).

(** ** Computed table

    [CacheEntry_t] (/repo/src/calInt.h:269-459): opcode, two operands, result, and the temporary
    mark (bit 1 of [operand1]).  [bins] maps a bin number to its entry; an invalid entry
    (opcode 0) is [None]. *)
Record centry := CE { cop : N; cf : edge; cg : edge; cres : edge; ctmp : bool }.
Definition cache := N -> option centry.

(** ** Associations

    [CalAssociation_t] (/repo/src/calInt.h:322-333): [amap] is [varAssociation] with [bddNull]
    as [None]; [alast] is [lastBddIndex] (-1 when empty); [arc] is [refCount]. *)
Record assoc := A { aid : N; amap : N -> option edge; alast : Z; arc : N }.

(** ** Manager

    [Cal_BddManager_t] (/repo/src/calInt.h:360-459), restricted to the fields the model uses:
    node store with request queues, variable order, [userOneBdd], [varBdds], computed table,
    associations ([massoc] is [associationList], [mtemp] is [tempAssociation], [mcur] is
    [currentAssociation] with [None] for the temporary one), [tempOpCode],
    [uniqueTableGCLimit], [nodeLimit], [overflow]. *)
Record mgr := M {
  me : eng; mo : order; muone : N; mvb : N -> edge; mca : cache;
  massoc : list assoc; mtemp : assoc; mcur : option N; mtop : N;
  mlim : N; mnl : N; mov : bool
}.

Definition set_me (m : mgr) (e : eng) : mgr :=
  M e (mo m) (muone m) (mvb m) (mca m) (massoc m) (mtemp m) (mcur m) (mtop m) (mlim m) (mnl m) (mov m).
Definition set_mst (m : mgr) (s : store) : mgr := set_me m (set_st (me m) s).
Definition set_mca (m : mgr) (c : cache) : mgr :=
  M (me m) (mo m) (muone m) (mvb m) c (massoc m) (mtemp m) (mcur m) (mtop m) (mlim m) (mnl m) (mov m).
Definition set_mlim (m : mgr) (l : N) : mgr :=
  M (me m) (mo m) (muone m) (mvb m) (mca m) (massoc m) (mtemp m) (mcur m) (mtop m) l (mnl m) (mov m).
Definition set_mov (m : mgr) (b : bool) : mgr :=
  M (me m) (mo m) (muone m) (mvb m) (mca m) (massoc m) (mtemp m) (mcur m) (mtop m) (mlim m) (mnl m) b.

Notation mmem m := (mem (st (me m))).
Definition numvars (m : mgr) : N := N.of_nat (length (ord (mo m))).

(** ** Handles and internal edges *)

(** [CalBddGetInternalBdd] (/repo/src/calUtil.c:275-290). *)
Definition uint (mm : memory) (h : ubdd) : edge := ephase (ct (mm (uptr h))) (uneg h).

(** [CalBddGetExternalBdd] (/repo/src/calUtil.c:293-316). *)
Definition getext (s : store) (e : edge) : ubdd * store :=
  let t := if eneg e then enot e else e in
  let '(r, found, s1, l) := tfindadd s 0 (ut s 0) t one in
  let s2 := set_ut s1 (upd (ut s1) 0 l) in
  let s3 := if found then s2 else icr s2 e in
  let s4 := icr s3 r in
  (U (eptr r) (eneg e), s4).

(** ** Node creation outside the breadth-first engine

    [CalUniqueTableForIdFindOrAdd] (/repo/src/calHashTable.c:376-400). *)
Definition uniq_add (s : store) (i : N) (t e : edge) : edge * bool * store :=
  let '(r, found, s1, l) := tfindadd s i (ut s i) t e in
  (r, found, set_nn (set_ut s1 (upd (ut s1) i l)) (if found then nn s1 else nn s1 + 1)).
Definition find_or_add (s : store) (i : N) (t e : edge) : edge * bool * store :=
  if eeq t e then (t, true, s)
  else if eneg t
       then let '(r, found, s1) := uniq_add s i (enot t) (enot e) in (enot r, found, s1)
       else uniq_add s i t e.

(** ** Garbage collection *)

(** One chain element of [CalHashTableGC] (/repo/src/calGC.c:176-201): a node with count zero
    is unlinked, its children's counts are decremented and it goes to the free list of
    its node manager.  The mark is modelled by the list of freed addresses. *)
Definition gc1 (i : N) (p : store * list N) (a : N) : store * list N :=
  let '(s, fr) := p in
  if cr (mem s a) =? 0 then
    let s1 := dcr (dcr s (ct (mem s a))) (ce (mem s a)) in
    let s2 := set_ut s1 (upd (ut s1) i (remove N.eq_dec a (ut s1 i))) in
    let s3 := free_node s2 i a in
    (set_nn s3 (if i =? 0 then nn s3 else nn s3 - 1), a :: fr)
  else p.

(** [CalHashTableGC] (/repo/src/calGC.c:165-204); chains of all bins in one list. *)
Definition gc_table (p : store * list N) (i : N) : store * list N :=
  fold_left (gc1 i) (ut (fst p) i) p.

(** The table loop of [Cal_BddManagerGC] (/repo/src/calGC.c:102-108). *)
Definition gc_store (o : order) (s : store) : store * list N :=
  fold_left gc_table (0 :: ord o) (s, []).

(** [CalCacheTableTwoGCFlush] (/repo/src/calCacheTableTwo.c:347-365). *)
Definition mentions (fr : list N) (e : edge) : bool := existsb (N.eqb (eptr e)) fr.
Definition cache_gc (fr : list N) (c : cache) : cache := fun k =>
  match c k with
  | Some e => if mentions fr (cf e) || mentions fr (cg e) || mentions fr (cres e) then None else Some e
  | None => None
  end.

(** [Cal_BddManagerGC] (/repo/src/calGC.c:90-120), statistics left out. *)
Definition gc (m : mgr) : mgr :=
  let '(s, fr) := gc_store (mo m) (st (me m)) in
  set_mca (set_mst m s) (cache_gc fr (mca m)).

(** [Cal_BddManagerSetGCLimit] (/repo/src/calGC.c:124-135), [CAL_MIN_GC_LIMIT] = 10000. *)
Definition set_gclimit (m : mgr) : mgr :=
  let l := 2 * nn (st (me m)) in
  let l := if l <? 10000 then 10000 else l in
  let l := if negb (mnl m =? 0) && (mnl m <? l) then mnl m else l in
  set_mlim m l.

(** ** Variables *)

(** Shift of [idToIndex] and [indexToId] in [CalBddManagerCreateNewVar]
    (/repo/src/calBddManager.c:548-580) for the new variable [id] at [index]. *)
Definition order_insert (o : order) (id index : N) : order :=
  let k := N.to_nat index in
  {| ord := firstn k (ord o) ++ id :: skipn k (ord o);
     idx := fun j => if j =? id then index
                     else if negb (j =? 0) && (j <=? N.of_nat (length (ord o))) && (index <=? idx o j)
                          then idx o j + 1 else idx o j |}.

(** [lastBddIndex] of an association (/repo/src/calBddManager.c:561-571). *)
Definition assoc_shift (index : N) (a : assoc) : assoc :=
  A (aid a) (amap a) (if (Z.of_N index <=? alast a)%Z then (alast a + 1)%Z else alast a) (arc a).

(** [CalBddManagerCreateNewVar] (/repo/src/calBddManager.c:466-604); growing of the arrays is
    left out, variable blocks are in [BlockModel]. *)
Definition newvar (m : mgr) (index : N) : outcome (edge * mgr) :=
  if numvars m =? 65534 then Fatal
  else if numvars m <? index then Fatal
  else
    let id := numvars m + 1 in
    let '(a, s1) := alloc (st (me m)) id in
    let s2 := put s1 a (C one zero MAXREF) in
    let s3 := set_nn (set_ut s2 (upd (ut s2) id (a :: ut s2 id))) (nn s2 + 1) in
    let v := E id a false in
    Ok (v, M (set_st (me m) s3) (order_insert (mo m) id index) (muone m) (upd (mvb m) id v)
             (mca m) (map (assoc_shift index) (massoc m)) (assoc_shift index (mtemp m))
             (mcur m) (mtop m) (mlim m) (mnl m) (mov m)).

(** [Cal_BddManagerInit] (/repo/src/calBddManager.c:139-282).  Addresses: 1 constant node, 2 null
    node, 3 user node of the constant.  The children of the constant are the non-null
    garbage pointer [~0x0]. *)
Definition GARB : edge := E 0 18446744073709551615 false.
Definition init : mgr :=
  let m0 : memory := upd (upd (fun _ => C efwd efwd 0) ONE (C GARB GARB MAXREF)) 3 (C one one MAXREF) in
  let s := {| mem := m0; ut := upd (fun _ => []) 0 [3]; fl := fun _ => []; nx := 4; nn := 1 |} in
  M (start s) {| ord := []; idx := fun j => if j =? 0 then CONST_INDEX else 0 |} 3
    (fun _ => efwd) (fun _ => None) [] (A 0 (fun _ => None) (-1) 0) None 65535 10000 0 false.
