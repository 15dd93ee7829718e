(** * Depth-first variable reordering (executable model): /repo/src/calReorderDF.c.

    Modelled: [Cal_BddReorder] with the default method [CAL_REORDER_METHOD_DF] (/repo/src/cal.c:454-468,
    /repo/src/calReorderDF.c:154-184), the change of the node layout, the exchange of two adjacent variables, the
    copying of all nodes into fresh pages and the repair of the references to them.  Which exchanges are made is
    decided by the searches of SearchModel.v; here the sequence of exchanges is an argument.  Hash bins are flattened
    to lists.  The pipeline is taken to be idle. *)
From Verif Require Import Base BFModel MgrModel.

(** ** The node layout during reordering

    [BddConvertDataStruct] (/repo/src/calReorderDF.c:330-425) stores the id of the node itself in [thenBddId] and the
    reference count in [elseBddId]; the children are tagged pointers without ids. *)
Definition ded : Type := N * bool.
Record dnode := DN { did : N; drc : N; dt : ded; de : ded }.
(** Node memory, unique tables, free nodes, next unused address, [numNodes].  The free nodes of the static
    [nodeManager] and of the managers of all variables are in one list; the code takes the former first and then
    those of the variables in the order of the ids. *)
Record dst := DS { dm : N -> dnode; dtab : N -> list N; dfl : list N; dnx : N; dnum : N }.

Definition deq (p q : ded) : bool := (fst p =? fst q) && Bool.eqb (snd p) (snd q).
(** [CalBddNodeNot] (/repo/src/calInt.h). *)
Definition dnot (p : ded) : ded := (fst p, negb (snd p)).
(** The pointer with the tag of another pointer xor-ed in ([BddNodeGetThenBddNode],
    [BddNodeGetElseBddNode], /repo/src/calReorderDF.c:107-115). *)
Definition dtag (p : ded) (b : bool) : ded := (fst p, xorb (snd p) b).
Definition dput (s : dst) (a : N) (c : dnode) : dst := DS (upd (dm s) a c) (dtab s) (dfl s) (dnx s) (dnum s).
Definition set_dtab (s : dst) (i : N) (l : list N) : dst := DS (dm s) (upd (dtab s) i l) (dfl s) (dnx s) (dnum s).
Definition set_drc (c : dnode) (n : N) : dnode := DN (did c) n (dt c) (de c).

(** [BddNodeIcrRefCount], [BddNodeDcrRefCount] (/repo/src/calReorderDF.c:75-91). *)
Definition dicr (s : dst) (p : ded) : dst := dput s (fst p) (set_drc (dm s (fst p)) (rc_icr (drc (dm s (fst p))))).
Definition ddcr (s : dst) (p : ded) : dst := dput s (fst p) (set_drc (dm s (fst p)) (rc_dcr (drc (dm s (fst p))))).

(** [NodeManagerAllocNode] (/repo/src/calReorderDF.c:194-238). *)
Definition dalloc (s : dst) : N * dst :=
  match dfl s with
  | a :: r => (a, DS (dm s) (dtab s) r (dnx s) (dnum s))
  | [] => (dnx s, DS (dm s) (dtab s) [] (dnx s + 1) (dnum s))
  end.

(** [HashTableFindOrAdd] (/repo/src/calReorderDF.c:300-328). *)
Definition dhas (s : dst) (t e : ded) (a : N) : bool := deq (dt (dm s a)) t && deq (de (dm s a)) e.
Definition dfindadd (s : dst) (i : N) (t e : ded) : N * bool * dst :=
  match find (dhas s t e) (dtab s i) with
  | Some a => (a, true, s)
  | None => let '(a, s1) := dalloc s in (a, false, set_dtab (dput s1 a (DN i 0 t e)) i (a :: dtab s1 i))
  end.

(** [UniqueTableForIdFindOrAdd] (/repo/src/calReorderDF.c:246-270). *)
Definition dbump (s : dst) (found : bool) : dst :=
  DS (dm s) (dtab s) (dfl s) (dnx s) (if found then dnum s else dnum s + 1).
Definition dunique (s : dst) (i : N) (t e : ded) : ded * bool * dst :=
  if deq t e then (t, true, s)
  else if snd t
       then let '(a, found, s1) := dfindadd s i (dnot t) (dnot e) in ((a, true), found, dbump s1 found)
       else let '(a, found, s1) := dfindadd s i t e in ((a, false), found, dbump s1 found).

(** ** Exchange of two adjacent variables *)

(** The cofactors of a child with respect to the lower variable [j] (/repo/src/calReorderDF.c:834-848). *)
Definition dcof (s : dst) (j : N) (p : ded) : ded * ded :=
  if did (dm s (fst p)) =? j
  then (dtag (dt (dm s (fst p))) (snd p), dtag (de (dm s (fst p))) (snd p))
  else (p, p).

(** [BddExchangeAux] (/repo/src/calReorderDF.c:822-901). *)
Definition exchange_aux (s : dst) (i j f : N) : dst :=
  let f0 := de (dm s f) in
  let f1 := dt (dm s f) in
  let '(f01, f00) := dcof s j f0 in
  let '(f11, f10) := dcof s j f1 in
  let '(n0, found0, s1) := if deq f00 f10 then (f00, true, s) else dunique s i f10 f00 in
  let s2 := dicr s1 n0 in
  let '(n1, found1, s3) := if deq f01 f11 then (f11, true, s2) else dunique s2 i f11 f01 in
  let s4 := dicr s3 n1 in
  let s5 := dput s4 f (DN j (drc (dm s4 f)) n1 n0) in
  let s6 := if found0 then s5 else dicr (dicr s5 f00) f10 in
  let s7 := if found1 then s6 else dicr (dicr s6 f01) f11 in
  ddcr (ddcr s7 f0) f1.

(** One round of the second loop of [BddExchange] (/repo/src/calReorderDF.c:997-1002). *)
Definition exchange1 (i j : N) (s : dst) (f : N) : dst :=
  let s1 := exchange_aux s i j f in set_dtab s1 j (f :: dtab s1 j).

(** One round of [SweepVarTable] (/repo/src/calReorderDF.c:925-952). *)
Definition sweep1 (j : N) (s : dst) (a : N) : dst :=
  if drc (dm s a) =? 0 then
    let s1 := set_dtab s j (remove N.eq_dec a (dtab s j)) in
    let s2 := DS (dm s1) (dtab s1) (a :: dfl s1) (dnx s1) (dnum s1 - 1) in
    ddcr (ddcr s2 (dt (dm s a))) (de (dm s a))
  else s.
Definition sweep (s : dst) (j : N) : dst := fold_left (sweep1 j) (dtab s j) s.

(** The test of the first loop of [BddExchange] (/repo/src/calReorderDF.c:980-996). *)
Definition touches (s : dst) (j a : N) : bool :=
  (did (dm s (fst (de (dm s a)))) =? j) || (did (dm s (fst (dt (dm s a)))) =? j).

(** The node part of [BddExchange] (/repo/src/calReorderDF.c:972-1008); [inter] is [CalTestInteract]. *)
Definition exchange (inter : N -> N -> bool) (s : dst) (i j : N) : dst :=
  if inter i j then
    let L := rev (filter (touches s j) (dtab s i)) in
    let s1 := set_dtab s i (filter (fun a => negb (touches s j a)) (dtab s i)) in
    sweep (fold_left (exchange1 i j) L s1) j
  else s.

(** [CalFixupAssoc] (/repo/src/calReorderUtil.c:433-451), with the order before the exchange. *)
Definition isnone {A} (x : option A) : bool := match x with None => true | Some _ => false end.
Definition fixup_assoc (o : order) (i j : N) (a : assoc) : assoc :=
  if (alast a =? -1)%Z then a
  else if negb (isnone (amap a i)) && (alast a =? Z.of_N (idx o i))%Z
  then A (aid a) (amap a) (alast a + 1)%Z (arc a)
  else if isnone (amap a i) && negb (isnone (amap a j)) && (alast a =? Z.of_N (idx o j))%Z
  then A (aid a) (amap a) (alast a - 1)%Z (arc a)
  else a.

(** The assignments to [idToIndex] and [indexToId] (/repo/src/calReorderDF.c:1015-1018). *)
Fixpoint swap_list (k : nat) (l : list N) : list N :=
  match k, l with
  | O, a :: b :: l => b :: a :: l
  | S k, a :: l => a :: swap_list k l
  | _, l => l
  end.
Definition swap_order (o : order) (k : N) (i j : N) : order :=
  {| ord := swap_list (N.to_nat k) (ord o); idx := upd (upd (idx o) i (k + 1)) j k |}.

(** ** The sequence of exchanges

    State: nodes, order, temporary association, associations. *)
Record rst := RS { rd : dst; ro : order; rtemp : assoc; rassoc : list assoc }.
(** [BddExchange] (/repo/src/calReorderDF.c:957-1028) for the variable at index [k].  The searches call it only for
    an index that has a successor. *)
Definition exchange_at (inter : N -> N -> bool) (r : rst) (k : N) : rst :=
  match nth_error (ord (ro r)) (N.to_nat k), nth_error (ord (ro r)) (S (N.to_nat k)) with
  | Some i, Some j =>
      RS (exchange inter (rd r) i j) (swap_order (ro r) k i j)
         (fixup_assoc (ro r) i j (rtemp r)) (map (fixup_assoc (ro r) i j) (rassoc r))
  | _, _ => r
  end.

(** ** Conversion *)

(** The table in which a node lies; 0 for user nodes and the constant. *)
Definition id_of (o : order) (s : store) (a : N) : N :=
  match find (fun i => existsb (N.eqb a) (ut s i)) (ord o) with Some i => i | None => 0 end.
(** [BddConvertDataStruct] (/repo/src/calReorderDF.c:337-425) after the nodes without references are gone; the loop
    that drops them is the one of garbage collection ([gc_table]), except that the nodes go to the free list of the
    static [nodeManager]. *)
Definition convert (o : order) (s : store) : dst :=
  DS (fun a => let c := mem s a in
        DN (id_of o s a) (cr c) (eptr (ct c), eneg (ct c)) (eptr (ce c), eneg (ce c)))
     (ut s) (flat_map (fl s) (ord o)) (nx s) (nn s).

(** ** Reallocation *)

(** [CalBddNodeIsForwardedTo] and [CalBddIsForwardedTo] (/repo/src/calInt.h:1325-1375). *)
Definition dfwd (m : N -> dnode) (p : ded) : ded :=
  if fst (de (m (fst p))) =? 0 then dtag (dt (m (fst p))) (snd p) else p.
Definition efwd_to (m : N -> dnode) (e : edge) : edge :=
  if fst (de (m (eptr e))) =? 0
  then E (did (m (eptr e))) (fst (dt (m (eptr e)))) (xorb (snd (dt (m (eptr e)))) (eneg e)) else e.

(** One node of the bottom-up pass of [BddReallocateNodes] (/repo/src/calReorderDF.c:757-788): it is copied to a
    fresh address and replaced by a forwarding. *)
Definition realloc1 (i : N) (s : dst) (a : N) : dst :=
  let c := dm s a in
  let n := dnx s in
  let m := upd (dm s) n (DN (did c) (drc c) (dfwd (dm s) (dt c)) (dfwd (dm s) (de c))) in
  DS (upd m a (DN i (drc c) (n, false) (0, false))) (upd (dtab s) i (n :: dtab s i)) (dfl s) (n + 1) (dnum s).
Definition realloc_table (s : dst) (i : N) : dst := fold_left (realloc1 i) (dtab s i) (set_dtab s i []).
(** [CalBddReorderFixUserBddPtrs] (/repo/src/calReorderUtil.c:88-133). *)
Definition fix_user1 (s : dst) (a : N) : dst :=
  let c := dm s a in dput s a (DN (did c) (drc c) (dfwd (dm s) (dt c)) (de c)).
(** [BddReallocateNodes] (/repo/src/calReorderDF.c:703-817), the nodes. *)
Definition reallocate (o : order) (s : dst) : dst :=
  let s1 := fold_left realloc_table (rev (ord o)) s in fold_left fix_user1 (dtab s1 0) s1.
(** [CalReorderAssociationFix] (/repo/src/calAssociation.c:426-447). *)
Definition fix_assoc (m : N -> dnode) (a : assoc) : assoc :=
  A (aid a) (fun i => match amap a i with Some e => Some (efwd_to m e) | None => None end) (alast a) (arc a).

(** [BddConvertDataStructBack] (/repo/src/calReorderDF.c:434-481).  The node managers of the variables start afresh;
    the one of the user table keeps its free list [f0]. *)
Definition back (f0 : list N) (s : dst) : store :=
  {| mem := fun a => let c := dm s a in
       if a =? ONE then C (E 0 (fst (dt c)) (snd (dt c))) (E 0 (fst (de c)) (snd (de c))) (drc c)
       else C (E (did (dm s (fst (dt c)))) (fst (dt c)) (snd (dt c)))
              (E (did (dm s (fst (de c)))) (fst (de c)) (snd (de c))) (drc c);
     ut := dtab s; fl := fun i => if i =? 0 then f0 else []; nx := dnx s; nn := dnum s |}.

(** ** The interaction matrix

    The ids met from an edge; [CalInitInteract] (/repo/src/calInteract.c:166-235) makes two variables interact when
    both are met from one user node.  The bit matrix itself is in InteractModel.v. *)
Fixpoint met (n : nat) (m : memory) (e : edge) : list N :=
  match n with
  | O => []
  | S n => if eid e =? 0 then [] else eid e :: met n m (ct (m (eptr e))) ++ met n m (ce (m (eptr e)))
  end.
Definition interacts (o : order) (s : store) (i j : N) : bool :=
  existsb (fun u => let l := met (S (length (ord o))) (mem s) (ct (mem s u)) in
             existsb (N.eqb i) l && existsb (N.eqb j) l) (ut s 0).

(** ** [Cal_BddReorder] (/repo/src/cal.c:454-468) with a technique other than [CAL_REORDER_NONE] and the default
    method; [sw] lists the indices at which the search exchanges. *)
Definition reorder (sw : list N) (m : mgr) : mgr :=
  let o := mo m in
  let inter := interacts o (fst (gc_table (st (me m), []) 0)) in
  let s := fst (gc_store o (st (me m))) in
  let r := fold_left (exchange_at inter) sw (RS (convert o s) o (mtemp m) (massoc m)) in
  let d := reallocate (ro r) (rd r) in
  M (set_st (me m) (back (fl s 0) d)) (ro r) (muone m)
    (fun i => if existsb (N.eqb i) (ord o) then efwd_to (dm d) (mvb m i) else mvb m i) (fun _ => None)
    (map (fix_assoc (dm d)) (rassoc r)) (fix_assoc (dm d) (rtemp r)) (mcur m) (mtop m) (mlim m) (mnl m) (mov m).
