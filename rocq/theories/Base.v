(** * Shared vocabulary of the model: tagged edges, node cells, node memory.

    Everything here is executable; no proofs about the algorithms. *)
From Coq Require Export List NArith ZArith Bool Lia.
Export ListNotations.
Open Scope N_scope.
Open Scope list_scope.

(** [Cal_Bdd_t] (/repo/src/calInt.h:269-300, macros 616-640): a variable id, a node address and
    the complement tag (bit 0 of the pointer).  The other tag bits of the word are
    modelled separately in [Bits.v]; [eptr] is the untagged pointer, 0 being the null
    pointer. *)
Record edge := E { eid : N; eptr : N; eneg : bool }.

(** [CalBddNode_t] (/repo/src/calInt.h:269-300): then edge, else edge, reference count (stored in
    spare bits, calInt.h:754-779).  The [nextBddNode] hash chain is represented by the
    tables' lists.  A request node uses the same record (calInt.h:262). *)
Record cell := C { ct : edge; ce : edge; cr : N }.

(** [CalBddNot] (/repo/src/calInt.h:973-977). *)
Definition enot (e : edge) : edge := E (eid e) (eptr e) (negb (eneg e)).

(** [CalBddUpdatePhase] (/repo/src/calInt.h:619-621). *)
Definition ephase (e : edge) (b : bool) : edge := E (eid e) (eptr e) (xorb (eneg e) b).

(** [bddOne], [bddZero] (/repo/src/calBddManager.c:164-176): id 0; the address of the
    constant node is 1 in the model. *)
Definition ONE : N := 1.
Definition one : edge := E 0 ONE false.
Definition zero : edge := E 0 ONE true.

(** [FORWARD_FLAG] is a null else pointer (/repo/src/calInt.h:1325-1375). *)
Definition efwd : edge := E 0 0 false.

(** [CalBddIsEqual] compares the tagged pointers only (/repo/src/calInt.h:629-630). *)
Definition eeq (a b : edge) : bool := (eptr a =? eptr b) && Bool.eqb (eneg a) (eneg b).

(** [CalBddIsBddConst] tests the id only (/repo/src/calInt.h:626). *)
Definition isconst (e : edge) : bool := eid e =? 0.

(** [CalBddIsBddOne], [CalBddIsBddZero] (/repo/src/calInt.h:869-870). *)
Definition isone (e : edge) : bool := eeq e one.
Definition iszero (e : edge) : bool := eeq e zero.

(** Pointer-level comparison [CAL_BDD_POINTER(f) == CAL_BDD_POINTER(g)] (/repo/src/calInt.h:616,634). *)
Definition sameptr (a b : edge) : bool := eptr a =? eptr b.

(** Function update, used for memories and tables. *)
Definition upd {A} (f : N -> A) (k : N) (v : A) : N -> A :=
  fun x => if x =? k then v else f x.

Definition memory := N -> cell.

(** [CalBddGetThenBdd], [CalBddGetElseBdd] (/repo/src/calInt.h:667-684): the child with the
    complement tag of the parent xor-ed in. *)
Definition thenof (m : memory) (e : edge) : edge := ephase (ct (m (eptr e))) (eneg e).
Definition elseof (m : memory) (e : edge) : edge := ephase (ce (m (eptr e))) (eneg e).

Definition set_ct (c : cell) (e : edge) : cell := C e (ce c) (cr c).
Definition set_ce (c : cell) (e : edge) : cell := C (ct c) e (cr c).
Definition set_cr (c : cell) (n : N) : cell := C (ct c) (ce c) n.

(** [CAL_MAX_REF_COUNT] (/repo/src/calInt.h:57-245). *)
Definition MAXREF : N := 255.

(** [CalBddIcrRefCount] (/repo/src/calInt.h:781-806) on the count as a number; [Bits.v]
    proves that the bit-level macro does this. *)
Definition rc_icr (n : N) : N := if n <? MAXREF then n + 1 else n.

(** [CalBddDcrRefCount] (/repo/src/calInt.h:808-838): 255 is sticky, 0 prints a warning and stays. *)
Definition rc_dcr (n : N) : N := if n =? 0 then 0 else if n =? MAXREF then MAXREF else n - 1.

(** [CalBddAddRefCount] (/repo/src/calInt.h:840-851) with a possibly negative addend; the
    count is an [unsigned short], so the sum wraps modulo 2^16 before the comparison. *)
Definition rc_add (n : N) (k : Z) : N :=
  if n <? MAXREF
  then let s := Z.to_N ((Z.of_N n + k) mod 65536)%Z in if MAXREF <? s then MAXREF else s
  else n.

(** ** Meaning of an edge.

    [ev m rho e b]: walking from [e] through the node memory [m], taking at each node the
    then edge if its variable is true under the assignment [rho] and the else edge
    otherwise, and complementing at complemented edges, ends with value [b].  This is the
    only notion of meaning used by the specifications of the Boolean operations. *)
Inductive ev (m : memory) (rho : N -> bool) : edge -> bool -> Prop :=
| ev_const e : eid e = 0 -> ev m rho e (negb (eneg e))
| ev_node e b :
    eid e <> 0 ->
    ev m rho (if rho (eid e) then ct (m (eptr e)) else ce (m (eptr e))) b ->
    ev m rho e (xorb (eneg e) b).

(** [denotes m e f]: edge [e] stands for the Boolean function [f]. *)
Definition denotes (m : memory) (e : edge) (f : (N -> bool) -> bool) : Prop :=
  forall rho, ev m rho e (f rho).

(** An executable evaluator (for examples); [None] means the fuel was too small. *)
Fixpoint evalf (n : nat) (m : memory) (rho : N -> bool) (e : edge) : option bool :=
  match n with
  | O => None
  | S n =>
    if eid e =? 0 then Some (negb (eneg e))
    else match evalf n m rho (if rho (eid e) then ct (m (eptr e)) else ce (m (eptr e))) with
         | Some b => Some (xorb (eneg e) b)
         | None => None
         end
  end.

(** ** Variable order.

    [ord] is [indexToId[0..numVars-1]]; [idx] is [idToIndex] with
    [idx 0 = CAL_BDD_CONST_INDEX = 65535] (/repo/src/calBddManager.c:195-197,560-573). *)
Record order := { ord : list N; idx : N -> N }.
Definition CONST_INDEX : N := 65535.

(** ** Store: memory, unique tables, free lists.

    [ut i] lists the nodes of [uniqueTable[i]] (hash bins flattened; the binned tables are
    in [Hash.v]).  [fl i] is the free list of [nodeManagerArray[i]] and [nx] the
    next address never handed out (pages of fresh nodes are modelled as one unbounded
    supply; [Mem*.v] models pages).  [nn] is [bddManager->numNodes]. *)
Record store := { mem : memory; ut : N -> list N; fl : N -> list N; nx : N; nn : N }.

Definition set_mem (s : store) (m : memory) : store :=
  {| mem := m; ut := ut s; fl := fl s; nx := nx s; nn := nn s |}.
Definition set_ut (s : store) (u : N -> list N) : store :=
  {| mem := mem s; ut := u; fl := fl s; nx := nx s; nn := nn s |}.
Definition set_fl (s : store) (f : N -> list N) : store :=
  {| mem := mem s; ut := ut s; fl := f; nx := nx s; nn := nn s |}.
Definition set_nn (s : store) (n : N) : store :=
  {| mem := mem s; ut := ut s; fl := fl s; nx := nx s; nn := n |}.

Definition put (s : store) (a : N) (c : cell) : store := set_mem s (upd (mem s) a c).

(** [CalNodeManagerAllocNode] (/repo/src/calInt.h:475-506): pop the free list or take a fresh
    node; all fields are zeroed. *)
Definition alloc (s : store) (i : N) : N * store :=
  match fl s i with
  | a :: r =>
      (a, {| mem := upd (mem s) a (C efwd efwd 0); ut := ut s; fl := upd (fl s) i r;
             nx := nx s; nn := nn s |})
  | [] =>
      (nx s, {| mem := upd (mem s) (nx s) (C efwd efwd 0); ut := ut s; fl := fl s;
                nx := nx s + 1; nn := nn s |})
  end.

(** [CalNodeManagerFreeNode] (/repo/src/calInt.h:508-512). *)
Definition free_node (s : store) (i a : N) : store := set_fl s (upd (fl s) i (a :: fl s i)).

(** Reference count updates through an edge (calInt.h:781-851). *)
Definition icr (s : store) (e : edge) : store :=
  put s (eptr e) (set_cr (mem s (eptr e)) (rc_icr (cr (mem s (eptr e))))).
Definition dcr (s : store) (e : edge) : store :=
  put s (eptr e) (set_cr (mem s (eptr e)) (rc_dcr (cr (mem s (eptr e))))).
Definition addref (s : store) (e : edge) (k : Z) : store :=
  put s (eptr e) (set_cr (mem s (eptr e)) (rc_add (cr (mem s (eptr e))) k)).

(** Search of a chained table for a (then, else) pair (the loop of
    /repo/src/calHashTable.c:178-192 and 264-279). *)
Definition tfind (m : memory) (l : list N) (t e : edge) : option N :=
  find (fun a => eeq t (ct (m a)) && eeq e (ce (m a))) l.

(** [CalUniqueTableForIdLookup] (/repo/src/calHashTable.c:321-367). *)
Definition ulookup (s : store) (i : N) (t e : edge) : option edge :=
  if eneg t
  then match tfind (mem s) (ut s i) (enot t) (enot e) with
       | Some a => Some (E i a true) | None => None end
  else match tfind (mem s) (ut s i) t e with
       | Some a => Some (E i a false) | None => None end.

(** [CalHashTableFindOrAdd] on a table given as its list of nodes
    (/repo/src/calHashTable.c:169-206).  Result: edge, found flag, store, new list. *)
Definition tfindadd (s : store) (i : N) (l : list N) (t e : edge)
  : edge * bool * store * list N :=
  match tfind (mem s) l t e with
  | Some a => (E i a false, true, s, l)
  | None => let '(a, s1) := alloc s i in
            (E i a false, false, put s1 a (C t e 0), a :: l)
  end.

(** Follow a forwarded node: [CalRequestIsForwardedTo] (/repo/src/calInt.h:1356-1368). *)
Definition fwd (m : memory) (e : edge) : edge :=
  let c := m (eptr e) in
  if eptr (ce c) =? 0 then ephase (ct c) (eneg e) else e.
