(** * Chained hash tables at the level of bins and links (calHashTable.c, calHashTableOne.c,
    calHashTableThree.c).

    One model serves the three files: a node holds its key ([CalHashTable_t]: the then and the else
    edge; table of three: the edges f, g, h, of which the code keeps g and h in a second node;
    table of one: the key edge) and, in a table of one, the address of the data.  Keys are compared as a whole.
    The hash function is arbitrary; the one of the code is C47's.  Sizes are unbounded numbers, the code has [int].
    Loops over a chain get the number of entries as fuel; [None] stands for a loop that does not end
    or for the fatal exit of [CalUniqueTableForIdRehashNode]. *)
From Verif Require Import Base.

Section Tables.
Variable K V : Type.
Variable keqb : K -> K -> bool.
(** Size index of the table and key to bin. *)
Variable hash : N -> K -> N.

Record hcell := HC { hkey : K; hval : V; hnext : N }.
Record table := HT { hsize : N; hbins : N -> N; hnum : N; hmem : N -> hcell }.

(** calInt.h:222-230: default size index 8, density 5, sizes are powers of two; the null pointer is 0. *)
Definition DEFAULT_SIZE_INDEX : N := 8.
Definition num_bins (s : N) : N := 2 ^ s.
Definition max_capacity (s : N) : N := 5 * num_bins s.

(** calHashTable.c:85-113, calHashTableOne.c:88-117 *)
Definition table_init (m : N -> hcell) : table := HT DEFAULT_SIZE_INDEX (fun _ => 0) 0 m.

Definition updn {A} (f : N -> A) (a : N) (x : A) : N -> A := fun b => if b =? a then x else f b.
Definition set_next (m : N -> hcell) (a p : N) : N -> hcell := updn m a (HC (hkey (m a)) (hval (m a)) p).
Definition put_cell (m : N -> hcell) (a : N) (k : K) (v : V) : N -> hcell := updn m a (HC k v (hnext (m a))).

Definition fuel (t : table) : nat := Datatypes.S (N.to_nat (hnum t)).

(** The search loop of every lookup, e.g. calHashTable.c:179-193: the first node with the key, 0 if there is none. *)
Fixpoint hfind (n : nat) (m : N -> hcell) (k : K) (p : N) : option N :=
  match n with
  | O => None
  | Datatypes.S n => if p =? 0 then Some 0 else if keqb (hkey (m p)) k then Some p else hfind n m k (hnext (m p))
  end.
(** calHashTable.c:253-280, calHashTableOne.c:172-198 *)
Definition hlookup (t : table) (k : K) : option N := hfind (fuel t) (hmem t) k (hbins t (hash (hsize t) k)).

(** One chain of calHashTable.c:433-445 (also calHashTableOne.c:236-246, calHashTableThree.c:180-192):
    every node goes to the front of its new bin. *)
Fixpoint move_chain (n : nat) (s : N) (st : (N -> N) * (N -> hcell)) (p : N) : option ((N -> N) * (N -> hcell)) :=
  match n with
  | O => None
  | Datatypes.S n =>
    if p =? 0 then Some st else
    let '(bins, m) := st in
    let next := hnext (m p) in
    let b := hash s (hkey (m p)) in
    move_chain n s (updn bins b p, set_next m p (bins b)) next
  end.
Fixpoint move_bins (n : nat) (s : N) (old : N -> N) (st : (N -> N) * (N -> hcell)) (l : list N) : option ((N -> N) * (N -> hcell)) :=
  match l with
  | [] => Some st
  | i :: l => match move_chain n s st (old i) with Some st => move_bins n s old st l | None => None end
  end.
Definition upto_bins (s : N) : list N := map N.of_nat (seq 0 (N.to_nat (num_bins s))).
(** calHashTable.c:404-448, calHashTableOne.c:203-250, calHashTableThree.c:152-195.  The old array is freed afterwards. *)
Definition hrehash (t : table) (grow : bool) : option table :=
  if negb grow && (hsize t <=? DEFAULT_SIZE_INDEX) then Some t else
  let s := if grow then hsize t + 1 else hsize t - 1 in
  match move_bins (fuel t) s (hbins t) (fun _ => 0, hmem t) (upto_bins (hsize t)) with
  | Some (bins, m) => Some (HT s bins (hnum t) m)
  | None => None
  end.

(** Linking a node in front of its bin. *)
Definition hlink (t : table) (a : N) : table :=
  let b := hash (hsize t) (hkey (hmem t a)) in
  HT (hsize t) (updn (hbins t) b a) (hnum t) (set_next (hmem t) a (hbins t b)).

(** calHashTable.c:168-206, calHashTableThree.c:97-145.  [a] is the node the allocator hands out. *)
Definition find_or_add (t : table) (k : K) (v : V) (a : N) : option (bool * N * table) :=
  match hlookup t k with
  | None => None
  | Some p =>
    if negb (p =? 0) then Some (true, p, t) else
    let t1 := HT (hsize t) (hbins t) (hnum t + 1) (hmem t) in
    match (if max_capacity (hsize t) <? hnum t + 1 then hrehash t1 true else Some t1) with
    | None => None
    | Some t2 => Some (false, a, hlink (HT (hsize t2) (hbins t2) (hnum t2) (put_cell (hmem t2) a k v)) a)
    end
  end.
(** calHashTable.c:149-164; [CalHashTableAddDirectAux] (210-230) and [CalHashTableOneInsert]
    (calHashTableOne.c:148-168) are the same with a new node.  The key is in the node before the call. *)
Definition add_direct (t : table) (a : N) (k : K) (v : V) : option table :=
  let t1 := HT (hsize t) (hbins t) (hnum t + 1) (put_cell (hmem t) a k v) in
  match (if max_capacity (hsize t) <=? hnum t + 1 then hrehash t1 true else Some t1) with
  | None => None
  | Some t2 => Some (hlink t2 a)
  end.

(** The loop of calHashTable.c:296-313: unlinks [a]; answers whether it was found. *)
Fixpoint unlink (n : nat) (b : N) (a last p : N) (bins : N -> N) (m : N -> hcell) : option (bool * (N -> N) * (N -> hcell)) :=
  match n with
  | O => None
  | Datatypes.S n =>
    if p =? 0 then Some (false, bins, m) else
    if p =? a then
      if last =? 0 then Some (true, updn bins b (hnext (m p)), m)
      else Some (true, bins, set_next m last (hnext (m p)))
    else unlink n b a p (hnext (m p)) bins m
  end.
(** calHashTable.c:285-315.  The answer false stands for the warning. *)
Definition hdelete (t : table) (a : N) : option (bool * table) :=
  let b := hash (hsize t) (hkey (hmem t a)) in
  match unlink (fuel t) b a 0 (hbins t b) (hbins t) (hmem t) with
  | None => None
  | Some (true, bins, m) => Some (true, HT (hsize t) bins (hnum t - 1) m)
  | Some (false, _, _) => Some (false, t)
  end.

(** The key of node [a] is overwritten with [k] and [CalUniqueTableForIdRehashNode] (calHashTable.c:452-500)
    is called with the old key.  Its search loop (479-492) is the one of deletion with the first node tested apart.
    The test for a complemented then edge (466-469) is left to the caller's keys. *)
Definition rehash_node (t : table) (a : N) (k : K) : option table :=
  let ob := hash (hsize t) (hkey (hmem t a)) in
  let nb := hash (hsize t) k in
  let m1 := put_cell (hmem t) a k (hval (hmem t a)) in
  if ob =? nb then Some (HT (hsize t) (hbins t) (hnum t) m1) else
  match unlink (fuel t) ob a 0 (hbins t ob) (hbins t) m1 with
  | Some (true, bins, m) => Some (hlink (HT (hsize t) bins (hnum t) m) a)
  | _ => None
  end.
End Tables.
