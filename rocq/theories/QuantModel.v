(** * Quantification and relational product (executable model).

    Models the depth-first routines of /repo/src/calQuant.c:217-401 with the computed table of
    /repo/src/calCacheTableTwo.c.  The breadth-first routines are in [QuantBFModel], the interface functions in
    [QuantApiModel]. *)
From Verif Require Import Base BFModel ITEModel MgrModel ApiModel GraphModel.

(** Operation codes (/repo/src/calInt.h:235-243). *)
Definition OP_NAND : N := 12288.
Definition OP_QUANT : N := 16384.
Definition OP_REL_PROD : N := 20480.
(** [CAL_LARGE_BDD] (/repo/src/calInt.h:245). *)
Definition LARGE : N := 524288.

(** ** The computed table *)
Section Cache.
(** [CacheTableTwoDoHash] (/repo/src/calCacheTableTwo.c:85-86): the bin of an operation code and two
    operands.  It depends on addresses and the size of the table; the theorems hold for every
    function. *)
Variable slot : N -> edge -> edge -> N.

(** The operands in the order of their tagged addresses (/repo/src/calCacheTableTwo.c:251-259). *)
Definition csort (f g : edge) : edge * edge := if out_of_order f g then (g, f) else (f, g).
(** [CalCacheTableTwoInsert] with [cacheLevel] 0 (/repo/src/calCacheTableTwo.c:230-280). *)
Definition cache_insert (op : N) (f g r : edge) (c : cache) : cache :=
  let '(a, b) := csort f g in upd c (slot op f g) (Some (CE op a b r false)).
(** [CalCacheTableTwoLookup] (/repo/src/calCacheTableTwo.c:285-319); the temporary mark is ignored
    in the comparison (/repo/src/calCacheTableTwo.c:97-102). *)
Definition cache_lookup (op : N) (f g : edge) (c : cache) : option edge :=
  let '(a, b) := csort f g in
  match c (slot op f g) with
  | Some e => if eeq (cf e) a && eeq (cg e) b && (cop e =? op) then Some (cres e) else None
  | None => None
  end.

(** [CalUniqueTableForIdFindOrAdd] followed by counting the children of a new node
    (/repo/src/calQuant.c:286-290, 356-361, 393-398). *)
Definition mknode (s : store) (i : N) (t e : edge) : edge * store :=
  let '(r, found, s1) := find_or_add s i t e in (r, if found then s1 else icr (icr s1 t) e).

Section Steps.
Variable o : order.

(** [BddDFStep] with [CalOpNand] (/repo/src/calQuant.c:372-401); [None] is exhausted fuel. *)
Fixpoint nand_df (fuel : nat) (s : store) (c : cache) (f g : edge) : option (edge * store * cache) :=
  match fuel with
  | O => None
  | S fuel =>
      match tcase op_nand f g with
      | Some r => Some (r, s, c)
      | None =>
          let '(f, g) := normalize f g in
          match cache_lookup OP_NAND f g c with
          | Some r => Some (r, s, c)
          | None =>
              let i := minid2 o f g in
              let '(f1, f0) := cofac (mem s) f i in
              let '(g1, g0) := cofac (mem s) g i in
              match nand_df fuel s c f1 g1 with
              | None => None
              | Some (t1, s1, c1) =>
                  match nand_df fuel s1 c1 f0 g0 with
                  | None => None
                  | Some (t0, s2, c2) =>
                      let '(r, s3) := mknode s2 i t1 t0 in
                      Some (r, s3, cache_insert OP_NAND f g r c2)
                  end
              end
          end
      end
  end.

(** The variables to be quantified and [lastBddIndex] of the association. *)
Variable mp : N -> option edge.
Variable last : Z.
Definition quantified (i : N) : bool := match mp i with Some _ => true | None => false end.

(** Joining the results for the two cofactors (/repo/src/calQuant.c:278-292, 344-363). *)
Definition join (i : N) (s : store) (c : cache) (t1 t0 : edge) : option (edge * store * cache) :=
  if quantified i then nand_df (depth o) s c (enot t1) (enot t0)
  else let '(r, s1) := mknode s i t1 t0 in Some (r, s1, c).

(** [BddExistsStep] (/repo/src/calQuant.c:253-296). *)
Fixpoint exists_df (op : N) (fuel : nat) (s : store) (c : cache) (f : edge) : option (edge * store * cache) :=
  match fuel with
  | O => None
  | S fuel =>
      if (last <? Z.of_N (idx o (eid f)))%Z then Some (f, s, c)
      else match cache_lookup op f one c with
      | Some r => Some (r, s, c)
      | None =>
          let i := eid f in
          let '(f1, f0) := cofac (mem s) f i in
          match exists_df op fuel s c f1 with
          | None => None
          | Some (t1, s1, c1) =>
              if quantified i && isone t1 then Some (t1, s1, cache_insert op f one t1 c1)
              else match exists_df op fuel s1 c1 f0 with
              | None => None
              | Some (t0, s2, c2) =>
                  match join i s2 c2 t1 t0 with
                  | None => None
                  | Some (r, s3, c3) => Some (r, s3, cache_insert op f one r c3)
                  end
              end
          end
      end
  end.

(** [CalOpRelProd] (/repo/src/calQuant.c:232-247). *)
Definition relprod_case (f g : edge) : option edge :=
  if iszero f || iszero g || eeq f (enot g) then Some zero
  else if isone f && isone g then Some one else None.

(** [BddRelProdStep] (/repo/src/calQuant.c:300-368); [qop] is the code for the quantifications it
    starts. *)
Fixpoint relprod_df (op qop : N) (fuel : nat) (s : store) (c : cache) (f g : edge) : option (edge * store * cache) :=
  match fuel with
  | O => None
  | S fuel =>
      if isconst f || isconst g then
        if iszero f || iszero g then Some (zero, s, c)
        else exists_df qop (depth o) s c (if isone f then g else f)
      else if (last <? Z.of_N (idx o (eid f)))%Z && (last <? Z.of_N (idx o (eid g)))%Z then
        match nand_df (depth o) s c f g with
        | Some (r, s1, c1) => Some (enot r, s1, c1)
        | None => None
        end
      else match relprod_case f g with
      | Some r => Some (r, s, c)
      | None =>
          let '(f, g) := normalize f g in
          match cache_lookup op f g c with
          | Some r => Some (r, s, c)
          | None =>
              let i := minid2 o f g in
              let '(f1, f0) := cofac (mem s) f i in
              let '(g1, g0) := cofac (mem s) g i in
              match relprod_df op qop fuel s c f1 g1 with
              | None => None
              | Some (t1, s1, c1) =>
                  if quantified i && isone t1 then Some (t1, s1, cache_insert op f g t1 c1)
                  else match relprod_df op qop fuel s1 c1 f0 g0 with
                  | None => None
                  | Some (t0, s2, c2) =>
                      match join i s2 c2 t1 t0 with
                      | None => None
                      | Some (r, s3, c3) => Some (r, s3, cache_insert op f g r c3)
                      end
                  end
              end
          end
      end
  end.
End Steps.

(** ** Codes for the temporary association *)

(** [tempOpCode--] on an [unsigned short] (/repo/src/calInt.h:436). *)
Definition pred16 (c : N) : N := if c =? 0 then 65535 else c - 1.
Definition set_mtop (m : mgr) (c : N) : mgr :=
  M (me m) (mo m) (muone m) (mvb m) (mca m) (massoc m) (mtemp m) (mcur m) c (mlim m) (mnl m) (mov m).
End Cache.
