(** * [Cal_BddFunctionProfileMultiple]
    (/repo/src/calBddSize.c:267-320), with the hash table of edges it uses (/repo/src/calHashTableOne.c). *)
From Verif Require Import Base BFModel MgrModel ApiModel GraphModel.
Open Scope N_scope.

(** The table: its entries, the newest first; the number of entries; the size index.  Only the order of entries
    with the same key matters, as they are in the same bin. *)
Record htab := HT { hl : map1 Z; hn : N; hx : N }.
(** Density times number of bins (/repo/src/calInt.h:220-228). *)
Definition capacity (ix : N) : N := 5 * 2 ^ ix.
(** [CalHashTableOneInsert] (/repo/src/calHashTableOne.c:148-168): no search for the key.  When the capacity is reached,
    [HashTableOneRehash] (204-246) takes the entries of each bin from the front and puts each in front of its new bin:
    entries with the same key change places. *)
Definition hinsert (t : htab) (k : edge) (v : Z) : htab :=
  let n := hn t + 1 in
  if capacity (hx t) <=? n then HT ((k, v) :: rev (hl t)) n (hx t + 1) else HT ((k, v) :: hl t) n (hx t).
(** The table after the searches for the highest references.  All keys are different then, so the rehashes on the way made no
    difference but for the size: the index is the least one, starting at 8, whose capacity exceeds the number of entries. *)
Definition filled (h : map1 Z) : htab :=
  let n := N.of_nat (length h) in HT h n (if n <? capacity 8 then 8 else N.log2 (n / 5) + 1).

(** The three loops over the functions (/repo/src/calBddSize.c:299-308). *)
Fixpoint highest_all (o : order) (m : memory) (h : map1 Z) (fs : list edge) : option (map1 Z) :=
  match fs with
  | [] => Some h
  | f :: fs => match highest_ref o (depth o) m h f with None => None | Some h1 => highest_all o m h1 fs end
  end.
Definition add_roots (t : htab) (fs : list edge) : htab := fold_left (fun t f => hinsert t f (-1)%Z) fs t.
Fixpoint dominated_all (o : order) (m : memory) (fc : N -> Z) (h : map1 Z) (fs : list edge) : option ((N -> Z) * map1 Z) :=
  match fs with
  | [] => Some (fc, h)
  | f :: fs => match dominated_step (depth o) m fc h f with None => None | Some (fc1, h1) => dominated_all o m fc1 h1 fs end
  end.
(** The encoding and summing loops are those of [Cal_BddFunctionProfile] (/repo/src/calBddSize.c:290-297, 310-318). *)
Definition function_profile_all (o : order) (m : memory) (lc : N -> N) (fs : list edge) : option (N -> Z) :=
  let n := length (ord o) in
  match highest_all o m [] fs with
  | None => None
  | Some h =>
      match dominated_all o m (encode (N.of_nat n) lc) (hl (add_roots (filled h) fs)) fs with
      | None => None
      | Some (fc, _) => Some (sum_up n fc (fc (N.of_nat n)))
      end
  end.

(** The internal edges are taken before [Cal_BddProfileMultiple], which makes its own checks; these do nothing, because the checks
    just made have set [gcCheck] and no node has been created since. *)
Definition cal_function_profile_multiple (ds : nat -> dec) (m : mgr) (fs : list ubdd) : outcome ((N -> Z) * mgr) :=
  let fs := upto_null fs in
  obind (preproc_each ds m fs) (fun m1 =>
    let es := map (uint (mmem m1)) fs in
    obind (fueled (profile_of false (mo m1) (mmem m1) unmarked es)) (fun '(lc, _) =>
    obind (fueled (function_profile_all (mo m1) (mmem m1) lc es)) (fun r => Ok (r, m1)))).
