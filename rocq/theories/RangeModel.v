(** * Operations of the C++ class [Cal] on ranges (executable model): /repo/src/calObj.hh:700-755, 791-799, 1093-1174,
    1458-1712. *)
From Coq Require Import ZArith.
From Verif Require Import Base BFModel MgrModel ApiModel AssocModel CppModel.

(** What a range holds: objects, given by their field [_bdd], or values of type [int]. *)
Inductive range := OfBdds (l : list ubdd) | OfIds (l : list Z).

(** Conversion of [int] to [Cal_BddId_t], which is [unsigned short] (/repo/src/cal.h:110). *)
Definition to_id (z : Z) : N := Z.to_N (z mod 65536).

(** The loop of [C_Bdd_vector] (/repo/src/calObj.hh:718-730) for objects: each is counted once more; ... *)
Definition unfree_all (m : mgr) (l : list ubdd) : mgr := fold_left bdd_unfree l m.
(** ... for integers: each becomes a handle of a variable, or null. *)
Fixpoint variables (m : mgr) (l : list Z) : mgr * list ubdd :=
  match l with
  | [] => (m, [])
  | z :: l => let '(h, m1) := cal_var_with_id m (to_id z) in let '(m2, hs) := variables m1 l in (m2, h :: hs)
  end.
(** [C_Bdd_vector] (/repo/src/calObj.hh:708-735): the manager afterwards and the vector without the null that is
    pushed at its end. *)
Definition elements (m : mgr) (r : range) : mgr * list ubdd :=
  match r with OfBdds l => (unfree_all m l, l) | OfIds l => variables m l end.
(** [BDD::Free(bddManager, begin, end)] (/repo/src/calObj.hh:791-799). *)
Definition free_all (m : mgr) (l : list ubdd) : mgr := fold_left bdd_free l m.

(** The common shape of the functions on ranges: convert, call the C function, give the handles back. *)
Definition over {A} (m : mgr) (r : range) (f : mgr -> list ubdd -> outcome (A * mgr)) : outcome (A * mgr) :=
  let '(m1, hs) := elements m r in
  let v := hs ++ [unull] in
  obind (f m1 v) (fun '(x, m2) => Ok (x, free_all m2 v)).

(** [Cal::And], [Cal::Or], [Cal::Xor] of a range (/repo/src/calObj.hh:1458-1469, 1513-1524, 1568-1579). *)
Definition range_multiway enum (op : binop) (ds : nat -> dec) (m : mgr) (r : range) : outcome (ubdd * mgr) :=
  over m r (multiway enum op ds).
Definition range_and enum := range_multiway enum op_and.
Definition range_or enum := range_multiway enum op_or.
Definition range_xor enum := range_multiway enum op_xor.

(** [From_C_Array] (/repo/src/calObj.hh:739-755).  [arr] are the elements that were allocated; reading past them is
    undefined.  If pre-processing fails, the handles wrapped so far are released with the vector. *)
Fixpoint from_c_array (ds : nat -> dec) (m : mgr) (arr res : list ubdd) : outcome (list ubdd * mgr) :=
  match arr with
  | [] => Undefined
  | h :: arr =>
      if uisnull h then Ok (res, m)
      else obind (preproc (ds 0%nat) m [h]) (fun '(ok, m1) =>
             if ok then from_c_array (fun k => ds (S k)) m1 arr (res ++ [h]) else Ok ([], free_all m1 res))
  end.
(** [Cal::PairwiseAnd], [PairwiseOr], [PairwiseXor] of a range (/repo/src/calObj.hh:1615-1629, 1659-1673, 1696-1710).
    The array comes from [Cal_MemAlloc(Cal_Bdd, num/2)] (/repo/src/calBddOp.c:270, 312, 346): one element for each
    result and none for a final null.  The nil array is read, too. *)
Definition range_pairwise enum (op : binop) (post : bool) (ds : nat -> dec) (d : dec) (dv : nat -> dec) (m : mgr) (r : range) : outcome (list ubdd * mgr) :=
  over m r (fun m1 v => obind (pairwise enum op post ds d m1 v) (fun '(rs, m2) =>
    match rs with None => Undefined | Some us => from_c_array dv m2 us [] end)).

(** [Cal::AssociationInit], [TempAssociationInit], [TempAssociationAugment] (/repo/src/calObj.hh:1093-1174). *)
Definition range_assoc_init (ds : nat -> dec) (pr : bool) (m : mgr) (r : range) :=
  over m r (fun m1 v => cal_assoc_init ds m1 v pr).
Definition range_temp_init (ds : nat -> dec) (pr : bool) (m : mgr) (r : range) :=
  over m r (fun m1 v => obind (cal_temp_init ds m1 v pr) (fun m2 => Ok (tt, m2))).
Definition range_temp_augment (ds : nat -> dec) (pr : bool) (m : mgr) (r : range) :=
  over m r (fun m1 v => obind (cal_temp_augment ds m1 v pr) (fun m2 => Ok (tt, m2))).
