(** * The C++ handle class (executable model): /repo/src/calObj.hh:72-176, 351-360, 662-674, 770-809. *)
From Verif Require Import Base BFModel MgrModel ApiModel.

(** The live [BDD] objects of a program by name, with their field [_bdd].  All objects belong to one manager. *)
Definition objects := list (nat * ubdd).
Fixpoint obj_get (n : nat) (os : objects) : option ubdd :=
  match os with [] => None | (k, h) :: os => if Nat.eqb k n then Some h else obj_get n os end.
Fixpoint obj_set (n : nat) (h : ubdd) (os : objects) : objects :=
  match os with [] => [] | (k, x) :: os => if Nat.eqb k n then (k, h) :: os else (k, x) :: obj_set n h os end.
Fixpoint obj_drop (n : nat) (os : objects) : objects :=
  match os with [] => [] | (k, x) :: os => if Nat.eqb k n then os else (k, x) :: obj_drop n os end.

(** [BDD::Free], [BDD::UnFree] (/repo/src/calObj.hh:770-772, 802-804). *)
Definition bdd_free (m : mgr) (h : ubdd) : mgr := if uisnull h then m else udec m h.
Definition bdd_unfree (m : mgr) (h : ubdd) : mgr := if uisnull h then m else uinc m h.

Definition cpp := (mgr * objects)%type.

(** [BDD()] (/repo/src/calObj.hh:118-120). *)
Definition cpp_default (c : cpp) (n : nat) : cpp := (fst c, (n, unull) :: snd c).
(** [BDD(const BDD&)] (/repo/src/calObj.hh:125-129); [None]: the named object does not live. *)
Definition cpp_copy (c : cpp) (n k : nat) : option cpp :=
  match obj_get k (snd c) with
  | None => None
  | Some h => Some (bdd_unfree (fst c) h, (n, h) :: snd c)
  end.
(** [operator=(const BDD&)] (/repo/src/calObj.hh:134-144). *)
Definition cpp_assign (c : cpp) (n k : nat) : option cpp :=
  match obj_get n (snd c) with
  | None => None
  | Some old =>
      let m1 := bdd_free (fst c) old in
      match obj_get k (snd c) with
      | None => None
      | Some h => let os := obj_set n h (snd c) in Some (bdd_unfree m1 h, os)
      end
  end.
(** [BDD(BDD&&)] (/repo/src/calObj.hh:149-153). *)
Definition cpp_move (c : cpp) (n k : nat) : option cpp :=
  match obj_get k (snd c) with
  | None => None
  | Some h => Some (fst c, (n, h) :: obj_set k unull (snd c))
  end.
(** [operator=(BDD&&)] (/repo/src/calObj.hh:158-168): [other] is read after [this] was released and set to null
    after [this] was written. *)
Definition cpp_move_assign (c : cpp) (n k : nat) : option cpp :=
  match obj_get n (snd c) with
  | None => None
  | Some old =>
      let m1 := bdd_free (fst c) old in
      match obj_get k (snd c) with
      | None => None
      | Some h => Some (m1, obj_set k unull (obj_set n h (snd c)))
      end
  end.
(** [~BDD()] (/repo/src/calObj.hh:173-176). *)
Definition cpp_destroy (c : cpp) (n : nat) : option cpp :=
  match obj_get n (snd c) with
  | None => None
  | Some h => Some (bdd_free (fst c) h, obj_drop n (snd c))
  end.
(** [Regular()] (/repo/src/calObj.hh:351-360).  [Cal_BddGetRegular] of null is null. *)
Definition cpp_regular (c : cpp) (n k : nat) : option cpp :=
  match obj_get k (snd c) with
  | None => None
  | Some h => let r := cal_regular h in Some (bdd_unfree (fst c) r, (n, r) :: snd c)
  end.
(** [RefCount()] (/repo/src/calObj.hh:662-674). *)
Definition cpp_refcount (c : cpp) (n : nat) : option N :=
  match obj_get n (snd c) with
  | None => None
  | Some h => Some (if uisnull h then 255 else cr (mmem (fst c) (uptr h)))
  end.
