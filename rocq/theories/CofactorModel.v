(** * Generalized cofactor (executable model).

    Models /repo/src/calReduce.c:87-106,189-210,268-317,429-564. *)
From Verif Require Import Base BFModel MgrModel ApiModel.

(** [bddNull] (/repo/src/calBddManager.c:186-193); its node is at address 2.  It occurs in request
    nodes as the result of a cofactor on an empty care set, never complemented, and is recognised by its address. *)
Definition bnull : edge := E 65535 2 false.
Definition isbnull (e : edge) : bool := eptr e =? 2.
(** [CalBddIcrRefCount] unless null (/repo/src/calReduce.c:454-456,464-466). *)
Definition icr_nn (s : store) (e : edge) : store := if isbnull e then s else icr s e.

(** [CalOpCofactor] (/repo/src/calReduce.c:189-210). *)
Definition tcofactor (f c : edge) : option edge :=
  if isconst c then Some (if eneg c then bnull else f)
  else if isconst f then Some f else None.

Section Cofactor.
Variable enum : memory -> list N -> list N.
Variable o : order.

(** Terminal case or request in queue [d] (/repo/src/calReduce.c:449-453,459-463). *)
Definition cofactor_req (d : nat) (en : eng) (f c : edge) : edge * eng :=
  match tcofactor f c with
  | Some r => (r, en)
  | None => request en d (minid2 o f c) f c
  end.

(** One iteration of [HashTableCofactorApply] (/repo/src/calReduce.c:442-467). *)
Definition cofactor1 (d : nat) (i : N) (en : eng) (a : N) : eng :=
  let c := mem (st en) a in
  let '((fx, fxb), (cx, cxb)) := cofactors2 o (mem (st en)) (ct c) (ce c) in
  let '(r1, en1) := cofactor_req d en fx cx in
  let s1 := icr_nn (st en1) r1 in
  let s2 := put s1 a (set_ct (mem s1 a) r1) in
  let '(r0, en2) := cofactor_req d (set_st en1 s2) fxb cxb in
  let s3 := icr_nn (st en2) r0 in
  set_st en2 (put s3 a (set_ce (mem s3 a) r0)).
Definition cofactor_table (en : eng) (d : nat) (i : N) : eng :=
  fold_left (cofactor1 d i) (enum (mem (st en)) (que en d i)) en.

(** One iteration of [HashTableCofactorReduce] (/repo/src/calReduce.c:488-560): a request with a null child
    is forwarded to the other child; the rest is as in [CalHashTableReduce]. *)
Definition cofreduce1 (d : nat) (i : N) (en : eng) (a : N) : eng :=
  let s := st en in
  let c := mem s a in
  let forward r := let s1 := addref s r (Z.of_N (cr c) - 1) in add_don (set_st en (put s1 a (C r efwd (cr (mem s1 a))))) d i a in
  if isbnull (ct c) then forward (fwd (mem s) (ce c))
  else if isbnull (ce c) then forward (fwd (mem s) (ct c))
  else reduce1 d i en a.
Definition cofreduce_table (en : eng) (d : nat) (i : N) : eng :=
  fold_left (cofreduce1 d i) (enum (mem (st en)) (que en d i)) (set_que en d i []).

(** [BddCofactorBF] (/repo/src/calReduce.c:268-317). *)
Definition cofactorBF (en : eng) (f c : edge) : edge * eng :=
  if isconst c && eneg c then (one, en)
  else match tcofactor f c with
  | Some r => (r, en)
  | None =>
      let '(r, en1) := request en 0 (minid2 o f c) f c in
      let ids := skipn (N.to_nat (minindex2 o f c)) (ord o) in
      let en2 := fold_left (fun en i => cofactor_table en 0 i) ids en1 in
      let en3 := fold_left (fun en i => cofreduce_table en 0 i) (rev ids) en2 in
      let r' := fwd (mem (st en3)) r in
      (r', cleanup_all [0%nat] ids en3)
  end.
End Cofactor.

(** [Cal_BddCofactor] (/repo/src/calReduce.c:87-106). *)
Definition cal_cofactor (enum : memory -> list N -> list N) (d1 d2 : dec) (m : mgr) (f c : ubdd) : outcome (ubdd * mgr) :=
  obind (preproc d1 m [f; c]) (fun '(ok, m1) =>
    if negb ok then Ok (unull, m1)
    else let '(r, en) := cofactorBF enum (mo m1) (me m1) (uint (mmem m1) f) (uint (mmem m1) c) in
         Ok (finish d2 (set_me m1 en) r)).
