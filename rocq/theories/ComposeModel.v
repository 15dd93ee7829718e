(** * Substitution of one variable (executable model).

    Models /repo/src/calBddCompose.c:76-323. *)
From Verif Require Import Base BFModel ITEModel MgrModel ApiModel.

Section Compose.
Variable enum : memory -> list N -> list N.
Variable o : order.
(** [composeIndex]: the index of the variable that is replaced. *)
Variable gi : N.

(** [CalComposeRequestCreate] (/repo/src/calBddCompose.c:296-323); the same three cases appear,
    for each of the two cofactors, in [CalHashTableComposeApply] (:236-279).  The requests of
    the composition are in queue [dc], those of the if-then-else in queue [di]: 0 and 1 in
    [Cal_BddCompose], 3 and 4 in [Cal_BddSwapVars]. *)
Definition compose_req (dc di : nat) (en : eng) (f h : edge) : edge * eng :=
  if gi <? eidx o f then (f, en)
  else if eidx o f <? gi then request en dc (minid2 o f h) f h
  else opite o di en h (thenof (mem (st en)) f) (elseof (mem (st en)) f).

(** One iteration of [CalHashTableComposeApply] (/repo/src/calBddCompose.c:231-280). *)
Definition compose1 (dc di : nat) (en : eng) (a : N) : eng :=
  let c := mem (st en) a in
  let '((fx, fxb), (hx, hxb)) := cofactors2 o (mem (st en)) (ct c) (ce c) in
  let '(r1, en1) := compose_req dc di en fx hx in
  let s1 := icr (st en1) r1 in
  let s2 := put s1 a (set_ct (mem s1 a) r1) in
  let '(r0, en2) := compose_req dc di (set_st en1 s2) fxb hxb in
  let s3 := icr (st en2) r0 in
  set_st en2 (put s3 a (set_ce (mem s3 a) r0)).

(** [CalHashTableComposeApply] and the apply sweep (/repo/src/calBddCompose.c:211-283,156-168):
    at every index first the compositions, then the if-then-elses. *)
Definition compose_step (d : nat) (i : N) : eng -> N -> eng :=
  match d with O => compose1 0 1 | S _ => ite_apply1 o d i end.
Definition compose_table (en : eng) (d : nat) (i : N) : eng :=
  fold_left (compose_step d i) (enum (mem (st en)) (que en d i)) en.
Definition compose_all (ids : list N) (en : eng) : eng :=
  fold_left (fun en i => fold_left (fun en d => compose_table en d i) [0%nat; 1%nat] en) ids en.

(** [CalRequestNodeListCompose] with a list of one request (/repo/src/calBddCompose.c:132-197),
    between the allocation and the release of the list node (:94-110).  The list node is taken
    from the node manager of the constant; its contents are only read back by the same
    function, so the result is kept in a variable here. *)
Definition composeBF (n : N) (en : eng) (F H : edge) : edge * eng :=
  let '(a, s1) := alloc (st en) 0 in
  let '(r, en1) := compose_req 0 1 (set_st en (put s1 a (C F H 0))) F H in
  let en2 := compose_all (ord o) en1 in
  let en3 := reduce_all enum [0%nat; 1%nat] (ord o) en2 in
  let r' := fwd (mem (st en3)) r in
  let en4 := cleanup_all [0%nat; 1%nat] (map N.of_nat (seq 1 (N.to_nat n))) en3 in
  (r', set_st en4 (free_node (st en4) 0 a)).
End Compose.

Section Api.
Variable enum : memory -> list N -> list N.

(** [Cal_BddCompose] (/repo/src/calBddCompose.c:76-113).  The outcome of the pre-processing is not
    used: with a null operand the address 0 is dereferenced.  There is no post-processing. *)
Definition cal_compose (d : dec) (m : mgr) (f g h : ubdd) : outcome (ubdd * mgr) :=
  obind (preproc d m [f; g; h]) (fun '(ok, m1) =>
    if negb ok then Undefined
    else let G := uint (mmem m1) g in
         if isconst G then Ok (f, uinc m1 f)
         else let '(r, en) := composeBF enum (mo m1) (eidx (mo m1) G) (N.of_nat (length (ord (mo m1))))
                                (me m1) (uint (mmem m1) f) (uint (mmem m1) h) in
              Ok (ret (set_me m1 en) r)).
End Api.
