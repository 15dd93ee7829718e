(** * Reduction with respect to a care set (executable model).

    Models /repo/src/calReduce.c:111-181,217-264,321-425.  [CalOpCofactor] and [HashTableCofactorReduce] are in
    [CofactorModel]. *)
From Verif Require Import Base BFModel MgrModel ApiModel CofactorModel BatchModel GraphModel.

Section Reduce.
Variable enum : memory -> list N -> list N.
Variable o : order.

(** A request whose function does not depend on the variable of its table (/repo/src/calReduce.c:349-351). *)
Definition pulled (m : memory) (a : N) : bool := negb (eid (ct (m a)) =? minid2 o (ct (m a)) (ce (m a))).
Definition care_cofactors (m : memory) (a : N) : edge * edge := snd (cofactors2 o m (ct (m a)) (ce (m a))).

(** Such a request is continued with the quantified care set (/repo/src/calReduce.c:403-416).  The code takes the
    request out of its table meanwhile and then puts it back; nothing is looked up in that table in between. *)
Definition pull1 (en : eng) (q : N * edge) : eng :=
  let '(a, c) := q in
  let f := ct (mem (st en) a) in
  let '(r, en1) := request en 0 (minid2 o f c) f c in
  let s1 := addref (st en1) r 2 in
  set_st en1 (put s1 a (C r r (cr (mem s1 a)))).

(** [HashTableReduceApply] (/repo/src/calReduce.c:321-425).  The code makes the OR requests while it expands the
    other requests, and cleans the OR queues up at the end; this only matters for the addresses of the nodes. *)
Definition reduce_table_apply (en : eng) (i : N) : eng :=
  let l := enum (mem (st en)) (que en 0 i) in
  let ps := filter (pulled (mem (st en))) l in
  let en1 := fold_left (cofactor1 o 0 i) (filter (fun a => negb (pulled (mem (st en)) a)) l) en in
  let '(cs, s) := orBatch enum o (skipn (N.to_nat (idx o i)) (ord o)) (st en1) (map (care_cofactors (mem (st en1))) ps) in
  fold_left pull1 (rev (combine ps cs)) (set_st en1 s).

(** [BddReduceBF] (/repo/src/calReduce.c:217-264).  For the empty care set the result is [bddNull]. *)
Definition reduceBF (en : eng) (f c : edge) : edge * eng :=
  match tcofactor f c with
  | Some r => (r, en)
  | None =>
      let '(r, en1) := request en 0 (minid2 o f c) f c in
      let ids := skipn (N.to_nat (minindex2 o f c)) (ord o) in
      let en2 := fold_left reduce_table_apply ids en1 in
      let en3 := fold_left (fun en i => cofreduce_table enum en 0 i) (rev ids) en2 in
      let r' := fwd (mem (st en3)) r in
      (r', cleanup_all [0%nat] ids en3)
  end.
End Reduce.

(** The number of nodes, as [Cal_BddSize] with identification of complements (/repo/src/calBddSize.c:93-106). *)
Definition size1 (d : dec) (m : mgr) (f : ubdd) : outcome (N * mgr) :=
  obind (cal_size d m f true) (fun '((n, _), m1) => Ok (n, m1)).

(** Wrapping and post-processing of a result that may be [bddNull] (/repo/src/calReduce.c:119-126,157-163).  Measuring the
    size of a handle for [bddNull] dereferences its children, which are not pointers. *)
Definition finish_null (d : dec) (m : mgr) (r : edge) (k : ubdd -> mgr -> outcome (ubdd * mgr)) : outcome (ubdd * mgr) :=
  let '(h, m1) := ret m r in
  let '(ov, m2) := postproc d m1 in
  if ov then Ok (unull, gc (udec m2 h))
  else if isbnull r then Undefined
  else k h m2.

(** [Cal_BddReduce] (/repo/src/calReduce.c:111-135). *)
Definition cal_reduce (enum : memory -> list N -> list N) (d1 d2 d3 d4 : dec) (m : mgr) (f c : ubdd) : outcome (ubdd * mgr) :=
  obind (preproc d1 m [f; c]) (fun '(ok, m1) =>
    if negb ok then Ok (unull, m1)
    else let '(r, en) := reduceBF enum (mo m1) (me m1) (uint (mmem m1) f) (uint (mmem m1) c) in
         finish_null d2 (set_me m1 en) r (fun h m2 =>
           obind (size1 d3 m2 h) (fun '(nh, m3) =>
           obind (size1 d4 m3 f) (fun '(nf, m4) =>
           if nh <? nf then Ok (h, m4) else cal_identity (udec m4 h) f)))).

(** [Cal_BddBetween] (/repo/src/calReduce.c:140-181). *)
Definition cal_between (enum : memory -> list N -> list N) (d1 d2 d3 d4 d5 : dec) (m : mgr) (fmin fmax : ubdd) : outcome (ubdd * mgr) :=
  obind (preproc d1 m [fmin; fmax]) (fun '(ok, m1) =>
    if negb ok then Ok (unull, m1)
    else let '(c, en1) := opBF enum (mo m1) op_or (me m1) (uint (mmem m1) fmin) (enot (uint (mmem m1) fmax)) in
         let '(r, en) := reduceBF enum (mo m1) en1 (uint (mmem m1) fmin) c in
         finish_null d2 (set_me m1 en) r (fun h m2 =>
           obind (size1 d3 m2 fmin) (fun '(nmin, m3) =>
           obind (size1 d4 m3 fmax) (fun '(nmax, m4) =>
           obind (size1 d5 m4 h) (fun '(nh, m5) =>
           if nh <? nmin then
             if nh <? nmax then Ok (h, m5) else cal_identity (udec m5 h) fmax
           else if nmin <? nmax then cal_identity (udec m5 h) fmin else cal_identity (udec m5 h) fmax))))).
