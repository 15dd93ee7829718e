(** * Simultaneous substitution (executable model).

    Models /repo/src/calBddSubstitute.c:81-365 and /repo/src/calBddVarSubstitute.c:80-497, which differ in the
    reduction of a table and in the use of the computed table. *)
From Verif Require Import Base BFModel BatchModel ITEModel MgrModel ApiModel CofactorModel GraphModel QuantModel.

Section Subst.
Variable enum : memory -> list N -> list N.
Variable o : order.

(** The if-then-else requests made while a table is reduced, with their own sweeps
    (/repo/src/calBddSubstitute.c:324-364, calBddVarSubstitute.c:454-496).  Their queue array [reqQue[1]] is
    empty before and after; it is modelled as the first queue of a second engine on the same store.  The
    variable substitution starts its sweeps at the smallest index of a request; the tables above are empty. *)
Definition iteBatch (ids : list N) (s : store) (ps : list (edge * edge * edge)) : list edge * store :=
  let '(rs, en1) := reqs (fun en p => opite o 0 en (fst (fst p)) (snd (fst p)) (snd p)) (start s) ps in
  let en2 := ite_all enum o [0%nat] ids en1 in
  let en3 := reduce_all enum [0%nat] ids en2 in
  (map (fwd (mem (st en3))) rs, st (cleanup_all [0%nat] ids en3)).

(** [varAssociation] and [lastBddIndex] of the current association, [varBdds] of the manager; [vs] tells the
    variable substitution from the general one. *)
Variable mp : N -> option edge.
Variable last : Z.
Variable vb : N -> edge.
Variable vs : bool.

(** One cofactor (/repo/src/calBddSubstitute.c:168-177,180-188).  In the variable substitution the request is
    also entered into the computed table and looked up there (/repo/src/calBddVarSubstitute.c:217-253); these
    entries are left out: an entry made by the operation itself leads to the request [FindOrAdd] finds, a
    completed one to the node that request is forwarded to. *)
Definition subst_req (en : eng) (f : edge) : edge * eng :=
  if (Z.of_N (eidx o f) <=? last)%Z then request en 0 (eid f) f bnull else (f, en).

(** One iteration of [CalHashTableSubstituteApply] (/repo/src/calBddSubstitute.c:162-189). *)
Definition subst1 (en : eng) (a : N) : eng :=
  let f := ct (mem (st en) a) in
  let ft := thenof (mem (st en)) f in
  let fe := elseof (mem (st en)) f in
  let '(r1, en1) := subst_req en ft in
  let s1 := icr (st en1) r1 in
  let s2 := put s1 a (set_ct (mem s1 a) r1) in
  let '(r0, en2) := subst_req (set_st en1 s2) fe in
  let s3 := icr (st en2) r0 in
  set_st en2 (put s3 a (set_ce (mem s3 a) r0)).
Definition subst_table (en : eng) (d : nat) (i : N) : eng :=
  fold_left subst1 (enum (mem (st en)) (que en d i)) en.
Definition subst_all (ids : list N) (en : eng) : eng :=
  fold_left (fun en i => fold_left (fun en d => subst_table en d i) [0%nat] en) ids en.

(** The function tested by the if-then-else at variable [i]: the image, or the variable itself
    (/repo/src/calBddSubstitute.c:219-221). *)
Definition svar (i : N) : edge := match mp i with Some h => h | None => vb i end.

(** Requests completed at once: equal children; the variable of the table, or in the variable substitution
    the variable of the image, above both children (/repo/src/calBddSubstitute.c:233,268,276-277 and
    calBddVarSubstitute.c:301,310-311,388,397-398). *)
Definition direct (m : memory) (i a : N) : bool :=
  let t := fwd m (ct (m a)) in
  let e := fwd m (ce (m a)) in
  eeq t e ||
  match mp i with
  | Some h => vs && (eidx o h <? eidx o t) && (eidx o h <? eidx o e)
  | None => (idx o i <? eidx o t) && (idx o i <? eidx o e)
  end.

(** Completion at the variable [j] of the image (/repo/src/calBddVarSubstitute.c:301-366). *)
Definition placeat (j : N) (d : nat) (i : N) (en : eng) (a : N) : eng :=
  let s := st en in
  let c := mem s a in
  let t := fwd (mem s) (ct c) in
  let e := fwd (mem s) (ce c) in
  let n := cr c in
  if eeq t e then
    let s1 := addref s t (Z.of_N n - 2) in
    add_don (set_st en (put s1 a (C t efwd (cr (mem s1 a))))) d i a
  else match ulookup s j t e with
  | Some r =>
      let s1 := addref (dcr (dcr s t) e) r (Z.of_N n) in
      add_don (set_st en (put s1 a (C r efwd (cr (mem s1 a))))) d i a
  | None =>
      let '(b, s1) := alloc s j in
      let s2 := put s1 b (C (ephase t (eneg t)) (ephase e (eneg t)) n) in
      let s3 := set_nn (set_ut s2 (upd (ut s2) j (b :: ut s2 j))) (nn s2 + 1) in
      add_don (set_st en (put s3 a (C (E j b (eneg t)) efwd (cr (mem s3 a))))) d i a
  end.
Definition place (d : nat) (i : N) (en : eng) (a : N) : eng :=
  match mp i with Some h => placeat (eid h) d i en a | None => reduce1 d i en a end.

(** The completion of a request with the result of its if-then-else (/repo/src/calBddSubstitute.c:244-251,
    344-355).  The code lowers the counts of the two children before the if-then-elses are computed. *)
Definition sfinish (d : nat) (i : N) (en : eng) (q : N * edge) : eng :=
  let s := st en in
  let a := fst q in
  let r := snd q in
  let c := mem s a in
  let s1 := addref (dcr (dcr s (fwd (mem s) (ct c))) (fwd (mem s) (ce c))) r (Z.of_N (cr c)) in
  add_don (set_st en (put s1 a (C r efwd (cr (mem s1 a))))) d i a.

(** [CalHashTableSubstituteReduce] (/repo/src/calBddSubstitute.c:195-365, calBddVarSubstitute.c:262-497).  The
    if-then-else requests are made in the same order as in the code, but after the requests completed at once:
    only the addresses of new nodes depend on it.  The code does not advance [endNode] over the requests that
    waited for an if-then-else, so that they are lost at the clean-up; here they are given back. *)
Definition sstep (d : nat) (i : N) (q : eng * list N) (a : N) : eng * list N :=
  if direct (mem (st (fst q))) i a then (place d i (fst q) a, snd q) else (fst q, snd q ++ [a]).
Definition subst_reduce (ids : list N) (en : eng) (d : nat) (i : N) : eng :=
  let '(en1, pd) := fold_left (sstep d i) (enum (mem (st en)) (que en d i)) (set_que en d i [], []) in
  let m := mem (st en1) in
  let '(rs, s) := iteBatch ids (st en1) (map (fun a => (svar i, fwd m (ct (m a)), fwd m (ce (m a)))) pd) in
  fold_left (sfinish d i) (combine pd rs) (set_st en1 s).
Definition subst_reduce_all (ids : list N) (en : eng) : eng :=
  fold_left (fun en i => fold_left (fun en d => subst_reduce (ord o) en d i) [0%nat] en) (rev ids) en.

(** The operation on a function that is not constant (/repo/src/calBddSubstitute.c:100-132 with [c] = 0,
    calBddVarSubstitute.c:145-171 with the index of [f]). *)
Definition substBF (n : N) (c : nat) (en : eng) (f : edge) : edge * eng :=
  let '(r, en1) := request en 0 (eid f) f bnull in
  let ids := skipn c (ord o) in
  let en2 := subst_all ids en1 in
  let en3 := subst_reduce_all ids en2 in
  (fwd (mem (st en3)) r, cleanup_all [0%nat] (map N.of_nat (seq 1 (N.to_nat n))) en3).
End Subst.

Section Api.
Variable enum : memory -> list N -> list N.

(** [Cal_BddSubstitute] (/repo/src/calBddSubstitute.c:81-133): no post-processing. *)
Definition cal_substitute (d : dec) (m : mgr) (f : ubdd) : outcome (ubdd * mgr) :=
  obind (preproc d m [f]) (fun '(ok, m1) =>
    if negb ok then Ok (unull, m1)
    else let F := uint (mmem m1) f in
         if isconst F then Ok (ret m1 F)
         else let a := current m1 in
              let '(r, en) := substBF enum (mo m1) (amap a) (alast a) (mvb m1) false
                                (N.of_nat (length (ord (mo m1)))) 0 (me m1) F in
              Ok (ret (set_me m1 en) r)).

(** [CAL_OP_VAR_SUBSTITUTE] (/repo/src/calInt.h:243). *)
Definition OP_VAR_SUBSTITUTE : N := 32768.
Variable slot : N -> edge -> edge -> N.
(** [Cal_BddVarSubstitute], [CalBddVarSubstitute], [CalOpBddVarSubstitute] (/repo/src/calBddVarSubstitute.c:80-192).
    The table of one operand is the table of two with the constant one (/repo/src/calInt.h:1477-1479). *)
Definition cal_varsubstitute (d1 d2 : dec) (m : mgr) (f : ubdd) : outcome (ubdd * mgr) :=
  obind (preproc d1 m [f]) (fun '(ok, m1) =>
    if negb ok then Ok (unull, m1)
    else let F := uint (mmem m1) f in
         let '(op, m2) := match mcur m1 with
                          | None => (mtop m1, set_mtop m1 (pred16 (mtop m1)))
                          | Some j => (OP_VAR_SUBSTITUTE + j, m1)
                          end in
         let a := current m2 in
         if (alast a <? Z.of_N (eidx (mo m2) F))%Z then Ok (finish d2 m2 F)
         else match cache_lookup slot op F one (mca m2) with
         | Some r => Ok (finish d2 m2 r)
         | None =>
             let '(r, en) := substBF enum (mo m2) (amap a) (alast a) (mvb m2) true
                               (N.of_nat (length (ord (mo m2)))) (N.to_nat (eidx (mo m2) F)) (me m2) F in
             Ok (finish d2 (set_mca (set_me m2 en) (cache_insert slot op F one r (mca m2))) r)
         end).
End Api.
