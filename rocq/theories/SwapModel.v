(** * Exchange of two variables (executable model).

    Models /repo/src/calBddSwapVars.c:81-530. *)
From Verif Require Import Base BFModel ITEModel MgrModel ApiModel CofactorModel ComposeModel.

Section Swap.
Variable enum : memory -> list N -> list N.
Variable o : order.
(** The variables of [gIndex] and [hIndex]: the code keeps the indices and goes back to the ids with
    [indexToId] (/repo/src/calBddSwapVars.c:107-117,268,288). *)
Variables g h : N.
Notation gi := (idx o g).
Notation hi := (idx o h).

(** One cofactor of a request above the upper variable (/repo/src/calBddSwapVars.c:236-247,250-261).
    Requests of the exchange are in queue 0. *)
Definition swap_req (en : eng) (f : edge) : edge * eng :=
  if eidx o f <=? hi then request en 0 (if gi <? eidx o f then g else eid f) f bnull else (f, en).

(** The cofactor with respect to the lower variable, if it is the topmost one
    (/repo/src/calBddSwapVars.c:267-272,301-306 and the same at :386-391,:415-420,:471-476,:500-505). *)
Definition cofh (b : bool) (m : memory) (f : edge) : edge :=
  if eidx o f =? hi then if b then thenof m f else elseof m f else f.
Definition constE (b : bool) : edge := if b then one else zero.

(** A node of the lower variable, made at once (/repo/src/calBddSwapVars.c:283-289). *)
Definition swap_node (en : eng) (t e : edge) : edge * eng :=
  let '(r, found, s1) := find_or_add (st en) h t e in
  (r, set_st en (if found then s1 else icr (icr s1 t) e)).

(** The function that is [f1] where the lower variable holds and [f2] elsewhere, in both with the lower
    variable replaced by the constant [b] (/repo/src/calBddSwapVars.c:264-296 for [b] true, :299-330 for false;
    the same text at :386-412, :415-441 and :471-497, :500-526).  The requests are in queue 1 (plus) or 2
    (minus), those of the replacement in queue 3. *)
Definition swap_two (b : bool) (en : eng) (f1 f2 : edge) : edge * eng :=
  let t := cofh b (mem (st en)) f1 in
  let e := cofh b (mem (st en)) f2 in
  if eeq t e then
    if eidx o t <? hi then request en 3 (eid t) t (constE b) else (t, en)
  else if (hi <? eidx o t) && (hi <? eidx o e) then swap_node en t e
  else request en (if b then 1 else 2) (minid2 o t e) t e.

(** The two results are written into the request (/repo/src/calBddSwapVars.c:246-247,260-261 etc.). *)
Definition expand (p1 p0 : eng -> edge * eng) (en : eng) (a : N) : eng :=
  let '(r1, en1) := p1 en in
  let s1 := icr (st en1) r1 in
  let s2 := put s1 a (set_ct (mem s1 a) r1) in
  let '(r0, en2) := p0 (set_st en1 s2) in
  let s3 := icr (st en2) r0 in
  set_st en2 (put s3 a (set_ce (mem s3 a) r0)).

(** One iteration of [CalHashTableSwapVarsApply] (/repo/src/calBddSwapVars.c:231-346). *)
Definition swap1 (en : eng) (a : N) : eng :=
  let f := ct (mem (st en) a) in
  let ft := thenof (mem (st en)) f in
  let fe := elseof (mem (st en)) f in
  if eidx o f <? gi then expand (fun en => swap_req en ft) (fun en => swap_req en fe) en a
  else if eidx o f =? gi then expand (fun en => swap_two true en ft fe) (fun en => swap_two false en ft fe) en a
  else expand (fun en => compose_req o hi 3 4 en f one) (fun en => compose_req o hi 3 4 en f zero) en a.

(** One iteration of [CalHashTableSwapVarsPlusApply] and [CalHashTableSwapVarsMinusApply]
    (/repo/src/calBddSwapVars.c:379-443,464-528). *)
Definition swap_pm (b : bool) (en : eng) (a : N) : eng :=
  let c := mem (st en) a in
  let '((f1, f2), (g1, g2)) := cofactors2 o (mem (st en)) (ct c) (ce c) in
  expand (fun en => swap_two b en f1 g1) (fun en => swap_two b en f2 g2) en a.

(** The apply sweep (/repo/src/calBddSwapVars.c:119-152): the five queues in turn at every index. *)
Definition swap_step (d : nat) (i : N) : eng -> N -> eng :=
  match d with
  | 0%nat => swap1
  | 1%nat => swap_pm true
  | 2%nat => swap_pm false
  | 3%nat => compose1 o hi 3 4
  | _ => ite_apply1 o d i
  end.
Definition swap_queues : list nat := [0; 1; 2; 3; 4]%nat.
Definition swap_table (en : eng) (d : nat) (i : N) : eng :=
  fold_left (swap_step d i) (enum (mem (st en)) (que en d i)) en.
Definition swap_all (ids : list N) (en : eng) : eng :=
  fold_left (fun en i => fold_left (fun en d => swap_table en d i) swap_queues en) ids en.

(** The initial request, the sweeps and the clean-up (/repo/src/calBddSwapVars.c:115-193); [i] is the smaller
    of the ids of the function and the upper variable. *)
Definition swapBF (n : N) (en : eng) (i : N) (f : edge) : edge * eng :=
  let '(r, en1) := request en 0 i f bnull in
  let en2 := swap_all (ord o) en1 in
  let en3 := reduce_all enum swap_queues (ord o) en2 in
  (fwd (mem (st en3)) r, cleanup_all swap_queues (map N.of_nat (seq 1 (N.to_nat n))) en3).
End Swap.

Section Api.
Variable enum : memory -> list N -> list N.

(** [Cal_BddSwapVars] (/repo/src/calBddSwapVars.c:81-195).  The warning about a constant operand goes to the
    standard error stream and is left out.  There is no post-processing. *)
Definition cal_swapvars (d : dec) (m : mgr) (f g h : ubdd) : outcome (ubdd * mgr) :=
  obind (preproc d m [f; g; h]) (fun '(ok, m1) =>
    if negb ok then Ok (unull, m1)
    else let F := uint (mmem m1) f in
         let G := uint (mmem m1) g in
         let H := uint (mmem m1) h in
         if isconst G || isconst H then Ok (unull, m1)
         else if eeq G H then Ok (ret m1 F)
         else let '(G, H) := if eidx (mo m1) H <? eidx (mo m1) G then (H, G) else (G, H) in
              let '(r, en) := swapBF enum (mo m1) (eid G) (eid H) (N.of_nat (length (ord (mo m1))))
                                (me m1) (minid2 (mo m1) F G) F in
              Ok (ret (set_me m1 en) r)).
End Api.
