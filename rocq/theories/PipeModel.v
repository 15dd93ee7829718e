(** * Pipelined operations (/repo/src/calPipeline.c) *)
From Verif Require Import Base BFModel MgrModel ApiModel.
Open Scope N_scope.

(** [MAX_INSERT_DEPTH] (/repo/src/calInt.h:210), the length of [requestNodeListArray]. *)
Definition MAX_INSERT : nat := N.to_nat 256.

Inductive pstate := READY | CREATE | UPDATE.

(** The pipeline fields of the manager (/repo/src/calInt.h:408-416).  [pls i] is
    [requestNodeListArray[i]], [pdep] is [pipelineDepth], [pus] is
    [userProvisionalNodeList] and [pman] is [depth], the number of dependency levels executed
    together.  The mark bit of a request node is set by
    [Cal_PipelineCreateProvisionalBdd] only and is modelled as membership in [pmk]; no
    other node is marked between the calls of the library. *)
Record pipe := Pipe { ps : pstate; pop : binop; pls : nat -> list N; pdep : nat; pus : list N; pmk : list N; pman : nat }.

Definition set_ps (p : pipe) (s : pstate) : pipe := Pipe s (pop p) (pls p) (pdep p) (pus p) (pmk p) (pman p).
Definition set_pdep (p : pipe) (d : nat) : pipe := Pipe (ps p) (pop p) (pls p) d (pus p) (pmk p) (pman p).
Definition set_pman (p : pipe) (d : nat) : pipe := Pipe (ps p) (pop p) (pls p) (pdep p) (pus p) (pmk p) d.

(** The state of a new manager (/repo/src/calBddManager.c:201-222). *)
Definition pipe0 : pipe := Pipe READY op_and (fun _ => []) 1 [] [] 4.

(** The operation argument of [Cal_PipelineInit]; [None] is any other value. *)
Definition pipe_op (c : option binop) (p : pipe) : pipe :=
  match c with
  | Some op => Pipe CREATE op (pls p) (pdep p) (pus p) (pmk p) (pman p)
  | None => set_ps p CREATE
  end.

(** [Cal_PipelineInit] (/repo/src/calPipeline.c:109-135): note that the state is changed
    before the operation is looked at. *)
Definition cal_pipeline_init (d : dec) (m : mgr) (p : pipe) (c : option binop) : bool * mgr * pipe :=
  let m1 := snd (postproc d m) in
  match ps p with
  | READY => (match c with Some _ => true | None => false end, m1, pipe_op c p)
  | _ => (false, m1, p)
  end.

(** [CalBddIsMarked] (/repo/src/calInt.h:1181-1197). *)
Definition marked (p : pipe) (e : edge) : bool := existsb (N.eqb (eptr e)) (pmk p).

(** [CalBddGetDepth] is [CalBddGetRefCount] (/repo/src/calInt.h:1389): the depth of a request node is
    kept where an ordinary node has its reference count. *)
Definition opdepth (mm : memory) (p : pipe) (e : edge) : nat :=
  if marked p e then S (N.to_nat (cr (mm (eptr e)))) else O.

(** [Cal_PipelineCreateProvisionalBdd] (/repo/src/calPipeline.c:139-199).  The operands are not
    counted by the request.  [pipelineDepth] is raised before the limit is checked. *)
Definition cal_pipeline_create (m : mgr) (p : pipe) (f g : ubdd) : ubdd * mgr * pipe :=
  let F := uint (mmem m) f in
  let G := uint (mmem m) g in
  match ps p with
  | CREATE =>
      let d := Nat.max (opdepth (mmem m) p F) (opdepth (mmem m) p G) in
      let dep := Nat.max (pdep p) (S d) in
      if Nat.leb MAX_INSERT d then (unull, m, set_pdep p dep)
      else
        let '(a, s1) := alloc (st (me m)) 0 in
        let s2 := put s1 a (C F G (N.of_nat d)) in
        let '(b, s3) := alloc s2 0 in
        let s4 := put s3 b (C (E (minid2 (mo m) F G) a false) one 1) in
        (U b false, set_mst m s4,
         Pipe CREATE (pop p) (fun i => if Nat.eqb i d then a :: pls p i else pls p i) dep (b :: pus p) (a :: pmk p) (pman p))
  | _ => (unull, m, p)
  end.

Section Execute.
Variable enum : memory -> list N -> list N.

(** The results of some request nodes are locked or unlocked (calPipeline.c:235-241,252-258). *)
Definition lock_results (s : store) (l : list N) : store := fold_left (fun s a => icr s (ct (mem s a))) l s.
Definition unlock_results (s : store) (l : list N) : store := fold_left (fun s a => dcr s (ct (mem s a))) l s.

(** The choice of the number of levels (calPipeline.c:219-231) from the flag
    [automaticDepthControlFlag], the field [depth], the number of nodes and what remains. *)
Definition batch_depth (auto : bool) (k : nat) (n : N) (rem : nat) : nat :=
  let k := if auto then (if n <? 10000 then 4%nat else if n <? 100000 then 2%nat else 1%nat) else k in
  if Nat.ltb rem k then rem else k.

(** The loop of [Cal_PipelineExecute] (/repo/src/calPipeline.c:219-249) from level [off] on, with [rem]
    levels to go.  Reading the array beyond its end is [Undefined]; so is running out of
    fuel, which cannot happen when every round takes at least one level.  [false] is the
    return after an overflow: nothing is cleaned up. *)
Fixpoint exec_loop (fuel : nat) (auto : bool) (ds : nat -> dec) (off rem : nat) (m : mgr) (p : pipe)
  : outcome (bool * mgr * pipe) :=
  match rem with
  | O => Ok (true, m, p)
  | _ =>
    match fuel with
    | O => Undefined
    | S fuel =>
      let k := batch_depth auto (pman p) (nn (st (me m))) rem in
      if Nat.ltb MAX_INSERT (off + k) then Undefined
      else
        let lists := map (pls p) (seq off k) in
        let en1 := listArrayOp enum (mo m) (pop p) (me m) lists in
        let m1 := set_me m (set_st en1 (lock_results (st en1) (concat lists))) in
        let '(ov, m2) := postproc (ds off) m1 in
        if ov then Ok (false, m2, set_pman p k)
        else exec_loop fuel auto ds (off + k) (rem - k) m2 (set_pman p k)
    end
  end.

(** [Cal_PipelineExecute] (/repo/src/calPipeline.c:203-263). *)
Definition cal_pipeline_execute (ds : nat -> dec) (m : mgr) (p : pipe) : outcome (bool * mgr * pipe) :=
  match ps p with
  | CREATE =>
      obind (exec_loop (pdep p) (Nat.eqb (pman p) 0) ds 0 (pdep p) m p) (fun '(ok, m1, p1) =>
        if negb ok then Ok (false, m1, p1)
        else Ok (true, set_mst m1 (unlock_results (st (me m1)) (concat (map (pls p1) (seq 0 (pdep p1))))),
                 set_ps p1 UPDATE))
  | _ => Ok (false, m, p)
  end.

End Execute.

(** [Cal_PipelineUpdateProvisionalBdd] (/repo/src/calPipeline.c:267-278): a new handle on the
    then edge of the node the argument leads to. *)
Definition cal_pipeline_update (m : mgr) (p : pipe) (h : ubdd) : ubdd * mgr :=
  let e := uint (mmem m) h in
  match ps p with
  | UPDATE => ret m (ephase (ct (mmem m (eptr e))) (eneg e))
  | _ => (unull, m)
  end.

(** [Cal_BddIsProvisional] (/repo/src/calPipeline.c:282-287), before the execution of the pipeline. *)
Definition cal_isprovisional (m : mgr) (p : pipe) (h : ubdd) : bool := marked p (uint (mmem m) h).

Definition free_all (s : store) (l : list N) : store := fold_left (fun s a => free_node s 0 a) l s.

(** [Cal_PipelineQuit] (/repo/src/calPipeline.c:291-316). *)
Definition cal_pipeline_quit (m : mgr) (p : pipe) : outcome (mgr * pipe) :=
  if Nat.ltb MAX_INSERT (pdep p) then Undefined
  else
    let s1 := free_all (st (me m)) (concat (map (pls p) (seq 0 (pdep p)))) in
    let s2 := free_all s1 (pus p) in
    Ok (set_mst m s2,
        Pipe READY (pop p) (fun i => if Nat.ltb i (pdep p) then [] else pls p i) 0 [] [] (pman p)).

(** [Cal_PipelineSetDepth] (/repo/src/calPipeline.c:80-105) with an argument that is not negative; the
    request queues it may allocate are unbounded in the model. *)
Definition cal_pipeline_setdepth (p : pipe) (d : nat) : pipe := set_pman p (Nat.min 6 d).

(** ** A whole pipeline

    The documented use (/repo/src/cal.h:1160-1230): initialise, create provisional BDDs, execute,
    update those of interest, quit, with no other call in between.  An operand is a
    handle of the client or an earlier provisional BDD, possibly complemented with
    [Cal_BddNot] (/repo/src/cal.c:164-171; the count of the provisional user node, which nobody
    reads, is left as it is). *)
Inductive operand := Own (h : ubdd) | Prov (k : nat) (neg : bool).

Definition uphase (h : ubdd) (b : bool) : ubdd := U (uptr h) (xorb b (uneg h)).
Definition ophandle (hs : list ubdd) (x : operand) : ubdd :=
  match x with Own h => h | Prov k b => uphase (nth k hs unull) b end.

(** [hs] are the provisional BDDs created so far, in order. *)
Fixpoint create_all (m : mgr) (p : pipe) (hs : list ubdd) (prog : list (operand * operand)) : list ubdd * mgr * pipe :=
  match prog with
  | [] => (hs, m, p)
  | (x, y) :: prog =>
      let '(h, m1, p1) := cal_pipeline_create m p (ophandle hs x) (ophandle hs y) in
      create_all m1 p1 (hs ++ [h]) prog
  end.

Fixpoint update_all (m : mgr) (p : pipe) (hs : list ubdd) (outs : list (nat * bool)) : list ubdd * mgr :=
  match outs with
  | [] => ([], m)
  | (k, b) :: outs =>
      let '(h, m1) := cal_pipeline_update m p (uphase (nth k hs unull) b) in
      let '(r, m2) := update_all m1 p hs outs in (h :: r, m2)
  end.

Section Run.
Variable enum : memory -> list N -> list N.

(** [ds 0] is for the post-processing in [Cal_PipelineInit].  [None] is a pipeline that did not
    complete. *)
Definition run_pipeline (d0 : dec) (ds : nat -> dec) (m : mgr) (p : pipe) (op : binop)
    (prog : list (operand * operand)) (outs : list (nat * bool)) : outcome (option (list ubdd) * mgr * pipe) :=
  let '(ok, m1, p1) := cal_pipeline_init d0 m p (Some op) in
  if negb ok then Ok (None, m1, p1)
  else
    let '(hs, m2, p2) := create_all m1 p1 [] prog in
    obind (cal_pipeline_execute enum ds m2 p2) (fun '(ok, m3, p3) =>
      if negb ok then Ok (None, m3, p3)
      else
        let '(rs, m4) := update_all m3 p3 hs outs in
        obind (cal_pipeline_quit m4 p3) (fun '(m5, p5) => Ok (Some rs, m5, p5))).
End Run.
