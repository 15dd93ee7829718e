(** * Breadth-first apply/reduce engine (executable model).

    Models /repo/src/calTerminal.c, /repo/src/calApplyReduce.c and /repo/src/calBddOp.c.
    Request queues are lists of request nodes per (pipeline depth, variable id); the order
    in which the hash bins of a queue are visited is the parameter [enum], of which the
    theorems only assume that it enumerates the queue. *)
From Verif Require Import Base.

(** ** Terminal cases *)

(** A binary operator: terminal-case procedure [CalOpProc_t] (/repo/src/calInt.h:274) together
    with the Boolean function it is meant to compute. *)
Record binop := { tcase : edge -> edge -> option edge; bsem : bool -> bool -> bool }.

(** [CalOpAnd] (/repo/src/calTerminal.c:86-127). *)
Definition op_and : binop :=
  {| tcase := fun F G =>
       if isconst F then (if isone F then Some G else Some F)
       else if isconst G then (if isone G then Some F else Some G)
       else if sameptr F G
            then (if xorb (eneg F) (eneg G) then Some zero else Some F)
            else None;
     bsem := andb |}.

(** [CalOpNand] (/repo/src/calTerminal.c:131-172). *)
Definition op_nand : binop :=
  {| tcase := fun F G =>
       if isconst F then (if isone F then Some (enot G) else Some (enot F))
       else if isconst G then (if isone G then Some (enot F) else Some (enot G))
       else if sameptr F G
            then (if xorb (eneg F) (eneg G) then Some one else Some (enot F))
            else None;
     bsem := fun a b => negb (andb a b) |}.

(** [CalOpOr] (/repo/src/calTerminal.c:176-218). *)
Definition op_or : binop :=
  {| tcase := fun F G =>
       if isconst F then (if isone F then Some F else Some G)
       else if isconst G then (if isone G then Some G else Some F)
       else if sameptr F G
            then (if xorb (eneg F) (eneg G) then Some one else Some F)
            else None;
     bsem := orb |}.

(** [CalOpXor] (/repo/src/calTerminal.c:222-264). *)
Definition op_xor : binop :=
  {| tcase := fun F G =>
       if isconst F then (if isone F then Some (enot G) else Some G)
       else if isconst G then (if isone G then Some (enot F) else Some F)
       else if sameptr F G
            then (if xorb (eneg F) (eneg G) then Some one else Some zero)
            else None;
     bsem := xorb |}.

(** ** Engine state *)

(** [que d i]: the requests in [reqQue[d][i]]; [don d i]: the processed (forwarded)
    requests waiting on [startNode]/[endNode] of that table for
    [CalHashTableCleanUp] (/repo/src/calApplyReduce.c:178-180, calHashTable.c:234-248). *)
Record eng := { st : store; que : nat -> N -> list N; don : nat -> N -> list N }.

Definition upd2 {A} (f : nat -> N -> A) (d : nat) (i : N) (v : A) : nat -> N -> A :=
  fun d' i' => if (Nat.eqb d' d && (i' =? i))%bool then v else f d' i'.

Definition set_st (en : eng) (s : store) : eng := {| st := s; que := que en; don := don en |}.
Definition set_que (en : eng) (d : nat) (i : N) (l : list N) : eng :=
  {| st := st en; que := upd2 (que en) d i l; don := don en |}.
Definition add_don (en : eng) (d : nat) (i a : N) : eng :=
  {| st := st en; que := que en; don := upd2 (don en) d i (don en d i ++ [a]) |}.

Definition empty_que : nat -> N -> list N := fun _ _ => [].
Definition start (s : store) : eng := {| st := s; que := empty_que; don := empty_que |}.

Section Engine.

(** Order in which the bins of a queue are visited. *)
Variable enum : memory -> list N -> list N.
Variable o : order.

Definition eidx (e : edge) : N := idx o (eid e).

(** [CalBddNormalize] (/repo/src/calInt.h:1377-1387). *)
Definition normalize (F G : edge) : edge * edge :=
  if eptr G <? eptr F then (G, F) else (F, G).

(** [CalBddGetMinId2] (/repo/src/calInt.h:878-888). *)
Definition minid2 (F G : edge) : N := if eidx F <? eidx G then eid F else eid G.

(** [CalRequestNodeGetCofactors] (/repo/src/calInt.h:1276-1300) on the operands. *)
Definition cofactors2 (m : memory) (F G : edge) : (edge * edge) * (edge * edge) :=
  if eidx F =? eidx G then ((thenof m F, elseof m F), (thenof m G, elseof m G))
  else if eidx F <? eidx G then ((thenof m F, elseof m F), (G, G))
  else ((F, F), (thenof m G, elseof m G)).

(** Find or create a request in queue [d] (calHashTable.c:169-206). *)
Definition request (en : eng) (d : nat) (i : N) (F G : edge) : edge * eng :=
  let '(r, _, s, l) := tfindadd (st en) i (que en d i) F G in
  (r, set_que (set_st en s) d i l).

(** Terminal case or request: the two blocks testing the result of [calOpProc] in
    [CalHashTableApply] (/repo/src/calApplyReduce.c:109-113,116-120). *)
Definition opreq (op : binop) (d : nat) (en : eng) (F G : edge) : edge * eng :=
  match tcase op F G with
  | Some r => (r, en)
  | None => let '(F1, G1) := normalize F G in request en d (minid2 F1 G1) F1 G1
  end.

(** One iteration of [CalHashTableApply] (/repo/src/calApplyReduce.c:104-123). *)
Definition apply1 (op : binop) (d : nat) (en : eng) (a : N) : eng :=
  let c := mem (st en) a in
  let '((fx, fxb), (gx, gxb)) := cofactors2 (mem (st en)) (ct c) (ce c) in
  let '(r1, en1) := opreq op d en fx gx in
  let s1 := icr (st en1) r1 in
  let s2 := put s1 a (set_ct (mem s1 a) r1) in
  let '(r0, en2) := opreq op d (set_st en1 s2) fxb gxb in
  let s3 := icr (st en2) r0 in
  let s4 := put s3 a (set_ce (mem s3 a) r0) in
  set_st en2 s4.

(** [CalHashTableApply] (/repo/src/calApplyReduce.c:90-129). *)
Definition apply_table (op : binop) (en : eng) (d : nat) (i : N) : eng :=
  fold_left (apply1 op d) (enum (mem (st en)) (que en d i)) en.

(** The apply sweep: for each index, for each depth (/repo/src/calBddOp.c:505-515,610-616). *)
Definition apply_all (op : binop) (depths : list nat) (ids : list N) (en : eng) : eng :=
  fold_left (fun en i => fold_left (fun en d => apply_table op en d i) depths en) ids en.

(** One iteration of [CalHashTableReduce] (/repo/src/calApplyReduce.c:160-209).  The else id of
    a forwarded request is left as it was in C and never read; here it is reset. *)
Definition reduce1 (d : nat) (i : N) (en : eng) (a : N) : eng :=
  let s := st en in
  let c := mem s a in
  let t := fwd (mem s) (ct c) in
  let e := fwd (mem s) (ce c) in
  let n := cr c in
  if eeq t e then
    let s1 := addref s t (Z.of_N n - 2) in
    add_don (set_st en (put s1 a (C t efwd (cr (mem s1 a))))) d i a
  else match ulookup s i t e with
  | Some r =>
      let s1 := addref (dcr (dcr s t) e) r (Z.of_N n) in
      add_don (set_st en (put s1 a (C r efwd (cr (mem s1 a))))) d i a
  | None =>
      if eneg t then
        let '(b, s1) := alloc s i in
        let s2 := put s1 b (C (enot t) (enot e) n) in
        let s3 := set_nn (set_ut s2 (upd (ut s2) i (b :: ut s2 i))) (nn s2 + 1) in
        add_don (set_st en (put s3 a (C (E i b true) efwd (cr (mem s3 a))))) d i a
      else
        let s1 := put s a (C t e n) in
        set_st en (set_nn (set_ut s1 (upd (ut s1) i (a :: ut s1 i))) (nn s1 + 1))
  end.

(** [CalHashTableReduce] (/repo/src/calApplyReduce.c:142-215).  The C code empties the bins
    after the loop; the loop does not look into them, so the model empties them first. *)
Definition reduce_table (en : eng) (d : nat) (i : N) : eng :=
  fold_left (reduce1 d i) (enum (mem (st en)) (que en d i)) (set_que en d i []).

(** The reduce sweep, ids given in increasing index order (/repo/src/calBddOp.c:531-541,628-635). *)
Definition reduce_all (depths : list nat) (ids : list N) (en : eng) : eng :=
  fold_left (fun en i => fold_left (fun en d => reduce_table en d i) depths en) (rev ids) en.

(** [CalHashTableCleanUp] (/repo/src/calHashTable.c:234-248). *)
Definition cleanup (en : eng) (d : nat) (i : N) : eng :=
  {| st := set_fl (st en) (upd (fl (st en)) i (don en d i ++ fl (st en) i));
     que := que en; don := upd2 (don en) d i [] |}.
Definition cleanup_all (depths : list nat) (ids : list N) (en : eng) : eng :=
  fold_left (fun en i => fold_left (fun en d => cleanup en d i) depths en) ids en.

(** Index of the smaller top variable ([CalBddGetMinIdAndMinIndex], /repo/src/calInt.h:955-971). *)
Definition minindex2 (F G : edge) : N := if eidx F <? eidx G then eidx F else eidx G.

(** [CalBddOpBF] (/repo/src/calBddOp.c:587-667).  The queues of the manager are passed in and
    returned. *)
Definition opBF (op : binop) (en : eng) (F G : edge) : edge * eng :=
  match tcase op F G with
  | Some r => (r, en)
  | None =>
      let '(r, en1) := request en 0 (minid2 F G) F G in
      let ids := skipn (N.to_nat (minindex2 F G)) (ord o) in
      let en2 := apply_all op [0%nat] ids en1 in
      let en3 := reduce_all [0%nat] ids en2 in
      let r' := fwd (mem (st en3)) r in
      (r', cleanup_all [0%nat] ids en3)
  end.

(** ** Pairwise operations *)

(** The insertion loop of [BddArrayOpBF] (/repo/src/calBddOp.c:692-700): note that [mi]
    ([minIndex]) is overwritten by every non-terminal pair. *)
Fixpoint array_insert (op : binop) (en : eng) (mi : N) (ps : list (edge * edge))
  : list edge * N * eng :=
  match ps with
  | [] => ([], mi, en)
  | (F, G) :: ps =>
      match tcase op F G with
      | Some r => let '(rs, mi', en') := array_insert op en mi ps in (r :: rs, mi', en')
      | None =>
          let '(r, en1) := request en 0 (minid2 F G) F G in
          let '(rs, mi', en') := array_insert op en1 (minindex2 F G) ps in
          (r :: rs, mi', en')
      end
  end.

(** [BddArrayOpBF] (/repo/src/calBddOp.c:676-729). *)
Definition arrayOpBF (op : binop) (en : eng) (ps : list (edge * edge)) : list edge * eng :=
  let '(rs, mi, en1) := array_insert op en 0 ps in
  let ids := skipn (N.to_nat mi) (ord o) in
  let en2 := apply_all op [0%nat] ids en1 in
  let en3 := reduce_all [0%nat] ids en2 in
  (map (fwd (mem (st en3))) rs, cleanup_all [0%nat] ids en3).

(** ** Multiway operations *)

(** Insertion of one list node of [CalRequestNodeListArrayOp] (/repo/src/calBddOp.c:484-497). *)
Definition list_insert1 (op : binop) (d : nat) (en : eng) (a : N) : eng :=
  let c := mem (st en) a in
  let F := fwd (mem (st en)) (ct c) in
  let G := fwd (mem (st en)) (ce c) in
  let '(r, en1) := opreq op d en F G in
  set_st en1 (put (st en1) a (C r efwd (cr (mem (st en1) a)))).

Fixpoint list_insert (op : binop) (d : nat) (lists : list (list N)) (en : eng) : eng :=
  match lists with
  | [] => en
  | l :: lists => list_insert op (S d) lists (fold_left (list_insert1 op d) l en)
  end.

(** Final forwarding of the list nodes (/repo/src/calBddOp.c:564-573). *)
Definition list_forward1 (en : eng) (a : N) : eng :=
  let c := mem (st en) a in
  set_st en (put (st en) a (C (fwd (mem (st en)) (ct c)) (ce c) (cr c))).

(** [CalRequestNodeListArrayOp] (/repo/src/calBddOp.c:470-582).  [lists] are the lists
    [requestNodeListArray[0..depth-1]]. *)
Definition listArrayOp (op : binop) (en : eng) (lists : list (list N)) : eng :=
  let depths := seq 0 (length lists) in
  let en1 := list_insert op 0 lists en in
  let en2 := apply_all op depths (ord o) en1 in
  let en3 := reduce_all depths (ord o) en2 in
  let en4 := fold_left list_forward1 (concat lists) en3 in
  cleanup_all depths (ord o) en4.

(** First list of [BddArrayToRequestNodeListArray] (/repo/src/calBddOp.c:803-814): pairs of
    operands, pushed to the front; the odd operand, if any, is left over. *)
Fixpoint pair_leaves (s : store) (acc : list N) (es : list edge)
  : store * list N * option edge :=
  match es with
  | F :: G :: es =>
      let '(a, s1) := alloc s 0 in
      pair_leaves (put s1 a (C F G 0)) (a :: acc) es
  | [F] => (s, acc, Some F)
  | [] => (s, acc, None)
  end.

(** One further list (/repo/src/calBddOp.c:816-848).  [last] is [lastBdd]; a left-over list node
    is turned into an edge carrying only its address. *)
Fixpoint pair_nodes (s : store) (acc prev : list N) (last : option edge)
  : store * list N * option edge :=
  match prev with
  | x :: y :: prev =>
      let '(a, s1) := alloc s 0 in
      pair_nodes (put s1 a (C (E 0 x false) (E 0 y false) 0)) (a :: acc) prev last
  | [x] =>
      match last with
      | None => (s, acc, Some (E 65535 x false))
      | Some l => let '(a, s1) := alloc s 0 in
                  (put s1 a (C (E 0 x false) l 0), a :: acc, None)
      end
  | [] => (s, acc, last)
  end.

Fixpoint more_lists (n : nat) (s : store) (prev : list N) (last : option edge)
  : store * list (list N) :=
  match n with
  | O => (s, [])
  | S n => let '(s1, l, last1) := pair_nodes s [] prev last in
           let '(s2, ls) := more_lists n s1 l last1 in
           (s2, l :: ls)
  end.

(** [CeilLog2] (/repo/src/calBddOp.c:856-865): [for (num=number, count=0; num > 1; num >>= 1, count++)],
    then one more if [1 << count] is not [number]. *)
Fixpoint clog2_loop (fuel : nat) (num count : N) : N :=
  match fuel with
  | O => count
  | S fuel => if 1 <? num then clog2_loop fuel (N.shiftr num 1) (count + 1) else count
  end.
Definition ceillog2 (n : N) : N :=
  let c := clog2_loop (N.to_nat (N.size n)) n 0 in
  if N.shiftl 1 c =? n then c else c + 1.

Inductive outcome (A : Type) := Ok (a : A) | Fatal | Undefined.
Arguments Ok {A}. Arguments Fatal {A}. Arguments Undefined {A}.

(** [BddMultiwayOp] with [BddArrayToRequestNodeListArray] (/repo/src/calBddOp.c:734-850) for at
    least two operands; more than 2^10 operands end in [CalBddFatalMessage]. *)
Definition multiwayOp (op : binop) (en : eng) (es : list edge) : outcome (edge * eng) :=
  let depth := N.to_nat (ceillog2 (N.of_nat (length es))) in
  if Nat.ltb 10 depth then Fatal else
  match depth with
  | O => Undefined
  | S depth' =>
      let '(s1, l0, last) := pair_leaves (st en) [] es in
      let '(s2, ls) := more_lists depth' s1 l0 last in
      let lists := l0 :: ls in
      let en1 := listArrayOp op (set_st en s2) lists in
      match List.last lists [] with
      | [] => Undefined
      | r :: _ =>
          let res := ct (mem (st en1) r) in
          let s3 := fold_left (fun s a => free_node s 0 a) (concat (removelast lists)) (st en1) in
          Ok (res, set_st en1 (free_node s3 0 r))
      end
  end.

End Engine.

Arguments Ok {A}. Arguments Fatal {A}. Arguments Undefined {A}.
