(** * Breadth-first quantification and relational product (executable model).

    Models the breadth-first routines of /repo/src/calQuant.c:405-1325, used by managers with more than
    [CAL_LARGE_BDD] nodes.

    Simplifications.  The nested passes and the OR requests of a reduction use further queues of the manager, which
    are empty before and after; each pass is modelled with queues of its own on the same store, which are cleaned up
    at its end, not at the end of the operation.  The temporary entries an operation makes in the computed table, and
    the look-ups of NAND entries, are left out: such an entry leads to the request [FindOrAdd] finds, or to the node
    such a request is forwarded to.  Both only change the addresses of nodes. *)
From Verif Require Import Base BFModel BatchModel MgrModel ApiModel QuantModel.

Section QuantBF.
Variable enum : memory -> list N -> list N.
Variable o : order.
Variable mp : N -> option edge.
Variable last : Z.

(** ** The OR requests of a reduction *)

(** A request for the disjunction: the terminal cases of OR, otherwise the NAND of the complements
    (/repo/src/calQuant.c:778-800, 1117-1138).  The relational product orders the operands before it tests the terminal
    cases, which do not depend on the order. *)
Definition norreq (en : eng) (p : edge * edge) : edge * eng :=
  match tcase op_or (fst p) (snd p) with
  | Some r => (r, en)
  | None => let '(f, g) := normalize (fst p) (snd p) in request en 0 (minid2 o (enot f) (enot g)) (enot f) (enot g)
  end.
(** The requests with their sweeps (/repo/src/calQuant.c:405-548, 769-820, 1108-1160).  The sweeps of the code start at the
    smallest index of a request; the tables above are empty. *)
Definition norBatch (ids : list N) (s : store) (ps : list (edge * edge)) : list edge * store :=
  let '(rs, en1) := reqs norreq (start s) ps in
  let en2 := apply_all enum o op_nand [0%nat] ids en1 in
  let en3 := reduce_all enum [0%nat] ids en2 in
  (map (fwd (mem (st en3))) rs, st (cleanup_all [0%nat] ids en3)).

(** ** The reduction of the requests at a quantified variable *)
Section Reduce.
Context {P : Type}.
(** The operands of the else side of a request, and the nested pass for them. *)
Variable els : memory -> N -> P.
Variable nb : store -> list P -> list edge * store.

(** First loop (/repo/src/calQuant.c:713-764, 1043-1104): requests whose then side is one are finished, the others wait. *)
Definition qstep (d : nat) (i : N) (q : eng * list N) (a : N) : eng * list N :=
  let en := fst q in
  let t := fwd (mem (st en)) (ct (mem (st en) a)) in
  if isone t then (add_don (set_st en (put (st en) a (C t efwd (cr (mem (st en) a))))) d i a, snd q)
  else (en, snd q ++ [a]).
(** Last loop (/repo/src/calQuant.c:822-840, 1162-1176). *)
Definition qfinish (d : nat) (i : N) (en : eng) (q : N * edge) : eng :=
  let a := fst q in
  let r := snd q in
  let s1 := addref (st en) r (Z.of_N (cr (mem (st en) a))) in
  add_don (set_st en (put s1 a (C r efwd (cr (mem s1 a))))) d i a.
(** [BddExistsReduce], [BddRelProdReduce] (/repo/src/calQuant.c:686-843, 1015-1196).  The requests that wait are visited in
    the opposite order once the nested pass is done. *)
Definition qreduce (d : nat) (i : N) (en : eng) : eng :=
  let '(en1, pd) := fold_left (qstep d i) (enum (mem (st en)) (que en d i)) (set_que en d i [], []) in
  let m := mem (st en1) in
  let '(es, s1) := nb (st en1) (map (els m) pd) in
  let qs := rev (combine pd es) in
  let '(rs, s2) := norBatch (ord o) s1 (map (fun q => (fwd m (ct (m (fst q))), snd q)) qs) in
  fold_left (qfinish d i) (combine (map fst qs) rs) (set_st en1 s2).
End Reduce.

(** ** Existential quantification *)
Section Exists.
(** The entries for the operation in the computed table. *)
Variable look : edge -> option edge.

(** Request for one cofactor (/repo/src/calQuant.c:575-588, 600-613, 617-631, 738-756). *)
Definition exreq (en : eng) (f : edge) : edge * eng :=
  if (last <? Z.of_N (eidx o f))%Z then (f, en)
  else match look f with
  | Some r => (r, en)
  | None => request en 0 (eid f) f one
  end.

(** One iteration of [BddExistsApply] (/repo/src/calQuant.c:552-639): at a quantified variable only the then side is
    requested, the else cofactor being kept as it is, and neither is counted. *)
Definition exists1 (i : N) (en : eng) (a : N) : eng :=
  let f := ct (mem (st en) a) in
  let ft := thenof (mem (st en)) f in
  let fe := elseof (mem (st en)) f in
  if quantified mp i then
    let '(r, en1) := exreq en ft in
    set_st en1 (put (st en1) a (C r fe (cr (mem (st en1) a))))
  else
    let '(r1, en1) := exreq en ft in
    let s1 := icr (st en1) r1 in
    let s2 := put s1 a (set_ct (mem s1 a) r1) in
    let '(r0, en2) := exreq (set_st en1 s2) fe in
    let s3 := icr (st en2) r0 in
    set_st en2 (put s3 a (set_ce (mem s3 a) r0)).
Definition exists_table (en : eng) (i : N) : eng :=
  fold_left (exists1 i) (enum (mem (st en)) (que en 0 i)) en.

(** [BddExistsBFAux] with the requests before it and the clean-up (/repo/src/calQuant.c:643-682).  The nested pass of the
    reduction at a variable is over the variables below. *)
Fixpoint existB (ids : list N) (s : store) (fs : list edge) {struct ids} : list edge * store :=
  let '(rs, en1) := reqs exreq (start s) fs in
  let en2 := fold_left exists_table ids en1 in
  let en3 := (fix redu (l : list N) (en : eng) {struct l} : eng :=
                match l with
                | [] => en
                | i :: l' =>
                    let en' := redu l' en in
                    if quantified mp i then qreduce (fun m a => ce (m a)) (existB l') 0 i en'
                    else reduce_table enum en' 0 i
                end) ids en2 in
  (map (fwd (mem (st en3))) rs, st (cleanup_all [0%nat] ids en3)).
End Exists.

(** ** Relational product *)
Section RelProd.
Variable look : edge -> edge -> option edge.

(** Request for one pair of cofactors: the queue of NANDs if nothing is quantified below, otherwise the queue of
    relational products (/repo/src/calQuant.c:924-953, 976-1002, 1071-1101). *)
Definition rpreq (en : eng) (p : edge * edge) : edge * eng :=
  let '(f, g) := normalize (fst p) (snd p) in
  if (last <? Z.of_N (minindex2 o f g))%Z then
    match tcase op_and f g with
    | Some r => (r, en)
    | None => let '(r, en1) := request en 0 (minid2 o f g) f g in (enot r, en1)
    end
  else match relprod_case f g with
  | Some r => (r, en)
  | None => match look f g with
            | Some r => (r, en)
            | None => request en 1 (minid2 o f g) f g
            end
  end.

(** One iteration of [BddRelProdApply] (/repo/src/calQuant.c:905-1011).  The else operands at a quantified variable are kept
    in a node of their own, which the code gives back in the reduction; here it is not used again. *)
Definition relprod1 (i : N) (en : eng) (a : N) : eng :=
  let c := mem (st en) a in
  let '((fx, fxb), (gx, gxb)) := cofactors2 o (mem (st en)) (ct c) (ce c) in
  let '(r1, en1) := rpreq en (fx, gx) in
  if quantified mp i then
    let j := minid2 o fxb gxb in
    let '(p, s1) := alloc (st en1) j in
    let s2 := put s1 p (C fxb gxb 0) in
    set_st en1 (put s2 a (C r1 (E j p false) (cr (mem s2 a))))
  else
    let s1 := icr (st en1) r1 in
    let s2 := put s1 a (set_ct (mem s1 a) r1) in
    let '(r0, en2) := rpreq (set_st en1 s2) (fxb, gxb) in
    let s3 := icr (st en2) r0 in
    set_st en2 (put s3 a (set_ce (mem s3 a) r0)).
Definition relprod_table (en : eng) (i : N) : eng :=
  fold_left (relprod1 i) (enum (mem (st en)) (que en 1 i)) en.

(** [BddRelProdBFAux] with the requests before it and the clean-up (/repo/src/calQuant.c:1200-1253). *)
Definition pair_of (m : memory) (a : N) : edge * edge := let p := eptr (ce (m a)) in (ct (m p), ce (m p)).
Fixpoint relprodB (ids : list N) (s : store) (ps : list (edge * edge)) {struct ids} : list edge * store :=
  let '(rs, en1) := reqs rpreq (start s) ps in
  let en2 := fold_left (fun en i => relprod_table (apply_table enum o op_nand en 0 i) i) ids en1 in
  let en3 := (fix redu (l : list N) (en : eng) {struct l} : eng :=
                match l with
                | [] => en
                | i :: l' =>
                    let en' := reduce_table enum (redu l' en) 0 i in
                    if quantified mp i then qreduce pair_of (relprodB l') 1 i en'
                    else reduce_table enum en' 1 i
                end) ids en2 in
  (map (fwd (mem (st en3))) rs, st (cleanup_all [0%nat; 1%nat] ids en3)).
End RelProd.
End QuantBF.

(** ** The operations *)
Section Ops.
Variable enum : memory -> list N -> list N.
Variable slot : N -> edge -> edge -> N.
Variable o : order.
Variable mp : N -> option edge.
Variable last : Z.

(** [BddExistsBFPlusDF] (/repo/src/calQuant.c:847-900). *)
Definition exists_bf (op : N) (s : store) (c : cache) (f : edge) : edge * store * cache :=
  if (last <? Z.of_N (eidx o f))%Z then (f, s, c)
  else match cache_lookup slot op f one c with
  | Some r => (r, s, c)
  | None =>
      let '(rs, s1) := existB enum o mp last (fun h => cache_lookup slot op h one c) (skipn (N.to_nat (eidx o f)) (ord o)) s [f] in
      let r := hd one rs in (r, s1, cache_insert slot op f one r c)
  end.

(** [BddRelProdBFPlusDF] (/repo/src/calQuant.c:1257-1325). *)
Definition relprod_bf (op : N) (s : store) (c : cache) (f g : edge) : edge * store * cache :=
  match relprod_case f g with
  | Some r => (r, s, c)
  | None =>
      let '(f, g) := normalize f g in
      match cache_lookup slot op f g c with
      | Some r => (r, s, c)
      | None =>
          let '(rs, s1) := relprodB enum o mp last (fun h k => cache_lookup slot op h k c)
                             (skipn (N.to_nat (minindex2 o f g)) (ord o)) s [(f, g)] in
          let r := hd one rs in (r, s1, cache_insert slot op f g r c)
      end
  end.
End Ops.
