(** * Breadth-first variable reordering with the window technique (executable model): /repo/src/calReorderBF.c.

    Modelled: [Cal_BddReorder] with the method [CAL_REORDER_METHOD_BF] and the technique [CAL_REORDER_WINDOW]
    (/repo/src/cal.c:454-468, /repo/src/calReorderBF.c:101-123): the exchange of two adjacent variables, in which a node
    of the upper variable gets a new address and its old cell becomes a forwarding; the repair of the edges to
    forwardings; the choice of the best arrangement in a window of two or three variables; the passes over all windows.
    The conditions of the assertions ([Cal_Assert]) are tests of the model: where one fails, the C code, which is
    usually compiled without them, goes on with an edge to a cell that is no node, and the result is [Undefined].
    Hash bins are flattened to lists.  The pipeline is taken to be idle.  Not modelled: sifting, and the reclaiming and
    packing in the middle of a pass when there are more than [maxForwardedNodes] forwardings
    (/repo/src/calReorderBF.c:1147-1153): the model ends in [Undefined] there. *)
From Verif Require Import Base BFModel MgrModel ApiModel ReorderModel PackModel.

(** Store, forwardings of every variable ([startNode.nextBddNode] of its table, /repo/src/calInt.h:353-370), order,
    temporary association, associations. *)
Record bst := BS { bs : store; bw : N -> list N; bo : order; btemp : assoc; bassoc : list assoc }.
Definition set_bs (b : bst) (s : store) : bst := BS s (bw b) (bo b) (btemp b) (bassoc b).

(** [CalBddIsForwarded] (/repo/src/calInt.h:1327-1331). *)
Definition forwarded (m : memory) (e : edge) : bool := eptr (ce (m (eptr e))) =? 0.
(** Neither child of a node is a forwarding. *)
Definition clean (m : memory) (a : N) : bool := negb (forwarded m (ct (m a))) && negb (forwarded m (ce (m a))).
Definition same_children (m m' : memory) (a : N) : bool := eeq (ct (m' a)) (ct (m a)) && eeq (ce (m' a)) (ce (m a)).
Definition fix1 (m : memory) (a : N) : memory := upd m a (fixc m a).

(** ** Exchange of two adjacent variables *)

(** The edge leads below the variable at index [k + 1] (/repo/src/calReorderBF.c:325-331). *)
Definition below2 (o : order) (k : N) (e : edge) : bool := k + 1 <? idx o (eid e).
(** The node has a child of the lower variable. *)
Definition btouch (o : order) (k : N) (m : memory) (a : N) : bool := negb (below2 o k (ce (m a)) && below2 o k (ct (m a))).
(** The cofactors of a child (/repo/src/calReorderBF.c:433-452). *)
Definition bcof (o : order) (k : N) (m : memory) (e : edge) : edge * edge :=
  if below2 o k e then (e, e) else (thenof m e, elseof m e).

(** One node taken out of the table of the upper variable [i] (/repo/src/calReorderBF.c:425-517). *)
Definition swap1 (o : order) (k i j : N) (r : outcome (store * (N -> list N))) (f : N) : outcome (store * (N -> list N)) :=
  obind r (fun p =>
  let '(s, w) := p in
  let m := mem s in
  let f0 := ce (m f) in
  let f1 := ct (m f) in
  let '(f01, f00) := bcof o k m f0 in
  let '(f11, f10) := bcof o k m f1 in
  if forwarded m f10 || forwarded m f11 || forwarded m f00 || forwarded m f01 then Undefined else
  let '(n0, found0, s1) := if eeq f10 f00 then (f00, true, s) else find_or_add s i f10 f00 in
  let s2 := icr s1 n0 in
  let '(n1, found1, s3) := if eeq f11 f01 then (f01, true, s2) else find_or_add s2 i f11 f01 in
  let s4 := icr s3 n1 in
  let s5 := if found0 then s4 else icr (icr s4 f10) f00 in
  let s6 := if found1 then s5 else icr (icr s5 f11) f01 in
  let s7 := dcr (dcr s6 f0) f1 in
  let '(n, s8) := alloc s7 j in
  let s9 := set_nn (set_ut (put s8 n (C n1 n0 0)) (upd (ut s8) j (n :: ut s8 j))) (nn s8 + 1) in
  let s10 := put s9 f (C (E j n false) efwd (cr (mem s9 f))) in
  Ok (addref s10 (E j n false) (Z.of_N (cr (mem s10 f))), upd w i (f :: w i))).

(** One node of [BddReorderFreeNodes] (/repo/src/calReorderBF.c:591-645). *)
Definition bsweep1 (j : N) (r : outcome store) (a : N) : outcome store :=
  obind r (fun s =>
  if cr (mem s a) =? 0 then
    if clean (mem s) a then
      let s1 := dcr (dcr s (ct (mem s a))) (ce (mem s a)) in
      let s2 := set_ut s1 (upd (ut s1) j (remove N.eq_dec a (ut s1 j))) in
      let s3 := free_node s2 j a in
      Ok (set_nn s3 (nn s3 - 1))
    else Undefined
  else Ok s).

(** [BddReorderSwapVarIndex] (/repo/src/calReorderBF.c:229-558) for the variable at index [k]; [inter] is
    [CalTestInteract], [flag] is [forwardCheckFlag].  The scan of the table of the upper variable replaces children that
    are forwardings (only with the flag); afterwards none may be left, and the children of a node that stays in the
    table must not have changed (the assertion on its hash value).  The searches call it only for an index that has a
    successor. *)
Definition bswap (inter : N -> N -> bool) (k : N) (flag : bool) (b : bst) : outcome bst :=
  match nth_error (ord (bo b)) (N.to_nat k), nth_error (ord (bo b)) (S (N.to_nat k)) with
  | Some i, Some j =>
      let o := bo b in
      let s := bs b in
      obind
        (if inter i j then
           let m1 := if flag then fold_left fix1 (ut s i) (mem s) else mem s in
           if forallb (fun a => clean m1 a && (btouch o k m1 a || same_children (mem s) m1 a)) (ut s i) then
             let L := rev (filter (btouch o k m1) (ut s i)) in
             let s1 := set_nn (set_ut (set_mem s m1) (upd (ut s) i (filter (fun a => negb (btouch o k m1 a)) (ut s i))))
                              (nn s - N.of_nat (length L)) in
             obind (fold_left (swap1 o k i j) L (Ok (s1, bw b))) (fun p =>
             obind (fold_left (bsweep1 j) (ut (fst p) j) (Ok (fst p))) (fun s2 => Ok (s2, snd p)))
           else Undefined
         else Ok (s, bw b))
        (fun p => Ok (BS (fst p) (snd p) (swap_order o k i j) (fixup_assoc o i j (btemp b))
                         (map (fixup_assoc o i j) (bassoc b))))
  | _, _ => Ok b
  end.

(** ** Repair of edges to forwardings *)

(** [CalBddReorderFixCofactors] (/repo/src/calReorderUtil.c:459-509). *)
Definition fix_cofactors (b : bst) (i : N) : outcome bst :=
  let s := bs b in
  let m1 := fold_left fix1 (ut s i) (mem s) in
  if forallb (clean m1) (ut s i) then Ok (set_bs b (set_mem s m1)) else Undefined.

(** [BddReorderFixAndFreeForwardingNodes] (/repo/src/calReorderBF.c:172-224) for the variables [ids], from the last to
    the first: every forwarding is made to lead to the end of its chain.  The second loop of the function would free the
    cells inside the chains, but it looks for the mark at the end of the chain, where it never is, and frees nothing. *)
Fixpoint follow (n : nat) (m : memory) (e : edge) : option edge :=
  match n with
  | O => None
  | S n => if forwarded m e then follow n m (fwd m e) else Some e
  end.
Definition nforwarded (b : bst) : nat := length (flat_map (bw b) (ord (bo b))).
Definition straight1 (n : nat) (r : outcome memory) (a : N) : outcome memory :=
  obind r (fun m => match follow n m (ct (m a)) with Some e => Ok (upd m a (C e (ce (m a)) (cr (m a)))) | None => Undefined end).
Definition straighten (ids : list N) (b : bst) : outcome bst :=
  obind (fold_left (straight1 (S (nforwarded b))) (flat_map (bw b) (rev ids)) (Ok (mem (bs b))))
        (fun m => Ok (set_bs b (set_mem (bs b) m))).

(** The end of a pass (/repo/src/calReorderBF.c:1181-1193): the edges of all nodes from the last variable to the first,
    of the user nodes ([CalBddReorderFixUserBddPtrs], /repo/src/calReorderUtil.c:88-133) and of the associations
    ([CalReorderAssociationFix], /repo/src/calAssociation.c:426-447) are repaired, then the forwardings go to the free
    lists ([CalBddReorderReclaimForwardedNodes], /repo/src/calReorderUtil.c:513-532).  An image that still is a
    forwarding would be left pointing to a free cell. *)
Definition fix_user (m : memory) (u : N) : memory := upd m u (C (fwd m (ct (m u))) (ce (m u)) (cr (m u))).
Definition good_images (o : order) (m : memory) (a : assoc) : bool :=
  forallb (fun i => match amap a i with Some e => negb (forwarded m e) | None => true end) (ord o).
Definition finish_pass (b : bst) : outcome bst :=
  obind (fold_left (fun r i => obind r (fun b => fix_cofactors b i)) (rev (ord (bo b))) (Ok b)) (fun b1 =>
  let s1 := bs b1 in
  let m2 := fold_left fix_user (ut s1 0) (mem s1) in
  let t := fix_images m2 (btemp b1) in
  let l := map (fix_images m2) (bassoc b1) in
  if forallb (fun u => negb (forwarded m2 (ct (m2 u)))) (ut s1 0) && forallb (good_images (bo b1) m2) (t :: l)
  then Ok (BS (set_fl (set_mem s1 m2) (fun i => bw b1 i ++ fl s1 i)) (fun _ => []) (bo b1) t l)
  else Undefined).

(** ** The search *)

Definition bsize (b : bst) : N := nn (bs b).
(** The variables at the indices [k], [k + 1], ... ([n] of them). *)
Definition ids_at (b : bst) (k n : nat) : list N := firstn n (skipn k (ord (bo b))).
(** [BddReorderWindow2] (/repo/src/calReorderBF.c:1272-1295), downward. *)
Definition window2 (inter : N -> N -> bool) (k : nat) (b : bst) : outcome (bst * bool) :=
  let K := N.of_nat k in
  obind (bswap inter K false b) (fun b1 =>
  obind (if bsize b <? bsize b1 then bswap inter K false b1 else Ok b1) (fun b2 =>
  obind (straighten (ids_at b2 k 2) b2) (fun b3 => Ok (b3, bsize b1 <? bsize b)))).
(** The exchanges that lead from the last of the six arrangements to the best one
    (/repo/src/calReorderBF.c:1343-1366). *)
Definition back_steps (best : N) (k : N) : list (N * bool) :=
  match best with
  | 0 => [(k + 1, false)]
  | 1 => [(k + 1, false); (k, true)]
  | 2 => [(k, false); (k + 1, false); (k, true)]
  | 3 => [(k, false); (k + 1, false)]
  | 4 => [(k, false)]
  | _ => []
  end.
Definition swaps (inter : N -> N -> bool) (l : list (N * bool)) (b : bst) : outcome bst :=
  fold_left (fun r p => obind r (bswap inter (fst p) (snd p))) l (Ok b).
(** [BddReorderWindow3] (/repo/src/calReorderBF.c:1298-1379), downward. *)
Definition window3 (inter : N -> N -> bool) (k : nat) (b : bst) : outcome (bst * bool) :=
  let K := N.of_nat k in
  obind (bswap inter K false b) (fun b1 =>
  let '(best, size) := if bsize b1 <? bsize b then (1, bsize b1) else (0, bsize b) in
  obind (bswap inter (K + 1) false b1) (fun b2 =>
  let '(best, size) := if bsize b2 <? size then (2, bsize b2) else (best, size) in
  obind (bswap inter K true b2) (fun b3 =>
  let '(best, size) := if bsize b3 <=? size then (3, bsize b3) else (best, size) in
  obind (bswap inter (K + 1) false b3) (fun b4 =>
  let '(best, size) := if bsize b4 <=? size then (4, bsize b4) else (best, size) in
  obind (bswap inter K true b4) (fun b5 =>
  let '(best, size) := if bsize b5 <=? size then (5, bsize b5) else (best, size) in
  obind (swaps inter (back_steps best K) b5) (fun b6 =>
  obind (if (best =? 0) || (best =? 3) then match nth_error (ord (bo b6)) k with Some i => fix_cofactors b6 i | None => Ok b6 end
         else Ok b6) (fun b7 =>
  obind (straighten (ids_at b7 k 3) b7) (fun b8 => Ok (b8, (0 <? best) && (size <? bsize b)))))))))).

(** One window of a pass (/repo/src/calReorderBF.c:1141-1179).  State: nodes, [levels], [anySwapped]; [lim] is
    [maxForwardedNodes]. *)
Definition pst3 := (bst * (nat -> bool) * bool)%type.
Definition mark_levels (n k : nat) (lv : nat -> bool) (i : nat) : bool :=
  if (k <=? i + 2)%nat && (i <=? k + 4)%nat && (i <? n)%nat then true else lv i.
Definition one_window (inter : N -> N -> bool) (lim : N) (r : outcome pst3) (k : nat) : outcome pst3 :=
  obind r (fun p =>
  let '(b, lv, any) := p in
  let n := length (ord (bo b)) in
  if lv k then
    obind (if (k <? n - 2)%nat
           then obind (window3 inter k b) (fun q => if lim <? N.of_nat (nforwarded (fst q)) then Undefined else Ok q)
           else window2 inter k b) (fun q =>
    let '(b1, moved) := q in
    if moved : bool then Ok (b1, mark_levels n k lv, true)
    else Ok (b1, fun i => if (i =? k)%nat then false else lv i, any))
  else r).
Definition one_pass (inter : N -> N -> bool) (lim : N) (b : bst) (lv : nat -> bool) : outcome pst3 :=
  obind (fold_left (one_window inter lim) (seq 0 (length (ord (bo b)) - 1)) (Ok (b, lv, false))) (fun p =>
  let '(b1, lv1, any) := p in obind (finish_pass b1) (fun b2 => Ok (b2, lv1, any))).
(** [BddReorderVarWindow] (/repo/src/calReorderBF.c:1119-1268).  The branch for the upward direction is never taken:
    [even] stays 1.  With the fuel exhausted the loop has not ended. *)
Fixpoint passes (n : nat) (inter : N -> N -> bool) (lim : N) (b : bst) (lv : nat -> bool) : outcome bst :=
  match n with
  | O => Undefined
  | S n => obind (one_pass inter lim b lv) (fun p =>
           let '(b1, lv1, any) := p in if any : bool then passes n inter lim b1 lv1 else Ok b1)
  end.

(** ** [Cal_BddReorder] *)
Definition bf_start (m : mgr) : bst := BS (st (me m)) (fun _ => []) (mo m) (mtemp m) (massoc m).
Definition bf_end (m : mgr) (b : bst) : mgr :=
  M (set_st (me m) (bs b)) (bo b) (muone m) (mvb m) (mca m) (bassoc b) (btemp b) (mcur m) (mtop m) (mlim m) (mnl m) (mov m).
Definition reorder_window (lim : N) (fuel : nat) (m : mgr) : outcome mgr :=
  let m1 := gc (set_mca m (fun _ => None)) in
  obind (passes fuel (interacts (mo m1) (st (me m1))) lim (bf_start m1) (fun _ => true)) (fun b => Ok (bf_end m1 b)).
