(** * Breadth-first variable reordering by sifting (executable model): /repo/src/calReorderBF.c:137-164, 562-586, 721-1114.

    Modelled: [Cal_BddReorder] with the method [CAL_REORDER_METHOD_BF] and the technique [CAL_REORDER_SIFT].  The exchange
    is that of [BFReorderModel].  The conditions of assertions on forwardings are tests of the model; where one fails the
    result is [Undefined].  The pipeline is taken to be idle.  Not modelled: the packing of the nodes of the sifted
    variable at the end ([CalBddPackNodesAfterReorderForSingleId], when [CalBddIdNeedsRepacking]).

    Forwardings are never reused.  An exchange pushes them in front of the list that starts at [startNode] of the table
    and leaves [endNode], which is the address of [startNode] itself for an empty list
    (/repo/src/calReorderBF.c:440-441, 520-530).  [CalBddReorderReclaimForwardedNodes] (/repo/src/calReorderUtil.c:524-528)
    writes the free list of the node manager behind [endNode], that is, over the start of the list, and then takes the
    start of the list for the new free list: the free list is the old one, and the list of forwardings is empty.
    ([BddReorderFixAndFreeForwardingNodes], which sets [endNode], is called by the window technique only.) *)
From Verif Require Import Base BFModel MgrModel ApiModel ReorderModel PackModel BFReorderModel.

(** State: nodes, with all the forwardings made so far; the lists of forwardings; [numForwardedNodes]; [numSwaps]; the
    local variable [swapFlag]. *)
Record sst := SS { sb : bst; sl : N -> list N; snum : N; sswaps : N; sflag : bool }.
Definition set_sb (s : sst) (b : bst) : sst := SS b (sl s) (snum s) (sswaps s) (sflag s).
Definition set_sflag (s : sst) (f : bool) : sst := SS (sb s) (sl s) (snum s) (sswaps s) f.
Definition ssize (s : sst) : N := bsize (sb s).

(** An exchange; the new forwardings are the first ones of the upper variable. *)
Definition sift_swap (inter : N -> N -> bool) (k : nat) (flag : bool) (s : sst) : outcome sst :=
  obind (bswap inter (N.of_nat k) flag (sb s)) (fun b =>
  match nth_error (ord (bo (sb s))) k with
  | Some i => let new := firstn (length (bw b i) - length (bw (sb s) i)) (bw b i) in
              Ok (SS b (upd (sl s) i (new ++ sl s i)) (snum s + N.of_nat (length new)) (sswaps s + 1) true)
  | None => Ok (set_sb s b)
  end).

(** [BddReorderFixForwardingNodes] (/repo/src/calReorderBF.c:137-164): forwardings to forwardings at the front of the
    list are made to lead one step further and leave the list (line 162 changes nothing, as [endNode] is the address of
    [startNode]). *)
Fixpoint fix_front (m : memory) (l : list N) : outcome (memory * list N) :=
  match l with
  | [] => Ok (m, [])
  | a :: l => if forwarded m (ct (m a)) then obind (straight1 2 (Ok m) a) (fun m1 => fix_front m1 l) else Ok (m, a :: l)
  end.
Definition fix_forwarding (i : N) (s : sst) : outcome sst :=
  obind (fix_front (mem (bs (sb s))) (sl s i)) (fun p =>
  Ok (SS (set_bs (sb s) (set_mem (bs (sb s)) (fst p))) (upd (sl s) i (snd p)) (snum s) (sswaps s) (sflag s))).

(** [CalBddReorderFixUserBddPtrs] and [CalReorderAssociationFix]. *)
Definition fix_held (b : bst) : outcome bst :=
  let s := bs b in
  let m := fold_left fix_user (ut s 0) (mem s) in
  if forallb (fun u => negb (forwarded m (ct (m u)))) (ut s 0)
  then Ok (BS (set_mem s m) (bw b) (bo b) (fix_images m (btemp b)) (map (fix_images m) (bassoc b)))
  else Undefined.
(** [CalBddReorderFixCofactors] for the variables at these indices. *)
Definition fix_levels (l : list nat) (b : bst) : outcome bst :=
  fold_left (fun r k => obind r (fun b => match nth_error (ord (bo b)) k with Some i => fix_cofactors b i | None => Ok b end)) l (Ok b).
(** [CalBddReorderReclaimForwardedNodes] (/repo/src/calReorderUtil.c:513-532) for the variables at these indices. *)
Definition at_some (o : order) (ks : list nat) (v : N) : bool :=
  existsb (fun k => match nth_error (ord o) k with Some i => i =? v | None => false end) ks.
Definition give_up (ks : list nat) (s : sst) : sst :=
  SS (sb s) (fun v => if at_some (bo (sb s)) ks v then [] else sl s v) 0 (sswaps s) false.
(** [CofactorFixAndReclaimForwardedNodes] (/repo/src/calReorderBF.c:562-586). *)
Definition cleanup (lv rc : list nat) (s : sst) : outcome sst :=
  obind (fix_held (sb s)) (fun b1 => obind (fix_levels lv b1) (fun b2 => Ok (give_up rc (set_sb s b2)))).
(** [BddSiftPerfromPhaseIV] (/repo/src/calReorderBF.c:1088-1114). *)
Definition phase4 (best : nat) (rc : list nat) (s : sst) : outcome sst :=
  obind (fix_levels (rev (seq 0 best)) (sb s)) (fun b1 => obind (fix_held b1) (fun b2 => Ok (give_up rc (set_sb s b2)))).

Definition range (a b : nat) : list nat := seq a (S b - a).
Section Sift.
Variables (inter : N -> N -> bool) (lim : N).

(** The variable at index [c] moves down (/repo/src/calReorderBF.c:820-828, 914-922, 932-940, 976-984). *)
Definition step_down (c : nat) (s : sst) : outcome sst :=
  obind (sift_swap inter c false s) (fun s1 => if lim <? snum s1 then cleanup (seq 0 c) [S c] s1 else Ok s1).
(** It moves up to index [c]; with [ff] double forwardings of the variable are repaired
    (/repo/src/calReorderBF.c:847-861, 868-878, 912-922, 1012-1023). *)
Definition step_up (ff : bool) (rc : list nat) (c : nat) (s : sst) : outcome sst :=
  obind (sift_swap inter c true s) (fun s1 =>
  obind (if ff then match nth_error (ord (bo (sb s1))) c with Some i => fix_forwarding i s1 | None => Ok s1 end else Ok s1) (fun s2 =>
  if lim <? snum s2 then cleanup (seq 0 c) rc s2 else Ok s2)).
(** [n] steps. *)
Fixpoint downs (n c : nat) (s : sst) : outcome sst :=
  match n with O => Ok s | S n => obind (step_down c s) (downs n (S c)) end.
Fixpoint ups (rc : nat -> list nat) (n c : nat) (s : sst) : outcome sst :=
  match n with O => Ok s | S n => obind (step_up true (rc (pred c)) (pred c) s) (ups rc n (pred c)) end.
(** Down to the bottom, until the size doubles (/repo/src/calReorderBF.c:818-841, 972-1004).  Result: state, index,
    best size and index, and the index where the search was broken off. *)
Fixpoint down_search (le : bool) (n c : nat) (best : N) (bi : nat) (s : sst) : outcome (sst * nat * N * nat * option nat) :=
  match n with
  | O => Ok (s, c, best, bi, None)
  | S n => obind (step_down c s) (fun s1 =>
      let z := ssize s1 in
      if 2 * best <=? z then Ok (s1, S c, best, bi, Some (S c)) else
      if (if le then z <=? best else z <? best) then down_search le n (S c) z (S c) s1 else down_search le n (S c) best bi s1)
  end.
(** From index [c] up to the top, until the size exceeds [max] (/repo/src/calReorderBF.c:866-888, 908-930).  The index
    reached is [topMostSwapIndex]. *)
Fixpoint up_search (le : bool) (max : N) (rc : nat -> list nat) (c : nat) (best : N) (bi : nat) (s : sst) : outcome (sst * nat * N * nat) :=
  match c with
  | O => Ok (s, O, best, bi)
  | S c => obind (step_up false (rc c) c s) (fun s1 =>
      let z := ssize s1 in
      if max <? z then Ok (s1, c, best, bi) else
      if (if le then z <=? best else z <? best) then up_search le max rc c z c s1 else up_search le max rc c best bi s1)
  end.

(** [BddReorderSiftToBestPos] (/repo/src/calReorderBF.c:777-1085) for the variable at index [start]; [grow] is the
    multiplication with [maxSizeFactor]. *)
Definition sift_one (grow : N -> N) (start : nat) (s0 : sst) : outcome sst :=
  let s := set_sflag s0 false in
  let n := length (ord (bo (sb s))) in
  let last := pred n in
  let z := ssize s in
  let bottom := fun t : option nat => match t with Some c => c | None => last end in
  if (Nat.div2 n <=? start)%nat then
    obind (down_search false (last - start) start z start s) (fun q =>
    let '(s1, c1, best1, bi1, t) := q in
    let rc := fun c => range c (bottom t) in
    obind (ups rc (c1 - start) c1 s1) (fun s2 =>
    obind (up_search true (grow z) rc start best1 bi1 s2) (fun q =>
    let '(s3, c3, best, bi) := q in
    obind (if sflag s3 then cleanup (seq 0 c3) (rc c3) s3 else Ok s3) (fun s4 =>
    obind (downs (bi - c3) c3 s4) (fun s5 => if sflag s5 then phase4 bi [bi] s5 else Ok s5)))))
  else
    obind (up_search false (grow z) (fun c => range (S c) start) start z start s) (fun q =>
    let '(s1, c1, best1, bi1) := q in
    obind (if sflag s1 then cleanup (seq 0 c1) (range c1 start) s1 else Ok s1) (fun s2 =>
    obind (downs (start - c1) c1 s2) (fun s3 =>
    obind (down_search true (last - start) start best1 bi1 s3) (fun q =>
    let '(s4, c4, best, bi, t) := q in
    let rc := fun c => range c (bottom t) in
    obind (ups rc (c4 - bi) c4 s4) (fun s5 => if sflag s5 then phase4 bi (rc bi) s5 else Ok s5))))).

(** The first of these variables with the most nodes, and its place. *)
Fixpoint most (t : N -> list N) (j : nat) (ids : list N) (best : nat * nat) : nat * nat :=
  match ids with
  | [] => best
  | v :: ids => most t (S j) ids (if (snd best <? length (t v))%nat then (j, length (t v)) else best)
  end.
(** [BddReorderVarSift] (/repo/src/calReorderBF.c:721-770): [ids] are the variables not sifted yet. *)
Fixpoint sift_all (grow : N -> N) (maxv maxs : N) (i : nat) (ids : list N) (shifted : N) (s : sst) : outcome sst :=
  match i with
  | O => Ok s
  | S i =>
      if (shifted <=? maxv) && (sswaps s <=? maxs) then
        let '(j, cnt) := most (ut (bs (sb s))) 0 ids (O, O) in
        if (cnt <=? 1)%nat then Ok s else
        obind (sift_one grow (N.to_nat (idx (bo (sb s)) (nth j ids 0))) s) (fun s1 =>
        sift_all grow maxv maxs i (firstn i (firstn j ids ++ nth i ids 0 :: skipn (S j) ids)) (shifted + 1) s1)
      else Ok s
  end.
End Sift.

(** [CalCheckAllValidity] as far as forwardings are concerned. *)
Definition no_forwarding (b : bst) : bool :=
  let s := bs b in
  forallb (fun v => forallb (clean (mem s)) (ut s v)) (ord (bo b)) &&
  forallb (fun u => negb (forwarded (mem s) (ct (mem s u)))) (ut s 0) &&
  forallb (good_images (bo b) (mem s)) (btemp b :: bassoc b).

(** [Cal_BddReorder] (/repo/src/cal.c:454-468, /repo/src/calReorderBF.c:101-123). *)
Definition sift_start (m : mgr) : sst := SS (bf_start m) (fun _ => []) 0 0 false.
Definition reorder_sift (lim maxv maxs : N) (grow : N -> N) (m : mgr) : outcome mgr :=
  let m1 := gc (set_mca m (fun _ => None)) in
  let l := ord (mo m1) in
  obind (sift_all (interacts (mo m1) (st (me m1))) lim grow maxv maxs (length l) l 0 (sift_start m1)) (fun s =>
  if no_forwarding (sb s) then Ok (bf_end m1 (sb s)) else Undefined).
