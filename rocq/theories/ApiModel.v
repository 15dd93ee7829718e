(** * The programming interface (executable model).

    Models /repo/src/calUtil.c:181-316, /repo/src/cal.c, /repo/src/calBddOp.c:82-456,
    /repo/src/calBddITE.c:77-100, /repo/src/calBddManager.c:371-460 and /repo/src/calGC.c:79-135.

    Choices the model does not compute are collected in a decision record [dec] that is an
    argument of every call: the theorems hold for all of them. *)
From Verif Require Import Base BFModel ITEModel MgrModel.

Definition obind {A B} (x : outcome A) (f : A -> outcome B) : outcome B :=
  match x with Ok a => f a | Fatal => Fatal | Undefined => Undefined end.

(** Outcome of one run of [CalBddPostProcessing]:
    [d_chk] is whether [gcCheck] is still positive (it is decremented for every node the
    engine creates);
    [d_rehash] is the outcome of [CalCacheTableRehash] (/repo/src/calCacheTableTwo.c:463-472,
    166-212): slot [k] of the new computed table holds what was in slot [d_rehash k]. *)
Record dec := { d_chk : bool; d_rehash : N -> option N }.
Definition dec0 : dec := {| d_chk := true; d_rehash := fun k => Some k |}.
Definition dec1 : dec := {| d_chk := false; d_rehash := fun k => Some k |}.

Definition cache_rehash (f : N -> option N) (c : cache) : cache := fun k =>
  match f k with Some j => c j | None => None end.

(** [CalBddPostProcessing] (/repo/src/calUtil.c:214-255); [true] is [CAL_BDD_OVERFLOWED].
    Dynamic reordering (off unless [Cal_BddDynamicReordering] is called) and repacking of the
    node pages are left out here. *)
Definition postproc (d : dec) (m : mgr) : bool * mgr :=
  if d_chk d then (false, m)
  else if mlim m <? nn (st (me m)) then
    let m1 := set_gclimit (gc m) in
    if negb (mnl m1 =? 0) && (mnl m1 <? nn (st (me m1)))
    then (true, set_mov m1 true)
    else (false, set_mca m1 (cache_rehash (d_rehash d) (mca m1)))
  else (false, m).

(** [CalBddPreProcessing] (/repo/src/calUtil.c:181-209). *)
Definition zero_ref (m : mgr) (h : ubdd) : bool :=
  negb (uisnull h) && (cr (mmem m (eptr (uint (mmem m) h))) =? 0).
Definition preproc (d : dec) (m : mgr) (hs : list ubdd) : outcome (bool * mgr) :=
  if existsb (zero_ref m) hs then Fatal
  else if existsb uisnull hs then Ok (false, m)
  else Ok (true, snd (postproc d m)).

(** ** Handles *)

(** [Cal_BddIdentity], [Cal_BddUnFree] (/repo/src/cal.c:129-136,265-271). *)
Definition uinc (m : mgr) (h : ubdd) : mgr := set_mst m (icr (st (me m)) (E 0 (uptr h) false)).
(** [Cal_BddFree] (/repo/src/cal.c:255-260). *)
Definition udec (m : mgr) (h : ubdd) : mgr := set_mst m (dcr (st (me m)) (E 0 (uptr h) false)).

(** Counting on the null handle dereferences address 0. *)
Definition cal_identity (m : mgr) (h : ubdd) : outcome (ubdd * mgr) :=
  if uisnull h then Undefined else Ok (h, uinc m h).
Definition cal_not (m : mgr) (h : ubdd) : outcome (ubdd * mgr) :=
  if uisnull h then Undefined else Ok (unot h, uinc m h).
Definition cal_free (m : mgr) (h : ubdd) : outcome mgr :=
  if uisnull h then Undefined else Ok (udec m h).
Definition cal_unfree (m : mgr) (h : ubdd) : outcome mgr :=
  if uisnull h then Undefined else Ok (uinc m h).
(** [Cal_BddGetRegular] (/repo/src/cal.c:276-280): no count is changed. *)
Definition cal_regular (h : ubdd) : ubdd := U (uptr h) false.

(** [Cal_BddOne], [Cal_BddZero], [Cal_BddNull] (/repo/src/cal.c:140-160). *)
Definition cal_one (m : mgr) : ubdd := U (muone m) false.
Definition cal_zero (m : mgr) : ubdd := U (muone m) true.
Definition cal_null : ubdd := unull.

(** Tests (/repo/src/cal.c:84-125). *)
Definition cal_isequal (f g : ubdd) : bool := ueq f g.
Definition cal_isone (m : mgr) (f : ubdd) : bool := ueq f (cal_one m).
Definition cal_iszero (m : mgr) (f : ubdd) : bool := ueq f (cal_zero m).
Definition cal_isnull (f : ubdd) : bool := uisnull f.
Definition cal_isconst (m : mgr) (f : ubdd) : bool := cal_isone m f || cal_iszero m f.

(** ** Wrapping of a result *)

(** [CalBddGetExternalBdd] on the manager. *)
Definition ret (m : mgr) (r : edge) : ubdd * mgr :=
  let '(h, s) := getext (st (me m)) r in (h, set_mst m s).

(** The common tail of the operations (/repo/src/calBddOp.c:99-105): wrap, post-process, and on
    overflow free the result, collect and return null. *)
Definition finish (d : dec) (m : mgr) (r : edge) : ubdd * mgr :=
  let '(h, m1) := ret m r in
  let '(ov, m2) := postproc d m1 in
  if ov then (unull, gc (udec m2 h)) else (h, m2).

Section Api.
Variable enum : memory -> list N -> list N.

(** ** Binary operations: [Cal_BddAnd] .. [Cal_BddXnor] (/repo/src/calBddOp.c:82-243). *)
Definition binary (op : binop) (neg : bool) (d1 d2 : dec) (m : mgr) (f g : ubdd) : outcome (ubdd * mgr) :=
  obind (preproc d1 m [f; g]) (fun '(ok, m1) =>
    if negb ok then Ok (unull, m1)
    else let '(r, en) := opBF enum (mo m1) op (me m1) (uint (mmem m1) f) (uint (mmem m1) g) in
         Ok (finish d2 (set_me m1 en) (ephase r neg))).
Definition cal_and := binary op_and false.
Definition cal_nand := binary op_nand false.
Definition cal_or := binary op_or false.
Definition cal_nor := binary op_or true.
Definition cal_xor := binary op_xor false.
Definition cal_xnor := binary op_xor true.

(** [Cal_BddITE] (/repo/src/calBddITE.c:77-100). *)
Definition cal_ite (d1 d2 : dec) (m : mgr) (f g h : ubdd) : outcome (ubdd * mgr) :=
  obind (preproc d1 m [f; g; h]) (fun '(ok, m1) =>
    if negb ok then Ok (unull, m1)
    else let '(r, en) := opITEBF enum (mo m1) (me m1) (uint (mmem m1) f) (uint (mmem m1) g) (uint (mmem m1) h) in
         Ok (finish d2 (set_me m1 en) r)).

(** ** Array operations *)

(** The handles of a null-terminated array. *)
Fixpoint upto_null (hs : list ubdd) : list ubdd :=
  match hs with
  | [] => []
  | h :: hs => if uisnull h then [] else h :: upto_null hs
  end.

(** The loop that pre-processes the handles one by one (/repo/src/calBddOp.c:255-259). *)
Fixpoint preproc_each (ds : nat -> dec) (m : mgr) (hs : list ubdd) : outcome mgr :=
  match hs with
  | [] => Ok m
  | h :: hs => obind (preproc (ds 0%nat) m [h]) (fun '(_, m1) => preproc_each (fun k => ds (S k)) m1 hs)
  end.

Fixpoint pairs {A} (l : list A) : list (A * A) :=
  match l with x :: y :: l => (x, y) :: pairs l | _ => [] end.

(** [for (i=0; i<num/2; i++) userResultArray[i] = CalBddGetExternalBdd(...)]. *)
Fixpoint rets (m : mgr) (rs : list edge) : list ubdd * mgr :=
  match rs with
  | [] => ([], m)
  | r :: rs => let '(h, m1) := ret m r in let '(hs, m2) := rets m1 rs in (h :: hs, m2)
  end.

(** [Cal_BddPairwiseAnd/Or/Xor] (/repo/src/calBddOp.c:247-352); [None] is the nil array.
    Only the And variant post-processes its results ([post]). *)
Definition pairwise (op : binop) (post : bool) (ds : nat -> dec) (d : dec) (m : mgr) (hs : list ubdd)
  : outcome (option (list ubdd) * mgr) :=
  let hs := upto_null hs in
  obind (preproc_each ds m hs) (fun m1 =>
    if Nat.eqb (length hs) 0 || Nat.odd (length hs) then Ok (None, m1)
    else
      let '(rs, en) := arrayOpBF enum (mo m1) op (me m1) (pairs (map (uint (mmem m1)) hs)) in
      let '(us, m2) := rets (set_me m1 en) rs in
      if post then
        let '(ov, m3) := postproc d m2 in
        if ov then Ok (Some (map (fun _ => unull) us), gc (fold_left udec us m3))
        else Ok (Some us, m3)
      else Ok (Some us, m2)).
Definition cal_pairwise_and := pairwise op_and true.
Definition cal_pairwise_or := pairwise op_or false.
Definition cal_pairwise_xor := pairwise op_xor false.

(** [Cal_BddMultiwayAnd/Or/Xor] (/repo/src/calBddOp.c:357-456). *)
Definition multiway (op : binop) (ds : nat -> dec) (m : mgr) (hs : list ubdd) : outcome (ubdd * mgr) :=
  let hs := upto_null hs in
  obind (preproc_each ds m hs) (fun m1 =>
    match hs with
    | [] => Ok (unull, m1)
    | [h] => cal_identity m1 h
    | _ => obind (multiwayOp enum (mo m1) op (me m1) (map (uint (mmem m1)) hs)) (fun '(r, en) =>
             Ok (ret (set_me m1 en) r))
    end).
Definition cal_multiway_and := multiway op_and.
Definition cal_multiway_or := multiway op_or.
Definition cal_multiway_xor := multiway op_xor.
End Api.

(** ** Structure *)

(** [Cal_BddGetIfIndex], [Cal_BddGetIfId] (/repo/src/cal.c:175-203); -1 as [Cal_BddId_t] is 65535. *)
Definition cal_ifindex (d : dec) (m : mgr) (f : ubdd) : outcome (N * mgr) :=
  obind (preproc d m [f]) (fun '(ok, m1) =>
    let F := uint (mmem m1) f in
    if negb ok then Ok (65535, m1)
    else if isconst F then Ok (65535, m1) else Ok (idx (mo m1) (eid F), m1)).
Definition cal_ifid (d : dec) (m : mgr) (f : ubdd) : outcome (N * mgr) :=
  obind (preproc d m [f]) (fun '(ok, m1) =>
    let F := uint (mmem m1) f in
    if negb ok then Ok (65535, m1)
    else if isconst F then Ok (0, m1) else Ok (eid F, m1)).

(** [Cal_BddIf], [Cal_BddThen], [Cal_BddElse] (/repo/src/cal.c:208-250).  On a constant [Cal_BddIf]
    reads the never-initialised [varBdds[0]] and the other two follow the garbage children
    of the constant node. *)
Definition cal_if (d : dec) (m : mgr) (f : ubdd) : outcome (ubdd * mgr) :=
  obind (preproc d m [f]) (fun '(ok, m1) =>
    let F := uint (mmem m1) f in
    if negb ok then Ok (unull, m1)
    else if isconst F then Undefined else Ok (ret m1 (mvb m1 (eid F)))).
Definition cal_then (d : dec) (m : mgr) (f : ubdd) : outcome (ubdd * mgr) :=
  obind (preproc d m [f]) (fun '(ok, m1) =>
    let F := uint (mmem m1) f in
    if negb ok then Ok (unull, m1)
    else if isconst F then Undefined else Ok (ret m1 (thenof (mmem m1) F))).
Definition cal_else (d : dec) (m : mgr) (f : ubdd) : outcome (ubdd * mgr) :=
  obind (preproc d m [f]) (fun '(ok, m1) =>
    let F := uint (mmem m1) f in
    if negb ok then Ok (unull, m1)
    else if isconst F then Undefined else Ok (ret m1 (elseof (mmem m1) F))).

(** ** Intersects and Implies *)

(** [CAL_BDD_OUT_OF_ORDER] (/repo/src/calInt.h:979): comparison of tagged addresses. *)
Definition tagval (e : edge) : N := 2 * eptr e + if eneg e then 1 else 0.
Definition out_of_order (f g : edge) : bool := tagval g <? tagval f.
(** [CalBddGetCofactors] (/repo/src/calInt.h:639-649). *)
Definition cofac (m : memory) (f : edge) (i : N) : edge * edge :=
  if eid f =? i then (thenof m f, elseof m f) else (f, f).

(** [BddIntersectsStep] (/repo/src/cal.c:654-710); [None] is exhausted fuel. *)
Fixpoint isect (o : order) (fuel : nat) (s : store) (f g : edge) : option (edge * store) :=
  match fuel with
  | O => None
  | S fuel =>
      if isconst f then Some (if iszero f then f else g, s)
      else if isconst g then Some (if iszero g then g else f, s)
      else if sameptr f g then Some (if eeq f g then f else zero, s)
      else
        let '(f, g) := if out_of_order f g then (g, f) else (f, g) in
        let i := minid2 o f g in
        let '(f1, f2) := cofac (mem s) f i in
        let '(g1, g2) := cofac (mem s) g i in
        match isect o fuel s f1 g1 with
        | None => None
        | Some (t, s1) =>
            if iszero t then
              match isect o fuel s1 f2 g2 with
              | None => None
              | Some (t, s2) =>
                  if iszero t then Some (zero, s2)
                  else let '(r, found, s3) := find_or_add s2 i zero t in
                       Some (r, if found then s3 else icr s3 t)
              end
            else let '(r, found, s3) := find_or_add s1 i t zero in
                 Some (r, if found then s3 else icr s3 t)
        end
  end.
Definition isect_top (o : order) (s : store) (f g : edge) : option (edge * store) :=
  isect o (S (S (length (ord o)))) s f g.

(** [Cal_BddIntersects], [Cal_BddImplies] (/repo/src/cal.c:284-317). *)
Definition intersects (neg : bool) (d : dec) (m : mgr) (f g : ubdd) : outcome (ubdd * mgr) :=
  obind (preproc d m [f; g]) (fun '(ok, m1) =>
    if negb ok then Ok (unull, m1)
    else match isect_top (mo m1) (st (me m1)) (uint (mmem m1) f) (ephase (uint (mmem m1) g) neg) with
         | None => Undefined
         | Some (r, s) => Ok (ret (set_mst m1 s) r)
         end).
Definition cal_intersects := intersects false.
Definition cal_implies := intersects true.

(** ** Variables (/repo/src/calBddManager.c:371-460) *)
Definition newvar_at (m : mgr) (index : N) : outcome (ubdd * mgr) :=
  obind (newvar m index) (fun '(v, m1) => Ok (ret m1 v)).
Definition cal_newvar_first (m : mgr) : outcome (ubdd * mgr) := newvar_at m 0.
Definition cal_newvar_last (m : mgr) : outcome (ubdd * mgr) := newvar_at m (numvars m).
Definition cal_newvar_before (m : mgr) (f : ubdd) : outcome (ubdd * mgr) :=
  if uisnull f then Undefined else
  let F := uint (mmem m) f in
  if isconst F then cal_newvar_last m else newvar_at m (idx (mo m) (eid F)).
Definition cal_newvar_after (m : mgr) (f : ubdd) : outcome (ubdd * mgr) :=
  if uisnull f then Undefined else
  let F := uint (mmem m) f in
  if isconst F then cal_newvar_last m else newvar_at m (idx (mo m) (eid F) + 1).
Definition cal_var_with_index (m : mgr) (index : N) : ubdd * mgr :=
  if numvars m <=? index then (unull, m)
  else ret m (mvb m (nth (N.to_nat index) (ord (mo m)) 0)).
Definition cal_var_with_id (m : mgr) (id : N) : ubdd * mgr :=
  if (id =? 0) || (numvars m <? id) then (unull, m) else ret m (mvb m id).

(** ** Limits *)

(** [Cal_BddManagerGC], [Cal_BddManagerSetGCLimit] are [gc] and [set_gclimit].
    [Cal_BddNodeLimit] (/repo/src/cal.c:495-511). *)
Definition cal_nodelimit (m : mgr) (newlim : Z) : N * mgr :=
  let l := if (newlim <? 0)%Z then 0 else Z.to_N newlim in
  let lim := if negb (l =? 0) && (l <? mlim m) then l else mlim m in
  (mnl m, M (me m) (mo m) (muone m) (mvb m) (mca m) (massoc m) (mtemp m) (mcur m) (mtop m) lim l (mov m)).
(** [Cal_BddOverflow] (/repo/src/cal.c:515-522). *)
Definition cal_overflow (m : mgr) : bool * mgr := (mov m, set_mov m false).
