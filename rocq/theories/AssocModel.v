(** * Variable associations (executable model).

    Models /repo/src/calAssociation.c:85-349,457-489 and
    /repo/src/calCacheTableTwo.c:476-494. *)
From Verif Require Import Base BFModel ITEModel MgrModel ApiModel GraphModel.

Definition set_massoc (m : mgr) (l : list assoc) : mgr :=
  M (me m) (mo m) (muone m) (mvb m) (mca m) l (mtemp m) (mcur m) (mtop m) (mlim m) (mnl m) (mov m).
Definition set_mtemp (m : mgr) (a : assoc) : mgr :=
  M (me m) (mo m) (muone m) (mvb m) (mca m) (massoc m) a (mcur m) (mtop m) (mlim m) (mnl m) (mov m).
Definition set_mcur (m : mgr) (c : option N) : mgr :=
  M (me m) (mo m) (muone m) (mvb m) (mca m) (massoc m) (mtemp m) c (mtop m) (mlim m) (mnl m) (mov m).

(** The indices [1..numVars] the loops run over. *)
Definition varids (m : mgr) : list N := map N.of_nat (seq 1 (length (ord (mo m)))).

(** [CalBddArrayPreProcessing] (/repo/src/calUtil.c:259-271) on the handles before the
    terminating null; its result is ignored by the caller. *)
Definition array_preproc := preproc_each.

(** [CheckAssoc] (/repo/src/calAssociation.c:473-489), the part after pre-processing. *)
Fixpoint check_pairs (mm : memory) (l : list ubdd) : bool :=
  match l with
  | a :: _ :: l => (type_aux mm (uint mm a) =? TYPE_POSVAR) && check_pairs mm l
  | _ => true
  end.
Definition check_assoc (ds : nat -> dec) (m : mgr) (l : list ubdd) (pr : bool) : outcome (bool * mgr) :=
  obind (array_preproc ds m l) (fun m1 => Ok (if pr then check_pairs (mmem m1) l else true, m1)).

(** What an array of handles associates: variable id and image, in array order.  Without pairs the image is
    the constant one (/repo/src/calAssociation.c:105-134). *)
Definition assoc_list (mm : memory) (pr : bool) (l : list ubdd) : list (N * edge) :=
  if pr then map (fun p => (eid (uint mm (fst p)), uint mm (snd p))) (pairs l)
  else map (fun h => (eid (uint mm h), one)) l.
Definition assoc_put (mp : N -> option edge) (p : N * edge) : N -> option edge := upd mp (fst p) (Some (snd p)).
(** The loop that computes [last] (/repo/src/calAssociation.c:154-172,268-271). *)
Definition last_put (o : order) (last : Z) (p : N * edge) : Z :=
  if (last <? Z.of_N (idx o (fst p)))%Z then Z.of_N (idx o (fst p)) else last.

(** [AssociationIsEqual] (/repo/src/calAssociation.c:457-468); array entries beyond [numVars]
    are null in every association. *)
Definition oeq (x y : option edge) : bool :=
  match x, y with Some a, Some b => eeq a b | None, None => true | _, _ => false end.
Definition amap_eq (ids : list N) (mp mp' : N -> option edge) : bool :=
  forallb (fun i => oeq (mp i) (mp' i)) ids.

(** The search for an equal association (/repo/src/calAssociation.c:135-143); the count is an
    [int], taken as unbounded here. *)
Fixpoint assoc_share (ids : list N) (mp : N -> option edge) (l : list assoc) : option (N * list assoc) :=
  match l with
  | [] => None
  | p :: l => if amap_eq ids (amap p) mp then Some (aid p, A (aid p) (amap p) (alast p) (arc p + 1) :: l)
              else match assoc_share ids mp l with Some (j, l') => Some (j, p :: l') | None => None end
  end.
(** The first unused id, and insertion in front of the first association with another id
    (/repo/src/calAssociation.c:144-153). *)
Fixpoint assoc_insert (mk : N -> assoc) (i : N) (l : list assoc) : N * list assoc :=
  match l with
  | p :: l' => if aid p =? i then let '(j, r) := assoc_insert mk (i + 1) l' in (j, p :: r) else (i, mk i :: l)
  | [] => (i, [mk i])
  end.

(** [Cal_AssociationInit] (/repo/src/calAssociation.c:85-183); [None] is -1.  [l] holds the
    handles before the terminating null.  With an odd number of handles and pairs the last handle
    is ignored.  The images are counted once for every pair. *)
Definition cal_assoc_init (ds : nat -> dec) (m : mgr) (hs : list ubdd) (pr : bool) : outcome (option N * mgr) :=
  let l := upto_null hs in
  obind (check_assoc ds m l pr) (fun '(ok, m1) =>
    if negb ok then Ok (None, m1)
    else
      let ps := assoc_list (mmem m1) pr l in
      let mp := fold_left assoc_put ps (fun _ => None) in
      match assoc_share (varids m1) mp (massoc m1) with
      | Some (j, l') => Ok (Some j, set_massoc m1 l')
      | None =>
          let last := fold_left (last_put (mo m1)) ps (-1)%Z in
          let '(j, l') := assoc_insert (fun i => A i mp last 1) 0 (massoc m1) in
          let s := if pr then fold_left (fun s p => icr s (snd p)) ps (st (me m1)) else st (me m1) in
          Ok (Some j, set_massoc (set_mst m1 s) l')
      end).

(** [CalCacheTableTwoFlushAssociationId] (/repo/src/calCacheTableTwo.c:476-494). *)
Definition flush_assoc (id : N) (c : cache) : cache := fun k =>
  match c k with
  | Some e => if (cop e =? 16384 + id) || (cop e =? 20480 + id) || (cop e =? 32768 + id) then None else Some e
  | None => None
  end.

(** The loop that releases the images (/repo/src/calAssociation.c:203-208,320-326). *)
Definition release (mp : N -> option edge) (s : store) (i : N) : store :=
  match mp i with Some e => dcr s e | None => s end.

(** [Cal_AssociationQuit] (/repo/src/calAssociation.c:188-219): one count less; [None] in place of the
    list when no association has the id (a warning), the released association as second component. *)
Fixpoint quit_list (id : N) (l : list assoc) : option (list assoc * option assoc) :=
  match l with
  | [] => None
  | p :: l =>
      if aid p =? id
      then Some (if arc p =? 1 then (l, Some p) else (A (aid p) (amap p) (alast p) (arc p - 1) :: l, None))
      else match quit_list id l with Some (l', r) => Some (p :: l', r) | None => None end
  end.
Definition cal_assoc_quit (m : mgr) (id : N) : mgr :=
  let m1 := set_mcur m (match mcur m with Some j => if j =? id then None else Some j | None => None end) in
  match quit_list id (massoc m1) with
  | None => m1
  | Some (l, None) => set_massoc m1 l
  | Some (l, Some p) =>
      set_mca (set_massoc (set_mst m1 (fold_left (release (amap p)) (varids m1) (st (me m1)))) l)
              (flush_assoc id (mca m1))
  end.

(** [Cal_AssociationSetCurrent] (/repo/src/calAssociation.c:223-242); [None] stands for -1, both as argument
    and as result. *)
Definition cal_assoc_set_current (m : mgr) (id : option N) : option N * mgr :=
  (mcur m,
   match id with
   | Some j => if existsb (fun a => aid a =? j) (massoc m) then set_mcur m (Some j) else set_mcur m None
   | None => set_mcur m None
   end).

(** One element of [Cal_TempAssociationAugment] (/repo/src/calAssociation.c:267-303): the old image is
    released; the new one is counted if it comes from a pair. *)
Definition augment1 (pr : bool) (m : mgr) (p : N * edge) : mgr :=
  let a := mtemp m in
  let s1 := match amap a (fst p) with Some e => dcr (st (me m)) e | None => st (me m) end in
  let s2 := if pr then icr s1 (snd p) else s1 in
  set_mtemp (set_mst m s2) (A (aid a) (assoc_put (amap a) p) (last_put (mo m) (alast a) p) (arc a)).
(** [Cal_TempAssociationAugment] (/repo/src/calAssociation.c:247-306). *)
Definition cal_temp_augment (ds : nat -> dec) (m : mgr) (hs : list ubdd) (pr : bool) : outcome mgr :=
  let l := upto_null hs in
  obind (check_assoc ds m l pr) (fun '(ok, m1) =>
    if negb ok then Ok m1 else Ok (fold_left (augment1 pr) (assoc_list (mmem m1) pr l) m1)).

(** [Cal_TempAssociationQuit] (/repo/src/calAssociation.c:334-349). *)
Definition cal_temp_quit (m : mgr) : mgr :=
  let a := mtemp m in
  set_mtemp (set_mst m (fold_left (release (amap a)) (varids m) (st (me m))))
            (A (aid a) (fun i => if existsb (N.eqb i) (varids m) then None else amap a i) (-1) (arc a)).
(** [Cal_TempAssociationInit] (/repo/src/calAssociation.c:312-330). *)
Definition cal_temp_init (ds : nat -> dec) (m : mgr) (hs : list ubdd) (pr : bool) : outcome mgr :=
  cal_temp_augment ds (cal_temp_quit m) hs pr.
