(** * Automatic reordering: the check between operations when a reordering technique is chosen.
    Model of [Cal_BddDynamicReordering] and [CalBddPostProcessing] (/repo/src/cal.c:432-450, /repo/src/calUtil.c:214-255).
    [ApiModel.postproc], which is the check inside the operations of this model, is the case of
    [CAL_REORDER_NONE].  With a technique chosen the check may run a reordering before the limit is set again.
    An operation with a reordering in its check is modelled as the operation without one, preceded or followed by
    [post_auto]: the check before an operation comes before any argument is turned into an internal edge, and the check after it
    comes when the result already is a handle.
    Left out: the repacking of node pages when no reordering is made ([PackModel.gc_repack] models it as a step of its own). *)
From Coq Require Import NArith List Bool.
From Verif Require Import Base BFModel MgrModel ApiModel ReorderModel BFReorderModel BFSiftModel.
Import ListNotations.
Open Scope N_scope.

(** Technique and method together (/repo/src/cal.h:93-97 and the settings of /repo/src/cal.c:446-450), with what the
    technique reads: the exchanges the depth-first search decides for; the number of forwardings before a repair; the number
    of passes allowed to the model of the window search; the limits of sifting. *)
Inductive technique : Type :=
| TNone
| TDepth (sw : list N)
| TWindow (lim : N) (fuel : nat)
| TSift (lim maxv maxs : N) (grow : N -> N).
Definition is_none (t : technique) : bool := match t with TNone => true | _ => false end.

(** [CalBddReorderAuxBF] with the window technique (/repo/src/calReorderBF.c:101-123, 1119-1142): the manager has been collected
    and its cache is empty. *)
Definition aux_window (lim : N) (fuel : nat) (m : mgr) : outcome mgr :=
  obind (passes fuel (interacts (mo m) (st (me m))) lim (bf_start m) (fun _ => true)) (fun b => Ok (bf_end m b)).
(** [CalBddReorderAuxBF] with sifting (/repo/src/calReorderBF.c:101-123, 721-765). *)
Definition aux_sift (lim maxv maxs : N) (grow : N -> N) (m : mgr) : outcome mgr :=
  let l := ord (mo m) in
  obind (sift_all (interacts (mo m) (st (me m))) lim grow maxv maxs (length l) l 0 (sift_start m)) (fun s =>
  if no_forwarding (sb s) then Ok (bf_end m (sb s)) else Undefined).
(** The flush and the choice of the method (/repo/src/calUtil.c:224-231).  [reorder] is [CalBddReorderAuxDF]
    (/repo/src/calReorderDF.c:154-184). *)
Definition reorder_now (t : technique) (m : mgr) : outcome mgr :=
  let m1 := set_mca m (fun _ => None) in
  match t with
  | TNone => Ok m
  | TDepth sw => Ok (reorder sw m1)
  | TWindow lim fuel => aux_window lim fuel m1
  | TSift lim maxv maxs grow => aux_sift lim maxv maxs grow m1
  end.

(** Whether the check reorders, for a manager that has just been collected (/repo/src/calUtil.c:221-223).
    [thr] is [reorderingThreshold]. *)
Definition must_reorder (thr : N) (t : technique) (m : mgr) : bool :=
  (thr <? nn (st (me m))) && (2 * mlim m <? 3 * nn (st (me m))) && negb (is_none t).

(** [CalBddPostProcessing] (/repo/src/calUtil.c:214-255).  The boolean is [CAL_BDD_OVERFLOWED]. *)
Definition post_auto (d : dec) (thr : N) (t : technique) (m : mgr) : outcome (bool * mgr) :=
  if d_chk d then Ok (false, m)
  else if mlim m <? nn (st (me m)) then
    let m0 := gc m in
    obind (if must_reorder thr t m0 then reorder_now t m0 else Ok m0) (fun m1 =>
    let m2 := set_gclimit m1 in
    if negb (mnl m2 =? 0) && (mnl m2 <? nn (st (me m2))) then Ok (true, set_mov m2 true)
    else Ok (false, set_mca m2 (cache_rehash (d_rehash d) (mca m2))))
  else Ok (false, m).
