(** Breadth-first reordering preserves the manager invariant and everything the client holds. *)
From Coq Require Import NArith ZArith List Bool Lia Permutation.
From Verif Require Import Base BFModel StoreInv Own EngInv ApplyProof EngineProof QProof GCProof VarProof MgrModel ApiModel MInv
  ApiProof ApiVar ReorderModel ReorderProof ReorderStep ReorderRen ReorderInit ReorderBack ReorderMgr ReorderCover PackModel PackTrans MoveTrans
  BFReorderModel BFReorderSim BFReorderSwap BFReorderMove BFReorderNode BFReorderExch BFReorderPass BFReorderFree BFReorderInv.
Import ListNotations.
Open Scope N_scope.

Section Start.
Variables (o : order) (D : den) (en : eng) (x : N -> N).
Hypothesis Wo : wfo o.
Hypothesis Q : QS o D en x.
Let s := st en.

Lemma vedge_nz e : vedge (nodeR s) e -> eptr e <> 0.
Proof.
  intros [[_ V]|[_ V]]; [rewrite V; unfold ONE; lia|]. pose proof (swf_addr _ _ (QS_swf _ _ _ _ Q) _ _ V). lia.
Qed.
Lemma vedge_nf e : vedge (nodeR s) e -> eptr (ce (mem s (eptr e))) <> 0.
Proof.
  intros [[_ V]|[N0 V]]; [rewrite V; exact (swf_one _ _ (QS_swf _ _ _ _ Q))|].
  destruct (swf_node _ _ (QS_swf _ _ _ _ Q) _ _ N0 V) as [? ? ? ? ? ? ?]. now apply vedge_nz.
Qed.
Lemma vedge_re0 e : vedge (nodeR s) e -> re (convert o s) (fun a => a) (eptr e, eneg e) = e.
Proof.
  intros V. unfold re. cbn [fst snd convert dm did]. pose proof (idof_e o D en x Q e V) as E1. fold s in E1. rewrite E1. now destruct e.
Qed.
Lemma sim_start : SIM (mem s ONE) [] (convert o s) s (fun _ => []) (fun a => a).
Proof.
  pose proof (QS_swf _ _ _ _ Q) as W. fold s in W.
  assert (Q0 : exists own L, EInv o own D en /\ RC own [] idn (mem s) L x) by exact Q.
  destruct Q0 as (own & L & EI & RC0). pose proof (ei_acc _ _ _ _ EI) as AC. unfold EAcc in AC. fold s in AC.
  assert (LV : forall y, live [] s (fun _ => []) (fun a => a) y -> exists v, In y (ut s v)).
  { intros y [H|[[v []]|[]]]; auto. }
  assert (RS : forall e, vedge (nodeR s) e -> rs (mem s) (fun _ => []) e (re (convert o s) (fun a => a) (eptr e, eneg e))).
  { intros e V. rewrite vedge_re0 by auto. apply rs_end. now apply vedge_nf. }
  assert (IN : forall a, inn [] (convert o s) a -> exists v, v <> 0 /\ In a (ut s v)).
  { intros a [H|[]]. exact H. }
  constructor; auto.
  - intros v _. cbn [convert dtab]. now rewrite map_id.
  - cbn [convert dm drc]. apply W.
  - intros a Na Ia. destruct (IN a Na) as (v & Nv & Iv). apply Nv. exact (swf_disj _ _ W v 0 a Iv Ia).
  - intros y H. apply LV in H as [v H]. apply (acc_rng _ _ _ AC). apply (acc_in _ _ _ AC (ONode v) y eq_refl) in H. congruence.
  - apply (acc_lim _ _ _ AC).
  - intros v. apply (acc_nd _ _ _ AC (OFree v)). reflexivity.
  - intros v y H. apply (acc_in _ _ _ AC (OFree v) y eq_refl) in H. split; [apply (acc_rng _ _ _ AC); congruence|].
    intros H'. apply LV in H' as [v' H']. apply (acc_in _ _ _ AC (ONode v') y eq_refl) in H'. congruence.
  - intros v v' y H H'. apply (acc_in _ _ _ AC (OFree v) y eq_refl) in H. apply (acc_in _ _ _ AC (OFree v') y eq_refl) in H'. congruence.
  - intros v. constructor.
  - intros v v' y [].
  - intros y [v []].
  - intros a Na. destruct (IN a Na) as (v & _ & Iv). exact (QS_max _ _ _ _ _ _ Q Iv).
  - intros a Na. destruct (IN a Na) as (v & Nv & Iv). destruct (swf_node _ _ W v a Nv Iv) as [? ? ? ? ? ? ?]. now apply vedge_nz.
  - intros a Na. destruct (IN a Na) as (v & Nv & Iv). destruct (swf_node _ _ W v a Nv Iv) as [? ? ? ? ? ? ?]. split; now apply RS.
  - intros u Iu. destruct (swf_user _ _ W u Iu) as (V1 & V2 & _). split; [now apply RS|]. split; [exact V2|reflexivity].
Qed.
End Start.

Section Core.
Variables (m : mgr) (hs : list ubdd) (D : den) (Mx : N -> N -> bool) (b : bst).
Hypothesis I : MInv m hs lk0 D.
Hypothesis HM : forall v a p q, v <> 0 -> In a (ut (st (me m)) v) -> p <> q -> Mx p q = false -> indep (D a) p \/ indep (D a) q.
Hypothesis HC : forall k, mca m k = None.
Hypothesis HP : forall c1 x r0 f0, eptr (ce c1) <> 0 /\ cr c1 = MAXREF -> (forall c, (0 <= x c)%Z) ->
  (forall a i e, In a (rtemp r0 :: rassoc r0) -> amap a i = Some e -> okp [] (rd r0) (eptr e) /\ (0 < x (eptr e))%Z) ->
  some_BI c1 Mx x r0 D f0 (bf_start m) -> clean_BI c1 Mx x r0 D f0 b.

Theorem bf_core : exists D', MInv (bf_end m b) hs lk0 D' /\ mext hs m D (bf_end m b) D' /\ Permutation (ord (mo (bf_end m b))) (ord (mo m)).
Proof.
  pose proof I as [B1 B2 B3 B4 B5 B6 B7 B8 B9 B10 B11].
  set (o := mo m) in *. set (s0 := st (me m)) in *. set (x := xr m hs lk0) in *.
  assert (XI0 : XI o 0 0 Mx [] D (convert o s0)) by (exact (XI_convert o D (me m) x Mx B1 B3 HM)).
  destruct (XR_convert o D (me m) x B3) as [P0 XR0].
  { intros c Hb Hx. exact (xr_node m hs D c I Hb Hx). }
  set (xz := fun c => Z.of_N (x c)) in XR0.
  assert (AL0 : forall a, In a (mtemp m :: massoc m) -> AL o a).
  { intros a Ia. destruct (B7 a Ia) as [A1 A2 A3]. constructor; [|exact A3].
    intros i e E. split; [exact (proj1 (A1 i e E))|exact (A2 i e E)]. }
  set (r0 := RS (convert o s0) o (mtemp m) (massoc m)).
  assert (RI0 : RI Mx xz r0 D r0 D).
  { constructor; cbn [r0 ro rd rtemp rassoc].
    - exact B1.
    - apply Permutation_refl.
    - exact XI0.
    - eauto.
    - apply gx_refl.
    - lia.
    - split; [repeat split|]. apply AL0. now left.
    - split; [apply Forall2_refl'; intros a; repeat split|]. apply Forall_forall. intros a Ia. apply AL0. now right. }
  assert (IM : forall a i e, In a (mtemp m :: massoc m) -> amap a i = Some e -> vedge (nodeR s0) e /\ x (eptr e) <> 0 /\ In i (ord o)).
  { intros a i e Ia Ea. destruct (ao_dom _ _ _ (B7 a Ia) i e Ea) as [Ii Ve]. split; [exact Ve|]. split; [|exact Ii].
    unfold x, xr. pose proof (asum_in (ord (mo m)) _ a (eptr e) Ia) as Q. pose proof (acnt_in (ord (mo m)) (amap a) i e Ii Ea) as Q2. lia. }
  assert (VB : forall i, In i (ord o) -> vedge (nodeR s0) (mvb m i) /\ x (eptr (mvb m i)) <> 0).
  { intros i Ii. destruct (B5 i Ii) as (V1 & V2 & _). split.
    - right. rewrite V1. cbn [eid eptr]. split; [exact (proj1 (wfo_in o i B1 Ii))|exact V2].
    - unfold x, xr. rewrite (perm_in m (eptr (mvb m i))); [unfold MAXREF; lia|]. right. apply in_map_iff. eauto. }
  pose proof (QS_swf _ _ _ _ B3) as W0. fold s0 in W0.
  assert (C1 : eptr (ce (mem s0 ONE)) <> 0 /\ cr (mem s0 ONE) = MAXREF) by (split; apply W0).
  assert (HIM : forall a i e, In a (rtemp r0 :: rassoc r0) -> amap a i = Some e -> okp [] (rd r0) (eptr e) /\ (0 < xz (eptr e))%Z).
  { intros a i e Ia Ea. destruct (IM a i e Ia Ea) as (V & Hx & _). split; [exact (okp_e o (me m) e V)|unfold xz; lia]. }
  assert (Hx0 : forall c, (0 <= xz c)%Z) by (intros c; unfold xz; lia).
  assert (GI : forall e, vedge (nodeR s0) e -> img (convert o s0) (mem s0) (fun _ => []) (fun a => a) e e).
  { intros e V. pose proof (vedge_re0 o D (me m) x B3 e V) as E. fold s0 in E. unfold img. rewrite E.
    apply rs_end. exact (vedge_nf o D (me m) x B3 e V). }
  assert (ST : some_BI (mem s0 ONE) Mx xz r0 D (fl s0) (bf_start m)).
  { split.
    - exists r0, D, (fun a => a). constructor; cbn [bf_start bs bw bo btemp bassoc]; auto.
      + now exists [].
      + exact (sim_start o D (me m) x B3).
      + cbn [r0 rtemp rd]. split; auto. split; auto. split; auto. intros i. destruct (amap (mtemp m) i) as [e|] eqn:Ee; auto.
        destruct (IM (mtemp m) i e (or_introl eq_refl) Ee) as (V & _). exact (GI e V).
      + cbn [r0 rassoc rd]. assert (Hin : forall a, In a (massoc m) -> In a (mtemp m :: massoc m)) by (intros; now right).
        revert Hin. generalize (massoc m) at 1 3 4. induction l as [|a l IH]; intros Hin; constructor.
        * split; auto. split; auto. split; auto. intros i. destruct (amap a i) as [e|] eqn:Ee; auto.
          destruct (IM a i e (Hin a (or_introl eq_refl)) Ee) as (V & _). exact (GI e V).
        * apply IH. intros c Ic. apply Hin. now right.
    - intros v _. split; reflexivity. }
  destruct (HP (mem s0 ONE) xz r0 (fl s0) C1 Hx0 HIM ST) as [[(r & D1 & ren & BB) FKb] Wb].
  destruct BB as [[sw Er] RI1 SM Eo TT TA VV]. rewrite Wb in *.
  destruct (reorder_core m hs D Mx sw I HM) as (Dd & Id & Xd & Pd).
  set (md := reorder_from Mx sw m) in *.
  destruct RI1 as [Wo1 PM X1 [P R1] GX NX [TS TAL] [AS AA]]. cbn [r0 ro rd rtemp rassoc] in PM, GX, NX, TS, AS.
  destruct (reallocate_spec (ro r) Mx D1 (rd r) 0 0 Wo1 X1) as [rend RN].
  set (d := reallocate (ro r) (rd r)) in *. set (s1 := rd r) in *.
  assert (Emd : md = M (set_st (me m) (back (fl s0 0) d)) (ro r) (muone m)
    (fun i => if existsb (N.eqb i) (ord o) then efwd_to (dm d) (mvb m i) else mvb m i) (fun _ => None)
    (map (fix_assoc (dm d)) (rassoc r)) (fix_assoc (dm d) (rtemp r)) (mcur m) (mtop m) (mlim m) (mnl m) (mov m)).
  { unfold md, reorder_from. fold o s0. fold r0. rewrite <- Er. reflexivity. }
  assert (XX : XS [] s1) by exact (XI_XS _ _ _ _ _ _ _ X1).
  set (sb := bs b) in *.
  set (rr := fun c => match find (fun a => rn s1 rend a =? c) P with Some a => rn s1 ren a | None => c end).
  assert (RR : forall a, In a P -> rr (rn s1 rend a) = rn s1 ren a).
  { intros a Ia. unfold rr. destruct (find _ P) as [c|] eqn:F.
    - apply find_some in F as [Ic F]. apply N.eqb_eq in F. f_equal.
      exact (rn_inj' (ro r) Mx D1 s1 d rend P x X1 R1 RN c a Ic Ia F).
    - pose proof (find_none _ _ F a Ia) as F'. cbv beta in F'. rewrite N.eqb_refl in F'. discriminate. }
  assert (PI : forall a, inn [] s1 a -> In a P /\ rn s1 rend a = rend a /\ rn s1 ren a = ren a).
  { intros a Na. split; [exact (proj1 (inn_P (ro r) Mx D1 s1 P x X1 R1 a Na))|].
    split; [exact (rn_inn (ro r) Mx D1 s1 rend P x X1 R1 a Na)|exact (rn_inn (ro r) Mx D1 s1 ren P x X1 R1 a Na)]. }
  assert (PU : forall u, In u (dtab s1 0) -> In u P /\ rn s1 rend u = u /\ rn s1 ren u = u).
  { intros u Iu. split; [exact (proj1 (user_P (ro r) Mx D1 s1 P x X1 R1 u Iu))|].
    split; [exact (rn_usr (ro r) Mx D1 s1 rend P x X1 R1 u Iu)|exact (rn_usr (ro r) Mx D1 s1 ren P x X1 R1 u Iu)]. }
  assert (RI : forall a, inn [] s1 a -> rr (rend a) = ren a).
  { intros a Na. destruct (PI a Na) as (A & B & C). rewrite <- B, <- C. now apply RR. }
  assert (RU : forall u, In u (dtab s1 0) -> rr u = u).
  { intros u Iu. destruct (PU u Iu) as (A & B & C). rewrite <- B at 1. rewrite RR by auto. exact C. }
  assert (R1' : rr ONE = ONE).
  { unfold rr. destruct (find _ P) as [c|] eqn:F; auto. exfalso. apply find_some in F as [Ic F]. apply N.eqb_eq in F.
    destruct (N.eq_dec (did (dm s1 c)) 0) as [Z|Z].
    - pose proof (P_user (ro r) Mx D1 s1 P x X1 R1 c Ic Z) as U. destruct (PU c U) as (_ & Q & _). rewrite Q in F.
      pose proof (xs_tab _ _ XX 0 c U) as (_ & _ & Rg). unfold ONE in F. lia.
    - pose proof (P_inn (ro r) Mx D1 s1 P x X1 R1 c Ic Z) as U. destruct (PI c U) as (_ & Q & _). rewrite Q in F.
      pose proof (ren_ge (ro r) Mx D1 s1 d rend X1 RN c U). unfold ONE in F. lia. }
  assert (RO : forall c, okp [] s1 c -> rr (rend c) = ren c).
  { intros c [->|Nc]; [|auto]. rewrite (rn_one _ _ _ RN), R1'. symmetry. apply SM. }
  assert (RED : forall p, okp [] s1 (fst p) -> rede rr (re s1 rend p) = re s1 ren p).
  { intros p O. unfold rede, re. cbn [eid eptr eneg]. now rewrite RO. }
  (* tables *)
  assert (TD : forall v a, In a (ut (back (fl s0 0) d) v) <-> exists c, In c (dtab s1 v) /\ a = rn s1 rend c).
  { intros v a. destruct (N.eq_dec v 0) as [->|Nv].
    - change (ut (back (fl s0 0) d) 0) with (dtab d 0). rewrite (rn_0 _ _ _ RN). split.
      + intros Iu. exists a. split; auto. symmetry. apply (PU a Iu).
      + intros (c & Ic & ->). destruct (PU c Ic) as (_ & -> & _). exact Ic.
    - change (ut (back (fl s0 0) d) v) with (dtab d v). rewrite (rn_tab _ _ _ RN v a Nv). split; intros (c & Ic & E); exists c; split; auto.
      + rewrite E. symmetry. apply (PI c). left. eauto.
      + rewrite E. apply (PI c). left. eauto. }
  assert (TB : forall v a, In a (ut sb v) <-> exists c, In c (dtab s1 v) /\ a = rn s1 ren c).
  { intros v a. destruct (N.eq_dec v 0) as [->|Nv].
    - rewrite (si_0 _ _ _ _ _ _ SM). split.
      + intros Iu. exists a. split; auto. symmetry. apply (PU a Iu).
      + intros (c & Ic & ->). destruct (PU c Ic) as (_ & _ & ->). exact Ic.
    - rewrite (si_tab _ _ _ _ _ _ SM v Nv), in_map_iff. split; intros (c & Ic & E); exists c.
      + split; auto. rewrite <- Ic. symmetry. apply (PI c). left. eauto.
      + split; auto. rewrite E. symmetry. apply (PI c). left. eauto. }
  assert (TP : forall v c, In c (dtab s1 v) -> In c P).
  { intros v c Ic. apply (xr_P _ _ _ _ R1). left. eauto. }
  assert (RNI : forall v v' a c, In a (dtab s1 v) -> In c (dtab s1 v') -> rn s1 ren a = rn s1 ren c -> a = c).
  { intros v v' a c Ia Ic E. destruct (N.eq_dec v 0) as [->|Nv], (N.eq_dec v' 0) as [->|Nv'].
    - destruct (PU a Ia) as (_ & _ & Q). destruct (PU c Ic) as (_ & _ & Q'). congruence.
    - destruct (PU a Ia) as (_ & _ & Q). assert (Nc : inn [] s1 c) by (left; eauto). destruct (PI c Nc) as (_ & _ & Q').
      exfalso. apply (si_ru _ _ _ _ _ _ SM c Nc). rewrite <- Q', <- E, Q. exact Ia.
    - destruct (PU c Ic) as (_ & _ & Q). assert (Na : inn [] s1 a) by (left; eauto). destruct (PI a Na) as (_ & _ & Q').
      exfalso. apply (si_ru _ _ _ _ _ _ SM a Na). rewrite <- Q', E, Q. exact Ic.
    - assert (Na : inn [] s1 a) by (left; eauto). assert (Nc : inn [] s1 c) by (left; eauto).
      destruct (PI a Na) as (_ & _ & Q). destruct (PI c Nc) as (_ & _ & Q'). apply (si_inj _ _ _ _ _ _ SM); auto. congruence. }
  (* externally referenced nodes *)
  assert (EX : forall e, vedge (nodeR s0) e -> x (eptr e) <> 0 ->
     okp [] s1 (eptr e) /\ efwd_to (dm d) e = re s1 rend (eptr e, eneg e)).
  { intros e Ve He. destruct (gx_D _ _ _ _ _ GX (eptr e)) as [O1 O2].
    - exact (okp_e o (me m) e Ve).
    - right. unfold xz. lia.
    - split; [exact O1|]. apply (efwd_spec (ro r) Mx D1 s1 d rend X1 RN e O1). destruct O1 as [E1|N1]; auto. left. rewrite E1.
      destruct Ve as [[V1 _]|[_ V2]]; [rewrite V1; symmetry; apply (x_one _ _ _ _ _ _ _ X1)|].
      unfold nodeR in V2. rewrite E1 in V2. pose proof (swf_addr _ _ W0 _ _ V2). unfold ONE in *. lia. }
  (* free lists *)
  assert (Q0 : exists own L, EInv o own D (me m) /\ RC own [] idn (mem s0) L x) by exact B3.
  destruct Q0 as (own & L & EI & RC0). pose proof (ei_acc _ _ _ _ EI) as AC. unfold EAcc in AC. fold s0 in AC.
  assert (IO : forall i, In i (ord (ro r)) <-> In i (ord o)).
  { intros i. split; apply Permutation_in; [|symmetry]; exact PM. }
  set (flo := fun c => match find (fun i => existsb (N.eqb c) (fl sb i)) (ord o) with Some i => Some i
     | None => match own c with OFree i => if existsb (N.eqb i) (ord o) then None else Some i | _ => None end end).
  assert (FLO : forall i c, In c (fl sb i) <-> flo c = Some i).
  { intros i c. unfold flo. destruct (find _ (ord o)) as [v|] eqn:F.
    - apply find_some in F as [Iv F]. apply exb in F. split.
      + intros Ic. f_equal. exact (si_fld _ _ _ _ _ _ SM v i c F Ic).
      + intros E. now injection E as <-.
    - assert (NF : forall v, In v (ord o) -> ~ In c (fl sb v)).
      { intros v Iv Ic. pose proof (find_none _ _ F v Iv) as F'. cbv beta in F'. apply (proj2 (exb c (fl sb v))) in Ic. congruence. }
      assert (OUT : forall v, ~ In v (ord o) -> (In c (fl sb v) <-> own c = OFree v)).
      { intros v Nv. assert (Nv' : ~ In v (ord (bo b))) by (rewrite Eo, IO; exact Nv). destruct (FKb v Nv') as [E _].
        fold sb in E. rewrite E. exact (acc_in _ _ _ AC (OFree v) c eq_refl). }
      split.
      + intros Ic. assert (Ni : ~ In i (ord o)) by (intros Q; exact (NF i Q Ic)).
        rewrite (proj1 (OUT i Ni) Ic). destruct (existsb (N.eqb i) (ord o)) eqn:Ex; auto. apply exb in Ex. contradiction.
      + destruct (own c) as [| |v|v|k v|k v|y] eqn:Eow; try discriminate. destruct (existsb (N.eqb v) (ord o)) eqn:Ex; [discriminate|].
        intros E. injection E as <-. apply OUT; auto. intros Q. apply (proj2 (exb v (ord o))) in Q. congruence. }
  destruct (moved_all md hs Dd rr sb (bf_end m b) flo Id) as (D' & I' & X').
  - exact R1'.
  - rewrite Emd. cbn [me st set_st]. intros u Iu. apply RU. change (In u (dtab d 0)) in Iu. rewrite (rn_0 _ _ _ RN) in Iu. exact Iu.
  - rewrite Emd. cbn [me st set_st]. intros i j a c Ia Ic E. apply TD in Ia as (a0 & Ia & ->). apply TD in Ic as (c0 & Ic & ->).
    rewrite !RR in E by eauto. now rewrite (RNI i j a0 c0 Ia Ic E).
  - rewrite Emd. cbn [me st set_st]. intros i a Ia. apply TD in Ia as (a0 & Ia & ->). rewrite RR by eauto.
    apply (si_live _ _ _ _ _ _ SM). left. exists i. apply TB. eauto.
  - rewrite Emd. cbn [me st set_st]. intros i c. rewrite TB. split.
    + intros (a0 & Ia & ->). exists (rn s1 rend a0). split; [apply TD; eauto|]. symmetry. apply RR. eauto.
    + intros (a & Ia & ->). apply TD in Ia as (a0 & Ia & ->). exists a0. split; auto. apply RR. eauto.
  - intros i. split; [|apply SM]. destruct (N.eq_dec i 0) as [->|Ni]; [rewrite (si_0 _ _ _ _ _ _ SM); apply XX|].
    rewrite (si_tab _ _ _ _ _ _ SM i Ni).
    assert (G : forall l, NoDup l -> (forall a, In a l -> inn [] s1 a) -> NoDup (map ren l)).
    { induction 1 as [|a l Na ND IH]; intros Hl; cbn [map]; constructor.
      - intros Q. apply in_map_iff in Q as (c & E & Ic). apply (si_inj _ _ _ _ _ _ SM) in E; [subst; auto| |]; apply Hl; [now right|now left].
      - apply IH. intros c Ic. apply Hl. now right. }
    apply G; [apply XX|]. intros a Ia. left. eauto.
  - intros i c Ic. destruct (si_fl _ _ _ _ _ _ SM i c Ic) as [A B]. split; auto. intros j Q. apply B. left. eauto.
  - exact FLO.
  - exact (si_nx _ _ _ _ _ _ SM).
  - rewrite Emd. cbn [me st set_st]. intros i a Ia. apply TD in Ia as (a0 & Ia & ->). rewrite RR by eauto.
    destruct (N.eq_dec i 0) as [->|Ni].
    + destruct (PU a0 Ia) as (_ & -> & ->).
      destruct (mem_user (ro r) Mx D1 s1 d rend (fl s0 0) P x X1 R1 RN a0 Ia) as (M1 & M2 & M3).
      destruct (si_us _ _ _ _ _ _ SM a0 Ia) as (S1 & S2 & S3). apply rs_none in S1. fold sb in S1, S2, S3.
      unfold redc. rewrite M1, M2, M3, RED by exact (xs_us _ _ XX a0 Ia).
      assert (Rone : rede rr one = one) by (unfold rede, one; cbn [eid eptr eneg]; now rewrite R1').
      rewrite Rone. destruct (mem sb a0) as [p q z]. cbn [ct ce cr] in *. now rewrite S1, S2, S3.
    + assert (Na : inn [] s1 a0) by (left; eauto). destruct (PI a0 Na) as (_ & -> & ->).
      destruct (mem_new (ro r) Mx D1 s1 d rend (fl s0 0) X1 RN a0 Na) as (M1 & M2 & M3).
      destruct (si_ch _ _ _ _ _ _ SM a0 Na) as (S1 & S2). apply rs_none in S1, S2. pose proof (si_cr _ _ _ _ _ _ SM a0 Na) as S3. fold sb in S1, S2, S3.
      destruct (xs_ch _ _ XX a0 Na) as [O1 O2].
      unfold redc. rewrite M1, M2, M3, !RED by auto. destruct (mem sb (ren a0)) as [p q z]. cbn [ct ce cr] in *. now rewrite S1, S2, S3.
  - rewrite (si_c1 _ _ _ _ _ _ SM). exact C1.
  - rewrite Emd. cbn [mo mvb]. intros i Ii. apply IO in Ii. rewrite (proj2 (exb i (ord o)) Ii). cbn [bf_end mvb].
    destruct (VB i Ii) as [Ve Hx]. destruct (EX _ Ve Hx) as [O E]. rewrite E, RED by exact O.
    destruct (B5 i Ii) as (V1 & V2 & V3 & V4). assert (Ni : i <> 0) by exact (proj1 (wfo_in o i B1 Ii)).
    assert (IV : isvar xz r0 i (eptr (mvb m i))).
    { split; auto. split; [exact V2|]. split; [unfold xz; lia|]. cbn [r0 rd convert dm dt de].
      change (ct (mem s0 (eptr (mvb m i))) = one) in V3. change (ce (mem s0 (eptr (mvb m i))) = zero) in V4. rewrite V3, V4. split; reflexivity. }
    destruct IV as (J1 & J2 & J3 & J4 & J5) eqn:EIV. clear EIV. pose proof (VV i _ (conj J1 (conj J2 (conj J3 (conj J4 J5))))) as VR.
    destruct (gx_v _ _ _ _ _ GX i (eptr (mvb m i)) J1 J2 J3 J4 J5) as (T1 & _).
    unfold re. cbn [fst snd]. rewrite VR, (proj1 (xs_tab _ _ XX i _ T1)). rewrite V1 at 1. rewrite V1. reflexivity.
  - rewrite Emd. unfold bf_end. cbn [me st set_st mo muone mvb mca massoc mtemp mcur mtop mlim mnl mov]. rewrite Eo. reflexivity.
  - intros k. rewrite Emd. cbn [bf_end mca option_map]. apply HC.
  - rewrite Emd. cbn [bf_end massoc].
    assert (G : forall l l', Forall2 (arelP (img s1 (mem sb) (fun _ => []) ren)) l l' -> (forall a, In a l -> exists a0, In a0 (massoc m) /\ asame a0 a) ->
       Forall2 (amoved rr) (map (fix_assoc (dm d)) l) l').
    { induction 1 as [|a a' l l' Ha Hl IH]; intros Hin; cbn [map]; constructor.
      - destruct Ha as (A1 & A2 & A3 & A4). repeat split; auto. intros i. unfold fix_assoc. cbn [amap]. specialize (A4 i).
        destruct (Hin a (or_introl eq_refl)) as (a0 & I0 & (_ & S2 & _)).
        destruct (amap a i) as [e|] eqn:Ea, (amap a' i) as [e'|] eqn:Ea'; try tauto; cbn [option_map]; auto.
        apply rs_none in A4. rewrite A4. f_equal. rewrite S2 in Ea. destruct (IM a0 i e (or_intror I0) Ea) as (V & Hx & _).
        destruct (EX e V Hx) as [O ->]. symmetry. now apply RED.
      - apply IH. intros c Ic. apply Hin. now right. }
    apply G; [exact TA|]. intros a Ia. exact (asame_in _ _ _ AS Ia).
  - rewrite Emd. cbn [bf_end mtemp]. destruct TT as (A1 & A2 & A3 & A4). repeat split; auto. intros i. unfold fix_assoc. cbn [amap]. specialize (A4 i).
    destruct TS as (_ & S2 & _).
    destruct (amap (rtemp r) i) as [e|] eqn:Ea, (amap (btemp b) i) as [e'|] eqn:Ea'; try tauto; cbn [option_map]; auto.
    apply rs_none in A4. rewrite A4. f_equal. rewrite S2 in Ea. destruct (IM (mtemp m) i e (or_introl eq_refl) Ea) as (V & Hx & _).
    destruct (EX e V Hx) as [O ->]. symmetry. now apply RED.
  - exists D'. split; [exact I'|]. split; [eapply mext_trans; [exact Xd|exact X']|]. cbn [bf_end mo]. rewrite Eo. exact PM.
Qed.
End Core.

(** ** [Cal_BddReorder] *)
Theorem bf_spec m hs D b : MInv m hs lk0 D ->
  (forall a i e, In a (mtemp m :: massoc m) -> amap a i = Some e -> togeth m D hs (dv D e)) ->
  (forall v b, v <> 0 -> In b (ut (st (me m)) v) -> cr (mmem m b) = MAXREF -> togeth m D hs (D b)) ->
  let m1 := gc (set_mca m (fun _ => None)) in
  (forall c1 x r0 f0, eptr (ce c1) <> 0 /\ cr c1 = MAXREF -> (forall c, (0 <= x c)%Z) ->
     (forall a i e, In a (rtemp r0 :: rassoc r0) -> amap a i = Some e -> okp [] (rd r0) (eptr e) /\ (0 < x (eptr e))%Z) ->
     some_BI c1 (interacts (mo m1) (st (me m1))) x r0 D f0 (bf_start m1) -> clean_BI c1 (interacts (mo m1) (st (me m1))) x r0 D f0 b) ->
  exists D', MInv (bf_end m1 b) hs lk0 D' /\ mext hs m D (bf_end m1 b) D' /\ Permutation (ord (mo (bf_end m1 b))) (ord (mo m)).
Proof.
  intros I Ha Hs m1 HP.
  destruct (MInv_cache m hs lk0 D (fun _ => None)) as [I0 X0]; auto; [discriminate|].
  set (m0 := set_mca m (fun _ => None)) in *.
  destruct (gc_MInv m0 hs lk0 D I0) as [I1 X1]. fold m1 in I1, X1.
  destruct (gc_store (mo m) (st (me m))) as [s fr] eqn:GS.
  assert (Em : m1 = M (set_st (me m) s) (mo m) (muone m) (mvb m) (mca m1) (massoc m) (mtemp m) (mcur m) (mtop m) (mlim m) (mnl m) (mov m)).
  { unfold m1, gc, m0. cbn [mo me set_mca]. rewrite GS. reflexivity. }
  assert (Ec : forall k, mca m1 k = None).
  { intros k. unfold m1, gc, m0. cbn [mo me set_mca]. rewrite GS. cbn [mca set_mca]. unfold cache_gc. reflexivity. }
  assert (Es : st (me m1) = s) by (rewrite Em; reflexivity).
  assert (Bm : below (st (me m)) (st (me m1))).
  { rewrite Es. replace s with (fst (gc_store (mo m) (st (me m)))) by (now rewrite GS). unfold gc_store. apply (below_tables _ (st (me m), [])). }
  assert (NZ1 : forall i, NZ (st (me m1)) i).
  { rewrite Es. exact (proj2 (gc_store_spec _ _ _ _ _ _ (mi_wfo _ _ _ _ I) (mi_q _ _ _ _ I) GS)). }
  assert (Eo : mo m1 = mo m) by (rewrite Em; reflexivity).
  assert (HM : forall v a p q, v <> 0 -> In a (ut (st (me m1)) v) -> p <> q -> interacts (mo m1) (st (me m1)) p q = false -> indep (D a) p \/ indep (D a) q).
  { apply (cover_HM m m1 hs D (st (me m1)) I I1); auto; [apply below_refl|]. rewrite Em. auto. }
  destruct (bf_core m1 hs D _ b I1 HM Ec HP) as (D' & I2 & X2 & P2).
  exists D'. split; [exact I2|]. rewrite Eo in P2. split; [|exact P2].
  eapply mext_trans; [exact X0|]. eapply mext_trans; [exact X1|exact X2].
Qed.
Theorem reorder_window_spec m hs D lim fuel m' : MInv m hs lk0 D ->
  (forall a i e, In a (mtemp m :: massoc m) -> amap a i = Some e -> togeth m D hs (dv D e)) ->
  (forall v b, v <> 0 -> In b (ut (st (me m)) v) -> cr (mmem m b) = MAXREF -> togeth m D hs (D b)) ->
  reorder_window lim fuel m = Ok m' ->
  exists D', MInv m' hs lk0 D' /\ mext hs m D m' D' /\ Permutation (ord (mo m')) (ord (mo m)).
Proof.
  intros I Ha Hs H. unfold reorder_window in H. cbv zeta in H.
  apply obind_ok in H as (b & HP & H). injection H as <-. apply (bf_spec m hs D b I Ha Hs).
  intros c1 x r0 f0 C1 Hx HIM S. exact (passes_BI c1 C1 _ x r0 D f0 Hx HIM lim fuel _ _ b S HP).
Qed.
