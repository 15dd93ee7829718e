(** Reordering preserves the manager invariant and everything the client holds. *)
From Coq Require Import NArith ZArith List Bool Lia Permutation.
From Verif Require Import Base BFModel StoreInv Own EngInv ApplyProof EngineProof QProof GCProof VarProof MgrModel ApiModel MInv
  ApiProof ApiVar ReorderModel ReorderProof ReorderStep ReorderRen ReorderInit ReorderBack.
Import ListNotations.
Open Scope N_scope.

(** The exchanges and the repacking, for a manager without garbage. *)
Definition reorder_from (Mx : N -> N -> bool) (sw : list N) (m : mgr) : mgr :=
  let o := mo m in
  let s := st (me m) in
  let r := fold_left (exchange_at Mx) sw (RS (convert o s) o (mtemp m) (massoc m)) in
  let d := reallocate (ro r) (rd r) in
  M (set_st (me m) (back (fl s 0) d)) (ro r) (muone m)
    (fun i => if existsb (N.eqb i) (ord o) then efwd_to (dm d) (mvb m i) else mvb m i) (fun _ => None)
    (map (fix_assoc (dm d)) (rassoc r)) (fix_assoc (dm d) (rtemp r)) (mcur m) (mtop m) (mlim m) (mnl m) (mov m).

Lemma hcnt_zero hs b : (forall h, In h hs -> uptr h <> b) -> hcnt hs b = 0.
Proof.
  induction hs as [|h hs IH]; intros H; cbn [hcnt]; auto. rewrite IH by (intros; apply H; now right).
  specialize (H h (or_introl eq_refl)). destruct (N.eqb_spec (uptr h) b); [congruence|reflexivity].
Qed.
Lemma acnt_zero ids mp b : (forall i e, In i ids -> mp i = Some e -> eptr e <> b) -> acnt ids mp b = 0.
Proof.
  induction ids as [|i ids IH]; intros H; cbn [acnt]; auto. rewrite IH by (intros j e Ij; apply H; now right).
  destruct (mp i) as [e|] eqn:E; auto. specialize (H i e (or_introl eq_refl) E).
  destruct (N.eqb_spec (eptr e) b); [congruence|reflexivity].
Qed.
Lemma asum_zero ids l b : (forall a i e, In a l -> In i ids -> amap a i = Some e -> eptr e <> b) -> asum ids l b = 0.
Proof.
  induction l as [|a l IH]; intros H; cbn [asum]; auto. rewrite IH by (intros c i e Ic; apply H; now right).
  rewrite acnt_zero; auto. intros i e. apply (H a i e). now left.
Qed.
Lemma acnt_pos ids mp b : acnt ids mp b <> 0 -> exists i e, In i ids /\ mp i = Some e /\ eptr e = b.
Proof.
  induction ids as [|i ids IH]; cbn [acnt]; [congruence|]. intros H.
  destruct (mp i) as [e|] eqn:E.
  - destruct (N.eqb_spec (eptr e) b) as [Q|Q].
    + exists i, e. split; [now left|auto].
    + destruct IH as (j & f & A & B & C); [simpl in H; lia|]. exists j, f. split; [now right|auto].
  - destruct IH as (j & f & A & B & C); [lia|]. exists j, f. split; [now right|auto].
Qed.
Lemma asum_pos ids l b : asum ids l b <> 0 -> exists a i e, In a l /\ In i ids /\ amap a i = Some e /\ eptr e = b.
Proof.
  induction l as [|a l IH]; cbn [asum]; [congruence|]. intros H.
  destruct (N.eq_dec (acnt ids (amap a) b) 0) as [Z|Z].
  - destruct IH as (c & i & e & A & B); [lia|]. exists c, i, e. split; [now right|auto].
  - apply acnt_pos in Z as (i & e & A & B & C). exists a, i, e. split; [now left|auto].
Qed.
Lemma hcnt_pos hs b : hcnt hs b <> 0 -> exists h, In h hs /\ uptr h = b.
Proof.
  induction hs as [|h hs IH]; cbn [hcnt]; [congruence|]. intros H. destruct (N.eqb_spec (uptr h) b) as [Q|Q].
  - exists h. split; [now left|auto].
  - destruct IH as (k & A & B); [simpl in H; lia|]. exists k. split; [now right|auto].
Qed.
Lemma perm_pos m b : perm m b <> 0 -> b = muone m \/ exists i, In i (ord (mo m)) /\ b = eptr (mvb m i).
Proof.
  unfold perm. destruct (existsb _ _) eqn:E; [|congruence]. intros _. apply existsb_exists in E as (c & Ic & Ec).
  apply N.eqb_eq in Ec; subst c. destruct Ic as [->|Ic]; auto. apply in_map_iff in Ic as (i & E & Ii). right. eauto.
Qed.

(** References from outside go to nodes. *)
Lemma xr_node m hs D b : MInv m hs lk0 D -> 2 < b -> xr m hs lk0 b <> 0 -> exists v, In b (ut (st (me m)) v).
Proof.
  intros I Hb Hx. pose proof I as [B1 B2 B3 B4 B5 B6 B7 B8 B9 B10 B11]. unfold xr, lk0 in Hx.
  destruct (N.eq_dec (hcnt hs b) 0) as [Z1|Z1].
  2:{ apply hcnt_pos in Z1 as (h & Ih & <-). exists 0. exact (B6 h Ih). }
  destruct (N.eq_dec (asum (ord (mo m)) (mtemp m :: massoc m) b) 0) as [Z2|Z2].
  2:{ apply asum_pos in Z2 as (a & i & e & Ia & Ii & Ea & <-). destruct (ao_dom _ _ _ (B7 a Ia) i e Ea) as [_ [[_ Q]|[_ Q]]].
      - rewrite Q in Hb. unfold ONE in Hb. lia.
      - exists (eid e). exact Q. }
  destruct (perm_pos m b) as [->|(i & Ii & ->)]; [lia| |].
  - exists 0. apply B4.
  - exists i. apply (B5 i Ii).
Qed.

Lemma asame_aid f l l' : Forall2 asame l l' -> map aid (map (fix_assoc f) l') = map aid l.
Proof. induction 1 as [|a b l l' (S1 & _) H IH]; cbn [map]; auto. rewrite IH. unfold fix_assoc. cbn [aid]. now rewrite S1. Qed.
Lemma asame_in l l' b : Forall2 asame l l' -> In b l' -> exists a, In a l /\ asame a b.
Proof.
  induction 1 as [|a c l l' Ha H IH]; [intros []|]. intros [<-|Ib]; [exists a; split; [now left|auto]|].
  destruct (IH Ib) as (e & Ie & Se). exists e. split; [now right|auto].
Qed.

Section Core.
Variables (m : mgr) (hs : list ubdd) (D : den) (Mx : N -> N -> bool) (sw : list N).
Hypothesis I : MInv m hs lk0 D.
Hypothesis HM : forall v a p q, v <> 0 -> In a (ut (st (me m)) v) -> p <> q -> Mx p q = false -> indep (D a) p \/ indep (D a) q.

Let o := mo m.
Let s0 := st (me m).
Let x := xr m hs lk0.
Let r := fold_left (exchange_at Mx) sw (RS (convert o s0) o (mtemp m) (massoc m)).
Let d := reallocate (ro r) (rd r).
Let m' := reorder_from Mx sw m.

Theorem reorder_core : exists D', MInv m' hs lk0 D' /\ mext hs m D m' D' /\ Permutation (ord (mo m')) (ord (mo m)).
Proof.
  pose proof I as [B1 B2 B3 B4 B5 B6 B7 B8 B9 B10 [G B11]].
  assert (XI0 : XI o 0 0 Mx [] D (convert o s0)) by (exact (XI_convert o D (me m) x Mx B1 B3 HM)).
  destruct (XR_convert o D (me m) x B3) as [P0 XR0].
  { intros b Hb Hx. exact (xr_node m hs D b I Hb Hx). }
  set (xz := fun b => Z.of_N (x b)) in XR0.
  assert (AL0 : forall a, In a (mtemp m :: massoc m) -> AL o a).
  { intros a Ia. destruct (B7 a Ia) as [A1 A2 A3]. constructor; [|exact A3].
    intros i e E. split; [exact (proj1 (A1 i e E))|exact (A2 i e E)]. }
  assert (RI0 : RI Mx xz (RS (convert o s0) o (mtemp m) (massoc m)) D (RS (convert o s0) o (mtemp m) (massoc m)) D).
  { constructor; cbn [ro rd rtemp rassoc].
    - exact B1.
    - apply Permutation_refl.
    - exact XI0.
    - eauto.
    - apply gx_refl.
    - lia.
    - split; [repeat split|]. apply AL0. now left.
    - split; [apply Forall2_refl'; intros a; repeat split|]. apply Forall_forall. intros a Ia. apply AL0. now right. }
  destruct (exchanges_spec Mx xz (fun b => N2Z.is_nonneg (x b)) sw _ _ _ _ RI0) as [D1 RI1].
  fold r in RI1. destruct RI1 as [Wo1 PM X1 [P R1] GX NX [TS TA] [AS AA]]. cbn [ro rd rtemp rassoc] in PM, GX, NX, TS, AS.
  destruct (reallocate_spec (ro r) Mx D1 (rd r) 0 0 Wo1 X1) as [ren RN]. fold d in RN.
  set (s1 := rd r) in *.
  assert (Q0 : exists own L, EInv o own D (me m) /\ RC own [] idn (mem s0) L x) by exact B3.
  destruct Q0 as (own & L & EI & RC0). pose proof (ei_acc _ _ _ _ EI) as AC. unfold EAcc in AC. fold s0 in AC.
  assert (F0 : NoDup (fl s0 0) /\ forall b, In b (fl s0 0) -> 2 < b < dnx s1 /\ ~ In b (dtab s1 0)).
  { split; [apply (acc_nd _ _ _ AC (OFree 0)); reflexivity|]. intros b Ib.
    apply (acc_in _ _ _ AC (OFree 0) b eq_refl) in Ib. split.
    - assert (2 < b < nx s0) by (apply (acc_rng _ _ _ AC); congruence). cbn [dnx convert] in NX. lia.
    - rewrite (gx_0 _ _ _ _ _ GX). cbn [dtab convert]. intros Q.
      apply (acc_in _ _ _ AC (ONode 0) b eq_refl) in Q. congruence. }
  set (D' := D2 D1 s1 ren P).
  (* handles *)
  assert (E0 : dtab s1 0 = ut s0 0) by (rewrite (gx_0 _ _ _ _ _ GX); reflexivity).
  assert (US : forall u, In u (ut s0 0) -> dt (dm s1 u) = (eptr (ct (mem s0 u)), eneg (ct (mem s0 u))) /\
     okp [] s1 (eptr (ct (mem s0 u))) /\ forall rho, D1 (eptr (ct (mem s0 u))) rho = D (eptr (ct (mem s0 u))) rho).
  { intros u Iu. destruct (gx_u _ _ _ _ _ GX u Iu) as (U1 & U2 & U3). cbn [dm convert dt fst] in U1, U3.
    split; [exact U1|]. split; [|exact U3]. rewrite <- E0 in Iu. destruct (x_user _ _ _ _ _ _ _ X1 u Iu) as (O & _).
    rewrite U1 in O. exact O. }
  (* externally referenced nodes *)
  assert (EX : forall e, vedge (nodeR s0) e -> eptr e = ONE \/ x (eptr e) <> 0 ->
     okp [] s1 (eptr e) /\ (eid e = did (dm s1 (eptr e)) \/ inn [] s1 (eptr e)) /\ forall rho, D1 (eptr e) rho = D (eptr e) rho).
  { intros e Ve He. destruct (gx_D _ _ _ _ _ GX (eptr e)) as [O1 O2].
    - exact (okp_e o (me m) e Ve).
    - destruct He as [He|He]; auto. right. unfold xz. lia.
    - split; [exact O1|]. split; [|exact O2]. destruct O1 as [E1|N1]; auto. left. rewrite E1.
      destruct Ve as [[V1 _]|[_ V2]]; [rewrite V1; symmetry; apply (x_one _ _ _ _ _ _ _ X1)|].
      unfold nodeR in V2. rewrite E1 in V2. pose proof (swf_addr _ _ (QS_swf _ _ _ _ B3) _ _ V2). unfold ONE in *. lia. }
  (* association images *)
  assert (IM : forall a i e, In a (mtemp m :: massoc m) -> amap a i = Some e -> vedge (nodeR s0) e /\ x (eptr e) <> 0 /\ In i (ord o)).
  { intros a i e Ia Ea. destruct (ao_dom _ _ _ (B7 a Ia) i e Ea) as [Ii Ve]. split; [exact Ve|]. split; [|exact Ii].
    unfold x, xr. pose proof (asum_in (ord (mo m)) _ a (eptr e) Ia) as Q. pose proof (acnt_in (ord (mo m)) (amap a) i e Ii Ea) as Q2. lia. }
  assert (VB : forall i, In i (ord o) -> vedge (nodeR s0) (mvb m i) /\ x (eptr (mvb m i)) <> 0).
  { intros i Ii. destruct (B5 i Ii) as (V1 & V2 & _). split.
    - right. rewrite V1. cbn [eid eptr]. split; [exact (proj1 (wfo_in o i B1 Ii))|exact V2].
    - unfold x, xr. rewrite (perm_in m (eptr (mvb m i))); [unfold MAXREF; lia|]. right. apply in_map_iff. eauto. }
  assert (IO : forall i, In i (ord (ro r)) <-> In i (ord o)).
  { intros i. split; apply Permutation_in; [|symmetry]; exact PM. }
  assert (FW : forall e, vedge (nodeR s0) e -> eptr e = ONE \/ x (eptr e) <> 0 ->
     vedge (nodeR (back (fl s0 0) d)) (efwd_to (dm d) e) /\ eptr (efwd_to (dm d) e) = ren (eptr e) /\ okp [] s1 (eptr e) /\
     forall rho, dv D' (efwd_to (dm d) e) rho = dv D e rho).
  { intros e Ve He. destruct (EX e Ve He) as (O1 & O2 & O3).
    destruct (efwd_ok (ro r) Mx D1 s1 d ren (fl s0 0) P x X1 R1 RN e O1 O2) as (F1 & F2 & F3).
    split; [exact F1|]. split; [exact F2|]. split; [exact O1|]. intros rho. unfold D'. rewrite F3. unfold dv. now rewrite O3. }
  (* all associations *)
  assert (ASr : forall a', In a' (rtemp r :: rassoc r) -> exists a, In a (mtemp m :: massoc m) /\ asame a a').
  { intros a' [<-|Ia]; [exists (mtemp m); split; [now left|exact TS]|].
    clear - AS Ia. induction AS as [|a b l l' Hab H IH]; [destruct Ia|]. destruct Ia as [<-|Ia].
    - exists a. split; [right; now left|auto].
    - destruct (IH Ia) as (c & [Ic|Ic] & Sc); exists c; split; auto; [now left|right; now right]. }
  assert (IM' : forall a' i e', In a' (mtemp m' :: massoc m') -> amap a' i = Some e' ->
     exists a e, In a (mtemp m :: massoc m) /\ amap a i = Some e /\ e' = efwd_to (dm d) e).
  { intros a' i e' Ia Ea.
    assert (exists a1, In a1 (rtemp r :: rassoc r) /\ a' = fix_assoc (dm d) a1) as (a1 & I1 & ->).
    { destruct Ia as [<-|Ia]; [exists (rtemp r); split; [now left|reflexivity]|].
      unfold m', reorder_from in Ia. cbn [massoc] in Ia. apply in_map_iff in Ia as (a1 & <- & I1). exists a1. split; [now right|reflexivity]. }
    destruct (ASr a1 I1) as (a & I2 & (S1 & S2 & S3)). unfold fix_assoc in Ea. cbn [amap] in Ea. rewrite S2 in Ea.
    destruct (amap a i) as [e|] eqn:Ee; [|discriminate]. injection Ea as <-. exists a, e. auto. }
  assert (AR : forall a a1, In a (mtemp m :: massoc m) -> asame a a1 -> arel D D' a (fix_assoc (dm d) a1)).
  { intros a a1 Ia (S1 & S2 & S3). split; [exact S1|]. split; [exact S3|]. intros i. unfold fix_assoc. cbn [amap].
    rewrite S2. destruct (amap a i) as [e|] eqn:Ee; auto. destruct (IM a i e Ia Ee) as (V & Hx & _).
    apply (FW e V). auto. }
  (* reference counts *)
  assert (Hh : forall b, hcnt hs b <> 0 -> In b (ut s0 0)).
  { intros b Hb. apply hcnt_pos in Hb as (h & Ih & <-). exact (B6 h Ih). }
  assert (PO : forall i, In i (ord o) -> eptr (mvb m' i) = ren (eptr (mvb m i)) /\ okp [] s1 (eptr (mvb m i))).
  { intros i Ii. unfold m', reorder_from. cbn [mvb]. fold o s0 r d. rewrite (proj2 (exb i (ord o)) Ii).
    destruct (VB i Ii) as [V1 V2]. destruct (FW _ V1 (or_intror V2)) as (_ & F2 & F3 & _). auto. }
  assert (XP : forall b, In b P -> xr m' hs lk0 (rn s1 ren b) = x b).
  { intros b Ib. unfold x, xr, lk0.
    assert (Z1 : hcnt hs (rn s1 ren b) = hcnt hs b).
    { destruct (N.eq_dec (did (dm s1 b)) 0) as [Z|Z].
      - rewrite (rn_usr (ro r) Mx D1 s1 ren P x X1 R1 b); auto. now apply (P_user (ro r) Mx D1 s1 P x X1 R1).
      - pose proof (P_inn (ro r) Mx D1 s1 P x X1 R1 b Ib Z) as Nb.
        rewrite (rn_inn (ro r) Mx D1 s1 ren P x X1 R1 b Nb).
        destruct (N.eq_dec (hcnt hs b) 0) as [->|Q1].
        + destruct (N.eq_dec (hcnt hs (ren b)) 0) as [->|Q2]; auto. exfalso.
          apply Hh in Q2. rewrite <- E0 in Q2. pose proof (user_P (ro r) Mx D1 s1 P x X1 R1 _ Q2).
          pose proof (ren_ge (ro r) Mx D1 s1 d ren X1 RN b Nb). lia.
        + exfalso. apply Hh in Q1. rewrite <- E0 in Q1. pose proof (user_P (ro r) Mx D1 s1 P x X1 R1 _ Q1). tauto. }
    assert (Z2 : asum (ord (mo m')) (mtemp m' :: massoc m') (rn s1 ren b) = asum (ord (mo m)) (mtemp m :: massoc m) b).
    { change (ord (mo m')) with (ord (ro r)). rewrite (asum_perm _ _ _ _ PM).
      assert (A1 : forall a a1 ids, In a (mtemp m :: massoc m) -> asame a a1 ->
         acnt ids (amap (fix_assoc (dm d) a1)) (rn s1 ren b) = acnt ids (amap a) b).
      { intros a a1 ids Ia (S1 & S2 & S3). unfold fix_assoc. cbn [amap]. rewrite S2.
        induction ids as [|i ids IH]; cbn [acnt]; auto. rewrite IH. f_equal.
        destruct (amap a i) as [e|] eqn:Ee; auto. destruct (IM a i e Ia Ee) as (V & Hx & _).
        destruct (FW e V (or_intror Hx)) as (_ & -> & F3 & _).
        now rewrite (ren_rn (ro r) Mx D1 s1 d ren P x X1 R1 RN (eptr e) b F3 Ib). }
      cbn [asum]. f_equal.
      - apply A1; [now left|exact TS].
      - change (massoc m') with (map (fix_assoc (dm d)) (rassoc r)).
        assert (A2 : forall l l', Forall2 asame l l' -> (forall a, In a l -> In a (mtemp m :: massoc m)) ->
           asum (ord o) (map (fix_assoc (dm d)) l') (rn s1 ren b) = asum (ord (mo m)) l b).
        { induction 1 as [|a a1 l l' Ha Hl IH]; intros Hin; cbn [map asum]; auto. rewrite IH by (intros; apply Hin; now right).
          f_equal. apply A1; auto. apply Hin. now left. }
        apply A2; [exact AS|]. intros a Ia. now right. }
    assert (Z3 : perm m' (rn s1 ren b) = perm m b).
    { unfold perm. change (muone m') with (muone m).
      assert (E : existsb (N.eqb (rn s1 ren b)) (muone m :: map (fun i => eptr (mvb m' i)) (ord (mo m'))) =
                  existsb (N.eqb b) (muone m :: map (fun i => eptr (mvb m i)) (ord (mo m)))); [|now rewrite E].
      apply eq_true_iff_eq. rewrite !exb. cbn [In]. rewrite !in_map_iff.
      assert (U : muone m = rn s1 ren b <-> muone m = b).
      { destruct B4 as [U1 _]. fold s0 in U1. rewrite <- E0 in U1.
        pose proof (user_P (ro r) Mx D1 s1 P x X1 R1 _ U1) as U2.
        destruct (N.eq_dec (did (dm s1 b)) 0) as [Z|Z].
        - rewrite (rn_usr (ro r) Mx D1 s1 ren P x X1 R1 b); [tauto|]. now apply (P_user (ro r) Mx D1 s1 P x X1 R1).
        - pose proof (P_inn (ro r) Mx D1 s1 P x X1 R1 b Ib Z) as Nb. rewrite (rn_inn (ro r) Mx D1 s1 ren P x X1 R1 b Nb).
          pose proof (ren_ge (ro r) Mx D1 s1 d ren X1 RN b Nb). split; intros Q.
          + rewrite <- Q in H. lia.
          + rewrite <- Q in Z. tauto. }
      assert (V : forall i, In i (ord o) -> (eptr (mvb m' i) = rn s1 ren b <-> eptr (mvb m i) = b)).
      { intros i Ii. destruct (PO i Ii) as [-> O]. 
        pose proof (ren_rn (ro r) Mx D1 s1 d ren P x X1 R1 RN (eptr (mvb m i)) b O Ib) as Q.
        destruct (N.eqb_spec (ren (eptr (mvb m i))) (rn s1 ren b)), (N.eqb_spec (eptr (mvb m i)) b); try discriminate; tauto. }
      change (ord (mo m')) with (ord (ro r)).
      split; (intros [Q|(i & Q & Ii)]; [left; tauto|right; exists i; split; [|now apply IO]]); apply V; auto; apply IO; auto. }
    now rewrite Z1, Z2, Z3. }
  assert (XN : forall b, 2 < b -> (forall v, ~ In b (ut (back (fl s0 0) d) v)) -> xr m' hs lk0 b = 0).
  { intros b Hb Nb.
    assert (NR : forall c, okp [] s1 c -> ren c <> b).
    { intros c Oc Q. destruct (vedge_re (ro r) Mx D1 s1 d ren (fl s0 0) X1 RN (c, false) Oc) as [[_ V]|[_ V]]; cbn [re eptr fst] in V.
      - rewrite V in Q. rewrite <- Q in Hb. unfold ONE in Hb. lia.
      - unfold nodeR in V. cbn [re eptr fst] in V. rewrite Q in V. exact (Nb _ V). }
    unfold xr, lk0.
    assert (U0 : forall u, In u (ut s0 0) -> u <> b).
    { intros u Iu ->. apply (Nb 0). cbn [ut back]. rewrite (rn_0 _ _ _ RN), E0. exact Iu. }
    rewrite hcnt_zero, asum_zero.
    - destruct (N.eq_dec (perm m' b) 0) as [->|Q]; auto. exfalso. apply perm_pos in Q as [Q|(i & Ii & Q)].
      + apply (U0 b); auto. rewrite Q. exact (proj1 B4).
      + change (ord (mo m')) with (ord (ro r)) in Ii. apply IO in Ii. destruct (PO i Ii) as [E O]. rewrite E in Q. exact (NR _ O (eq_sym Q)).
    - intros a' i e' Ia _ Ea. destruct (IM' a' i e' Ia Ea) as (a & e & Ia0 & Ee & ->).
      destruct (IM a i e Ia0 Ee) as (V & Hx & _). destruct (FW e V (or_intror Hx)) as (_ & -> & O & _). now apply NR.
    - intros h Ih. apply U0. exact (B6 h Ih). }
  assert (QS' : QS (mo m') D' (me m') (xr m' hs lk0)).
  { exact (back_QS (ro r) Mx D1 s1 d ren (fl s0 0) P x X1 R1 RN F0 (me m) (xr m' hs lk0) (ei_que _ _ _ _ EI) (ei_don _ _ _ _ EI) XP XN). }
  assert (MU : forall u, In u (ut s0 0) -> In u (ut (st (me m')) 0) /\ ct (mem (st (me m')) u) = re s1 ren (dt (dm s1 u))).
  { intros u Iu. rewrite <- E0 in Iu. split.
    - change (In u (dtab d 0)). rewrite (rn_0 _ _ _ RN). exact Iu.
    - exact (proj1 (mem_user (ro r) Mx D1 s1 d ren (fl s0 0) P x X1 R1 RN u Iu)). }
  exists D'. split; [|split].
  - constructor.
    + exact Wo1.
    + unfold idsok. change (ord (mo m')) with (ord (ro r)). intros i. rewrite IO, (Permutation_length PM). apply B2.
    + exact QS'.
    + destruct B4 as [U1 U2]. destruct (MU _ U1) as [M1 M2]. split; [exact M1|]. change (muone m') with (muone m).
      rewrite M2. destruct (US _ U1) as (T & _). rewrite T. change (ct (mem s0 (muone m)) = one) in U2. rewrite U2.
      unfold re. cbn [eptr eneg one fst snd]. rewrite (rn_one _ _ _ RN), (proj1 (x_one _ _ _ _ _ _ _ X1)). reflexivity.
    + intros i Ii. change (ord (mo m')) with (ord (ro r)) in Ii. apply IO in Ii. destruct (B5 i Ii) as (V1 & V2 & V3 & V4).
      assert (Ni : i <> 0) by exact (proj1 (wfo_in o i B1 Ii)).
      assert (C1 : dt (dm (convert o s0) (eptr (mvb m i))) = (ONE, false)).
      { change ((eptr (ct (mem s0 (eptr (mvb m i)))), eneg (ct (mem s0 (eptr (mvb m i))))) = (ONE, false)). change (ct (mem s0 (eptr (mvb m i))) = one) in V3. rewrite V3. reflexivity. }
      assert (C2 : de (dm (convert o s0) (eptr (mvb m i))) = (ONE, true)).
      { change ((eptr (ce (mem s0 (eptr (mvb m i)))), eneg (ce (mem s0 (eptr (mvb m i))))) = (ONE, true)). change (ce (mem s0 (eptr (mvb m i))) = zero) in V4. rewrite V4. reflexivity. }
      destruct (VB i Ii) as [Ve Hx].
      destruct (gx_v _ _ _ _ _ GX i (eptr (mvb m i)) Ni V2 ltac:(unfold xz; lia) C1 C2) as (T1 & T2 & T3).
      destruct (in_tab (ro r) Mx D1 s1 0 0 X1 i _ Ni T1) as (Nn & Ed & _).
      assert (EV : mvb m' i = E i (ren (eptr (mvb m i))) false).
      { unfold m', reorder_from. cbn [mvb]. fold o s0 r d. rewrite (proj2 (exb i (ord o)) Ii).
        rewrite (efwd_spec (ro r) Mx D1 s1 d ren X1 RN); [|now right|now right]. rewrite Ed. f_equal. now rewrite V1. }
      rewrite EV. cbn [eptr]. split; [reflexivity|]. split.
      * change (In (ren (eptr (mvb m i))) (dtab d i)). apply (rn_tab _ _ _ RN); auto. exists (eptr (mvb m i)). auto.
      * destruct (mem_new (ro r) Mx D1 s1 d ren (fl s0 0) X1 RN _ Nn) as (N1 & N2 & _).
        change (ct (mem (back (fl s0 0) d) (ren (eptr (mvb m i)))) = one /\ ce (mem (back (fl s0 0) d) (ren (eptr (mvb m i)))) = zero).
        rewrite N1, N2, T2, T3. unfold re. cbn [fst snd].
        rewrite (rn_one _ _ _ RN), (proj1 (x_one _ _ _ _ _ _ _ X1)). split; reflexivity.
    + intros h Ih. apply MU. exact (B6 h Ih).
    + assert (G1 : forall a, In a (mtemp m :: massoc m) -> forall a1, asame a a1 -> AL (ro r) a1 -> AOk (mo m') (st (me m')) (fix_assoc (dm d) a1)).
      { intros a Ia a1 (S1 & S2 & S3) [L1 L2]. constructor; unfold fix_assoc; cbn [amap alast]; rewrite S2 in *.
        - intros i e' Ee. destruct (amap a i) as [e|] eqn:Ea; [|discriminate]. injection Ee as <-.
          destruct (IM a i e Ia Ea) as (V & Hx & Ii). split; [now apply IO|]. exact (proj1 (FW e V (or_intror Hx))).
        - intros i e' Ee. destruct (amap a i) as [e|] eqn:Ea; [|discriminate]. exact (proj2 (L1 i e Ea)).
        - destruct L2 as [L2|(i & e & Ei & El)]; [now left|right]. exists i, (efwd_to (dm d) e). rewrite Ei. auto. }
      intros a' [<-|Ia].
      * apply (G1 (mtemp m)); auto. now left.
      * change (massoc m') with (map (fix_assoc (dm d)) (rassoc r)) in Ia. apply in_map_iff in Ia as (a1 & <- & I1).
        destruct (ASr a1 (or_intror I1)) as (a & I2 & S). apply (G1 a); auto. rewrite Forall_forall in AA. auto.
    + change (massoc m') with (map (fix_assoc (dm d)) (rassoc r)).
      assert (E : map aid (map (fix_assoc (dm d)) (rassoc r)) = map aid (massoc m)).
      { exact (asame_aid _ _ _ AS). }
      rewrite E. exact B8.
    + split; [|exact (proj2 B9)]. intros a' Ia. change (massoc m') with (map (fix_assoc (dm d)) (rassoc r)) in Ia.
      apply in_map_iff in Ia as (a1 & <- & I1). unfold fix_assoc. cbn [arc aid].
      assert (exists a, In a (massoc m) /\ asame a a1) as (a & I2 & (S1 & S2 & S3)).
      { exact (asame_in _ _ _ AS I1). }
      rewrite S1, S3. exact (proj1 B9 a I2).
    + intros i Hi. change (mcur m') with (mcur m) in Hi. change (massoc m') with (map (fix_assoc (dm d)) (rassoc r)).
      assert (E : map aid (map (fix_assoc (dm d)) (rassoc r)) = map aid (massoc m)).
      { exact (asame_aid _ _ _ AS). }
      rewrite E. exact (B10 i Hi).
    + exists G. destruct B11 as [C1 C2 C3 C4 C5 C6 C7].
      assert (MA : forall a', In a' (massoc m') -> exists a, In a (massoc m) /\ arel D D' a a').
      { intros a' Ia. change (massoc m') with (map (fix_assoc (dm d)) (rassoc r)) in Ia. apply in_map_iff in Ia as (a1 & <- & I1).
        assert (exists a, In a (massoc m) /\ asame a a1) as (a & I2 & S).
        { exact (asame_in _ _ _ AS I1). }
        exists a. split; auto. apply AR; auto. now right. }
      assert (SQ : forall a' a F, arel D D' a a' -> sem_quant (amap a) F -> sem_quant (amap a') F).
      { intros a' a F (_ & _ & H) S f g Hf Hg rho. rewrite (S f g Hf Hg rho). split; intros (r' & R1' & R2'); exists r'; split; auto.
        - intros i Ei. apply R1'. specialize (H i). rewrite Ei in H. destruct (amap a i); tauto.
        - intros i Ei. apply R1'. specialize (H i). rewrite Ei in H. destruct (amap a' i); tauto. }
      constructor.
      * exact C1.
      * exact C2.
      * intros k e Q. discriminate Q.
      * intros a' Ia. destruct (MA a' Ia) as (a & I2 & S). rewrite (proj1 S). exact (SQ a' a _ S (C4 a I2)).
      * intros a' Ia. destruct (MA a' Ia) as (a & I2 & S). rewrite (proj1 S). exact (SQ a' a _ S (C5 a I2)).
      * intros a' Ia. destruct (MA a' Ia) as (a & I2 & (S1 & S2 & S3)). rewrite S1. intros f g Hf Hg rho.
        rewrite (C6 a I2 f g Hf Hg rho). cbv zeta.
        assert (Er : forall i, match amap a i with Some e => dv D e rho | None => rho i end =
                               match amap a' i with Some e => dv D' e rho | None => rho i end).
        { intros i. specialize (S3 i). destruct (amap a i), (amap a' i); try tauto. symmetry. apply S3. }
        f_equal; [apply Hf|apply Hg]; exact Er.
      * exact C7.
  - constructor.
    + intros h Ih rho. pose proof (B6 h Ih) as Iu. destruct (MU _ Iu) as [_ M2]. destruct (US _ Iu) as (T1 & T2 & T3).
      unfold uint. rewrite M2, T1, !dv_ephase. f_equal. unfold D'.
      rewrite (dv_re (ro r) Mx D1 s1 d ren P x X1 R1 RN (_, _) rho T2). unfold dval, dv. cbn [fst snd]. now rewrite T3.
    + intros i Ii. change (ord (mo m')) with (ord (ro r)). now apply IO.
    + reflexivity.
    + change (massoc m') with (map (fix_assoc (dm d)) (rassoc r)).
      assert (A2 : forall l l', Forall2 asame l l' -> (forall a, In a l -> In a (mtemp m :: massoc m)) ->
           Forall2 (arel D D') l (map (fix_assoc (dm d)) l')).
      { induction 1 as [|a a1 l l' Ha Hl IH]; intros Hin; cbn [map]; constructor; [apply AR; auto; apply Hin; now left|].
        apply IH. intros. apply Hin. now right. }
      apply A2; [exact AS|]. intros a Ia. now right.
    + apply AR; [now left|exact TS].
    + reflexivity.
    + change (mtop m') with (mtop m). lia.
  - exact PM.
Qed.
End Core.
