(** Reordering: the start state, the order and the associations along the exchanges. *)
From Coq Require Import NArith ZArith List Bool Lia Permutation.
From Verif Require Import Base BFModel StoreInv Own EngInv ApplyProof EngineProof QProof MgrModel ApiModel MInv
  ReorderModel ReorderProof ReorderStep.
Import ListNotations.
Open Scope N_scope.

Lemma all_true o D s : wfo o -> SWF o s -> Dok D s -> forall i a, i <> 0 -> In a (ut s i) -> D a (fun _ => true) = true.
Proof.
  intros Wo W HD.
  assert (TT : forall k e, vedge (nodeR s) e -> (N.to_nat (CONST_INDEX - idx o (eid e)) < k)%nat ->
                 eneg e = false -> dv D e (fun _ => true) = true).
  { intros k. induction k as [|k IH]; intros e V Hn P; [lia|].
    unfold dv. rewrite P, xorb_false_l.
    destruct V as [[I Q]|[N0 R]].
    - rewrite Q. apply (dok_one D s HD).
    - rewrite (dok_node D s HD _ _ _ N0 R).
      pose proof (swf_node o s W _ _ N0 R) as NO.
      pose proof (wfo_lt_const o _ Wo (no_id _ _ _ _ NO)) as Hc.
      pose proof (no_ti _ _ _ _ NO) as Ht. unfold gt_idx in *.
      apply IH; try apply NO. lia. }
  intros i a N0 Ia. pose proof (TT (S (N.to_nat (CONST_INDEX - idx o i))) (E i a false)) as T.
  unfold dv in T. cbn [eneg eptr eid] in T. rewrite xorb_false_l in T. apply T; auto; try lia. right. split; auto.
Qed.

Section Init.
Variables (o : order) (D : den) (en : eng) (x : N -> N) (Mx : N -> N -> bool).
Let s := st en.
Hypothesis Wo : wfo o.
Hypothesis Q : QS o D en x.
Hypothesis HM : forall v a p q, v <> 0 -> In a (ut s v) -> p <> q -> Mx p q = false -> indep (D a) p \/ indep (D a) q.

Hypothesis Hnode : forall b, 2 < b -> x b <> 0 -> exists v, In b (ut s v).

Lemma W : SWF o s. Proof. exact (QS_swf _ _ _ _ Q). Qed.
Lemma K : Dok D s. Proof. exact (QS_dok _ _ _ _ Q). Qed.
Lemma in_ord v a : v <> 0 -> In a (ut s v) -> In v (ord o).
Proof. intros Hv Ia. exact (no_id _ _ _ _ (swf_node _ _ W v a Hv Ia)). Qed.
Lemma idof v a : In a (ut s v) -> id_of o s a = v.
Proof.
  intros Ia. unfold id_of. destruct (find _ (ord o)) as [w|] eqn:F.
  - apply find_some in F as [_ F]. apply existsb_exists in F as [b [Hb Eb]]. apply N.eqb_eq in Eb; subst b.
    exact (swf_disj _ _ W _ _ _ Hb Ia).
  - destruct (N.eq_dec v 0) as [->|Hv]; auto. pose proof (find_none _ _ F v (in_ord v a Hv Ia)) as F'.
    cbv beta in F'. assert (existsb (N.eqb a) (ut s v) = true); [|congruence].
    apply existsb_exists. exists a. split; auto. apply N.eqb_refl.
Qed.
Lemma idof_one : id_of o s ONE = 0.
Proof.
  unfold id_of. destruct (find _ (ord o)) as [w|] eqn:F; auto.
  apply find_some in F as [_ F]. apply existsb_exists in F as [b [Hb Eb]]. apply N.eqb_eq in Eb; subst b.
  pose proof (swf_addr _ _ W _ _ Hb). unfold ONE in *. lia.
Qed.
Lemma idof_e e : vedge (nodeR s) e -> id_of o s (eptr e) = eid e.
Proof. intros [[A B]|[A B]]; [rewrite A, B; apply idof_one|now apply idof]. Qed.
Lemma okp_e e : vedge (nodeR s) e -> okp [] (convert o s) (eptr e).
Proof. intros [[A B]|[A B]]; [now left|]. right. left. exists (eid e). auto. Qed.
Lemma inn_s a : inn [] (convert o s) a -> exists v, v <> 0 /\ In a (ut s v) /\ id_of o s a = v.
Proof. intros [(v & Hv & Ia)|[]]. exists v. split; auto. split; auto. now apply idof. Qed.
Lemma dv_d e rho : dv D e rho = dval D (eptr e, eneg e) rho.
Proof. reflexivity. Qed.

Lemma XI_convert : XI o 0 0 Mx [] D (convert o s).
Proof.
  destruct Q as (own & L & I & R). pose proof (ei_acc _ _ _ _ I) as A. pose proof W as W. pose proof K as K.
  unfold EAcc in A. fold s in A.
  assert (Nd : forall v a, In a (ut s v) <-> own a = ONode v).
  { intros v a. apply (acc_in _ _ _ A (ONode v)). reflexivity. }
  assert (Rg : forall v a, In a (ut s v) -> 2 < a < nx s).
  { intros v a Ia. apply (acc_rng _ _ _ A). apply Nd in Ia. congruence. }
  constructor.
  - intros v a Ia. cbn [dm convert did dnx dtab] in *. split; [now apply idof|]. split; [intros []|]. eapply Rg; eauto.
  - intros v. apply (acc_nd _ _ _ A (ONode v)). reflexivity.
  - constructor.
  - intros a [].
  - cbn [dm convert did drc de fst]. split; [apply idof_one|]. split; [apply W|apply W].
  - apply K.
  - intros a Ia. apply inn_s in Ia as (v & Hv & Ia & E). cbn [dm convert did]. rewrite E. eapply in_ord; eauto.
  - intros a Ia. apply inn_s in Ia as (v & Hv & Ia & E). cbn [dm convert dt de fst snd].
    pose proof (swf_node _ _ W v a Hv Ia) as NO.
    split; [apply okp_e, NO|]. split; [apply okp_e, NO|]. split; [apply NO|].
    intros Eq. pose proof (no_red _ _ _ _ NO) as Nr. injection Eq as E1 E2. unfold eeq in Nr.
    rewrite E1, E2, N.eqb_refl in Nr. now destruct (eneg (ce (mem s a))).
  - intros a c [].
  - intros v a c Hv Ia Hc. cbn [dm convert dt de did fst] in *. cbn [dtab convert] in Ia. split; [|intros []].
    pose proof (swf_node _ _ W v a Hv Ia) as NO. destruct Hc as [->| ->]; rewrite idof_e by apply NO; apply NO.
  - intros a rho Ia. apply inn_s in Ia as (v & Hv & Ia & E). cbn [dm convert dt de did]. rewrite E, <- !dv_d.
    now apply (dok_node _ _ K).
  - intros a [].
  - intros v a Hv Ia r1 r2 Hr. pose proof (dv_agree o D s Wo W K (E v a false)) as G.
    unfold dv in G. cbn [eneg eptr eid] in G.
    specialize (G (or_intror (conj Hv Ia)) r1 r2 Hr). rewrite !xorb_false_l in G. exact G.
  - intros a Ia. apply inn_s in Ia as (v & Hv & Ia & E). exact (all_true o D s Wo W K v a Hv Ia).
  - assert (T : forall a, okp [] (convert o s) a -> exists i, vedge (nodeR s) (E i a false)).
    { intros a [->|Ia]; [exists 0; now left|]. apply inn_s in Ia as (v & Hv & Ia & E). exists v. right. auto. }
    intros a b Oa Ob H. destruct (T a Oa) as [i Vi], (T b Ob) as [j Vj].
    assert (E i a false = E j b false) as Eq; [|congruence].
    apply (canon_dv o D s); auto. intros rho. unfold dv. cbn [eneg eptr]. now rewrite H.
  - intros u Iu. cbn [dm convert dt de fst snd]. destruct (swf_user _ _ W u Iu) as (U1 & U2 & U3).
    split; [now apply okp_e|]. split; auto. now rewrite U2.
  - intros u w Iu Iw Eq. cbn [dm convert dt] in Eq. injection Eq as E1 E2.
    destruct (swf_user _ _ W u Iu) as (U1 & U2 & U3). destruct (swf_user _ _ W w Iw) as (W1 & W2 & W3).
    apply (swf_uniq _ _ W 0); auto; [|rewrite U2, W2; reflexivity].
    unfold eeq. rewrite E1, E2, N.eqb_refl. now destruct (eneg (ct (mem s w))).
  - cbn [dfl convert dnx]. 
    assert (Fr : forall v a, In a (fl s v) <-> own a = OFree v).
    { intros v a. apply (acc_in _ _ _ A (OFree v)). reflexivity. }
    split.
    + pose proof (wfo_nodup o Wo) as ND. induction ND as [|v l Nv ND IH]; cbn [flat_map]; [constructor|].
      assert (G : forall l1 l2 : list N, NoDup l1 -> NoDup l2 -> (forall a, In a l1 -> ~ In a l2) -> NoDup (l1 ++ l2)).
      { induction l1 as [|a l1 IH1]; intros l2 N1 N2 Hd; simpl; auto. inversion N1; subst. constructor.
        - intros H. apply in_app_or in H as [H|H]; auto. exact (Hd a (or_introl eq_refl) H).
        - apply IH1; auto. intros b Hb. apply Hd. now right. }
      apply G; auto.
      * apply (acc_nd _ _ _ A (OFree v)). reflexivity.
      * intros a Ia Ib. apply in_flat_map in Ib as (w & Iw & Ib). apply Fr in Ia, Ib. rewrite Ia in Ib. injection Ib as ->. auto.
    + intros b Ib. apply in_flat_map in Ib as (w & Iw & Ib). apply Fr in Ib. split.
      * apply (acc_rng _ _ _ A). congruence.
      * intros [(v & Ia)|[]]. cbn [dtab convert] in Ia. apply Nd in Ia. congruence.
  - exact (acc_lim _ _ _ A).
  - intros a p q Ia. apply inn_s in Ia as (v & Hv & Ia & E). exact (HM v a p q Hv Ia).
Qed.

Lemma XR_convert : exists P, XR [] (convert o s) P (fun b => Z.of_N (x b)).
Proof.
  destruct Q as (own & L & I & R). pose proof (ei_acc _ _ _ _ I) as A. fold s in A. unfold EAcc in A. fold s in A.
  assert (Nd : forall v a, In a (ut s v) <-> own a = ONode v).
  { intros v a. apply (acc_in _ _ _ A (ONode v)). reflexivity. }
  assert (IL : forall a, In a L <-> exists v, In a (ut s v)).
  { intros a. rewrite (rc_L _ _ _ _ _ _ R). split.
    - intros [[i H]|(d & i & H & [] & _)]. exists i. now apply Nd.
    - intros [v H]. left. exists v. now apply Nd. }
  exists L. constructor.
  - apply R.
  - intros a. rewrite IL. unfold node. cbn [dtab convert]. split; [now left|]. intros [H|[]]; auto.
  - intros a H. apply IL in H as [v H]. exact (swf_addr _ _ W _ _ H).
  - intros b Ib. apply IL in Ib as [v Ib].
    assert (Cb : counted own b) by (left; exists v; now apply Nd).
    cbn [dm convert drc]. split; [exact (rc_max _ _ _ _ _ _ R b Cb)|].
    destruct (rc_cnt _ _ _ _ _ _ R b Cb) as [E|E]; [now left|right]. fold s in E. rewrite E.
    assert (Eo : forall l, docc (dm (convert o s)) l b = Z.of_N (occ idn (mem s) l b)).
    { induction l as [|a l IH]; cbn [docc occ]; [reflexivity|]. rewrite IH. unfold dw, wt, idn, b2n.
      cbn [dm convert dt de fst]. destruct (_ =? b), (_ =? b); simpl Z.b2z; lia. }
    change (fun a => DN (id_of o s a) (cr (mem s a)) (eptr (ct (mem s a)), eneg (ct (mem s a)))
      (eptr (ce (mem s a)), eneg (ce (mem s a)))) with (dm (convert o s)). rewrite Eo. lia.
  - intros b Hb Nb. destruct (N.eq_dec (x b) 0) as [->|Hx]; auto. exfalso.
    apply Nb, IL, Hnode; auto.
Qed.
End Init.

(** ** Associations along the exchanges *)
Definition asame (a a' : assoc) : Prop := aid a' = aid a /\ amap a' = amap a /\ arc a' = arc a.
Record AL (o : order) (a : assoc) : Prop := {
  al_le : forall i e, amap a i = Some e -> In i (ord o) /\ (Z.of_N (idx o i) <= alast a)%Z;
  al_ex : alast a = (-1)%Z \/ exists i e, amap a i = Some e /\ alast a = Z.of_N (idx o i)
}.

Lemma fixup_same o i j a : asame a (fixup_assoc o i j a).
Proof. unfold fixup_assoc. repeat (destruct (_ : bool)); repeat split. Qed.

Lemma fixup_AL o k i j a : wfo o -> nth_error (ord o) (N.to_nat k) = Some i -> nth_error (ord o) (S (N.to_nat k)) = Some j ->
  AL o a -> AL (swap_order o k i j) (fixup_assoc o i j a).
Proof.
  intros Wo Hi Hj [A1 A2].
  destruct (sw_i o k i Wo Hi) as (I1 & I2 & I3), (sw_j o k j Wo Hj) as (J1 & J2 & J3).
  pose proof (sw_idx_i o k i j Wo Hi Hj) as Ei. pose proof (sw_idx_j o k i j) as Ej.
  assert (B : forall v e, amap a v = Some e -> (Z.of_N (idx o v) <= alast a)%Z /\
     (v = i \/ v = j \/ v <> i /\ v <> j /\ idx (swap_order o k i j) v = idx o v /\ idx o v <> k /\ idx o v <> k + 1)).
  { intros v e Ev. destruct (A1 v e Ev) as [B1 B2]. split; auto. apply (vok_case o k i j Wo Hi Hj). now left. }
  assert (C : forall v e, amap a v = Some e -> In v (ord (swap_order o k i j))).
  { intros v e Ev. apply sw_in. exact (proj1 (A1 v e Ev)). }
  unfold fixup_assoc. destruct (Z.eqb_spec (alast a) (-1)) as [E1|E1].
  - constructor; [|now left]. intros v e Ev. destruct (B v e Ev). lia.
  - destruct A2 as [A2|(v & e & Ev & El)]; [congruence|].
    destruct (amap a i) as [ei|] eqn:Mi; cbn [isnone negb andb].
    + destruct (Z.eqb_spec (alast a) (Z.of_N (idx o i))) as [E2|E2].
      * constructor; cbn [amap alast].
        -- intros w ew Ew. split; [eapply C; eauto|]. destruct (B w ew Ew) as [L [->|[->|(_ & _ & -> & U1 & U2)]]]; lia.
        -- right. exists i, ei. split; auto. lia.
      * destruct (B i ei Mi) as [Li _].
        constructor.
        -- intros w ew Ew. split; [eapply C; eauto|]. destruct (B w ew Ew) as [L [->|[->|(_ & _ & -> & U1 & U2)]]]; lia.
        -- right. destruct (B v e Ev) as [L [->|[->|(_ & _ & Q & _)]]].
           ++ lia.
           ++ exists i, ei. split; auto. lia.
           ++ exists v, e. split; auto. lia.
    + assert (Nv : v <> i) by congruence.
      destruct (amap a j) as [ej|] eqn:Mj; cbn [isnone negb andb].
      * destruct (Z.eqb_spec (alast a) (Z.of_N (idx o j))) as [E2|E2].
        -- constructor; cbn [amap alast].
           ++ intros w ew Ew. split; [eapply C; eauto|]. destruct (B w ew Ew) as [L [->|[->|(_ & _ & -> & U1 & U2)]]]; try lia; congruence.
           ++ right. exists j, ej. split; auto. lia.
        -- constructor.
           ++ intros w ew Ew. split; [eapply C; eauto|]. destruct (B w ew Ew) as [L [->|[->|(_ & _ & -> & U1 & U2)]]]; try lia; congruence.
           ++ right. destruct (B v e Ev) as [L [->|[->|(_ & _ & Q & _)]]]; [congruence|lia|].
              exists v, e. split; auto. lia.
      * assert (Nj : v <> j) by congruence. constructor.
        -- intros w ew Ew. split; [eapply C; eauto|]. destruct (B w ew Ew) as [L [->|[->|(_ & _ & -> & U1 & U2)]]]; try lia; congruence.
        -- right. destruct (B v e Ev) as [L [->|[->|(_ & _ & Q & _)]]]; try congruence.
           exists v, e. split; auto. lia.
Qed.

(** ** Addresses are never given back below [dnx] *)
Lemma dunique_nx s i t e : dnx s <= dnx (snd (dunique s i t e)).
Proof.
  assert (A : forall t e, dnx s <= dnx (snd (dfindadd s i t e))).
  { intros t0 e0. unfold dfindadd. destruct (find _ _); [cbn; lia|]. unfold dalloc. destruct (dfl s); cbn; lia. }
  unfold dunique. destruct (deq t e); [cbn; lia|]. destruct (snd t).
  - pose proof (A (dnot t) (dnot e)). destruct (dfindadd s i (dnot t) (dnot e)) as [[a f] s1]. exact H.
  - pose proof (A t e). destruct (dfindadd s i t e) as [[a f] s1]. exact H.
Qed.
Lemma exchange1_nx i j s f : dnx s <= dnx (exchange1 i j s f).
Proof.
  unfold exchange1, exchange_aux.
  destruct (dcof s j (de (dm s f))) as [f01 f00], (dcof s j (dt (dm s f))) as [f11 f10].
  assert (A : dnx s <= dnx (snd (if deq f00 f10 then (f00, true, s) else dunique s i f10 f00))).
  { destruct (deq f00 f10); [cbn; lia|apply dunique_nx]. }
  destruct (if deq f00 f10 then (f00, true, s) else dunique s i f10 f00) as [[n0 fd0] s1]. cbn [snd] in A.
  assert (B : dnx (dicr s1 n0) <= dnx (snd (if deq f01 f11 then (f11, true, dicr s1 n0) else dunique (dicr s1 n0) i f11 f01))).
  { destruct (deq f01 f11); [cbn; lia|apply dunique_nx]. }
  destruct (if deq f01 f11 then (f11, true, dicr s1 n0) else dunique (dicr s1 n0) i f11 f01) as [[n1 fd1] s3]. cbn [snd] in B.
  change (dnx (dicr s1 n0)) with (dnx s1) in B. cbn [dnx set_dtab].
  destruct fd0, fd1; cbn; lia.
Qed.
Lemma sweep1_nx j s a : dnx (sweep1 j s a) = dnx s.
Proof. unfold sweep1. destruct (drc (dm s a) =? 0); reflexivity. Qed.
Lemma exchange_nx Mx s i j : dnx s <= dnx (exchange Mx s i j).
Proof.
  unfold exchange. destruct (Mx i j); [|lia].
  assert (A : forall l s, dnx s <= dnx (fold_left (exchange1 i j) l s)).
  { induction l as [|a l IH]; intros t; cbn [fold_left]; [lia|]. pose proof (exchange1_nx i j t a). specialize (IH (exchange1 i j t a)). lia. }
  assert (B : forall l s, dnx (fold_left (sweep1 j) l s) = dnx s).
  { induction l as [|a l IH]; intros t; cbn [fold_left]; auto. rewrite IH. apply sweep1_nx. }
  unfold sweep. rewrite B. eapply N.le_trans; [|apply A]. cbn [dnx set_dtab]. lia.
Qed.

(** ** Any sequence of exchanges *)
Section Fold.
Variables (Mx : N -> N -> bool) (x : N -> Z).
Hypothesis Hx : forall b, (0 <= x b)%Z.

Record RI (r0 : rst) (D0 : den) (r : rst) (D : den) : Prop := {
  ri_wfo : wfo (ro r);
  ri_perm : Permutation (ord (ro r)) (ord (ro r0));
  ri_xi : XI (ro r) 0 0 Mx [] D (rd r);
  ri_xr : exists P, XR [] (rd r) P x;
  ri_gx : gx x (rd r0) D0 (rd r) D;
  ri_nx : dnx (rd r0) <= dnx (rd r);
  ri_t : asame (rtemp r0) (rtemp r) /\ AL (ro r) (rtemp r);
  ri_a : Forall2 asame (rassoc r0) (rassoc r) /\ Forall (AL (ro r)) (rassoc r)
}.

Lemma asame_trans a b c : asame a b -> asame b c -> asame a c.
Proof. intros (A1 & A2 & A3) (B1 & B2 & B3). repeat split; congruence. Qed.

Lemma exchange_at_spec r0 D0 r D k : RI r0 D0 r D -> exists D', RI r0 D0 (exchange_at Mx r k) D'.
Proof.
  intros [W P X [PP R] G Nx [T1 T2] [A1 A2]]. unfold exchange_at.
  destruct (nth_error (ord (ro r)) (N.to_nat k)) as [i|] eqn:Hi; [|exists D; constructor; eauto].
  destruct (nth_error (ord (ro r)) (S (N.to_nat k))) as [j|] eqn:Hj; [|exists D; constructor; eauto].
  destruct (exchange_spec (ro r) k i j W Hi Hj Mx D (rd r) PP x 0 0 X R Hx) as (D' & P' & X' & R' & G').
  exists D'. constructor; cbn [ro rd rtemp rassoc].
  - now apply sw_wfo.
  - cbn [ord swap_order]. eapply perm_trans; [apply swap_list_perm|exact P].
  - eapply XI_any; exact X'.
  - eauto.
  - eapply gx_trans; eauto.
  - pose proof (exchange_nx Mx (rd r) i j). lia.
  - split; [eapply asame_trans; [exact T1|apply fixup_same]|]. apply fixup_AL; auto.
  - split.
    + revert A1. generalize (rassoc r0) (rassoc r). induction 1 as [|a b l l' Hab H IH]; cbn [map]; constructor; auto.
      eapply asame_trans; [exact Hab|apply fixup_same].
    + apply Forall_forall. intros a Ia. apply in_map_iff in Ia as (b & <- & Ib). apply fixup_AL; auto.
      rewrite Forall_forall in A2. auto.
Qed.

Lemma exchanges_spec : forall sw r0 D0 r D, RI r0 D0 r D -> exists D', RI r0 D0 (fold_left (exchange_at Mx) sw r) D'.
Proof.
  induction sw as [|k sw IH]; intros r0 D0 r D R; cbn [fold_left]; [eauto|].
  destruct (exchange_at_spec r0 D0 r D k R) as [D1 R1]. eapply IH; eauto.
Qed.
End Fold.
