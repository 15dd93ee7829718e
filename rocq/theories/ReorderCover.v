(** When the interaction matrix covers every node: [reorder] keeps the invariant of the manager. *)
From Coq Require Import NArith ZArith List Bool Lia Permutation.
From Verif Require Import Base BFModel StoreInv Own EngInv ApplyProof ReduceProof EngineProof QProof GCProof VarProof MgrModel ApiModel MInv
  ApiProof ApiStruct ApiVar GraphProof ReorderModel ReorderProof ReorderStep ReorderRen ReorderInit ReorderBack ReorderMgr.
Import ListNotations.
Open Scope N_scope.

(** ** Collection only removes nodes and lowers counts *)
Definition below (s s' : store) : Prop :=
  (forall i b, In b (ut s' i) -> In b (ut s i)) /\ (forall c, sameTE (mem s) (mem s') c) /\
  (forall b, cr (mem s' b) <= cr (mem s b)).
Lemma below_refl s : below s s.
Proof. split; [auto|]. split; [intros c; split; auto|intros; lia]. Qed.
Lemma below_trans s1 s2 s3 : below s1 s2 -> below s2 s3 -> below s1 s3.
Proof.
  intros (A1 & A2 & A3) (B1 & B2 & B3). split; [auto|]. split.
  - intros c. exact (sameTE_trans _ _ _ c (A2 c) (B2 c)).
  - intros b. specialize (A3 b). specialize (B3 b). lia.
Qed.
Lemma rc_dcr_le n : rc_dcr n <= n.
Proof. unfold rc_dcr. destruct (N.eqb_spec n 0); [lia|]. destruct (N.eqb_spec n MAXREF); subst; lia. Qed.
Lemma below_gcd s i a : below s (gcd s i a).
Proof.
  split; [|split].
  - intros j b. rewrite gcd_ut. destruct (N.eqb_spec j i) as [->|]; auto. rewrite in_remove'. tauto.
  - apply gcd_te.
  - intros b. rewrite gcd_mem, QProof.cr_dcr.
    assert (Q : cr (mem (dcr s (ct (mem s a))) b) <= cr (mem s b)).
    { rewrite QProof.cr_dcr. destruct (b =? _); [apply rc_dcr_le|lia]. }
    destruct (b =? _); auto. pose proof (rc_dcr_le (cr (mem (dcr s (ct (mem s a))) b))). lia.
Qed.
Lemma below_gc1 i p a : below (fst p) (fst (gc1 i p a)).
Proof.
  destruct p as [s fr]. unfold gc1. destruct (cr (mem s a) =? 0); [|apply below_refl]. apply (below_gcd s i a).
Qed.
Lemma below_table i p : below (fst p) (fst (gc_table p i)).
Proof.
  unfold gc_table. generalize (ut (fst p) i) as l. intros l. revert p. induction l as [|a l IH]; intros p; cbn [fold_left]; [apply below_refl|].
  eapply below_trans; [apply below_gc1|apply IH].
Qed.
Lemma below_tables l p : below (fst p) (fst (fold_left gc_table l p)).
Proof.
  revert p. induction l as [|i l IH]; intros p; cbn [fold_left]; [apply below_refl|].
  eapply below_trans; [apply (below_table i)|apply IH].
Qed.

(** ** The ids met from an edge *)
Lemma met_ext n m m' : (forall c, sameTE m m' c) -> forall e, met n m' e = met n m e.
Proof.
  intros H. induction n as [|n IH]; intros e; cbn [met]; auto. destruct (H (eptr e)) as [-> ->]. now rewrite !IH.
Qed.
Lemma met_eq n m e f : eid e = eid f -> eptr e = eptr f -> met n m e = met n m f.
Proof. intros E1 E2. destruct n; cbn [met]; auto. now rewrite E1, E2. Qed.

Definition depF (F : (N -> bool) -> bool) (i : N) : Prop := exists rho, F (flip rho i true) <> F (flip rho i false).

Section Met.
Variables (o : order) (D : den) (s : store).
Hypothesis Wo : wfo o.
Hypothesis W : SWF o s.
Hypothesis Kd : Dok D s.

Lemma sub_met n e y : vedge (nodeR s) e -> (GraphProof.rank o e <= n)%nat -> sub (mem s) e y -> isconst y = false -> In (eid y) (met (S n) (mem s) e).
Proof.
  revert e. induction n as [|n IH]; intros e Ve Hr Sy Cy.
  - destruct (isconst e) eqn:Ce.
    + destruct (sub_inv _ _ _ Sy) as [->|[Q _]]; congruence.
    + destruct (node_split o s Wo W e Ve Ce) as (_ & _ & _ & _ & _ & _ & _ & R1 & _). lia.
  - destruct (isconst e) eqn:Ce.
    + destruct (sub_inv _ _ _ Sy) as [->|[Q _]]; congruence.
    + destruct (node_split o s Wo W e Ve Ce) as (N0 & _ & _ & V1 & V2 & _ & _ & R1 & R2).
      change (In (eid y) (if eid e =? 0 then [] else eid e :: met (S n) (mem s) (ct (mem s (eptr e))) ++ met (S n) (mem s) (ce (mem s (eptr e))))).
      unfold isconst in Ce. rewrite Ce. destruct (sub_inv _ _ _ Sy) as [->|[_ [Q|Q]]]; [now left| |]; right; apply in_or_app; [left|right].
      * rewrite (met_eq (S n) (mem s) _ (thenof (mem s) e)) by reflexivity. apply IH; auto. lia.
      * rewrite (met_eq (S n) (mem s) _ (elseof (mem s) e)) by reflexivity. apply IH; auto. lia.
Qed.
Lemma indep_or e i : vedge (nodeR s) e ->
  (In i (ord o) /\ depF (dv D e) i) \/ (forall rho b, dv D e (flip rho i b) = dv D e rho).
Proof.
  intros Ve.
  destruct (in_dec N.eq_dec i (ord o)) as [Ii|Ni].
  - assert (Dec : forall f, vedge (nodeR s) f -> (exists x, sub (mem s) f x /\ isconst x = false /\ eid x = i) \/ (forall x, sub (mem s) f x -> isconst x = false -> eid x <> i)).
    { intros f Vf. pattern f. revert f Vf. apply (edge_induct o s Wo W).
      - intros f Vf C. right. intros x Sx Cx. destruct (sub_inv _ _ _ Sx) as [-> |[C' _]]; congruence.
      - intros f Vf C [(x & Sx & Cx & Ex)|H1].
        { intros _. left. exists x. split; auto. eapply sub_trans; [|eauto]. constructor; [constructor|auto]. }
        intros [(x & Sx & Cx & Ex)|H2].
        { left. exists x. split; auto. eapply sub_trans; [|eauto]. apply sub_else; [constructor|auto]. }
        destruct (N.eq_dec (eid f) i) as [E|Ne]; [left; exists f; split; [constructor|auto]|].
        right. intros x Sx Cx. destruct (sub_inv _ _ _ Sx) as [-> |[_ [A|A]]]; auto. }
    destruct (Dec e Ve) as [A|A].
    + left. split; auto. exact (proj2 (dep_iff o D s Wo W Kd e i Ve Ii) A).
    + right. exact (no_sub_indep o D s Wo W Kd e i Ve A).
  - right. apply (no_sub_indep o D s Wo W Kd e i Ve). intros x Sx Cx <-. apply Ni.
    destruct (node_split o s Wo W x (sub_V o s Wo W _ _ Ve Sx) Cx) as (_ & Q & _). exact Q.
Qed.
Lemma dep_in e i : vedge (nodeR s) e -> depF (dv D e) i -> In i (ord o).
Proof.
  intros Ve [rho H]. destruct (indep_or e i Ve) as [[Q _]|Q]; auto. exfalso. apply H. now rewrite !Q.
Qed.
Lemma dep_met e i : vedge (nodeR s) e -> depF (dv D e) i -> In i (met (S (length (ord o))) (mem s) e).
Proof.
  intros Ve H. pose proof (dep_in e i Ve H) as Ii. apply (dep_iff o D s Wo W Kd e i Ve Ii) in H as (x & Sx & Cx & <-).
  apply sub_met; auto. apply (rank_le o s e Ve).
Qed.
Lemma met_dep n e i : vedge (nodeR s) e -> In i (met n (mem s) e) -> depF (dv D e) i.
Proof.
  intros Ve H. assert (Q : exists x, sub (mem s) e x /\ isconst x = false /\ eid x = i).
  { revert e Ve H. induction n as [|n IH]; intros e Ve; cbn [met]; [intros []|].
    destruct (eid e =? 0) eqn:C; [intros []|]. fold (isconst e) in C.
    destruct (node_split o s Wo W e Ve C) as (N0 & _ & _ & V1 & V2 & _).
    intros [<-|H]; [exists e; split; [constructor|auto]|]. apply in_app_or in H as [H|H].
    - rewrite (met_eq n (mem s) _ (thenof (mem s) e)) in H by reflexivity. destruct (IH _ V1 H) as (x & Sx & Cx & Ex).
      exists x. split; auto. eapply sub_trans; [|exact Sx]. constructor; [constructor|auto].
    - rewrite (met_eq n (mem s) _ (elseof (mem s) e)) in H by reflexivity. destruct (IH _ V2 H) as (x & Sx & Cx & Ex).
      exists x. split; auto. eapply sub_trans; [|exact Sx]. apply sub_else; [constructor|auto]. }
  destruct Q as (x & Sx & Cx & E). assert (Ii : In i (ord o)).
  { destruct (node_split o s Wo W x (sub_V o s Wo W _ _ Ve Sx) Cx) as (_ & Q & _). congruence. }
  apply (dep_iff o D s Wo W Kd e i Ve Ii). eauto.
Qed.
End Met.

(** ** Every node of a collected manager is covered *)
Lemma interacts_in o s i j u : In u (ut s 0) -> In i (met (S (length (ord o))) (mem s) (ct (mem s u))) ->
  In j (met (S (length (ord o))) (mem s) (ct (mem s u))) -> interacts o s i j = true.
Proof.
  intros Iu Hi Hj. unfold interacts. apply existsb_exists. exists u. split; auto. cbv zeta.
  apply andb_true_intro. split; apply existsb_exists; [exists i|exists j]; (split; [auto|apply N.eqb_refl]).
Qed.

Definition togeth (m : mgr) (D : den) (hs : list ubdd) (F : (N -> bool) -> bool) : Prop :=
  forall p q, p <> q -> depF F p -> depF F q -> exists h, In h hs /\ depF (dv D (uint (mmem m) h)) p /\ depF (dv D (uint (mmem m) h)) q.

Lemma depF_ext F G i : (forall rho, F rho = G rho) -> depF F i -> depF G i.
Proof. intros E [rho H]. exists rho. now rewrite <- !E. Qed.
Lemma depF_neg F i b : depF (fun rho => xorb b (F rho)) i <-> depF F i.
Proof.
  split; intros [rho H]; exists rho; intros Q; apply H; rewrite ?Q; auto.
  destruct b, (F (flip rho i true)), (F (flip rho i false)); simpl in *; congruence.
Qed.
Lemma depF_phase D e b i : depF (dv D (ephase e b)) i <-> depF (dv D e) i.
Proof.
  rewrite <- (depF_neg (dv D e) i b). split; apply depF_ext; intros rho; [|symmetry]; rewrite dv_ephase; now destruct b, (dv D e rho).
Qed.

Lemma held_node s x b : held s x b -> isnode s b.
Proof. intros H; destruct H; auto. Qed.
Lemma QS_max o D en x i b : QS o D en x -> In b (ut (st en) i) -> cr (mem (st en) b) <= MAXREF.
Proof.
  intros (own & L & J & R) Ib. apply (rc_max _ _ _ _ _ _ R). left. exists i. now apply (acc_node _ _ _ _ (ei_acc _ _ _ _ J)).
Qed.

Section Cover.
Variables (m m1 : mgr) (hs : list ubdd) (D : den) (sg : store).
Hypothesis I : MInv m hs lk0 D.
Hypothesis I1 : MInv m1 hs lk0 D.
Hypothesis Eo : mo m1 = mo m.
Hypothesis NZ1 : forall i, NZ (st (me m1)) i.
Hypothesis Bg : below sg (st (me m1)).
Hypothesis B1 : below (st (me m)) (st (me m1)).
Hypothesis Ea : mtemp m1 = mtemp m /\ massoc m1 = massoc m.
Hypothesis Ha : forall a i e, In a (mtemp m :: massoc m) -> amap a i = Some e -> togeth m D hs (dv D e).
Hypothesis Hs : forall v b, v <> 0 -> In b (ut (st (me m)) v) -> cr (mmem m b) = MAXREF -> togeth m D hs (D b).

Let o := mo m1.
Let s1 := st (me m1).
Let Mx := interacts o sg.
Definition cov (F : (N -> bool) -> bool) : Prop := forall p q, p <> q -> depF F p -> depF F q -> Mx p q = true.

Lemma user_cov u : In u (ut s1 0) -> cov (dv D (ct (mem s1 u))).
Proof.
  intros Iu p q Npq Hp Hq. pose proof (mi_wfo _ _ _ _ I1) as Wo. pose proof (MI_swf _ _ _ _ I1) as W. pose proof (MI_dok _ _ _ _ I1) as Kd.
  destruct (swf_user _ _ W u Iu) as (Vu & _).
  destruct Bg as (G1 & G2 & _). unfold Mx. apply (interacts_in o sg p q u (G1 0 u Iu));
    destruct (G2 u) as [<- _]; rewrite <- (met_ext _ (mem sg) (mem s1) G2); apply (dep_met o D s1 Wo W Kd); auto.
Qed.
Lemma togeth_cov F : togeth m D hs F -> cov F.
Proof.
  intros H p q Npq Hp Hq. destruct (H p q Npq Hp Hq) as (h & Ih & Dp & Dq).
  apply (user_cov (uptr h) (mi_hs _ _ _ _ I1 h Ih) p q Npq); destruct B1 as (_ & T & _); destruct (T (uptr h)) as [T1 _]; unfold s1; rewrite T1.
  - exact (proj1 (depF_phase _ _ _ _) Dp).
  - exact (proj1 (depF_phase _ _ _ _) Dq).
Qed.
Lemma cov_ext F G : (forall rho, F rho = G rho) -> cov F -> cov G.
Proof. intros E H p q N Hp Hq. apply (H p q N); apply (depF_ext G F); auto. Qed.
Lemma cov_phase e b : cov (dv D (ephase e b)) <-> cov (dv D e).
Proof. split; intros H p q N Hp Hq; apply (H p q N); [apply depF_phase|apply depF_phase|apply (depF_phase D e b)|apply (depF_phase D e b)]; auto. Qed.
Lemma cov_ptr e : cov (dv D e) <-> cov (D (eptr e)).
Proof.
  split; intros H p q N Hp Hq; apply (H p q N).
  - apply (depF_neg _ _ (eneg e)) in Hp. revert Hp. apply depF_ext. intros rho. reflexivity.
  - apply (depF_neg _ _ (eneg e)) in Hq. revert Hq. apply depF_ext. intros rho. reflexivity.
  - apply (depF_neg _ _ (eneg e)). revert Hp. apply depF_ext. intros rho. reflexivity.
  - apply (depF_neg _ _ (eneg e)). revert Hq. apply depF_ext. intros rho. reflexivity.
Qed.

Lemma all_cov v b : v <> 0 -> In b (ut s1 v) -> cov (D b).
Proof.
  intros Nv Ib. pose proof (mi_wfo _ _ _ _ I1) as Wo. pose proof (MI_swf _ _ _ _ I1) as W. pose proof (MI_dok _ _ _ _ I1) as Kd.
  pose proof (all_held o D (me m1) (xr m1 hs lk0) Wo (mi_q _ _ _ _ I1) NZ1 b (ex_intro _ v Ib)) as H.
  revert v Nv Ib. induction H as [b Nb Hx|b Nb Hc|a b H IH Nb Hab]; intros v Nv Ib.
  - unfold xr, lk0 in Hx.
    assert (Dis : ~ In b (ut s1 0)) by (intros Q; apply Nv; exact (swf_disj _ _ W v 0 b Ib Q)).
    destruct (N.eq_dec (hcnt hs b) 0) as [Z1|Z1].
    2:{ apply hcnt_pos in Z1 as (h & Ih & <-). destruct Dis. exact (mi_hs _ _ _ _ I1 h Ih). }
    destruct (N.eq_dec (asum (ord (mo m1)) (mtemp m1 :: massoc m1) b) 0) as [Z2|Z2].
    2:{ apply asum_pos in Z2 as (a & i & e & Ia & Ii & Ee & <-). apply cov_ptr. apply togeth_cov.
        destruct Ea as [Et El]. rewrite Et, El in Ia. exact (Ha a i e Ia Ee). }
    destruct (perm_pos m1 b) as [->|(i & Ii & ->)]; [lia| |].
    + destruct Dis. exact (proj1 (mi_one _ _ _ _ I1)).
    + intros p q Npq Hp Hq. exfalso. destruct (mi_var _ _ _ _ I1 i Ii) as (V1 & V2 & V3 & V4).
      assert (Ni : i <> 0) by exact (proj1 (wfo_in o i Wo Ii)).
      assert (E : forall rho, D (eptr (mvb m1 i)) rho = rho i).
      { intros rho. rewrite (dok_node D _ Kd i _ rho Ni V2), V3, V4. rewrite (dv_one D s1 rho Kd), (dv_zero D s1 rho Kd). now destruct (rho i). }
      assert (Q : forall r, depF (D (eptr (mvb m1 i))) r -> r = i).
      { intros r [rho Hr]. rewrite !E in Hr. unfold flip in Hr. destruct (N.eqb_spec i r); congruence. }
      apply Npq. now rewrite (Q p Hp), (Q q Hq).
  - apply togeth_cov. destruct B1 as (U1 & U2 & U3). apply (Hs v b Nv (U1 v b Ib)).
    specialize (U3 b). rewrite Hc in U3. pose proof (QS_max _ _ _ _ v b (mi_q _ _ _ _ I) (U1 v b Ib)) as Q. lia.
  - destruct (held_node _ _ _ H) as [w Iw].
    destruct (N.eq_dec w 0) as [->|Nw].
    + destruct (swf_user _ _ W a Iw) as (_ & C2 & _). destruct Hab as [->| ->].
      * apply cov_ptr. now apply user_cov.
      * rewrite C2 in Ib. pose proof (swf_addr _ _ W _ _ Ib). cbn [eptr one] in *. unfold ONE in *. lia.
    + specialize (IH w Nw Iw).
      assert (Va : vedge (nodeR s1) (E w a false)) by (right; split; auto).
      assert (Ca : isconst (E w a false) = false) by (unfold isconst; cbn [eid]; now apply N.eqb_neq).
      destruct (node_split o s1 Wo W _ Va Ca) as (_ & _ & _ & V1 & V2 & L1 & L2 & _).
      assert (T : forall e, (e = thenof (mem s1) (E w a false) \/ e = elseof (mem s1) (E w a false)) -> vedge (nodeR s1) e ->
          idx o w < idx o (eid e) -> forall p, depF (dv D e) p -> depF (D a) p).
      { intros e Ee Ve Le p Hp.
        assert (Np : p <> w).
        { intros ->. destruct Hp as [rho Hp]. apply Hp. apply (dv_agree o D s1 Wo W Kd e Ve).
          - intros i Li. unfold flip. destruct (N.eqb_spec i w) as [->|]; auto. lia. }
        assert (Q : dep D (E w a false) p).
        { apply (dep_child o D s1 Wo W Kd _ p Va Ca Np). destruct Ee as [->| ->]; [left|right]; exact Hp. }
        revert Q. apply depF_ext. intros rho. unfold dv. cbn [eptr eneg]. now rewrite ?xorb_false_l. }
      destruct Hab as [->| ->].
      * apply cov_ptr. apply (cov_phase _ false). intros p q N Hp Hq. apply (IH p q N); eapply (T (thenof (mem s1) (E w a false))); eauto.
      * apply cov_ptr. apply (cov_phase _ false). intros p q N Hp Hq. apply (IH p q N); eapply (T (elseof (mem s1) (E w a false))); eauto.
Qed.

Lemma cover_HM v a p q : v <> 0 -> In a (ut s1 v) -> p <> q -> Mx p q = false -> indep (D a) p \/ indep (D a) q.
Proof.
  intros Nv Ia Npq HM. pose proof (mi_wfo _ _ _ _ I1) as Wo. pose proof (MI_swf _ _ _ _ I1) as W. pose proof (MI_dok _ _ _ _ I1) as Kd.
  assert (Va : vedge (nodeR s1) (E v a false)) by (right; split; auto).
  assert (E1 : forall rho, dv D (E v a false) rho = D a rho) by (intros rho; unfold dv; cbn [eptr eneg]; now rewrite ?xorb_false_l).
  destruct (indep_or o D s1 Wo W Kd _ p Va) as [[_ Hp]|Hp].
  - destruct (indep_or o D s1 Wo W Kd _ q Va) as [[_ Hq]|Hq].
    + rewrite (all_cov v a Nv Ia p q Npq) in HM; [discriminate| |]; eapply depF_ext; eauto.
    + right. intros rho b. specialize (Hq rho b). rewrite !E1 in Hq. exact Hq.
  - left. intros rho b. specialize (Hp rho b). rewrite !E1 in Hp. exact Hp.
Qed.
End Cover.

(** ** [Cal_BddReorder] *)
Theorem reorder_spec m hs D sw : MInv m hs lk0 D ->
  (forall a i e, In a (mtemp m :: massoc m) -> amap a i = Some e -> togeth m D hs (dv D e)) ->
  (forall v b, v <> 0 -> In b (ut (st (me m)) v) -> cr (mmem m b) = MAXREF -> togeth m D hs (D b)) ->
  exists D', MInv (reorder sw m) hs lk0 D' /\ mext hs m D (reorder sw m) D' /\ Permutation (ord (mo (reorder sw m))) (ord (mo m)).
Proof.
  intros I Ha Hs.
  destruct (gc_MInv m hs lk0 D I) as [I0 X0].
  destruct (MInv_cache (gc m) hs lk0 D (fun _ => None)) as [I1 X1]; auto; [discriminate|].
  set (m1 := set_mca (gc m) (fun _ => None)) in *.
  destruct (gc_store (mo m) (st (me m))) as [s fr] eqn:GS.
  assert (Em : m1 = M (set_st (me m) s) (mo m) (muone m) (mvb m) (fun _ => None) (massoc m) (mtemp m) (mcur m) (mtop m) (mlim m) (mnl m) (mov m)).
  { unfold m1, gc. rewrite GS. reflexivity. }
  set (sg := fst (gc_table (st (me m), []) 0)).
  assert (Er : reorder sw m = reorder_from (interacts (mo m1) sg) sw m1).
  { rewrite Em. unfold reorder, reorder_from. rewrite GS. reflexivity. }
  assert (Bg : below sg (st (me m1))).
  { rewrite Em. cbn [me st set_st]. replace s with (fst (gc_store (mo m) (st (me m)))) by (now rewrite GS).
    unfold gc_store. cbn [fold_left]. apply below_tables. }
  assert (Bm : below (st (me m)) (st (me m1))).
  { eapply below_trans; [|exact Bg]. apply (below_table 0 (st (me m), [])). }
  assert (NZ1 : forall i, NZ (st (me m1)) i).
  { rewrite Em. cbn [me st set_st]. exact (proj2 (gc_store_spec _ _ _ _ _ _ (mi_wfo _ _ _ _ I) (mi_q _ _ _ _ I) GS)). }
  assert (HM : forall v a p q, v <> 0 -> In a (ut (st (me m1)) v) -> p <> q -> interacts (mo m1) sg p q = false -> indep (D a) p \/ indep (D a) q).
  { apply (cover_HM m m1 hs D sg I I1); auto; rewrite Em; auto. }
  destruct (reorder_core m1 hs D _ sw I1 HM) as (D' & I2 & X2 & P2).
  exists D'. rewrite Er. split; [exact I2|]. split; [|rewrite Em in *; exact P2].
  eapply mext_trans; [exact X0|]. eapply mext_trans; [exact X1|exact X2].
Qed.
