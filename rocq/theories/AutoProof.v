(** * Automatic reordering keeps the invariant of the manager. *)
From Coq Require Import NArith ZArith List Bool Lia Permutation.
From Verif Require Import Base BFModel StoreInv Own EngInv QProof GCProof MgrModel ApiModel MInv ApiProof ApiVar ReorderModel ReorderMgr ReorderCover
  BFReorderModel BFReorderMgr BFSiftModel BFSiftMgr AutoModel.
Import ListNotations.
Open Scope N_scope.

Lemma gc_flush m : set_mca (gc m) (fun _ => None) = gc (set_mca m (fun _ => None)).
Proof. unfold gc, set_mca, set_mst, set_me. cbn [mo me st]. destruct (gc_store (mo m) (st (me m))) as [s fr]. reflexivity. Qed.
Lemma window_now lim fuel m : reorder_now (TWindow lim fuel) (gc m) = reorder_window lim fuel m.
Proof. unfold reorder_now, reorder_window. cbv zeta. now rewrite gc_flush. Qed.
Lemma sift_now lim maxv maxs grow m : reorder_now (TSift lim maxv maxs grow) (gc m) = reorder_sift lim maxv maxs grow m.
Proof. unfold reorder_now, reorder_sift. cbv zeta. now rewrite gc_flush. Qed.

Lemma gc_below m : below (st (me m)) (st (me (gc m))).
Proof.
  replace (st (me (gc m))) with (fst (gc_store (mo m) (st (me m)))).
  - unfold gc_store. exact (below_tables _ (st (me m), [])).
  - unfold gc. destruct (gc_store (mo m) (st (me m))) as [s fr]. reflexivity.
Qed.
Lemma gc_fields m : mo (gc m) = mo m /\ mtemp (gc m) = mtemp m /\ massoc (gc m) = massoc m /\ mnl (gc m) = mnl m.
Proof. unfold gc. destruct (gc_store (mo m) (st (me m))) as [s fr]. repeat split. Qed.

Lemma reorder_now_spec m hs D t m' : MInv m hs lk0 D ->
  (forall a i e, In a (mtemp m :: massoc m) -> amap a i = Some e -> togeth m D hs (dv D e)) ->
  (forall v b, v <> 0 -> In b (ut (st (me m)) v) -> cr (mmem m b) = MAXREF -> togeth m D hs (D b)) ->
  reorder_now t (gc m) = Ok m' ->
  exists D', MInv m' hs lk0 D' /\ mext hs m D m' D' /\ Permutation (ord (mo m')) (ord (mo m)).
Proof.
  intros I Ha Hs H. destruct t as [|sw|lim fuel|lim maxv maxs grow].
  - injection H as <-. destruct (gc_MInv m hs lk0 D I) as [I1 X1]. exists D. split; [exact I1|]. split; [exact X1|].
    rewrite (proj1 (gc_fields m)). apply Permutation_refl.
  - injection H as <-. destruct (gc_MInv m hs lk0 D I) as [I1 X1].
    destruct (MInv_cache (gc m) hs lk0 D (fun _ => None)) as [I2 X2]; [discriminate|exact I1|].
    destruct (gc_fields m) as (F1 & F2 & F3 & _).
    assert (T : forall F, togeth m D hs F -> togeth (set_mca (gc m) (fun _ => None)) D hs F).
    { intros F HT p q N Hp Hq. destruct (HT p q N Hp Hq) as (h & Ih & Dp & Dq). exists h. split; [exact Ih|].
      assert (Eh : forall rho, dv D (uint (mmem m) h) rho = dv D (uint (mmem (gc m)) h) rho) by (intros rho; symmetry; exact (mx_h _ _ _ _ _ X1 h Ih rho)).
      split; [exact (depF_ext _ _ p Eh Dp)|exact (depF_ext _ _ q Eh Dq)]. }
    destruct (reorder_spec (set_mca (gc m) (fun _ => None)) hs D sw I2) as (D' & I3 & X3 & P3).
    + intros a i e Ia Ee. apply T. apply (Ha a i e); [|exact Ee]. rewrite <- F2, <- F3. exact Ia.
    + intros v b Nv Ib Hc. apply T. destruct (gc_below m) as (B1 & _ & B3). apply (Hs v b Nv); [exact (B1 v b Ib)|].
      specialize (B3 b). change (cr (mem (st (me (gc m))) b) = MAXREF) in Hc. rewrite Hc in B3.
      pose proof (QS_max _ _ _ _ v b (mi_q _ _ _ _ I) (B1 v b Ib)). change (mmem m) with (mem (st (me m))). lia.
    + exists D'. split; [exact I3|]. split; [|cbn [mo set_mca] in P3; rewrite F1 in P3; exact P3].
      eapply mext_trans; [exact X1|]. eapply mext_trans; [exact X2|exact X3].
  - rewrite window_now in H. exact (reorder_window_spec m hs D lim fuel m' I Ha Hs H).
  - rewrite sift_now in H. exact (reorder_sift_spec m hs D lim maxv maxs grow m' I Ha Hs H).
Qed.

Theorem post_auto_spec m hs D d thr t ov m' : MInv m hs lk0 D ->
  (forall a i e, In a (mtemp m :: massoc m) -> amap a i = Some e -> togeth m D hs (dv D e)) ->
  (forall v b, v <> 0 -> In b (ut (st (me m)) v) -> cr (mmem m b) = MAXREF -> togeth m D hs (D b)) ->
  post_auto d thr t m = Ok (ov, m') ->
  exists D', MInv m' hs lk0 D' /\ mext hs m D m' D' /\ Permutation (ord (mo m')) (ord (mo m)).
Proof.
  intros I Ha Hs. unfold post_auto. destruct (d_chk d).
  { intros [= <- <-]. exists D. split; [exact I|]. split; [apply mext_refl|apply Permutation_refl]. }
  destruct (mlim m <? nn (st (me m))).
  2:{ intros [= <- <-]. exists D. split; [exact I|]. split; [apply mext_refl|apply Permutation_refl]. }
  cbv zeta.
  assert (R : forall m1, (if must_reorder thr t (gc m) then reorder_now t (gc m) else Ok (gc m)) = Ok m1 ->
      exists D', MInv m1 hs lk0 D' /\ mext hs m D m1 D' /\ Permutation (ord (mo m1)) (ord (mo m))).
  { intros m1. destruct (must_reorder thr t (gc m)).
    - apply reorder_now_spec; assumption.
    - intros H. exact (reorder_now_spec m hs D TNone m1 I Ha Hs H). }
  destruct (if must_reorder thr t (gc m) then reorder_now t (gc m) else Ok (gc m)) as [m1| |]; try discriminate.
  cbn [obind]. destruct (R m1 eq_refl) as (D' & I1 & X1 & P1). clear R.
  destruct (set_gclimit_MInv _ hs lk0 D' I1) as [I2 X2].
  assert (P2 : Permutation (ord (mo (set_gclimit m1))) (ord (mo m))) by exact P1.
  set (m2 := set_gclimit m1) in *.
  destruct (negb (mnl m2 =? 0) && (mnl m2 <? nn (st (me m2)))); intros [= <- <-].
  - destruct (MInv_limits m2 hs lk0 D' (mlim m2) (mnl m2) true I2) as [I3 X3].
    exists D'. split; [exact I3|]. split; [|exact P2]. eapply mext_trans; [exact X1|]. eapply mext_trans; [exact X2|exact X3].
  - destruct (MInv_cache m2 hs lk0 D' (cache_rehash (d_rehash d) (mca m2))) as [I3 X3]; [|exact I2|].
    { intros k e. unfold cache_rehash. destruct (d_rehash d k) as [j|]; [|discriminate]. eauto. }
    exists D'. split; [exact I3|]. split; [|exact P2]. eapply mext_trans; [exact X1|]. eapply mext_trans; [exact X2|exact X3].
Qed.

(** Without a technique it is the check of the operations. *)
Lemma post_none d thr m : post_auto d thr TNone m = Ok (postproc d m).
Proof.
  unfold post_auto, postproc, must_reorder. cbn [is_none negb]. rewrite andb_false_r. destruct (d_chk d); [reflexivity|].
  destruct (mlim m <? nn (st (me m))); [|reflexivity]. cbn [obind]. cbv zeta. destruct (negb _ && _); reflexivity.
Qed.
