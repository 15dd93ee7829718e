(** * Breadth-first sifting and the manager. *)
From Coq Require Import NArith ZArith List Bool Lia Permutation.
From Verif Require Import Base BFModel StoreInv Own EngInv ApplyProof EngineProof QProof GCProof VarProof MgrModel ApiModel MInv
  ApiProof ApiVar ReorderModel ReorderProof ReorderStep ReorderRen ReorderInit ReorderBack ReorderMgr ReorderCover PackModel
  BFReorderModel BFReorderSim BFReorderFree BFReorderInv BFReorderMgr BFSiftModel BFSiftProof.
Import ListNotations.
Open Scope N_scope.

Theorem reorder_sift_spec m hs D lim maxv maxs grow m' : MInv m hs lk0 D ->
  (forall a i e, In a (mtemp m :: massoc m) -> amap a i = Some e -> togeth m D hs (dv D e)) ->
  (forall v b, v <> 0 -> In b (ut (st (me m)) v) -> cr (mmem m b) = MAXREF -> togeth m D hs (D b)) ->
  reorder_sift lim maxv maxs grow m = Ok m' ->
  exists D', MInv m' hs lk0 D' /\ mext hs m D m' D' /\ Permutation (ord (mo m')) (ord (mo m)).
Proof.
  intros I Ha Hs H. unfold reorder_sift in H. cbv zeta in H.
  apply obind_ok in H as (s & HP & H). destruct (no_forwarding (sb s)) eqn:NF; [|discriminate]. injection H as <-.
  apply (bf_spec m hs D (drop_w (sb s)) I Ha Hs).
  intros c1 x r0 f0 C1 Hx HIM S. apply (sift_clean c1 C1 _ x r0 D f0 HIM); [|exact NF].
  refine (proj1 (SI_all c1 C1 _ x r0 D f0 Hx HIM lim grow maxv maxs _ _ _ _ s _ HP)). split; [exact S|]. intros v a [].
Qed.
