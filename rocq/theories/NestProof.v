(** * An operation inside another one: the requests of the outer engine are put aside. *)
From Coq Require Import Permutation.
From Verif Require Import Base BFModel BatchModel StoreInv Own EngInv ApplyProof BinopProof StepProof ReduceProof EngineProof RunProof OpProof MultiProof.

(** Cells of the outer engine. *)
Definition outer (t : tag) : bool := match t with OQue _ _ | ODon _ _ | OInd _ => true | _ => false end.
Definition hid (own : N -> tag) (a : N) : tag := if outer (own a) then OX else own a.
Definition shw (own own' : N -> tag) (a : N) : tag := if outer (own a) then own a else own' a.
Definition holds (t : tag) : bool := match t with ONone | OFree _ => false | _ => true end.
Definition dshw (own : N -> tag) (D D' : den) : den := fun a => if holds (own a) || (a <=? 2) then D a else D' a.
Definition isnode (t : tag) : bool := match t with ONode _ => true | _ => false end.
Definition nodesof (own : N -> tag) (L : list N) : list N := filter (fun a => isnode (own a)) L.
Definition restof (own : N -> tag) (L : list N) : list N := filter (fun a => negb (isnode (own a))) L.
Definition xin (own : N -> tag) (rs : N -> N) (m : memory) (L : list N) (x : N -> N) (b : N) : N := x b + occ rs m (restof own L) b.

Lemma hid_node own a i : hid own a = ONode i <-> own a = ONode i.
Proof. unfold hid, outer. destruct (own a); split; intros H; congruence. Qed.
Lemma hid_acc own en : EAcc own en -> EAcc (hid own) (start (st en)).
Proof.
  intros [A1 A2 A3 A4]. constructor; auto.
  - intros t a Ht. specialize (A1 t a Ht). unfold hid. destruct t; try discriminate Ht; simpl in *.
    + rewrite A1. unfold outer. destruct (own a); split; intros E; congruence.
    + rewrite A1. unfold outer. destruct (own a); split; intros E; congruence.
    + split; [intros []|]. unfold outer. destruct (own a); discriminate.
    + split; [intros []|]. unfold outer. destruct (own a); discriminate.
  - intros t Ht. specialize (A2 t Ht). destruct t; try discriminate Ht; simpl in *; auto; constructor.
  - intros a Ha. apply A3. unfold hid, outer in Ha. intros E. rewrite E in Ha. now apply Ha.
Qed.

Lemma occ_split rs m own L b : occ rs m L b = occ rs m (nodesof own L) b + occ rs m (restof own L) b.
Proof. induction L as [|a L IH]; simpl; auto. destruct (isnode (own a)); simpl; lia. Qed.
Lemma occ_app rs m L1 L2 b : occ rs m (L1 ++ L2) b = occ rs m L1 b + occ rs m L2 b.
Proof. induction L1 as [|a L1 IH]; simpl; auto. lia. Qed.

Section Nest.
Variable o : order.
Variable q : nat -> N -> bool.
Variables (own : N -> tag) (D : den) (S : list N) (en : eng) (rs : N -> N) (L : list N) (x : N -> N).
Hypothesis AC : EAcc own en.
Hypothesis W : SWF o (st en).
Hypothesis Dk : Dok D (st en).
Hypothesis R : RCq q own S rs (mem (st en)) L x.
Hypothesis RI : forall p, p <= NUL \/ counted own p -> rs p = p.
Hypothesis RD : forall a d i, own a = ODon d i -> rs a <= NUL \/ exists i, own (rs a) = ONode i.

Notation m := (mem (st en)).

(** The children of a node are nodes. *)
Lemma node_child a i : own a = ONode i -> forall e, e = ct (m a) \/ e = ce (m a) ->
  eptr e <= NUL \/ exists j, own (eptr e) = ONode j.
Proof using AC W.
  intros Oa e He. apply (acc_node _ _ _ _ AC) in Oa.
  assert (vedge (nodeR (st en)) e \/ eptr e <= NUL) as [[[_ P]|[_ P]]|P].
  - destruct (N.eq_dec i 0) as [->|Ni].
    + destruct (swf_user o _ W a Oa) as (V1 & V2 & V3). destruct He as [->| ->]; auto.
      right. rewrite V2. unfold one, ONE, NUL. simpl. lia.
    + destruct (swf_node o _ W i a Ni Oa). destruct He as [->| ->]; auto.
  - left. rewrite P. unfold ONE, NUL. lia.
  - right. exists (eid e). now apply (acc_node _ _ _ _ AC).
  - now left.
Qed.
Lemma node_rs a i : own a = ONode i -> rs (eptr (ct (m a))) = eptr (ct (m a)) /\ rs (eptr (ce (m a))) = eptr (ce (m a)).
Proof using AC W RI.
  intros Oa. split; apply RI; (destruct (node_child a i Oa _ (or_introl eq_refl)) as [?|[j ?]];
    destruct (node_child a i Oa _ (or_intror eq_refl)) as [?|[j' ?]]); auto; right; left; eauto.
Qed.
Lemma nodes_in a : In a (nodesof own L) <-> exists i, own a = ONode i.
Proof using R.
  unfold nodesof. rewrite filter_In, (rc_L _ _ _ _ _ _ R). split.
  - intros [_ H]. unfold isnode in H. destruct (own a); try discriminate. eauto.
  - intros [i E]. rewrite E. split; eauto.
Qed.
Lemma rest_in a : In a (restof own L) <-> exists d i, own a = OQue d i /\ In a S /\ q d i = false.
Proof using R.
  unfold restof. rewrite filter_In, (rc_L _ _ _ _ _ _ R). split.
  - intros [[[i E]|H] H2]; [rewrite E in H2; discriminate|exact H].
  - intros (d & i & E & Is). rewrite E. split; eauto.
Qed.
Lemma rs_nf p : tgt own p -> rs p <= NUL \/ ~ freeish (own (rs p)).
Proof using RI RD.
  intros [H|[H|(d & i & H)]].
  - rewrite RI by auto. auto.
  - rewrite RI by auto. right. destruct H as [[i E]|(d & i & E)]; rewrite E; auto.
  - destruct (RD _ _ _ H) as [?|[j E]]; auto. right. rewrite E; auto.
Qed.

Lemma hide_RC : RC (hid own) [] idn m (nodesof own L) (xin own rs m L x).
Proof using AC W R RI RD.
  pose proof R as [B1 B2 B3 B4 B5 B6]. constructor.
  - now apply NoDup_filter.
  - intros a. rewrite nodes_in. split.
    + intros [i E]. left. exists i. now apply hid_node.
    + intros [[i E]|(d & i & _ & [] & _)]. apply (proj1 (hid_node _ _ _)) in E. eauto.
  - intros a Ia. apply nodes_in in Ia as [i E].
    split; [destruct (node_child a i E _ (or_introl eq_refl)) as [?|[j ?]]|destruct (node_child a i E _ (or_intror eq_refl)) as [?|[j ?]]];
    try (now left); right; left; left; exists j; now apply hid_node.
  - intros b Cb. assert (exists i, own b = ONode i) as [i Ob].
    { destruct Cb as [[i E]|(d & i & E)]; [exists i; exact (proj1 (hid_node _ _ _) E)|]. unfold hid, outer in E. destruct (own b); discriminate. }
    destruct (B4 b) as [E|E]; [left; eauto|now left|]. right. rewrite E, (occ_split rs m own). unfold xin.
    assert (occ rs m (nodesof own L) b = occ idn m (nodesof own L) b); [|lia].
    apply occ_rs_ext. intros c Ic. apply nodes_in in Ic as [j Oc]. now apply (node_rs c j).
  - intros b Cb. apply B5. destruct Cb as [[i E]|(d & i & E)]; [left; exists i; exact (proj1 (hid_node _ _ _) E)|].
    unfold hid, outer in E. destruct (own b); discriminate.
  - intros b Lb Fb. unfold xin. assert (F : freeish (own b)).
    { unfold hid in Fb. destruct (outer (own b)) eqn:O; auto. now apply nf_ox in Fb. }
    rewrite B6 by auto. rewrite occ_zero; auto. intros a Ia.
    assert (Il : In a L) by (apply filter_In in Ia; tauto). destruct (B3 a Il) as [T1 T2].
    apply rs_nf in T1, T2. split; intros E; rewrite E in *.
    + destruct T1 as [T1|T1]; [unfold NUL in T1; lia|auto].
    + destruct T2 as [T2|T2]; [unfold NUL in T2; lia|auto].
Qed.
Lemma hide_EInv : EInv o (hid own) D (start (st en)).
Proof using AC W Dk.
  constructor; auto.
  - now apply hid_acc.
  - intros p a. unfold hid, outer. destruct (own p); discriminate.
Qed.

(** After the inner operation. *)
Variables (own' : N -> tag) (D' : den) (en4 : eng) (L' : list N).
Hypothesis I4 : EInv o own' D' en4.
Hypothesis R4 : RC own' [] idn (mem (st en4)) L' (xin own rs m L x).
Hypothesis X4 : oext (hid own) D (start (st en)) own' D' en4.
Let own2 := shw own own'.
Let D2 := dshw own D D'.
Let en2 := set_st en (st en4).

Lemma out_x a : outer (own a) = true -> own' a = OX /\ mem (st en4) a = m a.
Proof using X4. intros H. apply (ox_x _ _ _ _ _ _ X4). unfold hid. now rewrite H. Qed.
Lemma own2_out a : outer (own a) = true -> own2 a = own a.
Proof. intros H. unfold own2, shw. now rewrite H. Qed.
Lemma own2_in a : outer (own a) = false -> own2 a = own' a.
Proof. intros H. unfold own2, shw. now rewrite H. Qed.
Lemma own2_node a i : own2 a = ONode i <-> own' a = ONode i.
Proof using X4.
  unfold own2, shw. destruct (outer (own a)) eqn:O; [|tauto]. destruct (out_x a O) as [-> _]. split; intros E; [rewrite E in O|]; discriminate.
Qed.
Lemma own'_nout a : outer (own' a) = false.
Proof using I4.
  destruct (own' a) eqn:E; auto; exfalso.
  - exact (EInv_nq _ _ _ _ _ _ _ I4 E).
  - apply (acc_don _ _ _ _ _ (ei_acc _ _ _ _ I4)) in E. rewrite (ei_don _ _ _ _ I4) in E. destruct E.
  - exact (ei_ind _ _ _ _ I4 _ _ E).
Qed.
Lemma own2_outer a : outer (own2 a) = true -> own2 a = own a /\ outer (own a) = true.
Proof using I4.
  intros H. destruct (outer (own a)) eqn:O; [now rewrite own2_out|]. rewrite own2_in in H by auto. rewrite own'_nout in H. discriminate.
Qed.
Lemma own2_que a d i : own2 a = OQue d i <-> own a = OQue d i.
Proof using I4.
  split; intros E.
  - assert (H : outer (own2 a) = true) by now rewrite E. apply own2_outer in H as [H _]. congruence.
  - rewrite own2_out; auto. now rewrite E.
Qed.

Lemma show_acc : EAcc own2 en2.
Proof using AC I4 X4.
  pose proof (ei_acc _ _ _ _ I4) as [A1 A2 A3 A4]. pose proof AC as [C1 C2 C3 C4]. constructor.
  - intros t a Ht. destruct t; try discriminate Ht; simpl.
    + rewrite own2_node. apply (A1 (ONode i) a eq_refl).
    + specialize (A1 (OFree i) a eq_refl). simpl in A1. rewrite A1. unfold own2, shw.
      destruct (outer (own a)) eqn:O; [|tauto]. destruct (out_x a O) as [-> _]. split; intros E; [discriminate|]. rewrite E in O. discriminate.
    + rewrite own2_que. apply (C1 (OQue d i) a eq_refl).
    + specialize (C1 (ODon d i) a eq_refl). simpl in C1. rewrite C1. split; intros E.
      * rewrite own2_out; auto. now rewrite E.
      * assert (H : outer (own2 a) = true) by now rewrite E. apply own2_outer in H as [H _]. congruence.
  - intros t Ht. destruct t; try discriminate Ht; simpl.
    + apply (A2 (ONode i) eq_refl).
    + apply (A2 (OFree i) eq_refl).
    + apply (C2 (OQue d i) eq_refl).
    + apply (C2 (ODon d i) eq_refl).
  - intros a Ha. apply A3. unfold own2, shw in Ha. destruct (outer (own a)) eqn:O; auto. destruct (out_x a O) as [-> _]. discriminate.
  - exact A4.
Qed.
Lemma D2_kept a rho : kept own a -> D2 a rho = D a rho.
Proof.
  intros K. unfold D2, dshw. destruct (N.leb_spec a 2) as [L2|L2]; [now rewrite orb_true_r|]. rewrite orb_false_r.
  destruct (holds (own a)) eqn:H; auto. exfalso. destruct K as [K|K]; [lia|]. apply K. unfold freeish. destruct (own a); try discriminate; eauto.
Qed.
Lemma D2_node a rho : a = ONE \/ (exists i, own' a = ONode i) -> D2 a rho = D' a rho.
Proof using AC I4 X4.
  intros Ha. destruct (freeish_dec (own a)) as [F|F].
  - unfold D2, dshw. destruct Ha as [->|[i Oi]].
    + rewrite orb_true_r. symmetry. apply (ox_D _ _ _ _ _ _ X4). auto.
    + assert (2 < a) by (apply (acc_rng _ _ _ (ei_acc _ _ _ _ I4)); congruence).
      assert (holds (own a) = false) as ->. { destruct F as [->|[j ->]]; auto. } destruct (N.leb_spec a 2); [lia|]. reflexivity.
  - destruct Ha as [->|[i Oi]]; [exfalso; apply F; left; exact (acc_one_none _ _ AC)|].
    rewrite D2_kept by (right; auto). symmetry. apply (ox_D _ _ _ _ _ _ X4). right.
    unfold hid. destruct (own a) eqn:E; simpl; try (exfalso; apply F; unfold freeish; eauto; fail); eauto; exfalso.
    + destruct (ox_x _ _ _ _ _ _ X4 a); [unfold hid; now rewrite E|congruence].
    + destruct (out_x a); [now rewrite E|congruence].
    + destruct (out_x a); [now rewrite E|congruence].
    + destruct (out_x a); [now rewrite E|congruence].
Qed.
Lemma dv_show e rho : vedge (nodeR (st en4)) e -> dv D2 e rho = dv D' e rho.
Proof using AC I4 X4.
  intros V. unfold dv. f_equal. apply D2_node. destruct V as [[_ P]|[_ P]]; auto. right. exists (eid e). now apply (acc_node _ _ _ _ (ei_acc _ _ _ _ I4)).
Qed.
Lemma show_Dok : Dok D2 (st en4).
Proof using AC I4 X4.
  apply (Dok_frame o D' D2 (st en4) (st en4)); auto.
  - exact (ei_swf _ _ _ _ I4).
  - intros; split; auto.
  - intros a rho Ha. apply D2_node. destruct Ha as [->|[i Ia]]; auto. right. exists i. now apply (acc_node _ _ _ _ (ei_acc _ _ _ _ I4)).
  - exact (ei_dok _ _ _ _ I4).
Qed.
Lemma own_kept a : ~ freeish (own a) -> own2 a = own a /\ sameTE m (mem (st en4)) a /\ (own a = OX \/ outer (own a) = true -> mem (st en4) a = m a).
Proof using I4 X4.
  intros F. destruct (outer (own a)) eqn:O.
  - rewrite own2_out by auto. destruct (out_x a O) as [_ E]. split; auto. split; auto. unfold sameTE. now rewrite E.
  - rewrite own2_in by auto. destruct (own a) eqn:E; try discriminate O; try (exfalso; apply F; unfold freeish; eauto; fail).
    + destruct (ox_x _ _ _ _ _ _ X4 a) as [E1 E2]; [unfold hid; now rewrite E|]. split; auto. split; auto. unfold sameTE. now rewrite E2.
    + destruct (ox_node _ _ _ _ _ _ X4 i a) as [E1 E2]; [now apply hid_node|]. split; auto. split; auto. intros [H|H]; discriminate.
Qed.
Lemma show_ext : ext (fun _ => False) own D en own2 D2 en2.
Proof using AC W I4 X4.
  pose proof (ei_swf _ _ _ _ I4) as W4.
  constructor.
  - intros a Ha _. apply (own_kept a Ha).
  - intros a rho Ka _. now apply D2_kept.
  - intros a Ka _. destruct Ka as [La|Ha]; [exact (ox_low _ _ _ _ _ _ X4 a La)|]. apply (own_kept a Ha).
  - intros a Oa. apply (own_kept a); rewrite Oa; auto.
  - intros _. simpl. apply (swf_onerc _ _ W4).
  - simpl. exact (ox_ut0 _ _ _ _ _ _ X4).
  - reflexivity.
  - intros p a d i Oa Op. assert (H : outer (own2 p) = true) by now rewrite Op. apply own2_outer in H as [H _]. congruence.
Qed.

(** The reference counts. *)
Definition rshw (a : N) : N := if outer (own a) then rs a else a.
Lemma rshw_tgt p : tgt own p -> rshw p = rs p.
Proof using RI.
  intros H. unfold rshw. destruct (outer (own p)) eqn:O; auto. symmetry. apply RI.
  destruct H as [H|[H|(d & i & H)]]; auto. rewrite H in O. discriminate.
Qed.
Lemma rshw_node p : p <= NUL \/ (exists i, own' p = ONode i) -> rshw p = p.
Proof using AC X4.
  intros [H|[i H]]; unfold rshw.
  - assert (own p = ONone) as ->; auto. eapply acc_low; eauto.
  - destruct (outer (own p)) eqn:O; auto. destruct (out_x p O). congruence.
Qed.
Lemma node_child' a i : own' a = ONode i -> forall e, e = ct (mem (st en4) a) \/ e = ce (mem (st en4) a) ->
  eptr e <= NUL \/ exists j, own' (eptr e) = ONode j.
Proof using I4.
  intros Oa e He. pose proof (ei_acc _ _ _ _ I4) as AC4. pose proof (ei_swf _ _ _ _ I4) as W4. apply (acc_node _ _ _ _ AC4) in Oa.
  assert (vedge (nodeR (st en4)) e \/ eptr e <= NUL) as [[[_ P]|[_ P]]|P].
  - destruct (N.eq_dec i 0) as [->|Ni].
    + destruct (swf_user o _ W4 a Oa) as (V1 & V2 & V3). destruct He as [->| ->]; auto.
      right. rewrite V2. unfold one, ONE, NUL. simpl. lia.
    + destruct (swf_node o _ W4 i a Ni Oa). destruct He as [->| ->]; auto.
  - left. rewrite P. unfold ONE, NUL. lia.
  - right. exists (eid e). now apply (acc_node _ _ _ _ AC4).
  - now left.
Qed.
Lemma show_RC : RCq q own2 S rshw (mem (st en4)) (L' ++ restof own L) x.
Proof using AC W R RI RD I4 R4 X4.
  pose proof R as [B1 B2 B3 B4 B5 B6]. pose proof R4 as [C1 C2 C3 C4 C5 C6].
  assert (In' : forall a, In a L' <-> exists i, own' a = ONode i).
  { intros a. rewrite C2. split; [intros [H|(d & i & _ & [] & _)]; auto|auto]. }
  assert (Rm : forall a, In a (restof own L) -> mem (st en4) a = m a /\ outer (own a) = true /\ In a L).
  { intros a Ia. pose proof Ia as Ia'. apply rest_in in Ia' as (d & i & E & _). assert (O : outer (own a) = true) by now rewrite E.
    split; [apply (out_x a O)|]. split; auto. apply filter_In in Ia. tauto. }
  assert (Tn : forall p, tgt own p -> tgt own2 p).
  { intros p H. destruct (freeish_dec (own p)) as [F|F].
    - apply tgt_nf in H as [H|H]; [now left|tauto].
    - destruct (own_kept p F) as (E & _). unfold tgt, counted in *. now rewrite E. }
  assert (Wn : forall a b, In a L' -> wt rshw (mem (st en4)) b a = wt idn (mem (st en4)) b a).
  { intros a b Ia. apply In' in Ia as [i Oa]. unfold wt.
    rewrite (rshw_node (eptr (ct (mem (st en4) a)))) by (apply (node_child' a i Oa); auto).
    rewrite (rshw_node (eptr (ce (mem (st en4) a)))) by (apply (node_child' a i Oa); auto). reflexivity. }
  assert (On : forall b, occ rshw (mem (st en4)) L' b = occ idn (mem (st en4)) L' b).
  { intros b. apply occ_rs_ext. intros a Ia. apply In' in Ia as [i Oa].
    split; apply rshw_node; apply (node_child' a i Oa); auto. }
  assert (Oq : forall b, occ rshw (mem (st en4)) (restof own L) b = occ rs m (restof own L) b).
  { intros b. rewrite (occ_frame rshw m (mem (st en4))).
    - apply occ_rs_ext. intros a Ia. destruct (Rm a Ia) as (_ & _ & Il). destruct (B3 a Il). split; now apply rshw_tgt.
    - intros a Ia. destruct (Rm a Ia) as (E & _). unfold sameTE. now rewrite E. }
  constructor.
  - apply NoDup_app_iff'; auto; [now apply NoDup_filter|]. intros a I1 I2. apply In' in I1 as [i I1]. destruct (Rm a I2) as (_ & O & _). destruct (out_x a O). congruence.
  - intros a. rewrite in_app_iff, In', rest_in. split.
    + intros [[i E]|(d & i & E & Is)]; [left; exists i; now apply own2_node|]. right. exists d, i. split; auto. now apply own2_que.
    + intros [[i E]|(d & i & E & Is)]; [left; exists i; now apply own2_node|]. right. exists d, i. split; auto. now apply own2_que.
  - intros a Ia. apply in_app_or in Ia as [Ia|Ia].
    + apply In' in Ia as [i Oa]. split; [destruct (node_child' a i Oa _ (or_introl eq_refl)) as [?|[j ?]]|destruct (node_child' a i Oa _ (or_intror eq_refl)) as [?|[j ?]]];
      try (now left); right; left; left; exists j; now apply own2_node.
    + destruct (Rm a Ia) as (E & _ & Il). rewrite E. destruct (B3 a Il). auto.
  - intros b Cb. rewrite occ_app, On, Oq. destruct Cb as [[i E]|(d & i & E)].
    + apply own2_node in E. destruct (C4 b) as [K|K]; [left; eauto|auto|]. right. unfold xin in K. lia.
    + apply own2_que in E. assert (O : outer (own b) = true) by now rewrite E. destruct (out_x b O) as [Ox Em]. rewrite Em.
      destruct (B4 b) as [K|K]; [right; eauto|auto|]. right. rewrite K, (occ_split rs m own).
      assert (occ rs m (nodesof own L) b = 0) as ->.
      { apply occ_zero. intros a Ia. apply nodes_in in Ia as [j Oa]. destruct (node_rs a j Oa) as [-> ->].
        assert (2 < b) by (apply (acc_rng _ _ _ AC); congruence).
        split; intros Eb; [destruct (node_child a j Oa _ (or_introl eq_refl)) as [P|[j' P]]|destruct (node_child a j Oa _ (or_intror eq_refl)) as [P|[j' P]]];
        rewrite Eb in P; try congruence; unfold NUL in P; lia. }
      assert (occ idn (mem (st en4)) L' b = 0) as ->; [|lia].
      apply occ_zero. intros a Ia. apply In' in Ia as [j Oa]. unfold idn. assert (2 < b) by (apply (acc_rng _ _ _ AC); congruence).
      split; intros Eb; [destruct (node_child' a j Oa _ (or_introl eq_refl)) as [P|[j' P]]|destruct (node_child' a j Oa _ (or_intror eq_refl)) as [P|[j' P]]];
      rewrite Eb in P; try congruence; unfold NUL in P; lia.
  - intros b Cb. destruct Cb as [[i E]|(d & i & E)].
    + apply own2_node in E. apply C5. left. eauto.
    + apply own2_que in E. destruct (out_x b) as [_ ->]; [now rewrite E|]. apply B5. right. eauto.
  - intros b Lb Fb. destruct (outer (own b)) eqn:O.
    + rewrite (own2_out b O) in Fb. exfalso. clear - O Fb. destruct Fb as [E|[j E]]; rewrite E in O; discriminate.
    + rewrite (own2_in b O) in Fb. pose proof (C6 b Lb Fb) as K. unfold xin in K. lia.
Qed.
End Nest.
Arguments hide_RC o {q}. Arguments show_RC o {q}.

(** ** The apply phase around an inner operation *)

Lemma RC_rs {q} own S rs rs' m L x : (forall p, rs' p = rs p) -> RCq q own S rs m L x -> RCq q own S rs' m L x.
Proof.
  intros H [B1 B2 B3 B4 B5 B6]. constructor; auto.
  intros b Cb. rewrite (occ_rs_ext rs rs'); auto.
Qed.

Section NestApply.
Variable o : order.
Variable k : kind.
Variable Pend : (N -> tag) -> den -> eng -> nat -> N -> N -> Prop.
Hypothesis Pend_ext : forall H own D en own' D' en' d i a,
  EAcc own en -> EAcc own' en' -> SWF o (st en) ->
  ext H own D en own' D' en' -> own a = OQue d i -> ~ H a ->
  (forall p, own p = OInd a -> ~ H p) -> Pend own D en d i a -> Pend own' D' en' d i a.

Lemma AInv_nodon h own D S en a d i : AInv o k Pend h own D S en -> own a <> ODon d i.
Proof. intros A E. apply (acc_don _ _ _ _ _ (ai_acc _ _ _ _ _ _ _ _ A)) in E. rewrite (ai_don _ _ _ _ _ _ _ _ A) in E. destruct E. Qed.

Lemma nest_in h own D S en L x : AInv o k Pend h own D S en -> RCq (kun k) own S idn (mem (st en)) L x ->
  EInv o (hid own) D (start (st en)) /\
  RC (hid own) [] idn (mem (st en)) (nodesof own L) (xin own idn (mem (st en)) L x).
Proof using.
  intros A R. split.
  - apply hide_EInv; apply A.
  - apply (hide_RC o (q := kun k) own S en idn L x); auto; try apply A.
    intros a d i E. destruct (AInv_nodon _ _ _ _ _ _ _ _ A E).
Qed.

Lemma nest_out h own D S en L x own' D' en4 L' :
  AInv o k Pend h own D S en -> RCq (kun k) own S idn (mem (st en)) L x -> (forall r, own h <> OInd r) ->
  EInv o own' D' en4 -> RC own' [] idn (mem (st en4)) L' (xin own idn (mem (st en)) L x) ->
  oext (hid own) D (start (st en)) own' D' en4 ->
  let en2 := set_st en (st en4) in
  exists own2 D2 L2, AInv o k Pend h own2 D2 S en2 /\ RCq (kun k) own2 S idn (mem (st en2)) L2 x /\
    ext (fun _ => False) own D en own2 D2 en2 /\
    (forall e, vedge (nodeR (st en4)) e -> vedge (lvl own2 0) e /\ forall rho, dv D2 e rho = dv D' e rho) /\
    (forall b d j, own2 b = OQue d j <-> own b = OQue d j).
Proof using Pend_ext.
  intros A R Hh I4 R4 X4 en2. pose proof (ai_acc _ _ _ _ _ _ _ _ A) as AC. pose proof (ai_swf _ _ _ _ _ _ _ _ A) as W.
  assert (RI : forall p, p <= NUL \/ counted own p -> idn p = p) by reflexivity.
  assert (RD : forall a d i, own a = ODon d i -> idn a <= NUL \/ exists i, own (idn a) = ONode i).
  { intros a d i E. destruct (AInv_nodon _ _ _ _ _ _ _ _ A E). }
  exists (shw own own'), (dshw own D D'), (L' ++ restof own L).
  pose proof (show_ext o own D en AC W own' D' en4 I4 X4) as X.
  pose proof (show_acc o own D en AC own' D' en4 I4 X4) as AC2.
  split; [|split; [|split; [|split]]].
  - apply (AInv_extg o k Pend Pend_ext h (fun _ => False) own D S en); auto.
    + exact (ei_swf _ _ _ _ I4).
    + exact (show_Dok o own D en AC own' D' en4 I4 X4).
    + tauto.
    + intros a d i E. left. now apply (own2_que o own own' D' en4 I4).
    + intros p a E. left. assert (O : outer (shw own own' p) = true) by now rewrite E.
      apply (own2_outer o own own' D' en4 I4) in O as [O _]. congruence.
  - eapply (RC_rs _ _ (rshw own idn)); [|exact (show_RC o own D S en idn L x AC W R RI RD own' D' en4 L' I4 R4 X4)].
    intros p. unfold rshw. now destruct (outer (own p)).
  - exact X.
  - intros e V. split.
    + destruct V as [V|[V1 V2]]; [now left|right; split; auto]. left.
      apply (own2_node own D en own' D' en4 X4). now apply (acc_node _ _ _ _ (ei_acc _ _ _ _ I4)).
    + intros rho. exact (dv_show o own D en AC own' D' en4 I4 X4 e rho V).
  - intros b d j. exact (own2_que o own own' D' en4 I4 b d j).
Qed.
End NestApply.

(** ** A batch of requests *)

Section BatchProof.
Context {P : Type}.
Variable rq : eng -> P -> edge * eng.
Variable o : order.
Hypothesis Wo : wfo o.
Variable k : kind.
Variable Pend : (N -> tag) -> den -> eng -> nat -> N -> N -> Prop.
Variable n : nat.
Variable lv : N.
Variable okp : (N -> tag) -> P -> Prop.
Variable val : den -> P -> (N -> bool) -> bool.
Hypothesis okp_ext : forall own D en own' D' en' p, EAcc own en -> ext (fun _ => False) own D en own' D' en' -> okp own p ->
  okp own' p /\ forall rho, val D' p rho = val D p rho.
Hypothesis rq_ok : forall own D en L x p, AInv o k Pend 0 own D [] en -> RCq (kun k) own [] idn (mem (st en)) L x -> okp own p ->
  good o k Pend 0 n lv [] own D en L x (Some (val D p)) (rq en p).

Lemma reqs_spec : forall ps own D en L x,
  AInv o k Pend 0 own D [] en -> RCq (kun k) own [] idn (mem (st en)) L x -> (forall p, In p ps -> okp own p) ->
  exists own' D', AInv o k Pend 0 own' D' [] (snd (reqs rq en ps)) /\ RCq (kun k) own' [] idn (mem (st (snd (reqs rq en ps)))) L x /\
    ext (fun _ => False) own D en own' D' (snd (reqs rq en ps)) /\
    Forall2 (fun p r => vedge (lvl own' n) r /\ lv <= eidx o r /\ forall rho, dv D' r rho = val D p rho) ps (fst (reqs rq en ps)) /\
    (forall b d' j, own' b = OQue d' j -> own b = OQue d' j \/ ((d' < n)%nat /\ lv <= idx o j)).
Proof using okp_ext rq_ok.
  induction ps as [|p ps IH]; intros own D en L x A R Ok.
  - exists own, D. cbn [reqs fst snd]. split; auto. split; auto. split; [apply ext_refl|]. split; [constructor|auto].
  - destruct (rq_ok own D en L x p A R (Ok p (or_introl eq_refl))) as (own1 & D1 & A1 & R1 & X1 & (V1 & G1 & E1) & Q1).
    cbn [reqs]. destruct (rq en p) as [r en1]. cbn [fst snd] in *.
    pose proof (ai_acc _ _ _ _ _ _ _ _ A) as AC. pose proof (ai_acc _ _ _ _ _ _ _ _ A1) as AC1.
    destruct (IH own1 D1 en1 L x A1 R1) as (own2 & D2 & A2 & R2 & X2 & F2 & Q2).
    { intros q Iq. exact (proj1 (okp_ext _ _ _ _ _ _ q AC X1 (Ok q (or_intror Iq)))). }
    destruct (reqs rq en1 ps) as [rs en2]. cbn [fst snd] in *. exists own2, D2. split; auto. split; auto.
    split; [apply (ext_weaken (fun a : N => False \/ False)); [tauto|exact (ext_trans _ _ _ _ _ _ _ _ _ _ _ AC AC1 X1 X2)]|].
    split.
    + constructor.
      * split; [exact (ext_vedge _ _ _ _ _ _ _ _ _ X2 V1)|]. split; auto. intros rho. rewrite (ext_dv _ _ _ _ _ _ _ _ _ _ X2 AC1 V1). apply E1.
      * eapply Forall2_impl_in; [|exact F2]. cbn beta. intros q t Iq (V & G & E). split; auto. split; auto. intros rho. rewrite E.
        apply (proj2 (okp_ext _ _ _ _ _ _ q AC X1 (Ok q (or_intror Iq)))).
    + intros b d' j Ob. destruct (Q2 _ _ _ Ob) as [Ob1|?]; auto.
Qed.
End BatchProof.

Section BatchRun.
Context {P : Type}.
Variable rq : eng -> P -> edge * eng.
Variable o : order.
Hypothesis Wo : wfo o.
Variable k : kind.
Variable Pend : (N -> tag) -> den -> eng -> nat -> N -> N -> Prop.
Hypothesis Pend_ext : forall H own D en own' D' en' d i a,
  EAcc own en -> EAcc own' en' -> SWF o (st en) ->
  ext H own D en own' D' en' -> own a = OQue d i -> ~ H a ->
  (forall p, own p = OInd a -> ~ H p) -> Pend own D en d i a -> Pend own' D' en' d i a.
Variable Need : nat -> nat -> Prop.
Variable tstep : nat -> N -> eng -> eng.
Hypothesis tstep_ok : forall d i, table_ok o k Pend Need (tstep d i) d i.
Variable rt : nat -> N -> eng -> eng.
Hypothesis rt_ok : forall d i, In i (ord o) -> rtable_ok o k (rt d i) d i.
Variable n : nat.
Variables ds rds : list nat.
Hypothesis ds_ok : okds Need [] ds.
Hypothesis ds_in : forall d, In d ds <-> (d < n)%nat.
Hypothesis rds_in : forall d, (d < n)%nat -> In d rds.
Hypothesis k_lv : forall d, (d < n)%nat -> (klv k d <= n)%nat.
Variable lv : N.
Variable okp : (N -> tag) -> P -> Prop.
Variable val : den -> P -> (N -> bool) -> bool.
Hypothesis okp_ext : forall own D en own' D' en' p, EAcc own en -> ext (fun _ => False) own D en own' D' en' -> okp own p ->
  okp own' p /\ forall rho, val D' p rho = val D p rho.
Hypothesis rq_ok : forall own D en L x p, AInv o k Pend 0 own D [] en -> RCq (kun k) own [] idn (mem (st en)) L x -> okp own p ->
  good o k Pend 0 n lv [] own D en L x (Some (val D p)) (rq en p).

Lemma batch_spec cds cids c ps own D en L x :
  (forall d, (d < n)%nat -> In d cds) -> (forall j, In j (skipn c (ord o)) -> In j cids) -> N.of_nat c <= lv ->
  EInv o own D en -> RC own [] idn (mem (st en)) L x -> (forall p, In p ps -> okp own p) ->
  let ids := skipn c (ord o) in
  let en3 := rall rt rds ids (sweep tstep ds ids (snd (reqs rq en ps))) in
  let en4 := cleanup_all cds cids en3 in
  exists own' D', EInv o own' D' en4 /\ (exists L', RC own' [] idn (mem (st en4)) L' x) /\ oext own D en own' D' en4 /\
    Forall2 (fun p r => vedge (nodeR (st en4)) r /\ forall rho, dv D' r rho = val D p rho)
      ps (map (fwd (mem (st en3))) (fst (reqs rq en ps))).
Proof using Wo Pend_ext tstep_ok rt_ok ds_ok ds_in rds_in k_lv okp_ext rq_ok.
  intros Hcd Hci Lc I R Ok. pose proof (ei_acc _ _ _ _ I) as AC.
  destruct (reqs_spec rq o k Pend n lv okp val okp_ext rq_ok ps own D en L x (EInv_AInv o k Pend own D en I) (RC_rest _ _ _ _ _ _ _ R) Ok)
    as (own1 & D1 & A1 & R1 & X1 & F1 & Q1).
  destruct (reqs rq en ps) as [rs en1]. cbn [fst snd] in *. apply (RC_rest _ nowhere) in R1.
  assert (Hx : forall t b, own1 b = t -> t <> ONone -> own b <> t -> t <> OX -> (forall i, t <> OFree i) -> x b = 0).
  { intros t b Ob Nt Nb _ _. assert (2 < b) by (apply (acc_rng _ _ _ (ai_acc _ _ _ _ _ _ _ _ A1)); congruence).
    destruct (freeish_dec (own b)) as [Fb|Fb]; [eapply (rc_x _ _ _ _ _ _ R); eauto|].
    rewrite (x_own _ _ _ _ _ _ _ X1) in Ob; auto. congruence. }
  assert (Qb : forall d j b, own1 b = OQue d j -> (d < n)%nat /\ lv <= idx o j).
  { intros d j b Ob. destruct (Q1 _ _ _ Ob) as [E|E]; auto. destruct (EInv_nq _ _ _ _ _ _ _ I E). }
  destruct (clean_gen o Wo k Pend Pend_ext Need tstep tstep_ok rt rt_ok n ds rds ds_ok ds_in rds_in k_lv cds cids c
              own1 D1 en1 L x Hcd Hci A1 R1) as (own2 & D2 & I2 & R2 & X2 & F2).
  { intros d j b Ob. destruct (Qb _ _ _ Ob). lia. }
  { intros d j b Ob. apply (Qb _ _ _ Ob). }
  { intros d j b Ob. apply (Hx _ _ Ob); try discriminate. apply (EInv_nq _ _ _ _ _ _ _ I). }
  { intros p a Op. apply (Hx _ _ Op); try discriminate. apply (ei_ind _ _ _ _ I). }
  cbv zeta in *. exists own2, D2. split; auto. split; auto. split.
  - eapply oext_trans; [|exact X2]. eapply ext_oext; eauto. exact (ai_acc _ _ _ _ _ _ _ _ A1).
  - clear - F1 F2. induction F1 as [|p r ps rs (Vr & _ & Er) F1 IH]; simpl; constructor; auto.
    destruct (F2 r Vr) as [F3 F4]. split; auto. intros rho. now rewrite F4.
Qed.
End BatchRun.
