(** * Whole binary operations. *)
From Coq Require Import Permutation.
From Verif Require Import Base BFModel StoreInv Own EngInv ApplyProof BinopProof ReduceProof EngineProof.

Lemma Forall2_impl_in {A B} (P Q : A -> B -> Prop) l l' :
  (forall a b, In a l -> P a b -> Q a b) -> Forall2 P l l' -> Forall2 Q l l'.
Proof. intros H F. induction F; constructor; auto. - apply H; auto. now left. - apply IHF. intros; apply H; auto. now right. Qed.

Section Op.
Variable o : order.
Hypothesis Wo : wfo o.
Variable enum : memory -> list N -> list N.
Hypothesis enum_perm : forall m l, Permutation (enum m l) l.
Variable op : binop.
Hypothesis Hop : binop_ok op.

(** Terminal cases. *)
Lemma tcase_spec s D F G r : SWF o s -> Dok D s ->
  vedge (nodeR s) F -> vedge (nodeR s) G -> tcase op F G = Some r ->
  vedge (nodeR s) r /\ forall rho, dv D r rho = bsem op (dv D F rho) (dv D G rho).
Proof using Hop.
  intros W DK VF VG T.
  assert (HF : eid F = 0 -> eptr F = ONE) by (destruct VF as [[? ?]|[? ?]]; tauto).
  assert (HG : eid G = 0 -> eptr G = ONE) by (destruct VG as [[? ?]|[? ?]]; tauto).
  split.
  - destruct (bo_src op Hop F G r HF HG T) as [[E1 E2]|[[E1 E2]|[E1 E2]]].
    + unfold vedge in *. rewrite E1, E2. auto.
    + unfold vedge in *. rewrite E1, E2. auto.
    + left; auto.
  - intros rho. apply (bo_some op Hop F G r (fun a => D a rho)); auto. apply (dok_one _ _ DK).
Qed.

Lemma vedge_ord own en e : EAcc own en -> SWF o (st en) -> vedge (nodeR (st en)) e -> eid e <> 0 -> In (eid e) (ord o).
Proof using Wo. intros A W V N0. eapply vedge_idx_lt; eauto. Qed.

Lemma minindex2_id F G : minindex2 o F G = idx o (minid2 o F G).
Proof. unfold minindex2, minid2, eidx. destruct (_ <? _); auto. Qed.

Theorem opBF_spec own D en L x F G r en' :
  EInv o own D en -> RC own [] idn (mem (st en)) L x ->
  vedge (nodeR (st en)) F -> vedge (nodeR (st en)) G ->
  opBF enum o op en F G = (r, en') ->
  exists own' D', EInv o own' D' en' /\ (exists L', RC own' [] idn (mem (st en')) L' x) /\
    oext own D en own' D' en' /\ vedge (nodeR (st en')) r /\
    forall rho, dv D' r rho = bsem op (dv D F rho) (dv D G rho).
Proof using Wo enum_perm Hop.
  intros I R VF VG H. unfold opBF in H. destruct (tcase op F G) as [r0|] eqn:T.
  - injection H as <- <-. destruct (tcase_spec _ D F G r0 (ei_swf _ _ _ _ I) (ei_dok _ _ _ _ I) VF VG T) as [V E].
    exists own, D. split; auto. split; [eauto|]. split; [apply oext_refl|]. auto.
  - destruct (bo_none op Hop F G T) as [NF NG].
    destruct (request en 0 (minid2 o F G) F G) as [q en1] eqn:Rq.
    pose proof (EInv_AInv o kstd (PendB o op) own D en I) as A0.
    pose proof (ei_acc _ _ _ _ I) as AC.
    assert (H0 : forall q, own 0 <> OInd q) by (intros p E; exact (ei_ind _ _ _ _ I 0 p E)).
    destruct (request_spec o op 0 own D [] en L x 0%nat (minid2 o F G) F G q en1 A0 R H0) as
      (own1 & D1 & A1 & R1 & X1 & Qi & Qn & Qo & QD & Qq & Qown); auto.
    { eapply vedge_lvl0; eauto. }
    { eapply vedge_lvl0; eauto. }
    { intros b Ob. destruct (EInv_nq _ _ _ _ _ _ _ I Ob). }
    set (k := N.to_nat (minindex2 o F G)) in *.
    assert (Xb : forall d j b, own1 b = OQue d j -> d = 0%nat /\ j = minid2 o F G).
    { intros d j b Ob. destruct (Qown _ _ _ Ob) as [E|E]; auto. destruct (EInv_nq _ _ _ _ _ _ _ I E). }
    assert (Hx : forall d j b, own1 b = OQue d j -> x b = 0).
    { intros d j b Ob. assert (2 < b) by (apply (acc_rng _ _ _ (ai_acc _ _ _ _ _ _ _ _ A1)); congruence).
      destruct (freeish_dec (own b)) as [Fb|Fb]; [eapply (rc_x _ _ _ _ _ _ R); eauto|].
      rewrite (x_own _ _ _ _ _ _ _ X1) in Ob; auto. destruct (EInv_nq _ _ _ _ _ _ _ I Ob). }
    destruct (core_clean o Wo enum enum_perm (PendB o op) (PendB_ext o op) (bstep o op) (apply1_ok o Wo op Hop)
                1 k own1 D1 en1 L x A1 R1) as (own2 & D2 & I2 & R2 & X2 & F2); auto.
    { intros d j b Ob. destruct (Xb _ _ _ Ob) as [-> ->]. rewrite <- minindex2_id. unfold k. lia. }
    { intros d j b Ob. destruct (Xb _ _ _ Ob). lia. }
    { intros p a Op. destruct (ai_ind _ _ _ _ _ _ _ _ A1 p a Op) as [_ (d & j & E)].
      pose proof (x_ind _ _ _ _ _ _ _ X1) as XI.
      assert (Fp : own p <> OInd a) by apply (ei_ind _ _ _ _ I).
      destruct (freeish_dec (own p)) as [Fr|Fr].
      - eapply (rc_x _ _ _ _ _ _ R); auto. apply (acc_rng _ _ _ (ai_acc _ _ _ _ _ _ _ _ A1)). congruence.
      - rewrite (x_own _ _ _ _ _ _ _ X1) in Op; auto. congruence. }
    cbv zeta in I2, R2, X2, F2.
    change (sweep (stable (bstep o op) enum) (seq 0 1)) with (apply_all enum o op [0%nat]) in *.
    change (seq 0 1) with [0%nat] in *. fold k in H. injection H as <- <-.
    assert (Vq : vedge (lvl own1 1) q).
    { right. rewrite Qi. split.
      - destruct (minid2_cases o F G) as [[-> _]|[-> _]]; auto.
      - right. exists 0%nat. split; auto. }
    destruct (F2 q Vq) as [F3 F4].
    exists own2, D2. split; auto. split; auto. split; [|split; auto].
    + eapply oext_trans; [|exact X2]. eapply ext_oext; eauto. exact (ai_acc _ _ _ _ _ _ _ _ A1).
    + intros rho. rewrite F4. unfold dv at 1. rewrite Qn, QD. apply xorb_false_l.
Qed.

(** ** Arrays of pairs *)

Definition pairval (D : den) (p : edge * edge) (rho : N -> bool) : bool :=
  bsem op (dv D (fst p) rho) (dv D (snd p) rho).

Lemma array_insert_spec : forall ps own D en L x mi rs mi' en',
  AInv o kstd (PendB o op) 0 own D [] en -> RC own [] idn (mem (st en)) L x -> QB 1 own ->
  (forall p a, own p <> OInd a) ->
  (forall p, In p ps -> vedge (lvl own 0) (fst p) /\ vedge (lvl own 0) (snd p)) ->
  array_insert o op en mi ps = (rs, mi', en') ->
  exists own' D', AInv o kstd (PendB o op) 0 own' D' [] en' /\ RC own' [] idn (mem (st en')) L x /\
    ext (fun _ => False) own D en own' D' en' /\ QB 1 own' /\ (forall p a, own' p <> OInd a) /\
    Forall2 (fun p r => vedge (lvl own' 1) r /\ forall rho, dv D' r rho = pairval D p rho) ps rs /\
    (forall d j b, own' b = OQue d j -> own b = OQue d j \/
        exists p, In p ps /\ tcase op (fst p) (snd p) = None /\ idx o j = minindex2 o (fst p) (snd p)).
Proof using Wo Hop.
  induction ps as [|[F G] ps IH]; intros own D en L x mi rs mi' en' A R Qb NI V H; simpl in H.
  - injection H as <- <- <-. exists own, D. split; auto. split; auto. split; [apply ext_refl|]. auto 10.
  - destruct (V (F, G) (or_introl eq_refl)) as [VF VG]. simpl in VF, VG.
    pose proof (ai_acc _ _ _ _ _ _ _ _ A) as AC.
    assert (N0 : forall d j b, own b = OQue d j -> b <> 0).
    { intros d j b Ob. assert (2 < b) by (apply (acc_rng _ _ _ AC); congruence). lia. }
    destruct (tcase op F G) as [r0|] eqn:T.
    + destruct (array_insert o op en mi ps) as [[rs1 mi1] en1] eqn:Hi. injection H as <- <- <-.
      destruct (IH own D en L x mi rs1 mi1 en1) as (own' & D' & A' & R' & X' & Q' & N' & F' & O'); auto.
      { intros p Ip. apply V. now right. }
      exists own', D'. split; auto. split; auto. split; auto. split; auto. split; auto. split.
      * constructor; auto.
        destruct (opreq_spec o Wo op Hop 0 own D [] en L x 0%nat 0 F G r0 en A R) as
          (own2 & D2 & A2 & R2 & X2 & V2 & _ & E2 & _); auto; try lia.
        { intros d' j b Ob _. split; eauto. }
        { unfold opreq. now rewrite T. }
        assert (HF : eid F = 0 -> eptr F = ONE) by (destruct VF as [[? ?]|[? ?]]; tauto).
        assert (HG : eid G = 0 -> eptr G = ONE) by (destruct VG as [[? ?]|[? ?]]; tauto).
        assert (Vr : vedge (lvl own 0) r0).
        { destruct (bo_src op Hop F G r0 HF HG T) as [[E1 E3]|[[E1 E3]|[E1 E3]]]; unfold vedge in *; rewrite ?E1, ?E3; auto. }
        split.
        -- eapply vedge_lvl_mono; [|exact (ext_vedge _ _ _ _ _ _ _ _ _ X' Vr)]. lia.
        -- intros rho. rewrite (ext_dv _ _ _ _ _ _ _ _ _ _ X' AC Vr). unfold pairval; simpl.
           unfold dv. apply (bo_some op Hop F G r0 (fun a => D a rho)); auto.
           apply (dok_one _ _ (ai_dok _ _ _ _ _ _ _ _ A)).
      * intros d j b Ob. destruct (O' _ _ _ Ob) as [E|(p & Ip & Hp)]; auto. right. exists p. split; auto. now right.
    + destruct (bo_none op Hop F G T) as [NF NG].
      destruct (request en 0 (minid2 o F G) F G) as [q en1] eqn:Rq.
      destruct (array_insert o op en1 (minindex2 o F G) ps) as [[rs1 mi1] en2] eqn:Hi. injection H as <- <- <-.
      destruct (request_spec o op 0 own D [] en L x 0%nat (minid2 o F G) F G q en1 A R) as
        (own1 & D1 & A1 & R1 & X1 & Qi & Qn & Qo & QD & Qq & Qown); auto.
      { intros b Ob. split; [auto|]. eauto. }
      assert (NI1 : forall p a, own1 p <> OInd a).
      { intros p a Op. destruct (ai_ind _ _ _ _ _ _ _ _ A1 p a Op) as [_ (d & j & E)].
        destruct (Qown _ _ _ E) as [E0|E0].
        - exact (NI _ _ (x_ind _ _ _ _ _ _ _ X1 _ _ _ _ E0 Op)).
        - destruct E0 as [-> ->].
          destruct (ai_que _ _ _ _ _ _ _ _ A1 _ _ _ E) as [_ Hst].
          destruct (Hst) as [[[] _]|[_ Pe]].
          + assert (2 < a) by (apply (acc_rng _ _ _ (ai_acc _ _ _ _ _ _ _ _ A1)); congruence). lia.
          + exact (pb_ind _ _ _ _ _ _ _ _ Pe p Op). }
      destruct (IH own1 D1 en1 L x (minindex2 o F G) rs1 mi1 en2) as (own' & D' & A' & R' & X' & Q' & N' & F' & O'); auto.
      { intros d j b Ob. destruct (Qown _ _ _ Ob) as [E|[-> _]]; [eapply Qb; eauto|lia]. }
      { intros p Ip. destruct (V p (or_intror Ip)). split; eapply ext_vedge; eauto. }
      pose proof (ai_acc _ _ _ _ _ _ _ _ A1) as AC1.
      exists own', D'. split; auto. split; auto.
      split; [apply (ext_weaken (fun a : N => False \/ False)); [tauto|exact (ext_trans _ _ _ _ _ _ _ _ _ _ _ AC AC1 X1 X')]|].
      split; auto. split; auto.
      assert (Vq : vedge (lvl own1 1) q).
      { right. rewrite Qi. split.
        - destruct (minid2_cases o F G) as [[-> _]|[-> _]]; auto.
        - right. exists 0%nat. split; auto. }
      split.
      * constructor.
        -- split; [exact (ext_vedge _ _ _ _ _ _ _ _ _ X' Vq)|]. intros rho.
           rewrite (ext_dv _ _ _ _ _ _ _ _ _ _ X' AC1 Vq). unfold dv at 1. rewrite Qn, QD. apply xorb_false_l.
        -- eapply Forall2_impl_in; [|exact F']. simpl. intros p r Ip [V1 E1]. split; auto. intros rho. rewrite E1.
           unfold pairval. destruct (V p (or_intror Ip)) as [W1 W2].
           now rewrite (ext_dv _ _ _ _ _ _ _ _ _ _ X1 AC W1), (ext_dv _ _ _ _ _ _ _ _ _ _ X1 AC W2).
      * intros d j b Ob. destruct (O' _ _ _ Ob) as [E|(p & Ip & Hp)].
        -- destruct (Qown _ _ _ E) as [E0|[-> ->]]; auto. right. exists (F, G). split; [now left|].
           split; auto. simpl. symmetry. apply minindex2_id.
        -- right. exists p. split; auto. now right.
Qed.

(** [BddArrayOpBF] is correct when the level it starts from, that of the last non-terminal pair,
    is not below the level of any other non-terminal pair. *)
Theorem arrayOpBF_spec own D en L x ps rs en' :
  EInv o own D en -> RC own [] idn (mem (st en)) L x ->
  (forall p, In p ps -> vedge (nodeR (st en)) (fst p) /\ vedge (nodeR (st en)) (snd p)) ->
  (forall rs mi en1, array_insert o op en 0 ps = (rs, mi, en1) ->
     forall p, In p ps -> tcase op (fst p) (snd p) = None -> mi <= minindex2 o (fst p) (snd p)) ->
  arrayOpBF enum o op en ps = (rs, en') ->
  exists own' D', EInv o own' D' en' /\ (exists L', RC own' [] idn (mem (st en')) L' x) /\
    oext own D en own' D' en' /\
    Forall2 (fun p r => vedge (nodeR (st en')) r /\ forall rho, dv D' r rho = pairval D p rho) ps rs.
Proof using Wo enum_perm Hop.
  intros I R V Hmi H. unfold arrayOpBF in H.
  destruct (array_insert o op en 0 ps) as [[rs1 mi] en1] eqn:Ai.
  specialize (Hmi _ _ _ eq_refl).
  pose proof (EInv_AInv o kstd (PendB o op) own D en I) as A0.
  pose proof (ei_acc _ _ _ _ I) as AC.
  destruct (array_insert_spec ps own D en L x 0 rs1 mi en1 A0 R) as (own1 & D1 & A1 & R1 & X1 & Q1 & N1 & F1 & O1); auto.
  { intros d j b Ob. destruct (EInv_nq _ _ _ _ _ _ _ I Ob). }
  { apply (ei_ind _ _ _ _ I). }
  { intros p Ip. destruct (V p Ip). split; eapply vedge_lvl0; eauto. }
  destruct (core_clean o Wo enum enum_perm (PendB o op) (PendB_ext o op) (bstep o op) (apply1_ok o Wo op Hop)
              1 (N.to_nat mi) own1 D1 en1 L x A1 R1) as (own2 & D2 & I2 & R2 & X2 & F2); auto.
  { intros d j b Ob. destruct (O1 _ _ _ Ob) as [E|(p & Ip & T & E)]; [destruct (EInv_nq _ _ _ _ _ _ _ I E)|].
    rewrite E, N2Nat.id. auto. }
  { intros d j b Ob. assert (2 < b) by (apply (acc_rng _ _ _ (ai_acc _ _ _ _ _ _ _ _ A1)); congruence).
    destruct (freeish_dec (own b)) as [Fb|Fb]; [eapply (rc_x _ _ _ _ _ _ R); eauto|].
    rewrite (x_own _ _ _ _ _ _ _ X1) in Ob; auto. destruct (EInv_nq _ _ _ _ _ _ _ I Ob). }
  { intros p a Op. destruct (N1 _ _ Op). }
  cbv zeta in I2, R2, X2, F2.
  change (sweep (stable (bstep o op) enum) (seq 0 1)) with (apply_all enum o op [0%nat]) in *.
  change (seq 0 1) with [0%nat] in *. injection H as <- <-.
  exists own2, D2. split; auto. split; auto. split.
  - eapply oext_trans; [|exact X2]. eapply ext_oext; eauto. exact (ai_acc _ _ _ _ _ _ _ _ A1).
  - clear - F1 F2. induction F1 as [|p r ps rs [Vr Er] F1 IH]; simpl; constructor; auto.
    destruct (F2 r Vr) as [F3 F4]. split; auto. intros rho. now rewrite F4.
Qed.
End Op.
