(** * Breadth-first relational product: proof. *)
From Coq Require Import Permutation.
From Verif Require Import Base BFModel BatchModel MgrModel ApiModel QuantModel QuantBFModel StoreInv Own EngInv ApplyProof BinopProof
  StepProof RunProof ReduceProof EngineProof OpProof MultiProof NestProof ITEProof ApiStruct MInv QuantProof PlaceProof SubstProof
  QuantBFProof QuantBFRun QuantBFEx.

Section Rel.
Variable o : order.
Hypothesis Wo : wfo o.
Variable mp : N -> option edge.
Variable last : Z.
Hypothesis Dom : forall i e, mp i = Some e -> In i (ord o).
Hypothesis Hlast : forall i e, mp i = Some e -> (Z.of_N (idx o i) <= last)%Z.
Hypothesis Hconst : (last < Z.of_N CONST_INDEX)%Z.
Notation exf := (ex mp (ord o)).
Variable enum : memory -> list N -> list N.
Hypothesis enum_perm : forall m l, Permutation (enum m l) l.
Variable look : edge -> edge -> option edge.

(** Queue 0 holds the NANDs, queue 1 the relational products. *)
Definition kunR (d : nat) (i : N) : bool := match d with O => false | _ => quantified mp i end.
Definition kcbR (d : nat) (i : N) (rho : N -> bool) (t e : bfn) : bool :=
  if kunR d i then t rho || e rho else if rho i then t rho else e rho.
Lemma kcbR_ext : forall d i rho (f f' g g' : bfn), (forall r, f' r = f r) -> (forall r, g' r = g r) -> kcbR d i rho f' g' = kcbR d i rho f g.
Proof. intros d i rho f f' g g' Ef Eg. unfold kcbR. now rewrite Ef, Eg. Qed.
Definition kelR (own : N -> tag) (D : den) (m : memory) (i : N) (e : edge) (v : bfn) : Prop :=
  own (eptr e) = OX /\ let f := ct (m (eptr e)) in let g := ce (m (eptr e)) in
  vedge (vnode own) f /\ vedge (vnode own) g /\ gt_idx o i f /\ gt_idx o i g /\ forall r, v r = exf (andf (dv D f) (dv D g)) r.
Lemma kelR_ext : forall own D m own' D' m' i e v, wext own D m own' D' m' -> kelR own D m i e v -> kelR own' D' m' i e v.
Proof.
  intros own D m own' D' m' i e v Wx (Op & Vf & Vg & Gf & Gg & E). pose proof Wx as (_ & W2 & _).
  destruct (W2 _ Op) as [Op' Mp]. destruct (vnode_wext _ _ _ _ _ _ _ Wx Vf) as [Vf' Ef]. destruct (vnode_wext _ _ _ _ _ _ _ Wx Vg) as [Vg' Eg].
  split; auto. cbv zeta. rewrite Mp. split; auto. split; auto. split; auto. split; auto. intros r. rewrite E. apply ex_ext. intros r0.
  unfold andf. now rewrite Ef, Eg.
Qed.
Definition krp : kind := K false true (fun d => match d with O => 1%nat | _ => 2%nat end) kcbR kcbR_ext kunR kelR kelR_ext.

Definition QL2 (own : N -> tag) (D : den) : Prop := forall f g r, look f g = Some r ->
  vedge (vnode own) r /\ exists f0 g0, vedge (vnode own) f0 /\ vedge (vnode own) g0 /\
    (eeq f0 f = true /\ eeq g0 g = true \/ eeq f0 g = true /\ eeq g0 f = true) /\ forall rho, dv D r rho = exf (andf (dv D f0) (dv D g0)) rho.
Lemma QL2_wext own D m own' D' m' : wext own D m own' D' m' -> QL2 own D -> QL2 own' D'.
Proof.
  intros Wx HQ f g r E. destruct (HQ f g r E) as (Vr & f0 & g0 & V0 & V1 & E0 & Er).
  destruct (vnode_wext _ _ _ _ _ _ _ Wx Vr) as [Vr' Dr]. destruct (vnode_wext _ _ _ _ _ _ _ Wx V0) as [V0' D0].
  destruct (vnode_wext _ _ _ _ _ _ _ Wx V1) as [V1' D1].
  split; auto. exists f0, g0. split; auto. split; auto. split; auto. intros rho. rewrite Dr, Er. apply ex_ext. intros r0. unfold andf. now rewrite D0, D1.
Qed.
Lemma QL2_ext : forall H own D en own' D' en', EAcc own en -> ext H own D en own' D' en' -> QL2 own D -> QL2 own' D'.
Proof. intros H own D en own' D' en' A X. eapply QL2_wext, ext_wext; eauto. Qed.
Lemma QL2_rext : forall own D en own' D' en', rext own D en own' D' en' -> QL2 own D -> QL2 own' D'.
Proof. intros own D en own' D' en' X. eapply QL2_wext, rext_wext; eauto. Qed.
Lemma QL2_hd : hdQ QL2.
Proof.
  intros own D HQ f g r E. destruct (HQ f g r E) as (Vr & f0 & g0 & V0 & V1 & E0 & Er). split; [now apply vnode_hid|].
  exists f0, g0. split; [now apply vnode_hid|]. split; [now apply vnode_hid|]. auto.
Qed.

(** The value of a request. *)
Definition vR (d : nat) (f g : bfn) : bfn := match d with O => fun rho => negb (f rho && g rho) | _ => exf (andf f g) end.
Lemma vR_ext d (f f' g g' : bfn) rho : (forall r, f' r = f r) -> (forall r, g' r = g r) -> vR d f' g' rho = vR d f g rho.
Proof. intros E1 E2. destruct d; cbn; [now rewrite E1, E2|]. apply ex_ext. intros r. unfold andf. now rewrite E1, E2. Qed.

Record PendR (own : N -> tag) (D : den) (en : eng) (d : nat) (i a : N) : Prop := {
  pr_F : vedge (lvl own 0) (ct (mem (st en) a));
  pr_G : vedge (lvl own 0) (ce (mem (st en) a));
  pr_i : i = minid2 o (ct (mem (st en) a)) (ce (mem (st en) a));
  pr_ind : forall p, own p <> OInd a;
  pr_D : forall rho, D a rho = vR d (dv D (ct (mem (st en) a))) (dv D (ce (mem (st en) a))) rho;
  pr_Q : QL2 own D
}.
Lemma PendR_ext : forall H own D en own' D' en' d i a,
  EAcc own en -> EAcc own' en' -> SWF o (st en) ->
  ext H own D en own' D' en' -> own a = OQue d i -> ~ H a ->
  (forall p, own p = OInd a -> ~ H p) -> PendR own D en d i a -> PendR own' D' en' d i a.
Proof.
  intros H own D en own' D' en' d i a A A' W X Oa Ha _ [B1 B2 B3 B7 B6 B8].
  destruct (x_mem _ _ _ _ _ _ _ X a) as [Et Ee]; [right; rewrite Oa; auto|auto|].
  constructor; rewrite ?Et, ?Ee; auto; try (eapply ext_vedge; eauto).
  { intros p Op. apply (B7 p). eapply (x_ind _ _ _ _ _ _ _ X); eauto. }
  { intros rho. rewrite (x_D _ _ _ _ _ _ _ X) by (rewrite ?Oa; try discriminate; right; rewrite Oa; auto).
    rewrite B6. symmetry. apply vR_ext; intros r; [exact (ext_dv _ _ _ _ _ _ _ _ _ _ X A B1)|exact (ext_dv _ _ _ _ _ _ _ _ _ _ X A B2)]. }
  exact (QL2_ext _ _ _ _ _ _ _ A X B8).
Qed.

Notation AInv := (AInv o krp PendR).
Local Notation RC := (RCq (kun krp)).

Lemma nodeE h own D S en e : AInv h own D S en -> vedge (lvl own 0) e -> vedge (nodeR (st en)) e.
Proof. intros A V. apply (vnode_nodeR _ _ _ (ai_acc _ _ _ _ _ _ _ _ A)). now apply vnode_0. Qed.

Lemma minid2_le f g lv : lv <= eidx o f -> lv <= eidx o g -> lv <= idx o (minid2 o f g).
Proof. intros L1 L2. destruct (minid2_cases o f g) as [[E _]|[E _]]; rewrite E; auto. Qed.

Lemma reqR_ok a n lv own D S en L x d f g :
  AInv a own D S en -> RC own S idn (mem (st en)) L x -> (forall q, own a <> OInd q) ->
  vedge (lvl own 0) f -> vedge (lvl own 0) g -> In (minid2 o f g) (ord o) -> lv <= eidx o f -> lv <= eidx o g -> (d < n)%nat -> QL2 own D ->
  (forall d' j b, own b = OQue d' j -> lv <= idx o j -> ~ In b S /\ b <> a) ->
  good o krp PendR a n lv S own D en L x (Some (vR d (dv D f) (dv D g))) (request en d (minid2 o f g) f g).
Proof using Wo.
  intros A R Oa Vf Vg Ii Lf Lg Ld HQ HS.
  apply (good_request o Wo krp PendR PendR_ext); auto.
  - now apply minid2_le.
  - intros c [B1 B2 B4 B5 B6 B7] Ef Eg rho. rewrite B6. symmetry. apply vR_ext; intros r; now apply dv_eeq.
  - intros own' D' en' c AC' X Oc Fc Mc Dc NI Dv.
    constructor; rewrite ?Mc; simpl; auto; try (eapply ext_vedge; eauto).
    + intros rho. rewrite Dc. apply vR_ext; intros r; now rewrite (Dv _ 0%nat).
    + exact (QL2_ext _ _ _ _ _ _ _ (ai_acc _ _ _ _ _ _ _ _ A) X HQ).
Qed.

Lemma tcase_good op a n lv own D S en L x f g r (F : bfn) : binop_ok op ->
  AInv a own D S en -> RC own S idn (mem (st en)) L x ->
  vedge (lvl own 0) f -> vedge (lvl own 0) g -> lv <= eidx o f -> lv <= eidx o g -> tcase op f g = Some r ->
  (forall rho, bsem op (dv D f rho) (dv D g rho) = F rho) -> good o krp PendR a n lv S own D en L x (Some F) (r, en).
Proof using Wo.
  intros Ho A R Vf Vg Lf Lg T E.
  assert (HF : eid f = 0 -> eptr f = ONE) by (destruct Vf as [[? ?]|[? ?]]; congruence).
  assert (HG : eid g = 0 -> eptr g = ONE) by (destruct Vg as [[? ?]|[? ?]]; congruence).
  assert (Vr : vedge (lvl own 0) r /\ lv <= eidx o r).
  { pose proof (lvl_idx_le _ _ _ _ _ _ _ _ _ _ Wo A Vf).
    unfold eidx in *. destruct (bo_src op Ho f g r HF HG T) as [[E1 E2]|[[E1 E2]|[E1 E2]]].
    - unfold vedge in *. now rewrite E1, E2.
    - unfold vedge in *. now rewrite E1, E2.
    - split; [left; auto|]. rewrite E1, (wfo_const o Wo). lia. }
  apply good_keep; auto. split; [eapply vedge_lvl_mono; [|apply Vr]; lia|]. split; [apply Vr|].
  intros rho. rewrite <- E. unfold dv. apply (bo_some op Ho f g r (fun a => D a rho)); auto.
  apply (dok_one _ _ (ai_dok _ _ _ _ _ _ _ _ A)).
Qed.
Lemma minid2_in h own D S en f g : AInv h own D S en -> vedge (lvl own 0) f -> vedge (lvl own 0) g ->
  (eid f <> 0 \/ eid g <> 0) -> In (minid2 o f g) (ord o).
Proof using Wo.
  intros A Vf Vg H. pose proof (lvl_idx_le _ _ _ _ _ _ _ _ _ _ Wo A Vf) as Lf. pose proof (lvl_idx_le _ _ _ _ _ _ _ _ _ _ Wo A Vg) as Lg.
  assert (T : forall e, vedge (lvl own 0) e -> eid e <> 0 -> In (eid e) (ord o)) by (intros e Ve Ne; eapply lvl_ord; eauto).
  destruct (minid2_cases o f g) as [[E Lt]|[E Le]]; rewrite E; unfold eidx in *.
  - apply T; auto. intros E0. rewrite E0, (wfo_const o Wo) in Lt. lia.
  - destruct H as [H|H]; [|now apply T]. apply T; auto. intros E0. rewrite E0, (wfo_const o Wo) in Le.
    pose proof (wfo_lt_const o _ Wo (T f Vf H)). lia.
Qed.

Lemma nandreq_ok a n lv own D S en L x f g :
  AInv a own D S en -> RC own S idn (mem (st en)) L x -> (forall q, own a <> OInd q) ->
  vedge (lvl own 0) f -> vedge (lvl own 0) g -> lv <= eidx o f -> lv <= eidx o g -> (0 < n)%nat -> QL2 own D ->
  (forall d' j b, own b = OQue d' j -> lv <= idx o j -> ~ In b S /\ b <> a) ->
  good o krp PendR a n lv S own D en L x (Some (vR 0 (dv D f) (dv D g))) (opreq o op_nand 0 en f g).
Proof using Wo.
  intros A R Oa Vf Vg Lf Lg Ln HQ HS. unfold opreq. destruct (tcase op_nand f g) as [r|] eqn:T.
  - eapply (tcase_good op_nand a n lv own D S en L x f g r); auto using op_nand_ok.
  - destruct (bo_none op_nand op_nand_ok f g T) as [NF NG].
    destruct (normalize_cases f g) as [E|E]; rewrite E.
    + apply reqR_ok; auto. eapply minid2_in; eauto.
    + eapply good_v; [|apply (reqR_ok a n lv own D S en L x 0 g f); auto].
      * intros rho. cbn. now rewrite andb_comm.
      * eapply minid2_in; eauto.
Qed.

Lemma rpreq_ok a lv own D S en L x f g :
  AInv a own D S en -> RC own S idn (mem (st en)) L x -> (forall q, own a <> OInd q) ->
  vedge (lvl own 0) f -> vedge (lvl own 0) g -> lv <= eidx o f -> lv <= eidx o g -> QL2 own D ->
  (forall d' j b, own b = OQue d' j -> lv <= idx o j -> ~ In b S /\ b <> a) ->
  good o krp PendR a 2 lv S own D en L x (Some (exf (andf (dv D f) (dv D g)))) (rpreq o last look en (f, g)).
Proof using Wo Dom Hlast Hconst.
  intros A R Oa Vf0 Vg0 Lf0 Lg0 HQ HS. unfold rpreq. cbn [fst snd].
  pose proof (ai_swf _ _ _ _ _ _ _ _ A) as W. pose proof (ai_dok _ _ _ _ _ _ _ _ A) as DK.
  assert (Main : forall f g, vedge (lvl own 0) f -> vedge (lvl own 0) g -> lv <= eidx o f -> lv <= eidx o g ->
    good o krp PendR a 2 lv S own D en L x (Some (exf (andf (dv D f) (dv D g))))
      (if (last <? Z.of_N (minindex2 o f g))%Z then
         match tcase op_and f g with
         | Some r => (r, en)
         | None => let '(r, en1) := request en 0 (minid2 o f g) f g in (enot r, en1)
         end
       else match relprod_case f g with
       | Some r => (r, en)
       | None => match look f g with Some r => (r, en) | None => request en 1 (minid2 o f g) f g end
       end)).
  2:{ destruct (normalize_cases f g) as [E|E]; rewrite E; [now apply Main|].
      eapply good_v; [|now apply Main]. intros rho. apply ex_ext. intros r. apply andb_comm. }
  clear f g Vf0 Vg0 Lf0 Lg0. intros f g Vf Vg Lf Lg.
  pose proof (nodeE _ _ _ _ _ _ A Vf) as Nf. pose proof (nodeE _ _ _ _ _ _ A Vg) as Ng.
  assert (Bf : bext (dv D f)) by now apply (dv_bext o D (st en)). assert (Bg : bext (dv D g)) by now apply (dv_bext o D (st en)).
  assert (Lc : lv <= CONST_INDEX) by (pose proof (lvl_idx_le _ _ _ _ _ _ _ _ _ _ Wo A Vf); unfold eidx in Lf; lia).
  destruct (Z.ltb_spec last (Z.of_N (minindex2 o f g))) as [Gt|Le].
  - assert (Eid : forall rho, exf (andf (dv D f) (dv D g)) rho = dv D f rho && dv D g rho).
    { intros rho. apply (ex_id mp (ord o) Dom (andf (dv D f) (dv D g))); [now apply andf_bext|].
      intros i e M. pose proof (Hlast i e M). pose proof (Dom i e M).
      assert (idx o i < eidx o f /\ idx o i < eidx o g) as [H1 H2].
      { unfold minindex2 in Gt. destruct (N.ltb_spec (eidx o f) (eidx o g)); lia. }
      apply andf_indep; intros r b; apply (dv_flip o D (st en)); auto. }
    destruct (tcase op_and f g) as [r|] eqn:T.
    + eapply (tcase_good op_and a 2 lv own D S en L x f g r); auto using op_and_ok.
    + destruct (bo_none op_and op_and_ok f g T) as [NF NG].
      destruct (reqR_ok a 2 lv own D S en L x 0 f g) as (own1 & D1 & A1 & R1 & X1 & (V1 & G1 & E1) & Q1); auto.
      { eapply minid2_in; eauto. }
      destruct (request en 0 (minid2 o f g) f g) as [r en1]. cbn [fst snd] in *.
      exists own1, D1. cbn [fst snd]. split; auto. split; auto. split; auto. split; auto.
      split; [now apply vedge_enot|]. split; [exact G1|]. intros rho. rewrite dv_enot, E1, Eid. cbn. apply negb_involutive.
  - destruct (relprod_case f g) as [r|] eqn:Rc.
    { unfold relprod_case in Rc. destruct (iszero f || iszero g || eeq f (enot g)) eqn:Z.
      - injection Rc as <-. apply good_keep; auto. split; [apply vedge_zero|]. split; [unfold eidx; cbn; now rewrite (wfo_const o Wo)|].
        intros rho. rewrite (dv_zero D (st en) rho DK). symmetry.
        assert (Z' : forall r, andf (dv D f) (dv D g) r = false).
        { intros r. unfold andf. apply orb_true_iff in Z as [Z|Z].
          - apply orb_true_iff in Z as [Z|Z]; apply (iszero_true o (st en)) in Z; auto; subst; rewrite (dv_zero D (st en) r DK); auto using andb_false_r.
          - apply (eeq_valid o (st en)) in Z; [|exact W|exact Nf|now apply vedge_enot]. rewrite Z, dv_enot. destruct (dv D g r); auto. }
        rewrite (ex_ext mp (ord o) _ (fun _ => false) Z'). apply (ex_id mp (ord o)); [exact Dom|intros ? ? ?; reflexivity|intros ? ? ? ? ?; reflexivity].
      - destruct (isone f && isone g) eqn:O1; [|discriminate]. exfalso. apply andb_true_iff in O1 as [O1 O2].
        apply (isone_true o (st en)) in O1; auto. apply (isone_true o (st en)) in O2; auto. subst f g.
        unfold minindex2, eidx in Le. cbn in Le. rewrite (wfo_const o Wo), N.ltb_irrefl in Le. lia. }
    destruct (look f g) as [r|] eqn:El.
    + destruct (HQ f g r El) as (Vr & f0 & g0 & V0 & V1 & E0 & Er).
      assert (Er' : forall rho, dv D r rho = exf (andf (dv D f) (dv D g)) rho).
      { intros rho. rewrite Er. apply ex_ext. intros r0. unfold andf.
        destruct E0 as [[E1 E2]|[E1 E2]]; rewrite (dv_eeq D _ _ r0 E1), (dv_eeq D _ _ r0 E2); auto. apply andb_comm. }
      apply good_keep; auto. split; [now apply vnode_lvl|]. split; auto.
      apply (q_level o Wo D (st en) W DK r lv (exf (andf (dv D f) (dv D g)))); auto.
      * now apply (vnode_nodeR _ _ _ (ai_acc _ _ _ _ _ _ _ _ A)).
      * intros j Ij Lj. apply (ex_indep mp (ord o) Dom); [now apply andf_bext|].
        apply andf_indep; eapply (q_indep o Wo D (st en)); eauto.
    + apply (reqR_ok a 2 lv own D S en L x 1 f g); auto. eapply minid2_in; eauto.
      destruct (N.eq_dec (eid f) 0) as [E0|]; [|now left]. right. intros E1. unfold minindex2, eidx in Le.
      rewrite E0, E1, (wfo_const o Wo), N.ltb_irrefl in Le. lia.
Qed.

(** ** The expansion of a request *)
Definition stepR (d : nat) (i : N) : eng -> N -> eng := match d with O => apply1 o op_nand 0 | _ => relprod1 o mp last look i end.

Lemma stepR_ok d : step_ok o krp PendR nevE stepR d.
Proof using Wo Dom Hlast Hconst.
  intros own D S en L x i a A0 R Oa Na _ HSi _.
  pose proof (ai_acc _ _ _ _ _ _ _ _ A0) as AC.
  assert (R3 : 2 < a) by (apply (acc_rng _ _ _ AC); congruence).
  destruct (ai_que _ _ _ _ _ _ _ _ A0 _ _ _ Oa) as [Ii Hst].
  destruct Hst as [[? _]|[_ Pe]]; [lia|tauto|].
  destruct Pe as [VF VG Ei NI DF HQ].
  set (F := ct (mem (st en) a)) in *. set (G := ce (mem (st en) a)) in *.
  destruct (cofactors2_spec o Wo krp PendR 0 own D S en F G i A0 VF VG Ei Ii) as
    (fx & fxb & gx & gxb & Ec & V1 & V2 & V3 & V4 & G1 & G2 & G3 & G4 & EF & EG).
  pose proof (ai_swf _ _ _ _ _ _ _ _ A0) as W. pose proof (ai_dok _ _ _ _ _ _ _ _ A0) as DK.
  assert (HSa : forall d' j b, own b = OQue d' j -> idx o i + 1 <= idx o j -> ~ In b S /\ b <> a).
  { intros d' j b Ob Lj. split; [apply (HSi d' j b Ob); lia|]. intros ->. assert (j = i) by congruence. subst j. lia. }
  destruct d as [|d].
  - assert (P : forall f g, vedge (lvl own 0) f -> vedge (lvl own 0) g -> gt_idx o i f -> gt_idx o i g ->
       pok o krp PendR a 0 i S own D en (Some (vR 0 (dv D f) (dv D g))) (fun en => opreq o op_nand 0 en f g)).
    { intros f g Vf Vg Gf Gg own1 D1 en1 L1 x1 A1 R1 Oa1 X1 HS1.
      eapply good_v; [|apply (nandreq_ok a 1 (idx o i + 1) own1 D1 S en1 L1 x1 f g); auto].
      - intros rho. apply vR_ext; intros r; [exact (ext_dv _ _ _ _ _ _ _ _ _ _ X1 AC Vf)|exact (ext_dv _ _ _ _ _ _ _ _ _ _ X1 AC Vg)].
      - rewrite Oa1. discriminate.
      - exact (ext_vedge _ _ _ _ _ _ _ _ _ X1 Vf).
      - exact (ext_vedge _ _ _ _ _ _ _ _ _ X1 Vg).
      - unfold gt_idx, eidx in *. lia.
      - unfold gt_idx, eidx in *. lia.
      - exact (QL2_ext _ _ _ _ _ _ _ AC X1 HQ). }
    cbn [stepR]. unfold apply1. fold F G. rewrite Ec.
    change (exists own' D',
      AInv 0 own' D' (a :: S) (two icr (fun en => opreq o op_nand 0 en fx gx) (fun en => opreq o op_nand 0 en fxb gxb) en a) /\
      RC own' (a :: S) idn (mem (st (two icr (fun en => opreq o op_nand 0 en fx gx) (fun en => opreq o op_nand 0 en fxb gxb) en a))) (a :: L) x /\
      ext (fun b => b = a \/ own b = OInd a) own D en own' D' (two icr (fun en => opreq o op_nand 0 en fx gx) (fun en => opreq o op_nand 0 en fxb gxb) en a) /\
      (forall b d' j, own' b = OQue d' j -> own b = OQue d' j \/ ((d' < klv krp 0)%nat /\ idx o i < idx o j))).
    apply (two_ok o krp PendR PendR_ext icr (fun s r => or_introl eq_refl) a 0 i own D S en L x
      (Some (vR 0 (dv D fx) (dv D gx))) (Some (vR 0 (dv D fxb) (dv D gxb)))); auto; try discriminate.
    intros rho. rewrite DF. cbn. rewrite EF, EG. unfold kcbR. cbn. now destruct (rho i).
  - assert (P : forall f g, vedge (lvl own 0) f -> vedge (lvl own 0) g -> gt_idx o i f -> gt_idx o i g ->
       pok o krp PendR a (Datatypes.S d) i S own D en (Some (exf (andf (dv D f) (dv D g)))) (fun en => rpreq o last look en (f, g))).
    { intros f g Vf Vg Gf Gg own1 D1 en1 L1 x1 A1 R1 Oa1 X1 HS1.
      eapply good_v; [|apply (rpreq_ok a (idx o i + 1) own1 D1 S en1 L1 x1 f g); auto].
      - intros rho. apply ex_ext. intros r. unfold andf. f_equal; [exact (ext_dv _ _ _ _ _ _ _ _ _ _ X1 AC Vf)|exact (ext_dv _ _ _ _ _ _ _ _ _ _ X1 AC Vg)].
      - rewrite Oa1. discriminate.
      - exact (ext_vedge _ _ _ _ _ _ _ _ _ X1 Vf).
      - exact (ext_vedge _ _ _ _ _ _ _ _ _ X1 Vg).
      - unfold gt_idx, eidx in *. lia.
      - unfold gt_idx, eidx in *. lia.
      - exact (QL2_ext _ _ _ _ _ _ _ AC X1 HQ). }
    assert (EE : forall rho, D a rho = if quantified mp i then exf (andf (dv D fx) (dv D gx)) rho || exf (andf (dv D fxb) (dv D gxb)) rho
                                     else if rho i then exf (andf (dv D fx) (dv D gx)) rho else exf (andf (dv D fxb) (dv D gxb)) rho).
    { intros rho. rewrite DF. cbn [vR].
      assert (Bx : forall e, vedge (lvl own 0) e -> gt_idx o i e -> bext (dv D e) /\ indep (dv D e) i).
      { intros e Ve Ge. pose proof (nodeE _ _ _ _ _ _ A0 Ve) as Ne. split; [now apply (dv_bext o D (st en))|].
        eapply (gt_indep o D (st en)); eauto. lia. }
      destruct (Bx fx V1 G1), (Bx fxb V2 G2), (Bx gx V3 G3), (Bx gxb V4 G4).
      apply (ex_step o mp Dom); auto using andf_bext, andf_indep. intros r. unfold andf. rewrite EF, EG. now destruct (r i). }
    cbn [stepR]. unfold relprod1. fold F G. rewrite Ec. cbn [kun krp kunR]. destruct (quantified mp i) eqn:Qi.
    + pose proof (AInv_h o krp PendR a _ _ _ _ A0) as A.
      destruct (P fx gx V1 V3 G1 G3 own D en L x A R Oa) as (own1 & D1 & A1 & R1 & X1 & (Vr & Gr & Er) & N1); auto.
      { eapply ext_weaken; [|apply ext_refl]. simpl. tauto. }
      destruct (rpreq o last look en (fx, gx)) as [r en1]. cbn [fst snd] in *.
      assert (Oa1 : own1 a = OQue (Datatypes.S d) i) by (eapply oque_ext; eauto).
      pose proof (ai_acc _ _ _ _ _ _ _ _ A1) as AC1.
      destruct (alloc (st en1) (minid2 o fxb gxb)) as [p s1] eqn:Al.
      destruct (pair_alloc o Wo krp PendR PendR_ext a own1 D1 S en1 L x (minid2 o fxb gxb) p s1 (C fxb gxb 0) A1 R1) as (A2 & R2 & X2 & Op & Mp & Oth & Fp); auto.
      { rewrite Oa1. discriminate. }
      cbv zeta in A2, R2, X2, Op, Mp, Oth.
      set (own2 := upd own1 p OX) in *. set (en2 := set_st en1 (put s1 p (C fxb gxb 0))) in *.
      pose proof (ai_acc _ _ _ _ _ _ _ _ A2) as AC2.
      assert (Oa2 : own2 a = OQue (Datatypes.S d) i) by (eapply oque_ext; eauto).
      assert (X12 : ext (fun _ => False) own D en own2 D1 en2).
      { apply (ext_weaken (fun a : N => False \/ False)); [tauto|exact (ext_trans _ _ _ _ _ _ _ _ _ _ _ AC AC1 X1 X2)]. }
      assert (Vn : forall e, vedge (lvl own 0) e -> vedge (vnode own2) e).
      { intros e Ve. eapply vnode_ext; [exact AC|exact X12|now apply vnode_0]. }
      destruct (one_write o Wo krp PendR PendR_ext a (Datatypes.S d) i own2 D1 S en2 L x r (E (minid2 o fxb gxb) p false) (exf (andf (dv D fxb) (dv D gxb)))
        A2 R2 Oa2 Qi Na) as (A3 & R3' & X3); auto.
      * intros q Oq. apply (NI q). eapply (x_ind _ _ _ _ _ _ _ X12); eauto.
      * exact (ext_vedge _ _ _ _ _ _ _ _ _ X2 Vr).
      * unfold gt_idx, eidx in *. lia.
      * split; [exact Op|]. cbn [eptr]. rewrite Mp. cbn [ct ce]. split; auto. split; auto. split; auto. split; auto. intros r0. apply ex_ext. intros r1.
        unfold andf. symmetry. f_equal; [exact (ext_dv _ _ _ _ _ _ _ _ _ _ X12 AC V2)|exact (ext_dv _ _ _ _ _ _ _ _ _ _ X12 AC V4)].
      * intros rho. rewrite (x_D _ _ _ _ _ _ _ X1) by (rewrite ?Oa; try discriminate; right; rewrite Oa; auto).
        rewrite EE. cbn [kcb krp]. unfold kcbR. cbn [kunR]. now rewrite Qi, Er.
      * exists own2, D1. split; [exact A3|]. split; [exact R3'|]. split.
        -- eapply ext_weaken; [|exact (ext_trans _ _ _ _ _ _ _ _ _ _ _ AC AC2 X12 X3)]. simpl. tauto.
        -- intros b d' j Ob. assert (b <> p) by congruence. rewrite Oth in Ob by auto.
           destruct (N1 b d' j Ob) as [?|[? ?]]; auto. right. split; auto. lia.
    + change (exists own' D',
        AInv 0 own' D' (a :: S) (two icr (fun en => rpreq o last look en (fx, gx)) (fun en => rpreq o last look en (fxb, gxb)) en a) /\
        RC own' (a :: S) idn (mem (st (two icr (fun en => rpreq o last look en (fx, gx)) (fun en => rpreq o last look en (fxb, gxb)) en a))) (a :: L) x /\
        ext (fun b => b = a \/ own b = OInd a) own D en own' D' (two icr (fun en => rpreq o last look en (fx, gx)) (fun en => rpreq o last look en (fxb, gxb)) en a) /\
        (forall b d' j, own' b = OQue d' j -> own b = OQue d' j \/ ((d' < klv krp (Datatypes.S d))%nat /\ idx o i < idx o j))).
      apply (two_ok o krp PendR PendR_ext icr (fun s r => or_introl eq_refl) a (Datatypes.S d) i own D S en L x
        (Some (exf (andf (dv D fx) (dv D gx)))) (Some (exf (andf (dv D fxb) (dv D gxb))))); auto; try discriminate.
      intros rho. rewrite EE. cbn [kcb krp]. unfold kcbR. cbn [kunR]. now rewrite Qi.
Qed.

(** ** The batch over the variables from a position on *)
Definition okR (c : nat) (own : N -> tag) (D : den) (p : edge * edge) : Prop :=
  vedge (vnode own) (fst p) /\ vedge (vnode own) (snd p) /\ N.of_nat c <= eidx o (fst p) /\ N.of_nat c <= eidx o (snd p).
Definition valR (D : den) (p : edge * edge) : bfn := exf (andf (dv D (fst p)) (dv D (snd p))).
Lemma okR_hd c : hd_ok (okR c).
Proof. intros own D p (V1 & V2 & L1). split; [now apply vnode_hid|]. split; [now apply vnode_hid|]. auto. Qed.

Notation RB := (relprodB enum o mp last look).
Definition rtR (d : nat) (i : N) (en : eng) : eng :=
  match d with
  | O => reduce_table enum en 0 i
  | _ => if quantified mp i then qreduce enum o pair_of (RB (skipn (S (N.to_nat (idx o i))) (ord o))) d i en
         else reduce_table enum en d i
  end.
Definition reduR : list N -> eng -> eng :=
  fix redu (l : list N) (en : eng) {struct l} : eng :=
    match l with
    | [] => en
    | i :: l' =>
        let en' := reduce_table enum (redu l' en) 0 i in
        if quantified mp i then qreduce enum o pair_of (RB l') 1 i en'
        else reduce_table enum en' 1 i
    end.
Lemma reduR_rall : forall n c en, (length (ord o) - c <= n)%nat -> reduR (skipn c (ord o)) en = rall rtR [0%nat; 1%nat] (skipn c (ord o)) en.
Proof using Wo.
  induction n as [|n IH]; intros c en Hn.
  - rewrite skipn_all2 by lia. reflexivity.
  - destruct (nth_error (ord o) c) as [i|] eqn:E.
    + destruct (wfo_idx o Wo c i E) as [_ Ei]. rewrite (skipn_at _ _ _ E). cbn [reduR].
      rewrite rall_cons. cbn [fold_left]. rewrite <- (IH (S c)) by lia. unfold rtR. rewrite Ei, Nat2N.id. reflexivity.
    + apply nth_error_None in E. rewrite skipn_all2 by lia. reflexivity.
Qed.
Lemma relprodB_eq ids s fs : RB ids s fs =
  let '(rs, en1) := reqs (rpreq o last look) (start s) fs in
  let en2 := fold_left (fun en i => relprod_table enum o mp last look (apply_table enum o op_nand en 0 i) i) ids en1 in
  let en3 := reduR ids en2 in
  (map (fwd (mem (st en3))) rs, st (cleanup_all [0%nat; 1%nat] ids en3)).
Proof. destruct ids; reflexivity. Qed.

Lemma relprodB_ok : forall n c, (length (ord o) - c <= n)%nat -> (c <= length (ord o))%nat -> bspec o QL2 (okR c) valR (RB (skipn c (ord o))).
Proof using Wo Dom Hlast Hconst enum_perm.
  induction n as [n IH] using lt_wf_ind. intros c Hn Hc.
  intros own D s L x ps rs s' I0 R0 HQ Hp E. rewrite relprodB_eq in E.
  destruct (batch_specQ (rpreq o last look) o Wo krp PendR 2 (N.of_nat c) QL2 QL2_ext (okR c) valR) with
     (Need := nevE) (tstep := stable stepR enum) (rt := rtR) (c := c) (ds := [0%nat; 1%nat]) (rds := [0%nat; 1%nat])
     (cds := [0%nat; 1%nat]) (cids := skipn c (ord o)) (ps := ps)
     (own := own) (D := D) (en := start s) (L := L) (x := x)
     as (own' & D' & I4 & (L4 & R4) & X4 & F4).
  - intros own1 D1 en1 own1' D1' en1' p AC X (V1 & V2 & Lp). split.
    + split; [eapply vnode_ext; eauto|]. split; [eapply vnode_ext; eauto|auto].
    + intros rho. apply ex_ext. intros r. unfold andf. f_equal;
        [exact (ext_dv _ _ _ _ _ _ _ _ _ _ X AC (vnode_lvl _ 0 _ V1))|exact (ext_dv _ _ _ _ _ _ _ _ _ _ X AC (vnode_lvl _ 0 _ V2))].
  - intros own1 D1 en1 L1 x1 [f g] A1 R1 HQ1 (V1 & V2 & Lf & Lg). cbn [fst snd] in *.
    assert (Z0 : own1 0 = ONone) by (eapply acc_low; [exact (ai_acc _ _ _ _ _ _ _ _ A1)|lia]).
    apply rpreq_ok; auto.
    + intros q Eq. congruence.
    + now apply vnode_lvl.
    + now apply vnode_lvl.
    + intros d' j b Ob _. split; auto. intros ->. congruence.
  - exact PendR_ext.
  - intros d i. apply stable_ok; auto. apply stepR_ok.
  - exact QL2_rext.
  - intros d i Ii Ci. unfold rtR. destruct d as [|d]; [|destruct (quantified mp i) eqn:Qi].
    + intros x1 S1 own1 D1 en1 RS _ Low. apply (reduce_table_ok o Wo enum enum_perm krp eq_refl eq_refl 0 i eq_refl); auto. exact Logic.I.
    + assert (Bi : (N.to_nat (idx o i) < length (ord o))%nat).
      { apply nth_error_Some. rewrite (wfo_nth o i Wo Ii). discriminate. }
      apply (qreduce_ok o Wo enum enum_perm krp (S d) i Ii) with (okp := okR (S (N.to_nat (idx o i)))) (val := valR); auto.
      * intros rho t e. cbn [kcb krp]. unfold kcbR. cbn [kunR]. now rewrite Qi.
      * exact QL2_rext.
      * exact QL2_hd.
      * apply okR_hd.
      * apply (IH (length (ord o) - S (N.to_nat (idx o i)))%nat); lia.
      * intros own1 D1 m a v _ (_ & V1 & V2 & Gf & Gg & Ev). split; [|exact Ev]. unfold okR, pair_of. cbn [fst snd]. split; auto. split; auto.
        unfold gt_idx, eidx in *. lia.
      * intros own1 D1 en1 p RI (V1 & V2 & L1 & L2) j Ij Lj.
        pose proof (proj1 (vnode_nodeR _ _ _ (ri_acc _ _ _ _ _ RI)) V1) as N1. pose proof (proj1 (vnode_nodeR _ _ _ (ri_acc _ _ _ _ _ RI)) V2) as N2.
        pose proof (ri_swf _ _ _ _ _ RI) as W1. pose proof (ri_dok _ _ _ _ _ RI) as K1.
        apply (ex_indep mp (ord o) Dom); [apply andf_bext; now apply (dv_bext o D1 (st en1))|].
        apply andf_indep; [apply (q_indep o Wo D1 (st en1) W1 K1 _ _ j N1 L1 Ij)|apply (q_indep o Wo D1 (st en1) W1 K1 _ _ j N2 L2 Ij)]; lia.
    + intros x1 S1 own1 D1 en1 RS _ Low. apply (reduce_table_ok o Wo enum enum_perm krp eq_refl eq_refl (S d) i Qi); auto.
      * intros rho t e. cbn [kcb krp]. unfold kcbR. cbn [kunR]. now rewrite Qi.
      * exact Logic.I.
  - simpl. unfold nevE. intuition lia.
  - intros d. simpl. lia.
  - intros d. simpl. lia.
  - intros [|d]; simpl; lia.
  - intros d. simpl. lia.
  - auto.
  - lia.
  - exact I0.
  - exact R0.
  - exact HQ.
  - exact Hp.
  - cbv zeta in I4, R4, X4, F4.
    destruct (reqs (rpreq o last look) (start s) ps) as [qs en1]. cbn [fst snd] in *. cbv zeta in E.
    rewrite (reduR_rall (length (ord o)) c) in E by lia.
    change (sweep (stable stepR enum) [0%nat; 1%nat] (skipn c (ord o)) en1) with
      (fold_left (fun en i => relprod_table enum o mp last look (apply_table enum o op_nand en 0 i) i) (skipn c (ord o)) en1) in *.
    apply pair_equal_spec in E as [<- <-].
    set (en4 := cleanup_all [0%nat; 1%nat] _ _) in *.
    exists own', D'. split; [|split; [|split; [|exact F4]]]; auto.
    + destruct I4 as [B1 B2 B3 B4 B5 B6]. constructor; auto.
      eapply acc_perm; [exact B1|]. intros t _. destruct t; simpl; auto; [now rewrite B4|now rewrite B5].
    + eauto.
    + destruct X4. constructor; auto.
Qed.
End Rel.
