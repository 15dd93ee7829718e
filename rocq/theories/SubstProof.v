(** * Correctness of the simultaneous substitution. *)
From Coq Require Import Permutation.
From Verif Require Import Base BFModel BatchModel ITEModel MgrModel ApiModel CofactorModel GraphModel SubstModel StoreInv Own EngInv ApplyProof BinopProof
  StepProof RunProof ReduceProof EngineProof OpProof MultiProof NestProof ITEProof PlaceProof.

(** ** An operation inside the reduce phase of another one *)

Section NestReduce.
Variable o : order.
Variable k : kind.

Section One.
Variables (own : N -> tag) (D : den) (S : list N) (en : eng) (rs : N -> N) (L : list N) (x : N -> N).
Hypothesis I : RInv o k own D en.
Hypothesis R : RCq (kun k) own S rs (mem (st en)) L x.
Hypothesis RO : rs_ok own (mem (st en)) rs.

Lemma red_RI : forall p, p <= NUL \/ counted own p -> rs p = p.
Proof using RO. apply RO. Qed.
Lemma red_RD : forall a d i, own a = ODon d i -> rs a <= NUL \/ exists i, own (rs a) = ONode i.
Proof using I RO.
  intros a d i E. destruct RO as [R1 _]. rewrite (R1 _ _ _ E).
  destruct (dn_t _ _ _ _ _ _ _ (proj2 (ri_don _ _ _ _ _ I _ _ _ E))) as [[_ P]|[_ P]].
  - left. rewrite P. unfold ONE, NUL. lia.
  - right. eauto.
Qed.

Lemma nest_red_in :
  EInv o (hid own) D (start (st en)) /\ RC (hid own) [] idn (mem (st en)) (nodesof own L) (xin own rs (mem (st en)) L x).
Proof using I R RO.
  split.
  - apply hide_EInv; apply I.
  - apply (hide_RC o (q := kun k) own S en rs L x); auto; try apply I; [exact red_RI|exact red_RD].
Qed.

Lemma nest_red_out own' D' en4 L' :
  EInv o own' D' en4 -> RC own' [] idn (mem (st en4)) L' (xin own rs (mem (st en)) L x) ->
  oext (hid own) D (start (st en)) own' D' en4 ->
  let en2 := set_st en (st en4) in
  exists own2 D2 rs2 L2, RInv o k own2 D2 en2 /\ RCq (kun k) own2 S rs2 (mem (st en2)) L2 x /\ rs_ok own2 (mem (st en2)) rs2 /\
    rext own D en own2 D2 en2 /\
    (forall e, vedge (nodeR (st en4)) e -> vedge (vnode own2) e /\ forall rho, dv D2 e rho = dv D' e rho) /\
    (forall b d j, own2 b = OQue d j <-> own b = OQue d j) /\ (forall b d j, own2 b = ODon d j -> own b = ODon d j).
Proof using I R RO.
  intros I4 R4 X4 en2. pose proof (ri_acc _ _ _ _ _ I) as AC. pose proof (ri_swf _ _ _ _ _ I) as W.
  pose proof (own_kept o own D en own' D' en4 I4 X4) as OK. cbv zeta in OK.
  pose proof (own2_que o own own' D' en4 I4) as OQ. pose proof (own2_outer o own own' D' en4 I4) as OO.
  pose proof (own2_node own D en own' D' en4 X4) as ON. cbv zeta in OQ, OO, ON.
  assert (OD : forall b d j, shw own own' b = ODon d j -> own b = ODon d j).
  { intros b d j E. assert (O : outer (shw own own' b) = true) by now rewrite E. apply OO in O as [O _]. congruence. }
  assert (X : rext own D en (shw own own') (dshw own D D') en2).
  { constructor.
    - intros i a E. assert (F : ~ freeish (own a)) by (rewrite E; auto). destruct (OK a F) as (E1 & E2 & _). rewrite E1. auto.
    - intros a E. assert (F : ~ freeish (own a)) by (rewrite E; auto). destruct (OK a F) as (E1 & E2 & E3). rewrite E1. auto.
    - intros i a H. assert (F : ~ freeish (own a)) by (destruct H as [H|[[d H]|[d H]]]; rewrite H; auto).
      destruct (OK a F) as (E1 & _). unfold RL. now rewrite E1.
    - intros a rho H. apply D2_kept. destruct H as [->|[i H]]; [left; unfold ONE; lia|right].
      destruct H as [H|[[d H]|[d H]]]; rewrite H; auto.
    - intros d i a E. assert (F : ~ freeish (own a)) by (rewrite E; auto). destruct (OK a F) as (E1 & E2 & _). rewrite E1. auto.
    - intros d i a E. apply OQ in E. assert (F : ~ freeish (own a)) by (rewrite E; auto). destruct (OK a F) as (E1 & E2 & _). auto.
    - intros a E. apply ON in E. apply (ox_user _ _ _ _ _ _ X4) in E. exact (proj1 (hid_node _ _ _) E).
    - exact (ox_ut0 _ _ _ _ _ _ X4).
    - intros d i a E. left. auto.
    - intros a La. exact (ox_low _ _ _ _ _ _ X4 a La). }
  exists (shw own own'), (dshw own D D'), (rshw own rs), (L' ++ restof own L).
  split; [|split; [|split; [|split; [|split; [|split]]]]]; auto.
  - eapply RInv_step; [exact I|exact X| | | | |].
    + exact (show_acc o own D en AC own' D' en4 I4 X4).
    + exact (ei_swf _ _ _ _ I4).
    + exact (show_Dok o own D en AC own' D' en4 I4 X4).
    + intros d j b E. left. auto.
    + intros p a E. assert (O : outer (shw own own' p) = true) by now rewrite E. apply OO in O as [O _].
      rewrite E in O. symmetry in O. exact (ri_ind _ _ _ _ _ I _ _ O).
  - exact (show_RC o own D S en rs L x AC W R red_RI red_RD own' D' en4 L' I4 R4 X4).
  - destruct RO as [R1 R2]. split.
    + intros a d i E. apply OD in E. unfold rshw. rewrite E. cbn [outer]. rewrite (R1 _ _ _ E).
      assert (F : ~ freeish (own a)) by (rewrite E; auto). destruct (OK a F) as (_ & [E1 _] & _).
      change (eptr (ct (mem (st en) a)) = eptr (ct (mem (st en4) a))). now rewrite E1.
    + intros a H. unfold rshw. destruct (outer (own a)) eqn:O; auto. apply R2.
      destruct H as [H|[[i H]|(d & i & H)]]; auto.
      * apply ON in H. assert (own' a = OX). { apply (out_x own D en own' D' en4 X4 a O). } congruence.
      * apply OQ in H. right. right. eauto.
  - intros e V. split.
    + destruct V as [V|[V1 V2]]; [now left|right; split; auto]. apply ON. now apply (acc_node _ _ _ _ (ei_acc _ _ _ _ I4)).
    + intros rho. exact (dv_show o own D en AC own' D' en4 I4 X4 e rho V).
Qed.
End One.
End NestReduce.

(** ** A batch of if-then-elses *)

Section IteBatch.
Variable o : order.
Hypothesis Wo : wfo o.
Variable enum : memory -> list N -> list N.
Hypothesis enum_perm : forall m l, Permutation (enum m l) l.
Variable k : kind.

Definition okp3 (own : N -> tag) (p : edge * edge * edge) : Prop :=
  vedge (vnode own) (fst (fst p)) /\ vedge (vnode own) (snd (fst p)) /\ vedge (vnode own) (snd p).
Definition val3 (D : den) (p : edge * edge * edge) (rho : N -> bool) : bool :=
  if dv D (fst (fst p)) rho then dv D (snd (fst p)) rho else dv D (snd p) rho.
Lemma vnode_lvl own n e : vedge (vnode own) e -> vedge (lvl own n) e.
Proof. apply vedge_mono. intros j b _ H. now left. Qed.
Lemma vnode_lvl0 own e : vedge (lvl own 0) e -> vedge (vnode own) e.
Proof. apply vedge_mono. intros j b _ [H|(d & H & _)]; [exact H|lia]. Qed.
Lemma vnode_ext H own D en own' D' en' e : EAcc own en -> ext H own D en own' D' en' -> vedge (vnode own) e -> vedge (vnode own') e.
Proof. intros A X V. apply vnode_lvl0. eapply ext_vedge; [exact X|]. now apply vnode_lvl. Qed.

Lemma iteBatch_state x S own D en ps rs s :
  RState o k x S own D en -> (forall p, In p ps -> okp3 own p) ->
  iteBatch enum o (ord o) (st en) ps = (rs, s) ->
  let en2 := set_st en s in
  exists own2 D2, RState o k x S own2 D2 en2 /\ rext own D en own2 D2 en2 /\
    (forall b d j, own2 b = OQue d j <-> own b = OQue d j) /\
    Forall2 (fun p r => vedge (vnode own2) r /\ forall rho, dv D2 r rho = val3 D p rho) ps rs.
Proof using Wo enum_perm.
  intros (fw & L & I & R & RO & HS & Hx & Hd) Hp E en2.
  destruct (nest_red_in o k own D S en fw L x I R RO) as [I0 R0].
  destruct (batch_spec (fun en p => opite o 0 en (fst (fst p)) (snd (fst p)) (snd p)) o Wo kstd (PendA o) (PendA_ext o) below
     (stable (ite_apply1 o) enum)) with (rt := fun d i en => reduce_table enum en d i) (n := 1%nat) (ds := [0%nat]) (rds := [0%nat])
     (lv := 0) (okp := okp3) (val := val3)
     (cds := [0%nat]) (cids := ord o) (c := 0%nat) (ps := ps)
     (own := hid own) (D := D) (en := start (st en)) (L := nodesof own L) (x := xin own fw (mem (st en)) L x)
     as (own' & D' & I4 & (L4 & R4) & X4 & F4).
  - intros d j. apply stable_ok; auto.
    apply (ite_apply1_ok o Wo kstd (PendA o) (PendA_ext o) d (fun _ _ _ _ _ => iff_refl _) (Nat.lt_succ_diag_r d) eq_refl (fun _ => eq_refl) below).
  - intros d j _. apply reduce_table_ok; auto.
  - change [0%nat] with (seq 0 1). apply okds_seq. intros e. simpl. lia.
  - intros d. simpl. lia.
  - intros d. simpl. lia.
  - intros d. simpl. lia.
  - intros own1 D1 en1 own1' D1' en1' p AC X (V1 & V2 & V3). split.
    + split; [|split]; eapply vnode_ext; eauto.
    + intros rho. unfold val3. now rewrite !(ext_dv _ _ _ _ _ _ _ _ _ _ X AC (vnode_lvl _ 0 _ V1)),
        !(ext_dv _ _ _ _ _ _ _ _ _ _ X AC (vnode_lvl _ 0 _ V2)), !(ext_dv _ _ _ _ _ _ _ _ _ _ X AC (vnode_lvl _ 0 _ V3)).
  - intros own1 D1 en1 L1 x1 p A1 R1 (V1 & V2 & V3). pose proof (ai_acc _ _ _ _ _ _ _ _ A1) as AC1.
    assert (Z0 : own1 0 = ONone) by (eapply acc_low; [exact AC1|lia]).
    apply (good_ite o Wo kstd (PendA o) (PendA_ext o) 0%nat (fun _ _ _ _ _ => iff_refl _)); auto; try lia; try (now apply vnode_lvl).
    + intros q Eq. congruence.
    + intros d' j b Ob _. split; auto. intros ->. congruence.
  - intros d Hd'. assert (d = 0%nat) by lia. subst d. now left.
  - auto.
  - lia.
  - exact I0.
  - exact R0.
  - intros p Ip. destruct (Hp p Ip) as (V1 & V2 & V3).
    assert (HN : forall e, vedge (vnode own) e -> vedge (vnode (hid own)) e).
    { intros e. apply vedge_mono. intros i a _ Oa. now apply hid_node. }
    split; [|split]; now apply HN.
  - cbv zeta in I4, R4, X4, F4. unfold iteBatch in E.
    destruct (reqs (fun en p => opite o 0 en (fst (fst p)) (snd (fst p)) (snd p)) (start (st en)) ps) as [qs en1]. cbn [fst snd] in *.
    apply pair_equal_spec in E as [<- <-]. change (skipn 0 (ord o)) with (ord o) in *.
    change (sweep (stable (ite_apply1 o) enum) [0%nat]) with (ite_all enum o [0%nat]) in *.
    change (rall (fun d i en => reduce_table enum en d i) [0%nat]) with (reduce_all enum [0%nat]) in *.
    set (en4 := cleanup_all [0%nat] _ _) in *.
    destruct (nest_red_out o k own D S en fw L x I R RO own' D' en4 L4 I4 R4 X4) as
      (own2 & D2 & rs2 & L2 & I2 & R2 & RO2 & X2 & V2 & Q2 & O2).
    exists own2, D2. split.
    { exists rs2, L2. split; auto. split; auto. split; auto. split; [|split].
      - intros b d j Ob. apply Q2 in Ob. eauto.
      - intros b d j Ob. apply Q2 in Ob. eauto.
      - intros b d j Ob. apply O2 in Ob. eauto. }
    split; auto. split; auto.
    eapply Forall2_impl_in; [|exact F4]. cbn beta. intros p r _ [Vr Er]. destruct (V2 r Vr) as [V3 E3]. split; auto.
    intros rho. now rewrite E3.
Qed.
End IteBatch.

(** ** The substitution *)

Section Subst.
Variable o : order.
Hypothesis Wo : wfo o.
Variable enum : memory -> list N -> list N.
Hypothesis enum_perm : forall m l, Permutation (enum m l) l.
Variable mp : N -> option edge.
Variable last : Z.
Variable vb : N -> edge.
Variable vs : bool.
(** The function put in the place of each variable. *)
Variable sub : N -> (N -> bool) -> bool.
Hypothesis Hnone : forall i rho, mp i = None -> sub i rho = rho i.
Hypothesis Hvs : forall i h, vs = true -> mp i = Some h -> eid h <> 0 -> In (eid h) (ord o) /\ forall rho, sub i rho = rho (eid h).
Hypothesis Hlast : forall i, In i (ord o) -> (last < Z.of_N (idx o i))%Z -> mp i = None.

Definition sigma (rho : N -> bool) : N -> bool := fun i => sub i rho.
Definition ksel (_ : nat) (i : N) (rho : N -> bool) (t e : bfn) : bool := if sub i rho then t rho else e rho.
Lemma ksel_ext d i rho (f f' g g' : bfn) :
  (forall r, f' r = f r) -> (forall r, g' r = g r) -> ksel d i rho f' g' = ksel d i rho f g.
Proof. intros Hf Hg. unfold ksel. now rewrite Hf, Hg. Qed.
Definition ksub : kind := K false false (fun _ => 1%nat) ksel ksel_ext nowhere noel noel_ext.

Record PendS (own : N -> tag) (D : den) (en : eng) (i a : N) : Prop := {
  ps_F : vedge (lvl own 0) (ct (mem (st en) a));
  ps_i : eid (ct (mem (st en) a)) = i;
  ps_ind : forall p, own p <> OInd a;
  ps_D : forall rho, D a rho = dv D (ct (mem (st en) a)) (sigma rho)
}.
Definition PendSd (own : N -> tag) (D : den) (en : eng) (d : nat) (i a : N) : Prop := PendS own D en i a.

Lemma PendS_ext : forall H own D en own' D' en' d i a,
  EAcc own en -> EAcc own' en' -> SWF o (st en) ->
  ext H own D en own' D' en' -> own a = OQue d i -> ~ H a ->
  (forall p, own p = OInd a -> ~ H p) -> PendSd own D en d i a -> PendSd own' D' en' d i a.
Proof.
  intros H own D en own' D' en' d i a A A' W X Oa Ha _ [B1 B3 B7 B6].
  destruct (x_mem _ _ _ _ _ _ _ X a) as [Et Ee]; [right; rewrite Oa; auto|auto|].
  constructor; rewrite ?Et, ?Ee; auto; try (eapply ext_vedge; eauto).
  { intros p Op. apply (B7 p). eapply (x_ind _ _ _ _ _ _ _ X); eauto. }
  intros rho. rewrite (x_D _ _ _ _ _ _ _ X) by (rewrite ?Oa; try discriminate; right; rewrite Oa; auto).
  rewrite B6, !(ext_dv _ _ _ _ _ _ _ _ _ _ X A) by eauto. auto.
Qed.

Notation AInv := (AInv o ksub PendSd).
Definition nev : nat -> nat -> Prop := fun _ _ => False.

Lemma sub_past h own D S en e rho : AInv h own D S en -> vedge (lvl own 0) e -> (last < Z.of_N (eidx o e))%Z ->
  dv D e (sigma rho) = dv D e rho.
Proof using Wo Hnone Hlast.
  intros A V Lt. eapply (dv_agree o D (st en)); auto.
  - apply (ai_swf _ _ _ _ _ _ _ _ A).
  - apply (ai_dok _ _ _ _ _ _ _ _ A).
  - eapply vedge_mono; [|exact V]. intros j b _ [H|(d & Hd & _)]; [|lia].
    apply (acc_node _ _ _ _ (ai_acc _ _ _ _ _ _ _ _ A)). exact H.
  - intros i Ii Li. unfold sigma. apply Hnone. apply Hlast; auto. unfold eidx in Lt. lia.
Qed.

Lemma req_node a lv own D S en L x f :
  AInv a own D S en -> RC own S idn (mem (st en)) L x -> (forall q, own a <> OInd q) ->
  vedge (lvl own 0) f -> eid f <> 0 -> lv <= eidx o f ->
  (forall d' j b, own b = OQue d' j -> lv <= idx o j -> ~ In b S /\ b <> a) ->
  good o ksub PendSd a 1 lv S own D en L x (Some (fun rho => dv D f (sigma rho))) (request en 0 (eid f) f bnull).
Proof using Wo.
  intros A R Oa Vf Nf Lf HS.
  apply (good_request o Wo ksub PendSd PendS_ext); auto.
  - eapply lvl_ord; eauto.
  - intros c [B1 B4 B5 B6] Ef Eh rho. rewrite B6. symmetry. now apply dv_eeq.
  - intros own' D' en' c AC' X Oc Fc Mc Dc NI Dv.
    constructor; rewrite ?Mc; simpl; auto; try (eapply ext_vedge; eauto).
    intros rho. rewrite Dc, !(Dv _ 0%nat) by auto. reflexivity.
Qed.

Hypothesis Llast : forall e, eid e = 0 -> (last < Z.of_N (eidx o e))%Z.

Lemma req_sub a lv own D S en L x f :
  AInv a own D S en -> RC own S idn (mem (st en)) L x -> (forall q, own a <> OInd q) ->
  vedge (lvl own 0) f -> lv <= eidx o f ->
  (forall d' j b, own b = OQue d' j -> lv <= idx o j -> ~ In b S /\ b <> a) ->
  good o ksub PendSd a 1 lv S own D en L x (Some (fun rho => dv D f (sigma rho))) (subst_req o last en f).
Proof using Wo Hnone Hlast Llast.
  intros A R Oa Vf Lf HS. unfold subst_req.
  destruct (Z.leb_spec (Z.of_N (eidx o f)) last) as [Le|Gt].
  - apply req_node; auto. intros E0. pose proof (Llast f E0). lia.
  - apply good_keep; auto. split; [eapply vedge_lvl_mono; [|exact Vf]; lia|]. split; auto.
    intros rho. symmetry. eapply sub_past; eauto.
Qed.

Lemma subst1_ok d : step_ok o ksub PendSd nev (fun _ _ => subst1 o last) d.
Proof using Wo Hnone Hlast Llast vb.
  intros own D S en L x i a A0 R Oa Na _ HSi _.
  assert (R3 : 2 < a) by (apply (acc_rng _ _ _ (ai_acc _ _ _ _ _ _ _ _ A0)); congruence).
  destruct (ai_que _ _ _ _ _ _ _ _ A0 _ _ _ Oa) as [Ii Hst].
  destruct Hst as [[? _]|[_ Pe]]; [lia|tauto|].
  destruct Pe as [VF Ei NI DF].
  set (F := ct (mem (st en) a)) in *.
  assert (NF : eid F <> 0) by (rewrite Ei; apply (wfo_in o i Wo Ii)).
  destruct (expand0 _ _ _ _ _ _ _ _ F A0 VF NF) as (V1 & V0 & G1 & G0 & EF). rewrite Ei in G1, G0, EF.
  set (ft := thenof (mem (st en)) F) in *. set (fe := elseof (mem (st en)) F) in *.
  unfold subst1. fold F. fold ft fe.
  change (exists own' D',
    AInv 0 own' D' (a :: S) (two icr (fun en => subst_req o last en ft) (fun en => subst_req o last en fe) en a) /\
    RC own' (a :: S) idn (mem (st (two icr (fun en => subst_req o last en ft) (fun en => subst_req o last en fe) en a))) (a :: L) x /\
    ext (fun b => b = a \/ own b = OInd a) own D en own' D' (two icr (fun en => subst_req o last en ft) (fun en => subst_req o last en fe) en a) /\
    (forall b d' j, own' b = OQue d' j -> own b = OQue d' j \/ ((d' < klv ksub d)%nat /\ idx o i < idx o j))).
  assert (P : forall f, vedge (lvl own 0) f -> gt_idx o i f ->
     pok o ksub PendSd a d i S own D en (Some (fun rho => dv D f (sigma rho))) (fun en => subst_req o last en f)).
  { intros f Vf Gf own1 D1 en1 L1 x1 A1 R1 Oa1 X1 HS1.
    pose proof (ai_acc _ _ _ _ _ _ _ _ A0) as AC.
    eapply good_v; [|apply (req_sub a (idx o i + 1) own1 D1 S en1 L1 x1 f); auto].
    - intros rho. simpl. now rewrite !(ext_dv _ _ _ _ _ _ _ _ _ _ X1 AC) by eauto.
    - rewrite Oa1. discriminate.
    - exact (ext_vedge _ _ _ _ _ _ _ _ _ X1 Vf).
    - unfold gt_idx, eidx in *. lia. }
  apply (two_ok o ksub PendSd PendS_ext icr (fun s r => or_introl eq_refl) a d i own D S en L x
    (Some (fun rho => dv D ft (sigma rho))) (Some (fun rho => dv D fe (sigma rho)))); auto; try discriminate.
  intros rho. rewrite DF, EF. reflexivity.
Qed.

(** ** The reduction of a table *)

Definition QS2 (own : N -> tag) (D : den) : Prop :=
  forall i, In i (ord o) -> vedge (vnode own) (svar mp vb i) /\ forall rho, dv D (svar mp vb i) rho = sub i rho.
Lemma QS2_rext : forall own D en own' D' en', rext own D en own' D' en' -> QS2 own D -> QS2 own' D'.
Proof.
  intros own D en own' D' en' X HQ i Ii. destruct (HQ i Ii) as [V E]. split; [eapply vnode_vedge; eauto|].
  intros rho. rewrite <- E. eapply RL_dv; [exact X|]. eapply vedge_mono; [|exact V]. intros j b _ H. now left.
Qed.
Lemma QS2_ext : forall H own D en own' D' en', EAcc own en -> ext H own D en own' D' en' -> QS2 own D -> QS2 own' D'.
Proof.
  intros H own D en own' D' en' A X HQ i Ii. destruct (HQ i Ii) as [V E]. split; [eapply vnode_ext; eauto|].
  intros rho. rewrite <- E. exact (ext_dv _ _ _ _ _ _ _ _ _ _ X A (vnode_lvl _ 0 _ V)).
Qed.

Notation RState := (RState o ksub).

Lemma placeat_que j d i en a l : placeat j d i (set_que en d i l) a = set_que (placeat j d i en a) d i l.
Proof. unfold placeat; simpl. destruct (eeq _ _); auto. destruct (ulookup _ _ _ _); auto.
  destruct (alloc _ _); auto. Qed.
Lemma place_que d i en a l : place mp d i (set_que en d i l) a = set_que (place mp d i en a) d i l.
Proof. unfold place. destruct (mp i); [apply placeat_que|apply reduce1_que]. Qed.
Lemma sfinish_que d i en q l : sfinish d i (set_que en d i l) q = set_que (sfinish d i en q) d i l.
Proof. reflexivity. Qed.

Lemma RInv_set own D en d i l l' : RInv o ksub own D (set_que en d i l) -> Permutation l' l -> RInv o ksub own D (set_que en d i l').
Proof.
  intros [A W DK Q DN NI] P. constructor; auto.
  unfold EAcc. eapply acc_perm; [exact A|]. intros t _. destruct t; simpl; auto.
  unfold upd2. destruct (Nat.eqb d0 d && (i0 =? i)%N); auto.
Qed.
Lemma RState_set x S own D en d i l l' : RState x S own D (set_que en d i l) -> Permutation l' l -> RState x S own D (set_que en d i l').
Proof.
  intros (rs & L & I & R) P. exists rs, L. split; [eapply RInv_set; eauto|exact R].
Qed.
Lemma rext_set own D en d i l l' : rext own D (set_que en d i l) own D (set_que en d i l').
Proof. constructor; auto; intros; split; auto; split; auto. Qed.

Lemma Post_state x S own D en d i a l en' rs L : Post o ksub own D en S x d i a l en' ->
  RInv o ksub own D (set_que en d i (a :: l)) -> RC own S rs (mem (st en)) L x ->
  (forall b d j, own b = OQue d j -> In b S) ->
  (forall b d j, own b = OQue d j -> x b = 0) -> (forall b d j, own b = ODon d j -> x b = 0) ->
  exists own' D', RState x S own' D' en' /\ rext own D (set_que en d i (a :: l)) own' D' en'.
Proof.
  intros (own1 & D1 & rs1 & L1 & I1 & R1 & RO1 & X1 & _) I R HS Hx Hd.
  exists own1, D1. split; auto. exists rs1, L1. split; auto. split; auto. split; auto. split; [|split].
  - intros b d' j Ob. apply (rx_que _ _ _ _ _ _ X1) in Ob as [Ob _]. eauto.
  - intros b d' j Ob. apply (rx_que _ _ _ _ _ _ X1) in Ob as [Ob _]. eauto.
  - intros b d' j Ob. apply (rx_donq _ _ _ _ _ _ X1) in Ob as [Ob|Ob]; eauto.
Qed.

Section Table.
Variables (x : N -> N) (S : list N) (d : nat) (i : N).

Lemma place_state own D en a l :
  RState x S own D (set_que en d i (a :: l)) -> (forall d' j b, own b = OQue d' j -> idx o j <= idx o i) ->
  direct o mp vs (mem (st en)) i a = true ->
  exists own' D', RState x S own' D' (set_que (place mp d i en a) d i l) /\
    rext own D (set_que en d i (a :: l)) own' D' (set_que (place mp d i en a) d i l).
Proof using Wo Hnone Hvs.
  intros (rs & L & I & R & RO & HS & Hx & Hd) Low Dr.
  pose proof (Oa _ _ _ _ _ _ _ _ _ I) as Oa.
  destruct (ri_que _ _ _ _ _ I _ _ _ Oa) as [_ [_ _ B3 B4 _]].
  change (st (set_que en d i (a :: l))) with (st en) in *.
  assert (Nt : isnul (ct (mem (st en) a)) = false) by (destruct B3 as [B|[B _]]; [exact B|discriminate]).
  assert (Ne : isnul (ce (mem (st en) a)) = false) by (destruct B4 as [B|[B _]]; [exact B|discriminate]).
  assert (Kid : forall rho f g, (forall r, f r = g r) -> kcb ksub d i rho f g = f rho).
  { intros rho f g E. simpl. unfold ksel. rewrite <- E. now destruct (sub i rho). }
  eapply Post_state; eauto. unfold direct in Dr. unfold place.
  destruct (eeq (fwd (mem (st en)) (ct (mem (st en) a))) (fwd (mem (st en)) (ce (mem (st en) a)))) eqn:Eq; cbn [orb] in Dr.
  - assert (P : Post o ksub own D en S x d i a l (set_que (placeat i d i en a) d i l)).
    { eapply (placeat_gen o Wo ksub eq_refl own D en rs S L x d i a l); eauto. congruence. }
    destruct (mp i) as [h|] eqn:Hm.
    + unfold placeat in *. rewrite Eq in *. exact P.
    + unfold placeat in P. unfold reduce1. rewrite Eq in *. exact P.
  - destruct (mp i) as [h|] eqn:Hm.
    + apply andb_true_iff in Dr as [Dr D3]. apply andb_true_iff in Dr as [D1 D2].
      apply N.ltb_lt in D2, D3.
      assert (Nh : eid h <> 0).
      { intros Zh. destruct (ri_que _ _ _ _ _ I _ _ _ Oa) as [_ [B1 _ _ _ _]].
        change (st (set_que en d i (a :: l))) with (st en) in *. destruct (B1 Nt) as [B1' B6].
        destruct (fwd_spec o ksub own D _ rs i _ I RO B1' B6 Low) as (Vt & _). cbn [st set_que] in Vt.
        unfold eidx in D2. rewrite Zh, (wfo_const o Wo) in D2.
        destruct Vt as [[Z _]|[Z Vn]].
        - change (st (set_que en d i (a :: l))) with (st en) in Z. rewrite Z, (wfo_const o Wo) in D2. lia.
        - apply (acc_node _ _ _ _ (ri_acc _ _ _ _ _ I)) in Vn.
          destruct (swf_node _ _ (ri_swf _ _ _ _ _ I) _ _ Z Vn) as [Io _ _ _ _ _ _].
          pose proof (wfo_lt_const o _ Wo Io). change (st (set_que en d i (a :: l))) with (st en) in *. lia. }
      destruct (Hvs i h D1 Hm Nh) as [Ih Eh].
      eapply (placeat_gen o Wo ksub eq_refl own D en rs S L x d i a l); eauto.
      intros _. split; auto. split; [exact D2|]. split; [exact D3|]. intros rho y z. simpl. unfold ksel. now rewrite Eh.
    + apply andb_true_iff in Dr as [D2 D3]. apply N.ltb_lt in D2, D3.
      eapply (reduce1_gen o Wo ksub own D en rs S L x d i a l); eauto.
      intros rho y z. simpl. unfold ksel. now rewrite Hnone.
Qed.

Lemma sfold : forall l pd own D en,
  RState x S own D (set_que en d i (l ++ pd)) -> (forall d' j b, own b = OQue d' j -> idx o j <= idx o i) ->
  exists own' D' en' pd', fold_left (sstep o mp vs d i) l (set_que en d i [], pd) = (set_que en' d i [], pd') /\
    RState x S own' D' (set_que en' d i pd') /\ rext own D (set_que en d i (l ++ pd)) own' D' (set_que en' d i pd').
Proof using Wo Hnone Hvs.
  induction l as [|a l IH]; intros pd own D en RS Low.
  - exists own, D, en, pd. split; auto. split; auto. apply rext_refl.
  - cbn [fold_left]. unfold sstep at 2. cbn [fst snd]. change (st (set_que en d i [])) with (st en).
    destruct (direct o mp vs (mem (st en)) i a) eqn:Dr.
    + destruct (place_state own D en a (l ++ pd) RS Low Dr) as (own1 & D1 & RS1 & X1).
      rewrite place_que.
      destruct (IH pd own1 D1 (place mp d i en a) RS1) as (own2 & D2 & en2 & pd2 & E2 & RS2 & X2).
      { intros d' j b Ob. apply (rx_que _ _ _ _ _ _ X1) in Ob as [Ob _]. eauto. }
      exists own2, D2, en2, pd2. split; auto. split; auto. eapply rext_trans; eauto.
    + destruct (IH (pd ++ [a]) own D en) as (own2 & D2 & en2 & pd2 & E2 & RS2 & X2); auto.
      { eapply RState_set; [exact RS|]. rewrite app_assoc. rewrite Permutation_app_comm. reflexivity. }
      exists own2, D2, en2, pd2. split; auto. split; auto. eapply rext_trans; [apply rext_set|exact X2].
Qed.

Lemma ffold : forall qs own D en,
  RState x S own D (set_que en d i (map fst qs)) -> (forall d' j b, own b = OQue d' j -> idx o j <= idx o i) ->
  (forall q, In q qs -> vedge (vnode own) (snd q) /\ forall rho, dv D (snd q) rho = D (fst q) rho) ->
  exists own' D' en', fold_left (sfinish d i) qs (set_que en d i []) = set_que en' d i [] /\
    RState x S own' D' (set_que en' d i []) /\ rext own D (set_que en d i (map fst qs)) own' D' (set_que en' d i []).
Proof using Wo.
  induction qs as [|[a r] qs IH]; intros own D en RS Low HQ.
  - exists own, D, en. split; auto. split; auto. apply rext_refl.
  - cbn [fold_left map fst] in *. rewrite sfinish_que.
    destruct RS as (rs & L & I & R & RO & HS & Hx & Hd).
    pose proof (Oa _ _ _ _ _ _ _ _ _ I) as Oa.
    destruct (ri_que _ _ _ _ _ I _ _ _ Oa) as [_ [_ _ B3 B4 _]].
    change (st (set_que en d i (a :: map fst qs))) with (st en) in *.
    assert (Nt : isnul (ct (mem (st en) a)) = false) by (destruct B3 as [B|[B _]]; [exact B|discriminate]).
    assert (Ne : isnul (ce (mem (st en) a)) = false) by (destruct B4 as [B|[B _]]; [exact B|discriminate]).
    destruct (HQ (a, r) (or_introl eq_refl)) as [Vr Er]. cbn [fst snd] in Vr, Er.
    pose proof (sfinish_gen o Wo ksub eq_refl own D en rs S L x d i a (map fst qs) I R RO HS Hx Low Nt Ne eq_refl r Vr Er) as P.
    destruct (Post_state _ _ _ _ _ _ _ _ _ _ _ _ P I R HS Hx Hd) as (own1 & D1 & RS1 & X1).
    destruct (IH own1 D1 (sfinish d i en (a, r)) RS1) as (own2 & D2 & en2 & E2 & RS2 & X2).
    + intros d' j b Ob. apply (rx_que _ _ _ _ _ _ X1) in Ob as [Ob _]. eauto.
    + intros q Iq. destruct (HQ q (or_intror Iq)) as [Vq Eq]. split; [eapply vnode_vedge; eauto|].
      intros rho. rewrite (RL_dv _ _ _ _ _ _ (snd q) rho X1).
      * rewrite Eq. symmetry. apply (rx_D _ _ _ _ _ _ X1). right. exists i. right. left. exists d.
        apply (acc_que _ _ _ _ _ (ri_acc _ _ _ _ _ I)). simpl. rewrite upd2_same. right. now apply in_map.
      * eapply vedge_mono; [|exact Vq]. intros j b _ H. now left.
    + exists own2, D2, en2. split; auto. split; auto. eapply rext_trans; eauto.
Qed.
End Table.

Lemma combine_fst {A B} : forall (l : list A) (r : list B), length l = length r -> map fst (combine l r) = l.
Proof. induction l as [|a l IH]; intros [|b r] E; simpl in *; try discriminate; auto. f_equal. auto. Qed.
Lemma Forall2_combine {A B C} (f : A -> C) (P : C -> B -> Prop) : forall l r, Forall2 P (map f l) r ->
  length l = length r /\ forall q, In q (combine l r) -> In (fst q) l /\ P (f (fst q)) (snd q).
Proof.
  induction l as [|a l IH]; intros r F; inversion F; subst; simpl.
  - split; auto. tauto.
  - destruct (IH _ H3) as [E H]. split; [auto|]. intros q [<-|Iq]; [simpl; auto|]. destruct (H q Iq). auto.
Qed.

Lemma subst_reduce_ok d i : In i (ord o) -> rtable_okQ o ksub QS2 (fun en => subst_reduce enum o mp vb vs (ord o) en d i) d i.
Proof using Wo enum_perm Hnone Hvs.
  intros Ii x S own D en RS HQ Low. cbv beta. unfold subst_reduce. set (l := enum (mem (st en)) (que en d i)).
  assert (RS1 : RState x S own D (set_que en d i (l ++ []))).
  { rewrite app_nil_r. destruct RS as (rs & L & I & R). exists rs, L. split; [|auto].
    apply RInv_perm; auto. apply enum_perm. }
  destruct (sfold x S d i l [] own D en RS1 Low) as (own1 & D1 & en1 & pd & -> & RS2 & X1).
  assert (X0 : rext own D en own1 D1 (set_que en1 d i pd)).
  { eapply rext_trans; [|exact X1]. constructor; auto; intros; split; auto; split; auto. }
  assert (Low1 : forall d' j b, own1 b = OQue d' j -> idx o j <= idx o i).
  { intros d' j b Ob. apply (rx_que _ _ _ _ _ _ X1) in Ob as [Ob _]. eauto. }
  change (st (set_que en1 d i [])) with (st en1). set (m := mem (st en1)).
  set (f := fun a => (svar mp vb i, fwd m (ct (m a)), fwd m (ce (m a)))).
  destruct (iteBatch enum o (ord o) (st en1) (map f pd)) as [rs s] eqn:Eb.
  pose proof (QS2_rext _ _ _ _ _ _ X0 HQ) as HQ1. destruct (HQ1 i Ii) as [Vh Eh].
  assert (Hq : forall a, In a pd -> okp3 own1 (f a) /\ forall rho, val3 D1 (f a) rho = D1 a rho).
  { intros a Ia. destruct RS2 as (fw & L & I & R & RO & _).
    assert (Oa : own1 a = OQue d i).
    { apply (acc_que _ _ _ _ _ (ri_acc _ _ _ _ _ I)). simpl. now rewrite upd2_same. }
    destruct (ri_que _ _ _ _ _ I _ _ _ Oa) as [_ [B1 B2 B3 B4 B5]].
    change (mem (st (set_que en1 d i pd))) with m in *.
    assert (Nt : isnul (ct (m a)) = false) by (destruct B3 as [B|[B _]]; [exact B|discriminate]).
    assert (Ne : isnul (ce (m a)) = false) by (destruct B4 as [B|[B _]]; [exact B|discriminate]).
    destruct (B1 Nt) as [B1' B6]. destruct (B2 Ne) as [B2' B7].
    destruct (fwd_spec o ksub own1 D1 _ fw i _ I RO B1' B6 Low1) as (Vt & _ & Dt & _).
    destruct (fwd_spec o ksub own1 D1 _ fw i _ I RO B2' B7 Low1) as (Ve & _ & De & _).
    change (mem (st (set_que en1 d i pd))) with m in *. split; [split; [|split]; auto|].
    intros rho. unfold val3, f. cbn [fst snd]. rewrite Eh, Dt, De, B5. unfold comb. now rewrite Nt, Ne. }
  destruct (iteBatch_state o Wo enum enum_perm ksub x S own1 D1 (set_que en1 d i pd) (map f pd) rs s RS2)
    as (own2 & D2 & RS3 & X2 & Q2 & F2).
  { intros p Ip. apply in_map_iff in Ip as (a & <- & Ia). now apply Hq. }
  { exact Eb. }
  destruct (Forall2_combine f _ pd rs F2) as [Len Hc].
  change (set_st (set_que en1 d i pd) s) with (set_que (set_st en1 s) d i pd) in *.
  change (set_st (set_que en1 d i []) s) with (set_que (set_st en1 s) d i []).
  destruct (ffold x S d i (combine pd rs) own2 D2 (set_st en1 s)) as (own3 & D3 & en3 & E3 & RS4 & X3).
  - rewrite combine_fst by auto. exact RS3.
  - intros d' j b Ob. apply Q2 in Ob. eauto.
  - intros q Iq. destruct (Hc q Iq) as [Ia [Vq Eq]]. split; auto. intros rho. rewrite Eq.
    destruct (Hq _ Ia) as [_ Ev]. rewrite Ev. symmetry. apply (rx_D _ _ _ _ _ _ X2). right. exists i. right. left. exists d.
    destruct RS2 as (fw & L & I & _). apply (acc_que _ _ _ _ _ (ri_acc _ _ _ _ _ I)). simpl. now rewrite upd2_same.
  - rewrite E3. rewrite combine_fst in X3 by auto. exists own3, D3. split; auto. split.
    + eapply rext_trans; [exact X0|]. eapply rext_trans; [exact X2|exact X3].
    + intros b Ob. destruct RS4 as (fw & L & I & _). apply (acc_que _ _ _ _ _ (ri_acc _ _ _ _ _ I)) in Ob.
      simpl in Ob. rewrite upd2_same in Ob. destruct Ob.
Qed.

Lemma subst_table_ok d i : table_ok o ksub PendSd nev (stable (fun _ _ => subst1 o last) enum d i) d i.
Proof using Wo enum_perm Hnone Hlast Llast vb. apply stable_ok; auto. apply subst1_ok. Qed.

Lemma substBF_spec n c own D en L x F r en' :
  (forall j, In j (ord o) -> 1 <= j <= n) ->
  EInv o own D en -> RC own [] idn (mem (st en)) L x -> QS2 own D ->
  vedge (nodeR (st en)) F -> eid F <> 0 -> N.of_nat c <= eidx o F ->
  substBF enum o mp last vb vs n c en F = (r, en') ->
  exists own' D', EInv o own' D' en' /\ (exists L', RC own' [] idn (mem (st en')) L' x) /\
    nodes_kept own D en own' D' en' /\ vedge (nodeR (st en')) r /\
    forall rho, dv D' r rho = dv D F (sigma rho).
Proof using Wo enum_perm Hnone Hlast Llast Hvs.
  intros Hid I R HQ VF NF Hc Eq. unfold substBF in Eq.
  pose proof (EInv_AInv o ksub PendSd own D en I) as A1.
  assert (Gd : good o ksub PendSd 0 1 (eidx o F) [] own D en L x (Some (fun rho => dv D F (sigma rho))) (request en 0 (eid F) F bnull)).
  { apply req_node; auto; try lia. { intros q E. exact (ei_ind _ _ _ _ I _ _ E). }
    { eapply vedge_lvl0; [exact (ei_acc _ _ _ _ I)|exact VF]. }
    intros d' j b Ob. destruct (EInv_nq _ _ _ _ _ _ _ I Ob). }
  destruct (run_specQ o Wo ksub PendSd PendS_ext nev (stable (fun _ _ => subst1 o last) enum) subst_table_ok
    (fun d i en => subst_reduce enum o mp vb vs (ord o) en d i) QS2 QS2_rext QS2_ext subst_reduce_ok)
    with (n := 1%nat) (ds := [0%nat]) (rds := [0%nat])
    (cds := [0%nat]) (cids := map N.of_nat (seq 1 (N.to_nat n))) (c := c) (lv := eidx o F)
    (own := own) (D := D) (en := en) (L := L) (x := x)
    (v := fun rho => dv D F (sigma rho)) (res := request en 0 (eid F) F bnull)
    as (own2 & D2 & I2 & R2 & X2 & V2 & E2); auto.
  { simpl. unfold nev. intuition lia. }
  { intros d. simpl. lia. } { intros d. simpl. lia. } { intros d. simpl. lia. }
  { intros j Ij. assert (Ij' : In j (ord o)) by (rewrite <- (firstn_skipn c (ord o)); apply in_or_app; now right). apply Hid in Ij'. apply in_map_iff. exists (N.to_nat j). split; [lia|]. apply in_seq. lia. }
  cbv zeta in I2, R2, X2, V2, E2. destruct (request en 0 (eid F) F bnull) as [r1 en1]. cbn [fst snd] in *.
  change (sweep (stable (fun _ _ => subst1 o last) enum) [0%nat] (skipn c (ord o)) en1) with (subst_all enum o last (skipn c (ord o)) en1) in *.
  change (rall (fun d i en => subst_reduce enum o mp vb vs (ord o) en d i) [0%nat] (skipn c (ord o)) (subst_all enum o last (skipn c (ord o)) en1))
    with (subst_reduce_all enum o mp vb vs (skipn c (ord o)) (subst_all enum o last (skipn c (ord o)) en1)) in *.
  apply pair_equal_spec in Eq as [<- <-].
  exists own2, D2. split; auto. split; auto. split; auto. eapply oext_nk; eauto.
Qed.
End Subst.
