(** * Breadth-first quantification: the expansion at a quantified variable, batches of requests. *)
From Coq Require Import Permutation.
From Verif Require Import Base BFModel BatchModel MgrModel ApiModel QuantModel QuantBFModel StoreInv Own EngInv ApplyProof BinopProof
  StepProof RunProof ReduceProof EngineProof OpProof MultiProof NestProof ITEProof ApiStruct MInv QuantProof PlaceProof SubstProof QuantBFProof.

Section One.
Variable o : order.
Hypothesis Wo : wfo o.
Variable k : kind.
Variable Pend : (N -> tag) -> den -> eng -> nat -> N -> N -> Prop.
Hypothesis Pend_ext : forall H own D en own' D' en' d i a,
  EAcc own en -> EAcc own' en' -> SWF o (st en) ->
  ext H own D en own' D' en' -> own a = OQue d i -> ~ H a ->
  (forall p, own p = OInd a -> ~ H p) -> Pend own D en d i a -> Pend own' D' en' d i a.
Local Notation AInv := (AInv o k Pend).
Local Notation RC := (RCq (kun k)).

(** The two slots of an uncounted request are written. *)
Lemma one_write a d i own D S en L x r w v :
  AInv a own D S en -> RC own S idn (mem (st en)) L x -> own a = OQue d i -> kun k d i = true -> ~ In a S -> (forall p, own p <> OInd a) ->
  vedge (lvl own (klv k d)) r -> gt_idx o i r -> kel k own D (mem (st en)) i w v -> (forall rho, D a rho = kcb k d i rho (dv D r) v) ->
  let en' := set_st en (put (st en) a (C r w (cr (mem (st en) a)))) in
  AInv 0 own D (a :: S) en' /\ RC own (a :: S) idn (mem (st en')) L x /\ ext (fun b => b = a) own D en own D en'.
Proof using Wo Pend_ext.
  intros A R Oa Ku Na NI Vr Gr Kw HD en'. pose proof (ai_acc _ _ _ _ _ _ _ _ A) as AC.
  assert (R3 : 2 < a) by (apply (acc_rng _ _ _ AC); congruence).
  assert (NaL : ~ In a L).
  { rewrite (rc_L _ _ _ _ _ _ R), Oa. intros [(? & ?)|(? & ? & ? & ?)]; [discriminate|tauto]. }
  assert (Mb : forall b, b <> a -> mem (st en') b = mem (st en) b).
  { intros b Nb. unfold en'; simpl. now rewrite upd_other. }
  assert (Ma : mem (st en') a = C r w (cr (mem (st en) a))) by (unfold en'; simpl; now rewrite upd_same).
  assert (X : ext (fun b => b = a) own D en own D en').
  { constructor; auto.
    - intros b Kb Hb. destruct (N.eq_dec b a) as [->|Nb].
      + exfalso. apply Hb; auto. rewrite Oa; simpl; auto.
      + unfold sameTE. rewrite Mb by auto. auto.
    - intros b Ob. rewrite Mb by congruence. auto.
    - intros Hone. rewrite Mb by (unfold ONE; lia). auto. }
  assert (A1 : AInv a own D S en').
  { eapply (AInv_ext o k Pend Pend_ext a _ own D S en own D en' A X).
    - apply (EAcc_same _ en); auto.
    - auto.
    - auto.
    - rewrite Oa. discriminate.
    - auto.
    - auto. }
  split; [|split; auto].
  - eapply AInv_close; eauto. unfold Applied. rewrite Ku. constructor; rewrite Ma; cbn [ct ce]; auto.
    exists v. split; auto. eapply kel_ext; [eapply ext_wext; eauto|exact Kw].
  - eapply RC_apply_un; eauto. eapply RC_frame; [| |exact R].
    + intros b Ib. unfold sameTE. rewrite Mb by congruence. auto.
    + intros b _. destruct (N.eq_dec b a) as [->|Nb]; [now rewrite Ma|now rewrite Mb].
Qed.

(** A cell of its own for a pair of operands. *)
Lemma pair_alloc a own D S en L x j p s1 c :
  AInv a own D S en -> RC own S idn (mem (st en)) L x -> (forall q, own a <> OInd q) -> alloc (st en) j = (p, s1) ->
  let own' := upd own p OX in
  let en' := set_st en (put s1 p c) in
  AInv a own' D S en' /\ RC own' S idn (mem (st en')) L x /\ ext (fun _ => False) own D en own' D en' /\
  own' p = OX /\ mem (st en') p = c /\ (forall b, b <> p -> own' b = own b) /\ freeish (own p).
Proof using Wo Pend_ext.
  intros A R NI Al own' en'. pose proof (ai_acc _ _ _ _ _ _ _ _ A) as AC.
  destruct (alloc_spec _ _ _ _ _ _ _ AC Al) as (Fa & Ra & Rx & A1 & Em & Eu & En).
  assert (Oa : forall b, ~ freeish (own b) -> b <> p) by congruence.
  assert (Ka : forall b, kept own b -> b <> p). { intros b [?|?]; auto. lia. }
  assert (Mb : forall b, b <> p -> mem (st en') b = mem (st en) b).
  { intros b Nb. unfold en'; simpl. rewrite Em, !upd_other by auto. auto. }
  assert (Ob : forall b, b <> p -> own' b = own b) by (intros b Nb; unfold own'; now rewrite upd_other).
  assert (Op : own' p = OX) by (unfold own'; now rewrite upd_same).
  assert (X : ext (fun _ => False) own D en own' D en').
  { constructor; unfold en'; simpl; auto.
    - intros b Kb _. unfold sameTE. rewrite Em, !upd_other by auto. auto.
    - intros b E. rewrite Em, !upd_other; auto; intros ->; rewrite E in Fa; destruct Fa as [?|[? ?]]; discriminate.
    - rewrite Em, !upd_other by (unfold ONE; lia). auto.
    - now rewrite Eu.
    - intros b q d' m Oq. destruct (N.eq_dec b p) as [->|Nb]; [rewrite Op; discriminate|now rewrite Ob]. }
  split; [|split; [|split; [|split; [|split; [|split]]]]]; auto.
  - eapply (AInv_ext o k Pend Pend_ext a _ own D S en own' D en' A X).
    + exact A1.
    + intros i. unfold en'; simpl. now rewrite Eu.
    + tauto.
    + exact NI.
    + intros b d i E. left. destruct (N.eq_dec b p) as [->|Nb]; [congruence|]. now rewrite <- Ob.
    + intros b q E. left. destruct (N.eq_dec b p) as [->|Nb]; [congruence|]. now rewrite <- Ob.
  - destruct R as [B1 B2 B3 B4 B5 B6].
    assert (Cq : forall b, counted own' b <-> counted own b).
    { intros b. unfold counted. destruct (N.eq_dec b p) as [->|Nb]; [|now rewrite Ob]. rewrite Op.
      split; (intros [(i & E)|(d & i & E)]; [try discriminate|try discriminate]); destruct Fa as [Fa|[? Fa]]; congruence. }
    assert (Tq : forall b, tgt own b -> tgt own' b).
    { intros b Tb. assert (Nb : b <> p). { intros ->. apply tgt_nf in Tb as [?|?]; auto. unfold NUL in *. lia. }
      unfold tgt, counted in *. now rewrite Ob. }
    assert (NL : forall b, In b L -> b <> p).
    { intros b Ib ->. apply B2 in Ib as [(i & E)|(d & i & E & _)]; rewrite E in Fa; destruct Fa as [Fa|[? Fa]]; discriminate. }
    assert (Sm : forall b, In b L -> sameTE (mem (st en)) (mem (st en')) b).
    { intros b Ib. unfold sameTE. rewrite Mb; auto. }
    constructor; auto.
    + intros b. rewrite B2. destruct (N.eq_dec b p) as [->|Nb]; [|now rewrite Ob]. rewrite Op.
      split; (intros [(i & E)|(d & i & E & _)]; [try discriminate|try discriminate]); rewrite E in Fa; destruct Fa as [Fa|[? Fa]]; discriminate.
    + intros b Ib. destruct (Sm b Ib) as [-> ->]. destruct (B3 b Ib). auto.
    + intros b Cb. apply Cq in Cb. assert (Nb : b <> p). { intros ->. destruct Cb as [(i & E)|(d & i & E)]; rewrite E in Fa; destruct Fa as [Fa|[? Fa]]; discriminate. }
      rewrite Mb by auto. rewrite (occ_frame idn (mem (st en))) by auto. auto.
    + intros b Cb. apply Cq in Cb. assert (Nb : b <> p). { intros ->. destruct Cb as [(i & E)|(d & i & E)]; rewrite E in Fa; destruct Fa as [Fa|[? Fa]]; discriminate. }
      rewrite Mb by auto. auto.
    + intros b Lb Fb. destruct (N.eq_dec b p) as [->|Nb]; auto. rewrite Ob in Fb by auto. auto.
  - unfold en'; simpl. now rewrite upd_same.
Qed.
End One.

(** ** A batch of requests, with a condition on the nodes *)
Section BatchQ.
Context {P : Type}.
Variable rq : eng -> P -> edge * eng.
Variable o : order.
Hypothesis Wo : wfo o.
Variable k : kind.
Variable Pend : (N -> tag) -> den -> eng -> nat -> N -> N -> Prop.
Variable n : nat.
Variable lv : N.
Variable Q : (N -> tag) -> den -> Prop.
Hypothesis Q_ext : forall H own D en own' D' en', EAcc own en -> ext H own D en own' D' en' -> Q own D -> Q own' D'.
Variable okp : (N -> tag) -> den -> P -> Prop.
Variable val : den -> P -> bfn.
Hypothesis okp_ext : forall own D en own' D' en' p, EAcc own en -> ext (fun _ => False) own D en own' D' en' -> okp own D p ->
  okp own' D' p /\ forall rho, val D' p rho = val D p rho.
Hypothesis rq_ok : forall own D en L x p, AInv o k Pend 0 own D [] en -> RCq (kun k) own [] idn (mem (st en)) L x -> Q own D -> okp own D p ->
  good o k Pend 0 n lv [] own D en L x (Some (val D p)) (rq en p).

Lemma reqs_specQ : forall ps own D en L x,
  AInv o k Pend 0 own D [] en -> RCq (kun k) own [] idn (mem (st en)) L x -> Q own D -> (forall p, In p ps -> okp own D p) ->
  exists own' D', AInv o k Pend 0 own' D' [] (snd (reqs rq en ps)) /\ RCq (kun k) own' [] idn (mem (st (snd (reqs rq en ps)))) L x /\
    ext (fun _ => False) own D en own' D' (snd (reqs rq en ps)) /\
    Forall2 (fun p r => vedge (lvl own' n) r /\ lv <= eidx o r /\ forall rho, dv D' r rho = val D p rho) ps (fst (reqs rq en ps)) /\
    (forall b d' j, own' b = OQue d' j -> own b = OQue d' j \/ ((d' < n)%nat /\ lv <= idx o j)).
Proof using Q_ext okp_ext rq_ok.
  induction ps as [|p ps IH]; intros own D en L x A R HQ Ok.
  - exists own, D. cbn [reqs fst snd]. split; auto. split; auto. split; [apply ext_refl|]. split; [constructor|auto].
  - destruct (rq_ok own D en L x p A R HQ (Ok p (or_introl eq_refl))) as (own1 & D1 & A1 & R1 & X1 & (V1 & G1 & E1) & Q1).
    cbn [reqs]. destruct (rq en p) as [r en1]. cbn [fst snd] in *.
    pose proof (ai_acc _ _ _ _ _ _ _ _ A) as AC. pose proof (ai_acc _ _ _ _ _ _ _ _ A1) as AC1.
    destruct (IH own1 D1 en1 L x A1 R1 (Q_ext _ _ _ _ _ _ _ AC X1 HQ)) as (own2 & D2 & A2 & R2 & X2 & F2 & Q2).
    { intros q Iq. exact (proj1 (okp_ext _ _ _ _ _ _ q AC X1 (Ok q (or_intror Iq)))). }
    destruct (reqs rq en1 ps) as [rs en2]. cbn [fst snd] in *. exists own2, D2. split; auto. split; auto.
    split; [apply (ext_weaken (fun a : N => False \/ False)); [tauto|exact (ext_trans _ _ _ _ _ _ _ _ _ _ _ AC AC1 X1 X2)]|].
    split.
    + constructor.
      * split; [exact (ext_vedge _ _ _ _ _ _ _ _ _ X2 V1)|]. split; auto. intros rho. rewrite (ext_dv _ _ _ _ _ _ _ _ _ _ X2 AC1 V1). apply E1.
      * eapply Forall2_impl_in; [|exact F2]. cbn beta. intros q t Iq (V & G & E). split; auto. split; auto. intros rho. rewrite E.
        apply (proj2 (okp_ext _ _ _ _ _ _ q AC X1 (Ok q (or_intror Iq)))).
    + intros b d' j Ob. destruct (Q2 _ _ _ Ob) as [Ob1|?]; auto.
Qed.

Hypothesis Pend_ext : forall H own D en own' D' en' d i a,
  EAcc own en -> EAcc own' en' -> SWF o (st en) ->
  ext H own D en own' D' en' -> own a = OQue d i -> ~ H a ->
  (forall p, own p = OInd a -> ~ H p) -> Pend own D en d i a -> Pend own' D' en' d i a.
Variable Need : nat -> nat -> Prop.
Variable tstep : nat -> N -> eng -> eng.
Hypothesis tstep_ok : forall d i, table_ok o k Pend Need (tstep d i) d i.
Variable rt : nat -> N -> eng -> eng.
Hypothesis Q_rext : forall own D en own' D' en', rext own D en own' D' en' -> Q own D -> Q own' D'.
Variable c : nat.
Hypothesis rt_ok : forall d i, In i (ord o) -> N.of_nat c <= idx o i -> rtable_okQ o k Q (rt d i) d i.
Variables ds rds : list nat.
Hypothesis ds_ok : okds Need [] ds.
Hypothesis ds_in : forall d, In d ds <-> (d < n)%nat.
Hypothesis rds_in : forall d, (d < n)%nat -> In d rds.
Hypothesis k_lv : forall d, (d < n)%nat -> (klv k d <= n)%nat.

Lemma batch_specQ cds cids ps own D en L x :
  (forall d, (d < n)%nat -> In d cds) -> (forall j, In j (skipn c (ord o)) -> In j cids) -> N.of_nat c <= lv ->
  EInv o own D en -> RC own [] idn (mem (st en)) L x -> Q own D -> (forall p, In p ps -> okp own D p) ->
  let ids := skipn c (ord o) in
  let en3 := rall rt rds ids (sweep tstep ds ids (snd (reqs rq en ps))) in
  let en4 := cleanup_all cds cids en3 in
  exists own' D', EInv o own' D' en4 /\ (exists L', RC own' [] idn (mem (st en4)) L' x) /\ oext own D en own' D' en4 /\
    Forall2 (fun p r => vedge (nodeR (st en4)) r /\ forall rho, dv D' r rho = val D p rho)
      ps (map (fwd (mem (st en3))) (fst (reqs rq en ps))).
Proof using Wo Pend_ext tstep_ok rt_ok ds_ok ds_in rds_in k_lv okp_ext rq_ok Q_ext Q_rext.
  intros Hcd Hci Lc I R HQ Ok. pose proof (ei_acc _ _ _ _ I) as AC.
  destruct (reqs_specQ ps own D en L x (EInv_AInv o k Pend own D en I) (RC_rest _ _ _ _ _ _ _ R) HQ Ok)
    as (own1 & D1 & A1 & R1 & X1 & F1 & Q1).
  destruct (reqs rq en ps) as [rs en1]. cbn [fst snd] in *. apply (RC_rest _ nowhere) in R1.
  assert (Hx : forall t b, own1 b = t -> t <> ONone -> own b <> t -> t <> OX -> (forall i, t <> OFree i) -> x b = 0).
  { intros t b Ob Nt Nb _ _. assert (2 < b) by (apply (acc_rng _ _ _ (ai_acc _ _ _ _ _ _ _ _ A1)); congruence).
    destruct (freeish_dec (own b)) as [Fb|Fb]; [eapply (rc_x _ _ _ _ _ _ R); eauto|].
    rewrite (x_own _ _ _ _ _ _ _ X1) in Ob; auto. congruence. }
  assert (Qb : forall d j b, own1 b = OQue d j -> (d < n)%nat /\ lv <= idx o j).
  { intros d j b Ob. destruct (Q1 _ _ _ Ob) as [E|E]; auto. destruct (EInv_nq _ _ _ _ _ _ _ I E). }
  destruct (clean_genQ o Wo k Pend Pend_ext Need tstep tstep_ok rt Q Q_rext Q_ext c rt_ok n ds rds ds_ok ds_in rds_in k_lv cds cids c
              own1 D1 en1 L x (le_n c) Hcd Hci A1 R1 (Q_ext _ _ _ _ _ _ _ AC X1 HQ)) as (own2 & D2 & I2 & R2 & X2 & F2).
  { intros d j b Ob. destruct (Qb _ _ _ Ob). lia. }
  { intros d j b Ob. apply (Qb _ _ _ Ob). }
  { intros d j b Ob. apply (Hx _ _ Ob); try discriminate. apply (EInv_nq _ _ _ _ _ _ _ I). }
  { intros p a Op. apply (Hx _ _ Op); try discriminate. apply (ei_ind _ _ _ _ I). }
  cbv zeta in *. exists own2, D2. split; auto. split; auto. split.
  - eapply oext_trans; [|exact X2]. eapply ext_oext; eauto. exact (ai_acc _ _ _ _ _ _ _ _ A1).
  - clear - F1 F2. induction F1 as [|p r ps rs (Vr & _ & Er) F1 IH]; simpl; constructor; auto.
    destruct (F2 r Vr) as [F3 F4]. split; auto. intros rho. now rewrite F4.
Qed.
End BatchQ.
