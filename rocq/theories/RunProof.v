(** * A whole operation: initial request, apply, reduce and clean-up sweeps, for any kind of engine *)
From Coq Require Import Permutation.
From Verif Require Import Base BFModel StoreInv Own EngInv ApplyProof BinopProof StepProof ReduceProof EngineProof.

Lemma run_specQ o (Wo : wfo o) (k : kind) (Pend : (N -> tag) -> den -> eng -> nat -> N -> N -> Prop)
  (Pend_ext : forall H own D en own' D' en' d i a,
    EAcc own en -> EAcc own' en' -> SWF o (st en) ->
    ext H own D en own' D' en' -> own a = OQue d i -> ~ H a ->
    (forall p, own p = OInd a -> ~ H p) -> Pend own D en d i a -> Pend own' D' en' d i a)
  (Need : nat -> nat -> Prop) (tstep : nat -> N -> eng -> eng)
  (tstep_ok : forall d i, table_ok o k Pend Need (tstep d i) d i)
  (rt : nat -> N -> eng -> eng) (Q : (N -> tag) -> den -> Prop)
  (Q_rext : forall own D en own' D' en', rext own D en own' D' en' -> Q own D -> Q own' D')
  (Q_ext : forall H own D en own' D' en', EAcc own en -> ext H own D en own' D' en' -> Q own D -> Q own' D')
  (rt_ok : forall d i, In i (ord o) -> rtable_okQ o k Q (rt d i) d i)
  (n : nat) (ds rds : list nat) (ds_ok : okds Need [] ds)
  (ds_in : forall d, In d ds <-> (d < n)%nat) (rds_in : forall d, (d < n)%nat -> In d rds)
  (k_lv : forall d, (d < n)%nat -> (klv k d <= n)%nat)
  cds cids c lv own D en L x v res :
  (forall d, (d < n)%nat -> In d cds) -> (forall j, In j (skipn c (ord o)) -> In j cids) -> N.of_nat c <= lv ->
  EInv o own D en -> RC own [] idn (mem (st en)) L x -> Q own D ->
  good o k Pend 0 n lv [] own D en L x (Some v) res ->
  let ids := skipn c (ord o) in
  let en3 := rall rt rds ids (sweep tstep ds ids (snd res)) in
  let en4 := cleanup_all cds cids en3 in
  exists own' D', EInv o own' D' en4 /\ (exists L', RC own' [] idn (mem (st en4)) L' x) /\
    oext own D en own' D' en4 /\ vedge (nodeR (st en4)) (fwd (mem (st en3)) (fst res)) /\
    forall rho, dv D' (fwd (mem (st en3)) (fst res)) rho = v rho.
Proof.
  intros Hcd Hci Lc I R HQ (own1 & D1 & A1 & R1 & X1 & (V & G & Dv) & Q1). destruct res as [r en1]. cbn [fst snd] in *. apply (RC_rest _ nowhere) in R1.
  pose proof (ei_acc _ _ _ _ I) as AC.
  assert (Hx : forall t b, own1 b = t -> t <> ONone -> own b <> t -> t <> OX -> (forall i, t <> OFree i) -> x b = 0).
  { intros t b Ob Nt Nb _ _. assert (2 < b) by (apply (acc_rng _ _ _ (ai_acc _ _ _ _ _ _ _ _ A1)); congruence).
    destruct (freeish_dec (own b)) as [Fb|Fb]; [eapply (rc_x _ _ _ _ _ _ R); eauto|].
    rewrite (x_own _ _ _ _ _ _ _ X1) in Ob; auto. congruence. }
  assert (Qb : forall d j b, own1 b = OQue d j -> (d < n)%nat /\ lv <= idx o j).
  { intros d j b Ob. destruct (Q1 _ _ _ Ob) as [E|E]; auto. destruct (EInv_nq _ _ _ _ _ _ _ I E). }
  destruct (clean_genQ o Wo k Pend Pend_ext Need tstep tstep_ok rt Q Q_rext Q_ext 0%nat (fun d i Ii _ => rt_ok d i Ii) n ds rds ds_ok ds_in rds_in k_lv cds cids c
              own1 D1 en1 L x (Nat.le_0_l _) Hcd Hci A1 R1 (Q_ext _ _ _ _ _ _ _ AC X1 HQ)) as (own2 & D2 & I2 & R2 & X2 & F2).
  { intros d j b Ob. destruct (Qb _ _ _ Ob). lia. }
  { intros d j b Ob. apply (Qb _ _ _ Ob). }
  { intros d j b Ob. apply (Hx _ _ Ob); try discriminate. apply (EInv_nq _ _ _ _ _ _ _ I). }
  { intros p a Op. apply (Hx _ _ Op); try discriminate. apply (ei_ind _ _ _ _ I). }
  cbv zeta in *. destruct (F2 r V) as [F3 F4].
  exists own2, D2. split; auto. split; auto. split; [|split; auto].
  - eapply oext_trans; [|exact X2]. eapply ext_oext; eauto. exact (ai_acc _ _ _ _ _ _ _ _ A1).
  - intros rho. now rewrite F4.
Qed.

Lemma run_spec o (Wo : wfo o) (k : kind) (Pend : (N -> tag) -> den -> eng -> nat -> N -> N -> Prop)
  (Pend_ext : forall H own D en own' D' en' d i a,
    EAcc own en -> EAcc own' en' -> SWF o (st en) ->
    ext H own D en own' D' en' -> own a = OQue d i -> ~ H a ->
    (forall p, own p = OInd a -> ~ H p) -> Pend own D en d i a -> Pend own' D' en' d i a)
  (Need : nat -> nat -> Prop) (tstep : nat -> N -> eng -> eng)
  (tstep_ok : forall d i, table_ok o k Pend Need (tstep d i) d i)
  (rt : nat -> N -> eng -> eng) (rt_ok : forall d i, In i (ord o) -> rtable_ok o k (rt d i) d i)
  (n : nat) (ds rds : list nat) (ds_ok : okds Need [] ds)
  (ds_in : forall d, In d ds <-> (d < n)%nat) (rds_in : forall d, (d < n)%nat -> In d rds)
  (k_lv : forall d, (d < n)%nat -> (klv k d <= n)%nat)
  cds cids c lv own D en L x v res :
  (forall d, (d < n)%nat -> In d cds) -> (forall j, In j (skipn c (ord o)) -> In j cids) -> N.of_nat c <= lv ->
  EInv o own D en -> RC own [] idn (mem (st en)) L x ->
  good o k Pend 0 n lv [] own D en L x (Some v) res ->
  let ids := skipn c (ord o) in
  let en3 := rall rt rds ids (sweep tstep ds ids (snd res)) in
  let en4 := cleanup_all cds cids en3 in
  exists own' D', EInv o own' D' en4 /\ (exists L', RC own' [] idn (mem (st en4)) L' x) /\
    oext own D en own' D' en4 /\ vedge (nodeR (st en4)) (fwd (mem (st en3)) (fst res)) /\
    forall rho, dv D' (fwd (mem (st en3)) (fst res)) rho = v rho.
Proof.
  intros Hcd Hci Lc I R G.
  exact (run_specQ o Wo k Pend Pend_ext Need tstep tstep_ok rt anyQ (fun _ _ _ _ _ _ _ _ => Logic.I) (fun _ _ _ _ _ _ _ _ _ _ => Logic.I)
    rt_ok n ds rds ds_ok ds_in rds_in k_lv cds cids c lv own D en L x v res Hcd Hci Lc I R Logic.I G).
Qed.
