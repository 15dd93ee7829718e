(** * Correctness of the reduction with respect to a care set: the breadth-first operation. *)
From Coq Require Import Permutation.
From Verif Require Import Base BFModel BatchModel ITEModel MgrModel ApiModel CofactorModel GraphModel ReduceOpModel StoreInv Own EngInv ApplyProof BinopProof
  StepProof RunProof ReduceProof EngineProof OpProof MultiProof NestProof ITEProof QProof GCProof VarProof MInv ApiProof ApiOps ApiStruct ComposeProof CofSem CofactorProof.

(** ** A list of items, each completing one request *)

Section Items.
Context {T : Type}.
Variable adr : T -> N.
Variable step : eng -> T -> eng.
Variable o : order.
Variable k : kind.
Local Notation RC := (RCq (kun k)).
Variable Pend : (N -> tag) -> den -> eng -> nat -> N -> N -> Prop.
Variables (d : nat) (i : N).
Variable pre : (N -> tag) -> den -> eng -> T -> Prop.
Hypothesis pre_ext : forall H own D en own' D' en' q,
  EAcc own en -> own (adr q) = OQue d i -> ext H own D en own' D' en' -> ~ H (adr q) -> pre own D en q -> pre own' D' en' q.
Hypothesis step_item : forall own D S en L x q,
  AInv o k Pend 0 own D S en -> RC own S idn (mem (st en)) L x -> own (adr q) = OQue d i -> ~ In (adr q) S -> pre own D en q ->
  (forall d' j b, own b = OQue d' j -> idx o i < idx o j -> ~ In b S) ->
  exists own' D',
    AInv o k Pend 0 own' D' (adr q :: S) (step en q) /\
    RC own' (adr q :: S) idn (mem (st (step en q))) (adr q :: L) x /\
    ext (fun b => b = adr q \/ own b = OInd (adr q)) own D en own' D' (step en q) /\
    (forall b d' j, own' b = OQue d' j -> own b = OQue d' j \/ ((d' < klv k d)%nat /\ idx o i < idx o j)).

Lemma fold_items : forall l own D S en L x,
  AInv o k Pend 0 own D S en -> RC own S idn (mem (st en)) L x -> NoDup (map adr l) ->
  (forall q, In q l -> own (adr q) = OQue d i /\ ~ In (adr q) S /\ pre own D en q) ->
  (forall d' j b, own b = OQue d' j -> idx o i < idx o j -> ~ In b S) ->
  exists own' D' L', let en' := fold_left step l en in
    AInv o k Pend 0 own' D' (rev (map adr l) ++ S) en' /\ RC own' (rev (map adr l) ++ S) idn (mem (st en')) L' x /\
    ext (fun b => In b (map adr l) \/ exists a, In a (map adr l) /\ own b = OInd a) own D en own' D' en' /\
    (forall b d' j, own' b = OQue d' j -> own b = OQue d' j \/ ((d' < klv k d)%nat /\ idx o i < idx o j)).
Proof using pre_ext step_item.
  induction l as [|q l IH]; intros own D S en L x A R ND Hl Hi.
  - exists own, D, L. simpl. split; auto. split; auto. split; [eapply ext_weaken; [|apply ext_refl]; simpl; tauto|]. auto.
  - destruct (Hl q (or_introl eq_refl)) as (Oa & Na & Pa).
    destruct (step_item own D S en L x q A R Oa Na Pa Hi) as (own1 & D1 & A1 & R1 & X1 & N1).
    inversion ND as [|? ? Nal NDl]; subst.
    pose proof (ai_acc _ _ _ _ _ _ _ _ A) as AC. pose proof (ai_acc _ _ _ _ _ _ _ _ A1) as AC1.
    destruct (IH own1 D1 (adr q :: S) (step en q) (adr q :: L) x A1 R1 NDl) as (own2 & D2 & L2 & A2 & R2 & X2 & N2).
    + intros b Ib. destruct (Hl b (or_intror Ib)) as (Ob & Nb & Pb).
      assert (Nq : adr b <> adr q). { intros E. apply Nal. rewrite <- E. now apply in_map. }
      split; [eapply oque_ext; eauto|]. split.
      * intros [?|?]; congruence.
      * refine (pre_ext _ own D en _ _ _ b AC Ob X1 _ Pb). intros [E|E]; congruence.
    + intros d' j b Ob Lt [<-|Ib].
      * pose proof (oque_ext _ _ _ _ _ _ _ _ _ _ X1 Oa). assert (i = j) by congruence. subst. lia.
      * destruct (ai_S _ _ _ _ _ _ _ _ A b Ib) as (d1 & i1 & E).
        pose proof (oque_ext _ _ _ _ _ _ _ _ _ _ X1 E) as E1. rewrite E1 in Ob. injection Ob as -> ->.
        eapply Hi; eauto.
    + exists own2, D2, L2. cbn [fold_left rev map]. rewrite <- app_assoc. cbn [app].
      split; auto. split; auto. split.
      * eapply ext_weaken; [|exact (ext_trans _ _ _ _ _ _ _ _ _ _ _ AC AC1 X1 X2)]. cbn beta.
        intros b [[->|E]|[Ib|(a & Ia & E)]].
        -- left. now left.
        -- right. exists (adr q). split; auto. now left.
        -- left. now right.
        -- right. exists a. split; [now right|].
           apply in_map_iff in Ia as (q' & <- & Iq). destruct (Hl q' (or_intror Iq)) as (Oq & _).
           eapply (x_ind _ _ _ _ _ _ _ X1); eauto.
      * intros b d' j Ob. destruct (N2 _ _ _ Ob) as [Ob'|?]; auto.
Qed.
End Items.

Section Red.
Variable o : order.
Hypothesis Wo : wfo o.
Variable enum : memory -> list N -> list N.
Hypothesis enum_perm : forall m l, Permutation (enum m l) l.

Notation PendR := (PendR o true).
Notation AInv := (AInv o kcof PendR).

(** ** The batch of disjunctions *)

Lemma orBatch_spec own D S en L x ps h i cs s : In i (ord o) ->
  AInv h own D S en -> RC own S idn (mem (st en)) L x -> (forall r, own h <> OInd r) ->
  (forall p, In p ps -> vedge (lvl own 0) (fst p) /\ vedge (lvl own 0) (snd p) /\ gt_idx o i (fst p) /\ gt_idx o i (snd p)) ->
  orBatch enum o (skipn (N.to_nat (idx o i)) (ord o)) (st en) ps = (cs, s) ->
  let en2 := set_st en s in
  exists own2 D2 L2, AInv h own2 D2 S en2 /\ RC own2 S idn (mem (st en2)) L2 x /\
    ext (fun _ => False) own D en own2 D2 en2 /\
    (forall b d j, own2 b = OQue d j <-> own b = OQue d j) /\
    Forall2 (fun p r => vedge (lvl own2 0) r /\ forall rho, dv D2 r rho = dv D (fst p) rho || dv D (snd p) rho) ps cs.
Proof using Wo enum_perm.
  intros Ii A R Hh Hp E en2.
  destruct (nest_in o kcof PendR h own D S en L x A R) as [I0 R0].
  assert (HN : forall e, vedge (lvl own 0) e <-> vedge (lvl (hid own) 0) e).
  { intros e. unfold vedge, lvl. split; intros [V|[V1 V2]]; [now left| |now left|]; right; (split; [auto|]);
    (destruct V2 as [V2|(d & Hd & _)]; [|lia]); left; now apply hid_node. }
  destruct (batch_spec (fun en p => opreq o op_or 0 en (fst p) (snd p)) o Wo kstd (PendB o op_or) (PendB_ext o op_or) below
     (stable (bstep o op_or) enum)) with (rt := fun d i en => reduce_table enum en d i) (n := 1%nat) (ds := [0%nat]) (rds := [0%nat])
     (lv := idx o i) (okp := fun (own : N -> tag) (p : edge * edge) => vedge (lvl own 0) (fst p) /\ vedge (lvl own 0) (snd p) /\ gt_idx o i (fst p) /\ gt_idx o i (snd p))
     (val := fun (D : den) (p : edge * edge) (rho : N -> bool) => dv D (fst p) rho || dv D (snd p) rho)
     (cds := [0%nat]) (cids := skipn (N.to_nat (idx o i)) (ord o)) (c := N.to_nat (idx o i)) (ps := ps)
     (own := hid own) (D := D) (en := start (st en)) (L := nodesof own L) (x := xin own idn (mem (st en)) L x)
     as (own' & D' & I4 & (L4 & R4) & X4 & F4).
  - intros d j. apply stable_ok; auto. apply (apply1_ok o Wo op_or op_or_ok).
  - intros d j _. apply reduce_table_ok; auto.
  - change [0%nat] with (seq 0 1). apply okds_seq. intros e. simpl. lia.
  - intros d. simpl. lia.
  - intros d. simpl. lia.
  - intros d. simpl. lia.
  - intros own1 D1 en1 own1' D1' en1' p AC X (V1 & V2 & G1 & G2). split.
    + split; [exact (ext_vedge _ _ _ _ _ _ _ _ _ X V1)|]. split; [exact (ext_vedge _ _ _ _ _ _ _ _ _ X V2)|]. auto.
    + intros rho. now rewrite (ext_dv _ _ _ _ _ _ _ _ _ _ X AC V1), (ext_dv _ _ _ _ _ _ _ _ _ _ X AC V2).
  - intros own1 D1 en1 L1 x1 p A1 R1 (V1 & V2 & G1 & G2). pose proof (ai_acc _ _ _ _ _ _ _ _ A1) as AC1.
    assert (Z0 : own1 0 = ONone) by (eapply acc_low; [exact AC1|lia]).
    destruct (opreq o op_or 0 en1 (fst p) (snd p)) as [r en'] eqn:Er.
    destruct (opreq_spec o Wo op_or op_or_ok 0 own1 D1 [] en1 L1 x1 0%nat (idx o i) (fst p) (snd p) r en' A1 R1) as
      (own2 & D2 & A2 & R2 & X2 & Vr & Gr & Er' & _ & Q2); auto.
    { intros q Eq. congruence. }
    { unfold gt_idx, eidx in *. lia. } { unfold gt_idx, eidx in *. lia. }
    { intros d' j b Ob _. split; auto. intros ->. congruence. }
    exists own2, D2. cbn [fst snd]. split; auto. split; auto. split; auto. split; [split; auto|].
    intros b d' j Ob. destruct (Q2 _ _ _ Ob) as [?|[-> ?]]; auto.
  - intros d Hd. assert (d = 0%nat) by lia. subst d. now left.
  - auto.
  - lia.
  - exact I0.
  - exact R0.
  - intros p Ip. destruct (Hp p Ip) as (V1 & V2 & G1 & G2). split; [now apply HN|]. split; [now apply HN|]. auto.
  - cbv zeta in I4, R4, X4, F4. unfold orBatch in E.
    destruct (reqs (fun en p => opreq o op_or 0 en (fst p) (snd p)) (start (st en)) ps) as [rs en1]. cbn [fst snd] in *.
    apply pair_equal_spec in E as [<- <-].
    change (sweep (stable (bstep o op_or) enum) [0%nat]) with (apply_all enum o op_or [0%nat]) in *.
    change (rall (fun d i en => reduce_table enum en d i) [0%nat]) with (reduce_all enum [0%nat]) in *.
    set (en4 := cleanup_all [0%nat] _ _) in *.
    destruct (nest_out o kcof PendR (PendR_ext o true) h own D S en L x own' D' en4 L4 A R Hh I4 R4 X4) as
      (own2 & D2 & L2 & A2 & R2 & X2 & V2 & Q2).
    exists own2, D2, L2. split; [exact A2|]. split; [exact R2|]. split; [exact X2|]. split; [exact Q2|].
    eapply Forall2_impl_in; [|exact F4]. cbn beta. intros p r _ [Vr Er]. destruct (V2 r Vr) as [V3 E3]. split; auto.
    intros rho. now rewrite E3.
Qed.

(** ** One pulled request *)

Lemma depends_top h own D S en F : AInv h own D S en -> vedge (lvl own 0) F -> eid F <> 0 ->
  ~ (forall rho b, dv D F (flip rho (eid F) b) = dv D F rho).
Proof using Wo.
  intros A VF Nf Kf. pose proof (ai_acc _ _ _ _ _ _ _ _ A) as AC.
  destruct (expand0 _ _ _ _ _ _ _ _ F A VF Nf) as (W1 & W0 & X1 & X0 & DX).
  assert (Ii : In (eid F) (ord o)) by (eapply lvl_ord; eauto).
  assert (Bl : forall e rho b, vedge (lvl own 0) e -> gt_idx o (eid F) e -> dv D e (flip rho (eid F) b) = dv D e rho).
  { intros e rho b Ve Ge. eapply below_dv; eauto. }
  assert (Es : thenof (mem (st en)) F = elseof (mem (st en)) F).
  { apply (canon_dv o D (st en)).
    - exact Wo.
    - exact (ai_swf _ _ _ _ _ _ _ _ A).
    - exact (ai_dok _ _ _ _ _ _ _ _ A).
    - eapply lvl0_node; eauto.
    - eapply lvl0_node; eauto.
    - intros rho. pose proof (Kf rho true) as K1. pose proof (Kf rho false) as K2. rewrite DX, flip_same in K1. rewrite DX, flip_same in K2.
      rewrite (Bl _ rho true W1 X1) in K1. rewrite (Bl _ rho false W0 X0) in K2. congruence. }
  assert (VN : In (eptr F) (ut (st en) (eid F))).
  { pose proof (lvl0_node _ _ _ AC VF) as VFn. destruct VFn as [[Z0 _]|[_ Hn]]; [congruence|exact Hn]. }
  assert (NO : nodeok o (st en) (eid F) (eptr F)).
  { apply (swf_node _ _ (ai_swf _ _ _ _ _ _ _ _ A)); [congruence|exact VN]. }
  pose proof (no_red _ _ _ _ NO) as Nr. unfold thenof, elseof, ephase in Es. unfold eeq in Nr.
  pose proof (f_equal eptr Es) as Ep. pose proof (f_equal eneg Es) as En. simpl in Ep, En. rewrite Ep, N.eqb_refl in Nr.
  destruct (eneg (ct (mem (st en) (eptr F)))), (eneg (ce (mem (st en) (eptr F)))), (eneg F); simpl in *; congruence.
Qed.

Lemma rc_add2 n : n <= MAXREF -> rc_add n 2 = rc_icr (rc_icr n).
Proof.
  intros H. rewrite rc_add_spec by lia. unfold rc_icr, MAXREF in *. destruct (N.eqb_spec n 255) as [->|Nn]; [reflexivity|].
  assert (Lt : n <? 255 = true) by (apply N.ltb_lt; lia). rewrite Lt. destruct (N.ltb_spec (n + 1) 255); lia.
Qed.

Definition pullpre (i : N) (own : N -> tag) (D : den) (en : eng) (q : N * edge) : Prop :=
  vedge (lvl own 0) (snd q) /\ eid (ct (mem (st en) (fst q))) <> i /\ vedge (lvl own 0) (ce (mem (st en) (fst q))) /\
  forall rho, dv D (snd q) rho = co (dv D (ce (mem (st en) (fst q)))) i true rho || co (dv D (ce (mem (st en) (fst q)))) i false rho.

Lemma pullpre_ext i H own D en own' D' en' q :
  EAcc own en -> own (fst q) = OQue 0 i -> ext H own D en own' D' en' -> ~ H (fst q) -> pullpre i own D en q -> pullpre i own' D' en' q.
Proof using.
  intros AC Oq X Nq (V & N1 & V2 & E).
  destruct (x_mem _ _ _ _ _ _ _ X (fst q)) as [Et Ee]; [right; rewrite Oq; auto|auto|].
  unfold pullpre. rewrite Et, Ee. split; [exact (ext_vedge _ _ _ _ _ _ _ _ _ X V)|]. split; auto.
  split; [exact (ext_vedge _ _ _ _ _ _ _ _ _ X V2)|]. intros rho. unfold co in *.
  rewrite (ext_dv _ _ _ _ _ _ _ _ _ _ X AC V), !(ext_dv _ _ _ _ _ _ _ _ _ _ X AC V2). apply E.
Qed.

Lemma pull1_ok i own D S en L x q :
  AInv 0 own D S en -> RC own S idn (mem (st en)) L x -> own (fst q) = OQue 0 i -> ~ In (fst q) S -> pullpre i own D en q ->
  (forall d' j b, own b = OQue d' j -> idx o i < idx o j -> ~ In b S) ->
  exists own' D',
    AInv 0 own' D' (fst q :: S) (pull1 o en q) /\
    RC own' (fst q :: S) idn (mem (st (pull1 o en q))) (fst q :: L) x /\
    ext (fun b => b = fst q \/ own b = OInd (fst q)) own D en own' D' (pull1 o en q) /\
    (forall b d' j, own' b = OQue d' j -> own b = OQue d' j \/ ((d' < klv kcof 0)%nat /\ idx o i < idx o j)).
Proof using Wo.
  destruct q as [a c]. cbn [fst]. intros A0 R Oa Na (Vc & Nfi & Vce & Ec) HSi. cbn [fst snd] in *.
  pose proof (ai_acc _ _ _ _ _ _ _ _ A0) as AC.
  assert (R3 : 2 < a) by (apply (acc_rng _ _ _ AC); congruence).
  destruct (ai_que _ _ _ _ _ _ _ _ A0 _ _ _ Oa) as [Ii Hst].
  destruct Hst as [[? _]|[_ Pe]]; [lia|tauto|].
  destruct Pe as [VF VC Nf Sc Ei _ NI DF].
  set (F := ct (mem (st en) a)) in *. set (G := ce (mem (st en) a)) in *.
  destruct (cofactors2_spec o Wo kcof PendR 0 own D S en F G i A0 VF VC Ei Ii) as
     (fx & fxb & cx & cxb & EC & V1 & V2 & V3 & V4 & G1 & G2 & G3 & G4 & DvF & DvG).
  assert (Bl : forall e j rho b, vedge (lvl own 0) e -> gt_idx o i e -> In j (ord o) -> idx o j <= idx o i -> dv D e (flip rho j b) = dv D e rho).
  { intros e j rho b Ve Ge Ij Lj. eapply below_dv; eauto. unfold gt_idx, eidx in *. lia. }
  assert (Up : forall j H rho b, In j (ord o) -> idx o j <= idx o i -> In H [dv D fx; dv D fxb; dv D cx; dv D cxb] -> H (flip rho j b) = H rho).
  { intros j H rho b Ij Lj [<-|[<-|[<-|[<-|[]]]]]; apply Bl; auto. }
  assert (Ec' : forall rho, dv D c rho = dv D cx rho || dv D cxb rho).
  { intros rho. rewrite Ec.
    destruct (co_F o i (dv D F) (dv D fx) (dv D fxb) (dv D G) (dv D cx) (dv D cxb) Ii DvF DvG Up rho) as (_ & _ & -> & ->). reflexivity. }
  assert (Gf : idx o i < eidx o F).
  { destruct (minid_le o own F G i VF VC Ei) as [Lf _]. unfold eidx in *. assert (idx o (eid F) <> idx o i); [|lia].
    intros E. apply Nfi. apply (wfo_inj o _ _ Wo); auto. eapply lvl_ord; eauto. }
  assert (Gc : idx o i < eidx o c).
  { destruct (N.lt_ge_cases (idx o i) (eidx o c)) as [?|Le]; auto. exfalso.
    assert (Nc : eid c <> 0).
    { intros Z. unfold eidx in Le. rewrite Z, (wfo_const o Wo) in Le. pose proof (wfo_lt_const o _ Wo Ii). lia. }
    assert (Ic : In (eid c) (ord o)) by (eapply lvl_ord; eauto).
    apply (depends_top _ _ _ _ _ c A0 Vc Nc). intros rho b. now rewrite !Ec', !Bl. }
  assert (Sc' : exists rho, dv D c rho = true).
  { destruct Sc as [rho Hr]. exists rho. rewrite Ec'. rewrite DvG in Hr. destruct (rho i); rewrite Hr; auto. apply orb_true_r. }
  assert (Vl : forall rho, D a rho = cval o true (dv D F) (dv D c) rho).
  { intros rho. rewrite DF.
    rewrite (cval_quantify o Wo true i (dv D F) (dv D fx) (dv D fxb) (dv D G) (dv D cx) (dv D cxb)); auto; try (eapply only_dv; eauto; fail).
    - apply cval_ext; auto.
    - apply dep_false; [eapply only_dv; eauto|]. intros r b. eapply below_dv; eauto. }
  unfold pull1. fold F.
  assert (Gd : good o kcof PendR a 1 (idx o i + 1) S own D en L x (Some (cval o true (dv D F) (dv D c))) (request en 0 (minid2 o F c) F c)).
  { apply (good_request o Wo kcof PendR (PendR_ext o true)); auto.
    - eapply AInv_h; eauto.
    - intros p E. rewrite Oa in E. discriminate.
    - eapply minid_ord; eauto.
    - destruct (minid2_cases o F c) as [[E _]|[E _]]; rewrite E; unfold eidx in *; lia.
    - intros d' j b Ob Lj. split; [eapply HSi; eauto; lia|]. intros ->. rewrite Oa in Ob. injection Ob as <- <-. lia.
    - intros b [B1 B2 B3 B4 B5 B8 B7 B6] E1 E2 rho. rewrite B6. apply cval_ext; intros r; (symmetry; now apply dv_eeq).
    - intros own' D' en' b AC' X Ob Fb Mb Db NI' Dv.
      constructor; rewrite ?Mb; simpl; auto; try (eapply ext_vedge; eauto).
      + destruct Sc' as [rho Hr]. exists rho. now rewrite (Dv _ 0%nat).
      + intros rho. rewrite Db. apply cval_ext; intros r; symmetry; now apply (Dv _ 0%nat). }
  destruct Gd as (own1 & D1 & A1 & R1 & X1 & (Vr & Gr & Er) & N1).
  destruct (request en 0 (minid2 o F c) F c) as [r en1]. cbn [fst snd] in *.
  assert (Oa1 : own1 a = OQue 0 i) by (eapply oque_ext; eauto).
  assert (Tr : tgt own1 (eptr r)) by (eapply lvl_tgt; exact Vr).
  destruct (write_child o kcof PendR (PendR_ext o true) a own1 D1 S en1 L x r 0%nat i (fun c => set_ct c r)) as (A2 & R2 & X2 & n2 & M2); auto.
  cbv zeta in A2, R2, X2, M2.
  set (en2 := set_st en1 (put (icr (st en1) r) a (set_ct (mem (icr (st en1) r) a) r))) in *.
  destruct (write_child o kcof PendR (PendR_ext o true) a own1 D1 S en2 L (xadd x (eptr r)) r 0%nat i (fun c => set_ce c r)) as (A4 & R4 & X4 & n4 & M4); auto.
  cbv zeta in A4, R4, X4, M4.
  set (en3 := set_st en2 (put (icr (st en2) r) a (set_ce (mem (icr (st en2) r) a) r))) in *.
  set (en4 := set_st en1 (put (addref (st en1) r 2) a (C r r (cr (mem (addref (st en1) r 2) a))))).
  pose proof (ai_acc _ _ _ _ _ _ _ _ A1) as AC1. pose proof (ai_acc _ _ _ _ _ _ _ _ A2) as AC2. pose proof (ai_acc _ _ _ _ _ _ _ _ A4) as AC4.
  assert (Cr : cr (mem (st en1) (eptr r)) <= MAXREF).
  { destruct Tr as [Lr|[Cr|(d & j & E)]].
    - destruct Vr as [[_ P]|[_ P]].
      + rewrite P. rewrite (swf_onerc _ _ (ai_swf _ _ _ _ _ _ _ _ A1)). lia.
      + exfalso. assert (Z : own1 (eptr r) = ONone) by (eapply acc_low; [exact AC1|exact Lr]).
        destruct P as [P|(d & _ & P)]; congruence.
    - now apply (rc_max _ _ _ _ _ _ R1).
    - destruct (AInv_nodon _ _ _ _ _ _ _ _ _ _ _ A1 E). }
  assert (Nra : eptr r <> a).
  { intros E. destruct Vr as [[_ P]|[_ P]]; [rewrite E in P; unfold ONE in P; lia|]. rewrite E in P.
    destruct P as [P|(d & _ & P)]; [congruence|]. rewrite Oa1 in P. injection P as <- P. unfold eidx in Gr. rewrite <- P in Gr. lia. }
  assert (Me : forall b, mem (st en4) b = mem (st en3) b).
  { intros b. unfold en4, en3, en2. simpl. unfold upd. rewrite !N.eqb_refl.
    destruct (N.eqb_spec b a) as [->|Nb].
    - destruct (N.eqb_spec a (eptr r)); [congruence|]. destruct (N.eqb_spec (eptr r) a); [congruence|].
      rewrite ?N.eqb_refl. destruct (mem (st en1) a); reflexivity.
    - destruct (N.eqb_spec b (eptr r)) as [->|Nr].
      + destruct (N.eqb_spec (eptr r) a); [congruence|]. rewrite ?N.eqb_refl. rewrite rc_add2 by auto. destruct (mem (st en1) (eptr r)); reflexivity.
      + reflexivity. }
  assert (X5 : ext (fun _ => False) own1 D1 en3 own1 D1 en4).
  { constructor; auto.
    - intros b _ _. unfold sameTE. now rewrite Me.
    - now rewrite Me. }
  assert (A5 : AInv a own1 D1 S en4).
  { apply (AInv_ext o kcof PendR (PendR_ext o true) a _ own1 D1 S en3 own1 D1 en4 A4 X5).
    - apply (EAcc_same _ en3); auto.
    - reflexivity.
    - tauto.
    - intros p E. rewrite Oa1 in E. discriminate.
    - auto.
    - auto. }
  assert (R5 : RC own1 S idn (mem (st en4)) L (xadd (xadd x (eptr r)) (eptr r))).
  { eapply RC_frame; [| |exact R4].
    - intros b _. unfold sameTE. now rewrite Me.
    - intros b _. now rewrite Me. }
  assert (Ma : ct (mem (st en4) a) = r /\ ce (mem (st en4) a) = r).
  { unfold en4. simpl. rewrite upd_same. auto. }
  destruct Ma as [Mt Mee].
  assert (XX : ext (fun b => b = a \/ own b = OInd a) own D en own1 D1 en4).
  { eapply ext_weaken; [|eapply ext_trans; [exact AC|exact AC1|exact X1|
      eapply ext_trans; [exact AC1|exact AC2|exact X2|eapply ext_trans; [exact AC2|exact AC4|exact X4|exact X5]]]].
    simpl. intros b Hb. left. tauto. }
  assert (DDa : forall rho, D1 a rho = D a rho).
  { intros rho. apply (x_D _ _ _ _ _ _ _ X1); [right|]; rewrite Oa; auto; discriminate. }
  assert (Nl : isnul r = false) by (eapply nul_lvl; [exact AC4|exact Vr]).
  exists own1, D1. split; [|split; [|split; [exact XX|]]].
  - apply (AInv_close o kcof PendR a own1 D1 S en4 0%nat i A5 Oa1).
    + constructor; rewrite ?Mt, ?Mee, ?Nl.
      * intros _. split; [exact Vr|]. unfold gt_idx, eidx in *. lia.
      * intros _. split; [exact Vr|]. unfold gt_idx, eidx in *. lia.
      * now left.
      * now left.
      * intros rho. rewrite DDa, Vl. unfold comb. rewrite Nl. simpl. unfold kite. rewrite Er. now destruct (rho i).
    + intros p Op. apply (NI p). eapply (x_ind _ _ _ _ _ _ _ XX); eauto.
  - eapply RC_apply; eauto; rewrite ?Mt, ?Mee; auto.
    intros b Lb Fb. pose proof (rc_x _ _ _ _ _ _ R5 b Lb Fb) as Hx. unfold xadd in Hx. lia.
  - intros b d' j Ob. destruct (N1 _ _ _ Ob) as [Ob1|[H1 H2]]; [auto|right; split; [exact H1|lia]].
Qed.

(** ** One table *)

Lemma Forall2_combine {A B} (P : A -> B -> Prop) l l' : Forall2 P l l' -> forall a b, In (a, b) (combine l l') -> P a b.
Proof. induction 1 as [|x y l l' H F IH]; simpl; [tauto|]. intros a b [E|Ib]; [injection E as <- <-; auto|auto]. Qed.
Lemma map_fst_combine {A B} (l : list A) (l' : list B) : length l = length l' -> map fst (combine l l') = l.
Proof. revert l'. induction l as [|a l IH]; intros [|b l'] H; simpl in *; try discriminate; auto. f_equal. auto. Qed.
Lemma Forall2_length' {A B} (P : A -> B -> Prop) l l' : Forall2 P l l' -> length l = length l'.
Proof. induction 1; simpl; auto. Qed.
Lemma Forall2_map_l {A B C} (P : B -> C -> Prop) (f : A -> B) l l' : Forall2 P (map f l) l' -> Forall2 (fun a => P (f a)) l l'.
Proof. revert l'. induction l as [|a l IH]; intros [|b l'] H; inversion H; subst; constructor; auto. Qed.

Lemma pulled_le own D S h en i a : AInv h own D S en -> own a = OQue 0 i -> PendR own D en 0 i a ->
  pulled o (mem (st en)) a = negb (eid (ct (mem (st en) a)) =? i).
Proof using. intros A Oa P. unfold pulled. now rewrite <- (pr_i _ _ _ _ _ _ _ _ P). Qed.

Lemma reduce_table_apply_ok i : table_ok o kcof PendR never (fun en => reduce_table_apply enum o en i) 0 i.
Proof using Wo enum_perm.
  intros own D S en L x A R Ii H0 _ Hi HI.
  pose proof (ai_acc _ _ _ _ _ _ _ _ A) as AC. unfold reduce_table_apply.
  set (l := enum (mem (st en)) (que en 0 i)).
  assert (Pm : Permutation l (que en 0 i)) by apply enum_perm.
  assert (Hl : forall a, In a l <-> own a = OQue 0 i).
  { intros a. rewrite <- (acc_que _ _ _ _ _ AC). split; apply Permutation_in; [|symmetry]; auto. }
  assert (NDl : NoDup l) by (eapply Permutation_NoDup; [symmetry; exact Pm|]; exact (acc_nd _ _ _ AC (OQue 0 i) eq_refl)).
  assert (Pe : forall a, own a = OQue 0 i -> PendR own D en 0 i a).
  { intros a Oa. destruct (ai_que _ _ _ _ _ _ _ _ A _ _ _ Oa) as [_ Hst].
    assert (2 < a) by (apply (acc_rng _ _ _ AC); congruence).
    destruct Hst as [[Ia _]|[_ P]]; [lia|destruct (H0 a Oa Ia)|exact P]. }
  set (ps := filter (pulled o (mem (st en))) l). set (qs := filter (fun a => negb (pulled o (mem (st en)) a)) l).
  assert (Hps : forall a, In a ps -> own a = OQue 0 i /\ eid (ct (mem (st en) a)) <> i).
  { intros a Ia. apply filter_In in Ia as [Ia E]. apply Hl in Ia. split; auto. rewrite (pulled_le own D S 0 en i a A Ia (Pe a Ia)) in E.
    apply negb_true_iff, N.eqb_neq in E. exact E. }
  assert (Hqs : forall a, In a qs -> own a = OQue 0 i /\ eid (ct (mem (st en) a)) = i).
  { intros a Ia. apply filter_In in Ia as [Ia E]. apply Hl in Ia. split; auto. rewrite (pulled_le own D S 0 en i a A Ia (Pe a Ia)) in E.
    rewrite negb_involutive in E. now apply N.eqb_eq in E. }
  assert (Dis : forall a, In a ps -> ~ In a qs). { intros a I1 I2. apply Hps in I1. apply Hqs in I2. tauto. }
  (* requests that do depend on the variable *)
  destruct (fold_items (fun a : N => a) (cofactor1 o 0 i) o kcof PendR 0%nat i
     (fun _ _ en a => eid (ct (mem (st en) a)) = i)) with (l := qs) (own := own) (D := D) (S := S) (en := en) (L := L) (x := x)
     as (own1 & D1 & L1 & A1 & R1 & X1 & N1); auto.
  { intros H own' D' en' own2 D2 en2 a _ Oa X Na E. destruct (x_mem _ _ _ _ _ _ _ X a) as [Et _]; [right; rewrite Oa; auto|auto|]. now rewrite Et. }
  { intros own' D' S' en' L' x' a A' R' Oa Na E H'. apply (cofactor1_gen o Wo true); auto. }
  { rewrite map_id. now apply NoDup_filter. }
  { intros a Ia. destruct (Hqs a Ia). auto. }
  cbv zeta in A1, R1, X1. rewrite map_id in *.
  set (en1 := fold_left (cofactor1 o 0 i) qs en) in *. pose proof (ai_acc _ _ _ _ _ _ _ _ A1) as AC1.
  assert (Kp : forall a, In a ps -> own1 a = OQue 0 i /\ sameTE (mem (st en)) (mem (st en1)) a).
  { intros a Ia. destruct (Hps a Ia) as [Oa _]. split; [eapply oque_ext; eauto|].
    assert (Nh : ~ (In a qs \/ exists b, In b qs /\ own a = OInd b)).
    { intros [H|(b & _ & H)]; [exact (Dis a Ia H)|congruence]. }
    destruct (x_mem _ _ _ _ _ _ _ X1 a) as [Et Ee]; [right; rewrite Oa; auto|intros _; exact Nh|split; auto]. }
  assert (Pe1 : forall a, In a ps -> PendR own1 D1 en1 0 i a).
  { intros a Ia. destruct (Kp a Ia) as [Oa1 _]. destruct (Hps a Ia) as [Oa _].
    destruct (ai_que _ _ _ _ _ _ _ _ A1 _ _ _ Oa1) as [_ Hst].
    assert (2 < a) by (apply (acc_rng _ _ _ AC); congruence).
    destruct Hst as [[Is _]|[_ P]]; [lia| |exact P]. apply in_app_or in Is as [Is|Is].
    - apply in_rev in Is. destruct (Dis a Ia Is).
    - destruct (H0 a Oa Is). }
  destruct (orBatch enum o (skipn (N.to_nat (idx o i)) (ord o)) (st en1) (map (care_cofactors o (mem (st en1))) ps)) as [cs s] eqn:Eb.
  assert (Cof : forall a, In a ps -> vedge (lvl own1 0) (fst (care_cofactors o (mem (st en1)) a)) /\ vedge (lvl own1 0) (snd (care_cofactors o (mem (st en1)) a)) /\
     gt_idx o i (fst (care_cofactors o (mem (st en1)) a)) /\ gt_idx o i (snd (care_cofactors o (mem (st en1)) a)) /\
     forall rho, dv D1 (fst (care_cofactors o (mem (st en1)) a)) rho || dv D1 (snd (care_cofactors o (mem (st en1)) a)) rho
       = co (dv D1 (ce (mem (st en1) a))) i true rho || co (dv D1 (ce (mem (st en1) a))) i false rho).
  { intros a Ia. pose proof (Pe1 a Ia) as P.
    destruct (cofactors2_spec o Wo kcof PendR 0 own1 D1 _ en1 _ _ i A1 (pr_F _ _ _ _ _ _ _ _ P) (pr_C _ _ _ _ _ _ _ _ P) (pr_i _ _ _ _ _ _ _ _ P) Ii) as
     (fx & fxb & cx & cxb & EC & V1 & V2 & V3 & V4 & G1 & G2 & G3 & G4 & DvF & DvG).
    unfold care_cofactors. rewrite EC. cbn [fst snd]. split; auto. split; auto. split; auto. split; auto. intros rho.
    assert (Bl : forall e rho b, vedge (lvl own1 0) e -> gt_idx o i e -> dv D1 e (flip rho i b) = dv D1 e rho).
    { intros e r b Ve Ge. eapply below_dv; eauto. }
    unfold co. rewrite !DvG, !flip_same, !Bl by auto. reflexivity. }
  destruct (orBatch_spec own1 D1 (rev qs ++ S) en1 L1 x (map (care_cofactors o (mem (st en1))) ps) 0 i cs s Ii A1 R1) as
    (own2 & D2 & L2 & A2 & R2 & X2 & Q2 & F2); auto.
  { intros r E. rewrite (acc_low _ _ _ 0 AC1) in E; [discriminate|lia]. }
  { intros p Ip. apply in_map_iff in Ip as (a & <- & Ia). destruct (Cof a Ia) as (? & ? & ? & ? & _). auto. }
  cbv zeta in A2, R2, X2. set (en2 := set_st en1 s) in *. pose proof (ai_acc _ _ _ _ _ _ _ _ A2) as AC2.
  apply Forall2_map_l in F2. pose proof (Forall2_length' _ _ _ F2) as Len.
  assert (Fst : map fst (rev (combine ps cs)) = rev ps).
  { rewrite map_rev. f_equal. now apply map_fst_combine. }
  (* the pulled requests *)
  destruct (fold_items (fst : N * edge -> N) (pull1 o) o kcof PendR 0%nat i (pullpre i)) with
     (l := rev (combine ps cs)) (own := own2) (D := D2) (S := rev qs ++ S) (en := en2) (L := L2) (x := x)
     as (own3 & D3 & L3 & A3 & R3 & X3 & N3); auto.
  { intros H own' D' en' own4 D4 en4 q. apply pullpre_ext. }
  { intros own' D' S' en' L' x' q A' R' Oa Na E H'. apply pull1_ok; auto. }
  { rewrite Fst. apply NoDup_rev. now apply NoDup_filter. }
  { intros [a c] Iq. apply in_rev in Iq. cbn [fst]. assert (Ia : In a ps) by (eapply in_combine_l; eauto).
    destruct (Kp a Ia) as [Oa1 T1]. destruct (Hps a Ia) as [Oa Ne]. split; [now apply Q2|]. split.
    - intros Is. apply in_app_or in Is as [Is|Is]; [apply in_rev in Is; exact (Dis a Ia Is)|exact (H0 a Oa Is)].
    - pose proof (Forall2_combine _ _ _ F2 a c Iq) as [Vc Ec]. destruct (Cof a Ia) as (_ & _ & _ & _ & E5). pose proof (Pe1 a Ia) as P.
      destruct (x_mem _ _ _ _ _ _ _ X2 a) as [Et Ee]; [right; rewrite Oa1; auto|auto|].
      unfold pullpre. cbn [fst snd]. rewrite Et, Ee. destruct T1 as [T1 T2]. split; [exact Vc|]. split; [rewrite T1; exact Ne|].
      pose proof (pr_C _ _ _ _ _ _ _ _ P) as VC. split; [exact (ext_vedge _ _ _ _ _ _ _ _ _ X2 VC)|].
      intros rho. rewrite Ec, E5. unfold co. now rewrite !(ext_dv _ _ _ _ _ _ _ _ _ _ X2 AC1 VC). }
  { intros d' j b Ob Lt Is. apply Q2 in Ob. destruct (N1 _ _ _ Ob) as [Ob0|[_ H1]].
    - apply in_app_or in Is as [Is|Is]; [|exact (Hi _ _ _ Ob0 Lt Is)].
      apply in_rev in Is. apply Hqs in Is as [Oq _]. rewrite Oq in Ob0. injection Ob0 as <- <-. lia.
    - apply in_app_or in Is as [Is|Is].
      + apply in_rev in Is. apply Hqs in Is as [Oq _]. pose proof (oque_ext _ _ _ _ _ _ _ _ _ _ X1 Oq) as Oq1. rewrite Oq1 in Ob. injection Ob as <- <-. lia.
      + destruct (ai_S _ _ _ _ _ _ _ _ A b Is) as (d1 & i1 & E). pose proof (oque_ext _ _ _ _ _ _ _ _ _ _ X1 E) as E1. rewrite E1 in Ob. injection Ob as -> ->.
        exact (Hi _ _ _ E Lt Is). }
  cbv zeta in A3, R3, X3. rewrite Fst, rev_involutive in *.
  exists own3, D3, (ps ++ rev qs ++ S), L3. cbv zeta.
  split; [exact A3|]. split; [exact R3|]. split; [|split].
  - eapply ext_any_trans; [exact AC|exact AC1|eapply ext_any; exact X1|].
    eapply ext_any_trans; [exact AC1|exact AC2|eapply ext_any; exact X2|]. eapply ext_any; exact X3.
  - intros b. rewrite !in_app_iff, <- in_rev. split.
    + intros [H|[H|H]]; [right; now apply Hps|right; now apply Hqs|now left].
    + intros [H|H]; auto. apply Hl in H. destruct (pulled o (mem (st en)) b) eqn:E.
      * left. apply filter_In. auto.
      * right. left. apply filter_In. split; auto. now rewrite E.
  - intros b d' j Ob. destruct (N3 _ _ _ Ob) as [Ob2|?]; auto. apply Q2 in Ob2. destruct (N1 _ _ _ Ob2) as [Ob1|?]; auto.
Qed.

Definition rtstep (d : nat) (i : N) (en : eng) : eng := match d with O => reduce_table_apply enum o en i | _ => en end.
Lemma rtstep_ok d i : table_ok o kcof PendR never (rtstep d i) d i.
Proof using Wo enum_perm.
  destruct d as [|d]; [apply reduce_table_apply_ok|].
  intros own D S en L x A R Ii H0 _ Hi HI. exists own, D, S, L. cbv zeta. unfold rtstep.
  split; auto. split; auto. split; [eapply ext_any; apply ext_refl|]. split; auto.
  intros b. split; auto. intros [H|Ob]; auto. exfalso.
  destruct (ai_que _ _ _ _ _ _ _ _ A _ _ _ Ob) as [_ Hst].
  assert (2 < b) by (apply (acc_rng _ _ _ (ai_acc _ _ _ _ _ _ _ _ A)); congruence).
  destruct Hst as [[Ia _]|[_ P]]; [lia|destruct (H0 b Ob Ia)|]. pose proof (pr_d _ _ _ _ _ _ _ _ P). discriminate.
Qed.

(** ** The operation *)

Lemma reduceBF_spec own D en L x F C r en' :
  EInv o own D en -> RC own [] idn (mem (st en)) L x ->
  vedge (nodeR (st en)) F -> vedge (nodeR (st en)) C -> isconst C && eneg C = false ->
  reduceBF enum o en F C = (r, en') ->
  exists own' D', EInv o own' D' en' /\ (exists L', RC own' [] idn (mem (st en')) L' x) /\
    nodes_kept own D en own' D' en' /\ vedge (nodeR (st en')) r /\
    forall rho, dv D' r rho = cval o true (dv D F) (dv D C) rho.
Proof using Wo enum_perm.
  intros I R VF VC Z Eq. unfold reduceBF in Eq.
  assert (U : forall e, vedge (nodeR (st en)) e -> vedge (lvl own 0) e).
  { intros e V. eapply vedge_lvl0; [exact (ei_acc _ _ _ _ I)|]. exact V. }
  pose proof (EInv_AInv o kcof PendR own D en I) as A1.
  assert (Gd : good o kcof PendR 0 1 (N.min (eidx o F) (eidx o C)) [] own D en L x (cres o true D F C) (cofactor_req o 0 en F C)).
  { apply req_good; auto; try lia. intros q E. exact (ei_ind _ _ _ _ I _ _ E).
    intros d' j b Ob. destruct (EInv_nq _ _ _ _ _ _ _ I Ob). }
  unfold cres in Gd. rewrite Z in Gd. unfold cofactor_req in Gd.
  destruct (tcofactor F C) as [r0|] eqn:Tc.
  { apply pair_equal_spec in Eq as [<- <-]. pose proof (ei_dok _ _ _ _ I) as K. pose proof (dok_one _ _ K) as D1.
    assert (vedge (nodeR (st en)) r0 /\ forall rho, dv D r0 rho = cval o true (dv D F) (dv D C) rho) as [V0 E0].
    { unfold tcofactor in Tc. destruct (isconst C) eqn:Ec.
      - cbn [andb] in Z. rewrite Z in Tc. injection Tc as <-. split; auto. intros rho. symmetry.
        unfold isconst in Ec. apply N.eqb_eq in Ec. assert (Pc : eptr C = ONE) by (destruct VC as [[_ P]|[N0 _]]; [auto|congruence]).
        apply gc_one; [eapply only_dv; eauto|]. intros q. now rewrite (dv_zero' D C D1 Pc), Z.
      - destruct (isconst F) eqn:Ef; [|discriminate]. injection Tc as <-. split; auto. intros rho. symmetry.
        unfold isconst in Ef. apply N.eqb_eq in Ef. assert (Pf : eptr F = ONE) by (destruct VF as [[_ P]|[N0 _]]; [auto|congruence]).
        rewrite (dv_zero' D F D1 Pf). apply gc_const. intros q. now rewrite (dv_zero' D F D1 Pf). }
    exists own, D. split; auto. split; [eauto|]. split; [|split; auto]. apply oext_nk. apply oext_refl. }
  set (res := request en 0 (minid2 o F C) F C) in *.
  destruct (run_spec o Wo kcof PendR (PendR_ext o true) never rtstep rtstep_ok
    (fun d i en => cofreduce_table enum en d i)) with (n := 1%nat) (ds := [0%nat]) (rds := [0%nat])
    (cds := [0%nat]) (cids := skipn (N.to_nat (minindex2 o F C)) (ord o)) (c := N.to_nat (minindex2 o F C)) (lv := N.min (eidx o F) (eidx o C))
    (own := own) (D := D) (en := en) (L := L) (x := x)
    (v := cval o true (dv D F) (dv D C)) (res := res)
    as (own2 & D2 & I2 & (L2 & R2) & X2 & V2 & E2); auto.
  { intros d i _. apply cofreduce_table_ok; auto. }
  { simpl. unfold never. intuition lia. }
  { intros d. simpl. lia. } { intros d. simpl. lia. } { intros d. simpl. lia. }
  { unfold minindex2. destruct (N.ltb_spec (eidx o F) (eidx o C)); lia. }
  cbv zeta in I2, R2, X2, V2, E2. destruct res as [r1 en2]. cbn [fst snd] in *.
  apply pair_equal_spec in Eq as [<- <-].
  exists own2, D2. split; [exact I2|]. split; [exists L2; exact R2|]. split; [apply oext_nk; exact X2|]. split; [exact V2|exact E2].
Qed.
End Red.
