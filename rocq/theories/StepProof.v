(** * Expansion of one request into two results, for any kind of engine *)
From Verif Require Import Base BFModel StoreInv Own EngInv ApplyProof BinopProof.

Section Two.
Variable o : order.
Hypothesis Wo : wfo o.
Variable k : kind.
Variable Pend : (N -> tag) -> den -> eng -> nat -> N -> N -> Prop.
Hypothesis Pend_ext : forall H own D en own' D' en' d i a,
  EAcc own en -> EAcc own' en' -> SWF o (st en) ->
  ext H own D en own' D' en' -> own a = OQue d i -> ~ H a ->
  (forall p, own p = OInd a -> ~ H p) -> Pend own D en d i a -> Pend own' D' en' d i a.

Notation AInv := (AInv o k Pend).
Local Notation RC := (RCq (kun k)).

(** The result [res] of computing one child of the request [a]: value [v], no value meaning the
    null edge; it lies at level [lv] or below, and is a node or a request of the first [n] queues. *)
Definition good (a : N) (n : nat) (lv : N) (S : list N) (own : N -> tag) (D : den) (en : eng) (L : list N) (x : N -> N)
  (v : option ((N -> bool) -> bool)) (res : edge * eng) : Prop :=
  exists own' D', AInv a own' D' S (snd res) /\ RC own' S idn (mem (st (snd res))) L x /\
    ext (fun _ => False) own D en own' D' (snd res) /\
    (match v with
     | Some f => vedge (lvl own' n) (fst res) /\ lv <= eidx o (fst res) /\ forall rho, dv D' (fst res) rho = f rho
     | None => eptr (fst res) = NUL
     end) /\
    (forall b d' j, own' b = OQue d' j -> own b = OQue d' j \/ ((d' < n)%nat /\ lv <= idx o j)).

Definition pok (a : N) (d : nat) (i : N) (S : list N) (own : N -> tag) (D : den) (en : eng)
  (v : option ((N -> bool) -> bool)) (proc : eng -> edge * eng) : Prop :=
  forall own1 D1 en1 L1 x1,
  AInv a own1 D1 S en1 -> RC own1 S idn (mem (st en1)) L1 x1 -> own1 a = OQue d i ->
  ext (fun b => b = a) own D en own1 D1 en1 ->
  (forall d' j b, own1 b = OQue d' j -> idx o i + 1 <= idx o j -> ~ In b S /\ b <> a) ->
  good a (klv k d) (idx o i + 1) S own1 D1 en1 L1 x1 v (proc en1).

(** The two results are written into the request. *)
Variable inc : store -> edge -> store.
Hypothesis inc_ok : forall s r, inc s r = icr s r \/ (isnul r = true /\ inc s r = s).

Definition two (p1 p0 : eng -> edge * eng) (en : eng) (a : N) : eng :=
  let '(r1, en1) := p1 en in
  let s1 := inc (st en1) r1 in
  let s2 := put s1 a (set_ct (mem s1 a) r1) in
  let '(r0, en2) := p0 (set_st en1 s2) in
  let s3 := inc (st en2) r0 in
  set_st en2 (put s3 a (set_ce (mem s3 a) r0)).

Lemma RC_nul own S rs m L x en : EAcc own en -> RC own S rs m L x -> RC own S rs m L (xadd x NUL).
Proof.
  intros A [B1 B2 B3 B4 B5 B6].
  assert (H : forall b, 2 < b -> xadd x NUL b = x b).
  { intros b Hb. unfold xadd, NUL. destruct (N.eqb_spec 2 b); [lia|]. simpl. lia. }
  constructor; auto.
  - intros b Cb. rewrite H; auto. apply (acc_rng _ _ _ A). destruct Cb as [(j & E)|(d & j & E)]; rewrite E; discriminate.
  - intros b Lb Fb. rewrite H; auto.
Qed.

Lemma write_inc a own D S en L x r d i f :
  AInv a own D S en -> RC own S idn (mem (st en)) L x ->
  own a = OQue d i -> ~ In a S -> tgt own (eptr r) -> (forall c, cr (f c) = cr c) ->
  let s1 := inc (st en) r in
  let en' := set_st en (put s1 a (f (mem s1 a))) in
  AInv a own D S en' /\ RC own S idn (mem (st en')) L (xadd x (eptr r)) /\
  ext (fun b => b = a) own D en own D en' /\
  exists n, mem (st en') a = f (set_cr (mem (st en) a) n).
Proof.
  intros A R Oa Na Tr Hf s1 en'. destruct (inc_ok (st en) r) as [E|[Nu E]].
  - unfold en', s1. rewrite E. apply (write_child o k Pend Pend_ext a own D S en L x r d i f); auto.
  - pose proof (ai_acc _ _ _ _ _ _ _ _ A) as AC.
    assert (R3 : 2 < a) by (apply (acc_rng _ _ _ AC); congruence).
    assert (NaL : ~ In a L).
    { rewrite (rc_L _ _ _ _ _ _ R), Oa. intros [(? & ?)|(? & ? & ? & ?)]; [discriminate|tauto]. }
    unfold en', s1. rewrite E. clear en' s1. set (en' := set_st en (put (st en) a (f (mem (st en) a)))).
    assert (Mb : forall b, b <> a -> mem (st en') b = mem (st en) b).
    { intros b Nb. unfold en'; simpl. now rewrite upd_other. }
    assert (X : ext (fun b => b = a) own D en own D en').
    { constructor; auto.
      - intros b Kb Hb. destruct (N.eq_dec b a) as [->|Nb].
        + exfalso. apply Hb; auto. rewrite Oa; simpl; auto.
        + unfold sameTE. rewrite Mb by auto. auto.
      - intros b Ob. rewrite Mb by congruence. auto.
      - intros Hone. rewrite Mb by (unfold ONE; lia). auto. }
    split; [|split; [|split]]; auto.
    + eapply (AInv_ext o k Pend Pend_ext a _ own D S en own D en' A X).
      * apply (EAcc_same _ en); auto.
      * auto.
      * auto.
      * rewrite Oa. discriminate.
      * auto.
      * auto.
    + apply N.eqb_eq in Nu. rewrite Nu. eapply RC_nul; [exact AC|].
      eapply (RC_frame own S idn (mem (st en))).
      * intros b Ib. unfold sameTE. rewrite Mb by congruence. auto.
      * intros b _. destruct (N.eq_dec b a) as [->|Nb]; [|now rewrite Mb].
        unfold en'; simpl. now rewrite upd_same, Hf.
      * auto.
    + unfold en'; simpl. rewrite upd_same. exists (cr (mem (st en) a)). f_equal. now destruct (mem (st en) a).
Qed.

Lemma two_ok a d i own D S en L x v1 v0 p1 p0 :
  AInv 0 own D S en -> RC own S idn (mem (st en)) L x -> own a = OQue d i -> kun k d i = false -> ~ In a S ->
  (forall d' j b, own b = OQue d' j -> idx o i < idx o j -> ~ In b S) ->
  (forall p, own p <> OInd a) ->
  pok a d i S own D en v1 p1 -> pok a d i S own D en v0 p0 ->
  (v1 = None -> knl k = true /\ v0 <> None) -> (v0 = None -> knl k = true /\ v1 <> None) ->
  (forall rho, D a rho = match v1, v0 with
                         | Some f, Some g => kcb k d i rho f g
                         | Some f, None => f rho
                         | None, Some g => g rho
                         | None, None => false
                         end) ->
  exists own' D',
    AInv 0 own' D' (a :: S) (two p1 p0 en a) /\
    RC own' (a :: S) idn (mem (st (two p1 p0 en a))) (a :: L) x /\
    ext (fun b => b = a \/ own b = OInd a) own D en own' D' (two p1 p0 en a) /\
    (forall b d' j, own' b = OQue d' j -> own b = OQue d' j \/ ((d' < klv k d)%nat /\ idx o i < idx o j)).
Proof.
  intros A0 R Oa Ku Na HSi NI P1 P0 HN1 HN0 HD.
  pose proof (AInv_h o k Pend a _ _ _ _ A0) as A. pose proof (ai_acc _ _ _ _ _ _ _ _ A) as AC.
  assert (Below : forall ow, (forall d' j b, ow b = OQue d' j -> own b = OQue d' j \/ ((d' < klv k d)%nat /\ idx o i + 1 <= idx o j)) ->
            (forall b d' j, own b = OQue d' j -> ow b = OQue d' j) ->
            forall d' j b, ow b = OQue d' j -> idx o i + 1 <= idx o j -> ~ In b S /\ b <> a).
  { intros ow H1 H2 d' j b Ob Lj. split.
    - intros Ib. destruct (ai_S _ _ _ _ _ _ _ _ A b Ib) as (d1 & i1 & E).
      pose proof (H2 _ _ _ E). assert (d' = d1 /\ j = i1) as [-> ->] by (split; congruence).
      apply (HSi _ _ _ E); [lia|auto].
    - intros ->. pose proof (H2 _ _ _ Oa). assert (j = i) by congruence. subst j. lia. }
  unfold two.
  destruct (P1 own D en L x A R Oa) as (own1 & D1 & A1 & R1 & X1 & G1 & N1).
  { eapply ext_weaken; [|apply ext_refl]. simpl. tauto. }
  { apply (Below own); auto. }
  destruct (p1 en) as [r1 en1]. cbn [fst snd] in *.
  assert (Oa1 : own1 a = OQue d i) by (eapply oque_ext; eauto).
  assert (T1 : tgt own1 (eptr r1)).
  { destruct v1; [eapply lvl_tgt; apply G1|left; rewrite G1; apply N.le_refl]. }
  destruct (write_inc a own1 D1 S en1 L x r1 d i (fun c => set_ct c r1)) as (A2 & R2 & X2 & n2 & M2); auto.
  cbv zeta in A2, R2, X2, M2.
  set (en1' := set_st en1 (put (inc (st en1) r1) a (set_ct (mem (inc (st en1) r1) a) r1))) in *.
  pose proof (ai_acc _ _ _ _ _ _ _ _ A1) as AC1. pose proof (ai_acc _ _ _ _ _ _ _ _ A2) as AC2.
  destruct (P0 own1 D1 en1' L (xadd x (eptr r1)) A2 R2 Oa1) as (own2 & D2 & A3 & R3 & X3 & G0 & N3).
  { eapply ext_weaken; [|eapply ext_trans; [exact AC|exact AC1|exact X1|exact X2]]. simpl. tauto. }
  { apply (Below own1).
    - intros d' j b Ob. exact (N1 b d' j Ob).
    - intros b d' j Ob. exact (oque_ext _ _ _ _ _ _ _ _ _ _ X1 Ob). }
  destruct (p0 en1') as [r0 en2]. cbn [fst snd] in *.
  assert (Oa2 : own2 a = OQue d i) by (eapply oque_ext; eauto).
  assert (T0 : tgt own2 (eptr r0)).
  { destruct v0; [eapply lvl_tgt; apply G0|left; rewrite G0; apply N.le_refl]. }
  destruct (write_inc a own2 D2 S en2 L (xadd x (eptr r1)) r0 d i (fun c => set_ce c r0)) as (A4 & R4 & X4 & n4 & M4); auto.
  cbv zeta in A4, R4, X4, M4.
  set (en3 := set_st en2 (put (inc (st en2) r0) a (set_ce (mem (inc (st en2) r0) a) r0))) in *.
  pose proof (ai_acc _ _ _ _ _ _ _ _ A3) as AC3. pose proof (ai_acc _ _ _ _ _ _ _ _ A4) as AC4.
  assert (XX : ext (fun b => b = a \/ own b = OInd a) own D en own2 D2 en3).
  { eapply ext_weaken; [|eapply ext_trans; [exact AC|exact AC1|exact X1|
      eapply ext_trans; [exact AC1|exact AC2|exact X2|eapply ext_trans; [exact AC2|exact AC3|exact X3|exact X4]]]].
    simpl. intros b Hb. left. tauto. }
  assert (Ct2 : ct (mem (st en2) a) = r1).
  { destruct (x_mem _ _ _ _ _ _ _ X3 a) as [E _]; [right; rewrite Oa1; auto|auto|]. rewrite E, M2. reflexivity. }
  assert (Ct : ct (mem (st en3) a) = r1) by (rewrite M4; simpl; auto).
  assert (Ce : ce (mem (st en3) a) = r0) by (rewrite M4; reflexivity).
  assert (T1' : tgt own2 (eptr r1)).
  { destruct v1; [|left; rewrite G1; apply N.le_refl]. eapply lvl_tgt. eapply ext_vedge; [exact X3|apply G1]. }
  assert (DDa : forall rho, D2 a rho = D a rho).
  { intros rho. apply (x_D _ _ _ _ _ _ _ XX); [right|]; rewrite Oa; auto; discriminate. }
  assert (G1' : match v1 with
     | Some f => vedge (lvl own2 (klv k d)) r1 /\ idx o i + 1 <= eidx o r1 /\ forall rho, dv D2 r1 rho = f rho
     | None => eptr r1 = NUL end).
  { destruct v1; auto. destruct G1 as (V & G & Dv). split; [exact (ext_vedge _ _ _ _ _ _ _ _ _ X3 V)|]. split; auto.
    intros rho. rewrite <- Dv. exact (ext_dv _ _ _ _ _ _ _ _ _ _ X3 AC2 V). }
  exists own2, D2. split; [|split; [|split; [exact XX|]]].
  - eapply AInv_close; eauto.
    + assert (U1 : isnul r1 = match v1 with Some _ => false | None => true end).
      { destruct v1; [eapply nul_lvl; [exact AC4|]; apply G1'|]. unfold isnul. rewrite G1. reflexivity. }
      assert (U0 : isnul r0 = match v0 with Some _ => false | None => true end).
      { destruct v0; [eapply nul_lvl; [exact AC4|]; apply G0|]. unfold isnul. rewrite G0. reflexivity. }
      unfold Applied. rewrite Ku. constructor; rewrite ?Ct, ?Ce, ?U1, ?U0.
      * destruct v1; [intros _; split; [apply G1'|unfold gt_idx; fold (eidx o r1); destruct G1' as (_ & G & _); lia]|discriminate].
      * destruct v0; [intros _; split; [apply G0|unfold gt_idx; fold (eidx o r0); destruct G0 as (_ & G & _); lia]|discriminate].
      * destruct v1; [now left|]. right. destruct (HN1 eq_refl) as [H1 H2]. split; auto. destruct v0; [auto|congruence].
      * destruct v0; [now left|]. right. destruct (HN0 eq_refl) as [H1 H2]. split; auto. destruct v1; [auto|congruence].
      * intros rho. rewrite DDa, HD. unfold comb. rewrite U1, U0.
        destruct v1, v0; auto.
        -- destruct G1' as (_ & _ & E1). destruct G0 as (_ & _ & E0). symmetry. now apply kcb_ext.
        -- destruct G1' as (_ & _ & E1). now rewrite E1.
        -- destruct G0 as (_ & _ & E0). now rewrite E0.
        -- destruct (HN1 eq_refl) as [_ H2]. congruence.
    + intros p Op. apply (NI p). eapply (x_ind _ _ _ _ _ _ _ XX); eauto.
  - change (RC own2 (a :: S) idn (mem (st en3)) (a :: L) x).
    eapply RC_apply; eauto; rewrite ?Ct, ?Ce; auto.
    intros b Lb Fb. pose proof (rc_x _ _ _ _ _ _ R4 b Lb Fb) as Hx. unfold xadd in Hx. lia.
  - intros b d' j Ob. destruct (N3 _ _ _ Ob) as [Ob1|H]; [|right; split; [apply H|destruct H; lia]].
    destruct (N1 _ _ _ Ob1) as [Ob2|H]; [auto|right; split; [apply H|destruct H; lia]].
Qed.

(** The cofactors of two nodes at the level of the higher one. *)
Lemma cofactors2_spec h own D S en F G i :
  AInv h own D S en -> vedge (lvl own 0) F -> vedge (lvl own 0) G -> i = minid2 o F G -> In i (ord o) ->
  exists fx fxb gx gxb, cofactors2 o (mem (st en)) F G = ((fx, fxb), (gx, gxb)) /\
     vedge (lvl own 0) fx /\ vedge (lvl own 0) fxb /\ vedge (lvl own 0) gx /\ vedge (lvl own 0) gxb /\
     gt_idx o i fx /\ gt_idx o i fxb /\ gt_idx o i gx /\ gt_idx o i gxb /\
     (forall rho, dv D F rho = if rho i then dv D fx rho else dv D fxb rho) /\
     (forall rho, dv D G rho = if rho i then dv D gx rho else dv D gxb rho).
Proof.
  intros A VF VG Ei Ii.
  assert (I0 : i <> 0) by (apply (wfo_in o); auto).
  assert (EX : forall e, vedge (lvl own 0) e -> eid e = i ->
     vedge (lvl own 0) (thenof (mem (st en)) e) /\ vedge (lvl own 0) (elseof (mem (st en)) e) /\
     gt_idx o i (thenof (mem (st en)) e) /\ gt_idx o i (elseof (mem (st en)) e) /\
     forall rho, dv D e rho = if rho i then dv D (thenof (mem (st en)) e) rho else dv D (elseof (mem (st en)) e) rho).
  { intros e Ve Ee. rewrite <- Ee. eapply expand0; eauto. congruence. }
  unfold cofactors2. destruct (N.eqb_spec (eidx o F) (eidx o G)) as [Eq|Neq].
  - assert (eid F = i /\ eid G = i) as [E1 E2].
    { destruct (minid2_cases o F G) as [[E L2]|[E L2]]; [lia|]. split; [|congruence].
      destruct (N.eq_dec (eid F) 0) as [Z|Z].
      - pose proof (wfo_lt_const o _ Wo Ii) as Lt. unfold eidx in Eq. rewrite Z, (wfo_const o Wo) in Eq.
        rewrite Ei, E, <- Eq in Lt. lia.
      - rewrite Ei, E. apply (wfo_inj o _ _ Wo); auto; [eapply lvl_ord; eauto|congruence]. }
    destruct (EX F VF E1) as (P1 & P2 & P3 & P4 & P5). destruct (EX G VG E2) as (Q1 & Q2 & Q3 & Q4 & Q5).
    do 4 eexists. split; [reflexivity|]. auto 12.
  - destruct (N.ltb_spec (eidx o F) (eidx o G)) as [Lt|Ge].
    + assert (E1 : eid F = i). { destruct (minid2_cases o F G) as [[E _]|[E L2]]; [congruence|lia]. }
      destruct (EX F VF E1) as (P1 & P2 & P3 & P4 & P5).
      assert (gt_idx o i G) by (unfold gt_idx, eidx in *; congruence).
      do 4 eexists. split; [reflexivity|]. repeat match goal with |- _ /\ _ => split end; auto;
      intros rho; destruct (rho i); auto.
    + assert (E1 : eid G = i). { destruct (minid2_cases o F G) as [[E L2]|[E L2]]; [lia|congruence]. }
      destruct (EX G VG E1) as (P1 & P2 & P3 & P4 & P5).
      assert (gt_idx o i F) by (unfold gt_idx, eidx in *; rewrite <- E1; lia).
      do 4 eexists. split; [reflexivity|]. repeat match goal with |- _ /\ _ => split end; auto;
      intros rho; destruct (rho i); auto.
Qed.

(** A value that is already there. *)
Lemma good_keep a n lv S own D en L x r v :
  AInv a own D S en -> RC own S idn (mem (st en)) L x ->
  match v with
  | Some f => vedge (lvl own n) r /\ lv <= eidx o r /\ forall rho, dv D r rho = f rho
  | None => eptr r = NUL
  end -> good a n lv S own D en L x v (r, en).
Proof.
  intros A R H. exists own, D. cbn [fst snd]. split; auto. split; auto. split; [apply ext_refl|]. split; auto.
Qed.

Lemma good_v a n lv S own D en L x v v' res : (forall rho, v rho = v' rho) ->
  good a n lv S own D en L x (Some v) res -> good a n lv S own D en L x (Some v') res.
Proof.
  intros E (own' & D' & A & R & X & (V & G & Dv) & H). exists own', D'. repeat (split; auto).
  intros rho. now rewrite Dv, E.
Qed.

(** A find-or-add of a two-operand request of queue [d'] at level [j]. *)
Lemma good_request a n lv S own D en L x d' j F G v :
  AInv a own D S en -> RC own S idn (mem (st en)) L x -> (forall q, own a <> OInd q) ->
  In j (ord o) -> lv <= idx o j -> (d' < n)%nat ->
  (forall d' j b, own b = OQue d' j -> lv <= idx o j -> ~ In b S /\ b <> a) ->
  (forall c, Pend own D en d' j c -> eeq F (ct (mem (st en) c)) = true -> eeq G (ce (mem (st en) c)) = true ->
     forall rho, D c rho = v rho) ->
  (forall own' D' en' c, EAcc own' en' -> ext (fun _ => False) own D en own' D' en' ->
     own' c = OQue d' j -> freeish (own c) -> mem (st en') c = C F G 0 -> (forall rho, D' c rho = v rho) ->
     (forall p, own' p <> OInd c) -> (forall e kk rho, vedge (lvl own kk) e -> dv D' e rho = dv D e rho) ->
     Pend own' D' en' d' j c) ->
  good a n lv S own D en L x (Some v) (request en d' j F G).
Proof.
  intros A R Oa Ij Lj Ld HS HF HN. destruct (request en d' j F G) as [r en'] eqn:E.
  destruct (request_gen o k Pend Pend_ext a own D S en L x d' j F G v r en' A R) as
    (own' & D' & A' & R' & X & E1 & E2 & E3 & E4 & E5 & E6); auto.
  { intros b Ob. eapply HS; eauto. }
  exists own', D'. cbn [fst snd]. split; auto. split; auto. split; auto. split.
  - split; [|split].
    + right. rewrite E1. split; [intros ->; exact (proj1 (wfo_in o 0 Wo Ij) eq_refl)|]. right. exists d'. auto.
    + unfold eidx. now rewrite E1.
    + intros rho. unfold dv. now rewrite E2, E4, xorb_false_l.
  - intros b d1 j1 Ob. destruct (E6 _ _ _ Ob) as [?|[-> ->]]; auto.
Qed.
End Two.
