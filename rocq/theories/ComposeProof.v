(** * Correctness of the substitution of one variable. *)
From Coq Require Import Permutation.
From Verif Require Import Base BFModel ITEModel MgrModel ApiModel ComposeModel StoreInv Own EngInv ApplyProof BinopProof
  StepProof RunProof ReduceProof EngineProof OpProof MultiProof ITEProof QProof GCProof VarProof MInv ApiProof ApiOps ApiStruct.

Section Compose.
Variable o : order.
Hypothesis Wo : wfo o.
Variable g : N.
Hypothesis Ig : In g (ord o).
Notation gi := (idx o g).

(** A pending composition. *)
Record PendC (own : N -> tag) (D : den) (en : eng) (i a : N) : Prop := {
  pc_F : vedge (lvl own 0) (ct (mem (st en) a));
  pc_H : vedge (lvl own 0) (ce (mem (st en) a));
  pc_g : eidx o (ct (mem (st en) a)) < gi;
  pc_i : i = minid2 o (ct (mem (st en) a)) (ce (mem (st en) a));
  pc_ind : forall p, own p <> OInd a;
  pc_D : forall rho, D a rho = dv D (ct (mem (st en) a)) (flip rho g (dv D (ce (mem (st en) a)) rho))
}.

Lemma PendC_ext : forall H own D en own' D' en' d i a,
  EAcc own en -> EAcc own' en' -> SWF o (st en) ->
  ext H own D en own' D' en' -> own a = OQue d i -> ~ H a ->
  (forall p, own p = OInd a -> ~ H p) -> PendC own D en i a -> PendC own' D' en' i a.
Proof.
  intros H own D en own' D' en' d i a A A' W X Oa Ha _ [B1 B2 B3 B5 B7 B6].
  destruct (x_mem _ _ _ _ _ _ _ X a) as [Et Ee]; [right; rewrite Oa; auto|auto|].
  constructor; rewrite ?Et, ?Ee; auto; try (eapply ext_vedge; eauto).
  { intros p Op. apply (B7 p). eapply (x_ind _ _ _ _ _ _ _ X); eauto. }
  intros rho. rewrite (x_D _ _ _ _ _ _ _ X) by (rewrite ?Oa; try discriminate; right; rewrite Oa; auto).
  rewrite B6, !(ext_dv _ _ _ _ _ _ _ _ _ _ X A) by eauto. auto.
Qed.

(** Requests of the composition are in queue [dc], those of the if-then-else in queue [di]. *)
Variable k : kind.
Local Notation RC := (RCq (kun k)).
Variable Pend : (N -> tag) -> den -> eng -> nat -> N -> N -> Prop.
Hypothesis Pend_ext : forall H own D en own' D' en' d i a,
  EAcc own en -> EAcc own' en' -> SWF o (st en) ->
  ext H own D en own' D' en' -> own a = OQue d i -> ~ H a ->
  (forall p, own p = OInd a -> ~ H p) -> Pend own D en d i a -> Pend own' D' en' d i a.
Variables dc di : nat.
Hypothesis Pend_C : forall own D en i a, Pend own D en dc i a <-> PendC own D en i a.
Hypothesis Pend_I : forall own D en i a, Pend own D en di i a <-> PendI o own D en i a.

Notation AInv := (AInv o k Pend).

Lemma lvl0_node own en e : EAcc own en -> vedge (lvl own 0) e -> vedge (nodeR (st en)) e.
Proof.
  intros A V. eapply vedge_mono; [|exact V]. intros i a _ [H|(d & Hd & _)]; [|lia].
  apply (acc_node _ _ _ _ A). exact H.
Qed.

Lemma below_dv h own D S en e i rho b : AInv h own D S en -> vedge (lvl own 0) e -> In i (ord o) -> idx o i < eidx o e ->
  dv D e (flip rho i b) = dv D e rho.
Proof.
  intros A V Ii Lt. eapply (dv_flip o D (st en)); auto.
  - apply (ai_swf _ _ _ _ _ _ _ _ A).
  - apply (ai_dok _ _ _ _ _ _ _ _ A).
  - eapply lvl0_node; eauto. apply (ai_acc _ _ _ _ _ _ _ _ A).
Qed.

Lemma eidx_ord h own D S en n e : AInv h own D S en -> vedge (lvl own n) e -> eidx o e <= gi -> eid e <> 0.
Proof.
  intros A V L E. unfold eidx in L. rewrite E, (wfo_const o Wo) in L. pose proof (wfo_lt_const o _ Wo Ig). lia.
Qed.

Lemma minid2_ord h own D S en n f e : AInv h own D S en -> vedge (lvl own n) f -> vedge (lvl own n) e ->
  eid f <> 0 -> In (minid2 o f e) (ord o).
Proof.
  intros A Vf Ve Nf. destruct (minid2_cases o f e) as [[E _]|[E L]]; rewrite E.
  - eapply lvl_ord; eauto.
  - assert (eid e <> 0); [|eapply lvl_ord; eauto]. intros Z. unfold eidx in L. rewrite Z, (wfo_const o Wo) in L.
    pose proof (wfo_lt_const o _ Wo (lvl_ord _ _ _ _ _ _ _ _ _ _ A Vf Nf)). lia.
Qed.

Lemma flip_eeq D f f' h h' rho : eeq f f' = true -> eeq h h' = true ->
  dv D f' (flip rho g (dv D h' rho)) = dv D f (flip rho g (dv D h rho)).
Proof. intros Ef Eh. now rewrite (dv_eeq D f f' _ Ef), (dv_eeq D h h' _ Eh). Qed.

Lemma req_good a n lv own D S en L x f h :
  AInv a own D S en -> RC own S idn (mem (st en)) L x -> (forall q, own a <> OInd q) ->
  vedge (lvl own 0) f -> vedge (lvl own 0) h -> lv <= eidx o f -> lv <= eidx o h ->
  (dc < n)%nat -> (di < n)%nat ->
  (forall d' j b, own b = OQue d' j -> lv <= idx o j -> ~ In b S /\ b <> a) ->
  good o k Pend a n lv S own D en L x (Some (fun rho => dv D f (flip rho g (dv D h rho)))) (compose_req o gi dc di en f h).
Proof.
  intros A R Oa Vf Vh Lf Lh Ln1 Ln2 HS. unfold compose_req.
  destruct (N.ltb_spec gi (eidx o f)) as [C1|C1]; [|destruct (N.ltb_spec (eidx o f) gi) as [C2|C2]].
  - apply good_keep; auto. split; [eapply vedge_lvl_mono; [|exact Vf]; lia|]. split; auto.
    intros rho. symmetry. eapply below_dv; eauto.
  - assert (Nf : eid f <> 0) by (eapply eidx_ord; eauto; lia).
    apply (good_request o Wo k Pend Pend_ext); auto.
    + eapply minid2_ord; eauto.
    + destruct (minid2_cases o f h) as [[E _]|[E _]]; rewrite E; auto.
    + intros c Pc Ef Eh rho. apply Pend_C in Pc. destruct Pc as [B1 B2 B3 B4 B5 B6]. rewrite B6. apply flip_eeq; auto.
    + intros own' D' en' c AC' X Oc Fc Mc Dc NI Dv.
      apply Pend_C. constructor; rewrite ?Mc; simpl; auto; try (eapply ext_vedge; eauto).
      intros rho. rewrite Dc, !(Dv _ 0%nat) by auto. reflexivity.
  - assert (Eg : eidx o f = gi) by lia.
    assert (Nf : eid f <> 0) by (eapply eidx_ord; eauto).
    assert (Ef : eid f = g). { apply (wfo_inj o _ _ Wo); auto. eapply lvl_ord; eauto. }
    destruct (expand0 _ _ _ _ _ _ _ _ f A Vf Nf) as (V1 & V0 & G1 & G0 & DF). rewrite Ef in *.
    eapply good_v; [|apply (good_ite o Wo k Pend Pend_ext di Pend_I); auto].
    + intros rho. simpl. rewrite DF, flip_same.
      unfold gt_idx in *. now rewrite !(below_dv a own D S en _ g rho (dv D h rho) A) by auto.
    + unfold gt_idx, eidx in *. lia.
    + unfold gt_idx, eidx in *. lia.
Qed.

Lemma inc_icr s r : icr s r = icr s r \/ (isnul r = true /\ icr s r = s).
Proof. now left. Qed.

Hypothesis k_lv1 : (dc < klv k dc)%nat.
Hypothesis k_lv2 : (di < klv k dc)%nat.
Hypothesis k_cb : kcb k = kite.
Hypothesis k_un : forall d i, kun k d i = false.
Variable Need : nat -> nat -> Prop.

Lemma compose1_ok : step_ok o k Pend Need (fun _ _ => compose1 o gi dc di) dc.
Proof.
  intros own D S en L x i a A0 R Oa Na _ HSi _.
  assert (R3 : 2 < a) by (apply (acc_rng _ _ _ (ai_acc _ _ _ _ _ _ _ _ A0)); congruence).
  destruct (ai_que _ _ _ _ _ _ _ _ A0 _ _ _ Oa) as [Ii Hst].
  destruct Hst as [[? _]|[_ Pe]]; [lia|tauto|]. apply Pend_C in Pe.
  destruct Pe as [VF VH Hg Ei NI DF].
  set (F := ct (mem (st en) a)) in *. set (H := ce (mem (st en) a)) in *.
  destruct (cofactors2_spec o Wo k Pend 0 own D S en F H i A0 VF VH Ei Ii) as
     (fx & fxb & hx & hxb & EC & V1 & V2 & V3 & V4 & G1 & G2 & G3 & G4 & DvF & DvH).
  assert (Lg : idx o i < gi).
  { rewrite Ei. unfold eidx in *. destruct (minid2_cases o F H) as [[E _]|[E L2]]; rewrite E; auto. unfold eidx in L2. lia. }
  assert (Ng : i <> g) by (intros ->; lia).
  unfold compose1. fold F H. rewrite EC.
  rewrite k_un. change (exists own' D',
    AInv 0 own' D' (a :: S) (two icr (fun en => compose_req o gi dc di en fx hx) (fun en => compose_req o gi dc di en fxb hxb) en a) /\
    RC own' (a :: S) idn (mem (st (two icr (fun en => compose_req o gi dc di en fx hx) (fun en => compose_req o gi dc di en fxb hxb) en a))) (a :: L) x /\
    ext (fun b => b = a \/ own b = OInd a) own D en own' D' (two icr (fun en => compose_req o gi dc di en fx hx) (fun en => compose_req o gi dc di en fxb hxb) en a) /\
    (forall b d' j, own' b = OQue d' j -> own b = OQue d' j \/ ((d' < klv k dc)%nat /\ idx o i < idx o j))).
  assert (P : forall f h, vedge (lvl own 0) f -> vedge (lvl own 0) h -> gt_idx o i f -> gt_idx o i h ->
     pok o k Pend a dc i S own D en (Some (fun rho => dv D f (flip rho g (dv D h rho)))) (fun en => compose_req o gi dc di en f h)).
  { intros f h Vf Vh Gf Gh own1 D1 en1 L1 x1 A1 R1 Oa1 X1 HS1.
    pose proof (ai_acc _ _ _ _ _ _ _ _ A0) as AC.
    eapply good_v; [|apply (req_good a (klv k dc) (idx o i + 1) own1 D1 S en1 L1 x1 f h); auto].
    - intros rho. simpl. now rewrite !(ext_dv _ _ _ _ _ _ _ _ _ _ X1 AC) by eauto.
    - rewrite Oa1. discriminate.
    - exact (ext_vedge _ _ _ _ _ _ _ _ _ X1 Vf).
    - exact (ext_vedge _ _ _ _ _ _ _ _ _ X1 Vh).
    - unfold gt_idx, eidx in *. lia.
    - unfold gt_idx, eidx in *. lia. }
  apply (two_ok o k Pend Pend_ext icr inc_icr a dc i own D S en L x
    (Some (fun rho => dv D fx (flip rho g (dv D hx rho)))) (Some (fun rho => dv D fxb (flip rho g (dv D hxb rho))))); auto; try discriminate.
  intros rho. rewrite DF, DvF, DvH. simpl. rewrite k_cb. unfold kite, flip at 1. destruct (N.eqb_spec i g) as [?|_]; [tauto|].
  now destruct (rho i).
Qed.

End Compose.

(** ** The composition on its own: two queues, whose requests refer to requests of both *)
Section Alone.
Variable o : order.
Hypothesis Wo : wfo o.
Variable g : N.
Hypothesis Ig : In g (ord o).
Notation gi := (idx o g).

Definition kcomp : kind := K false true (fun d => Nat.max 2 (S d)) kite kite_ext nowhere noel noel_ext.
Definition never : nat -> nat -> Prop := fun _ _ => False.

Definition PendCI (own : N -> tag) (D : den) (en : eng) (d : nat) (i a : N) : Prop :=
  match d with O => PendC o g own D en i a | _ => PendI o own D en i a end.

Lemma PendCI_ext : forall H own D en own' D' en' d i a,
  EAcc own en -> EAcc own' en' -> SWF o (st en) ->
  ext H own D en own' D' en' -> own a = OQue d i -> ~ H a ->
  (forall p, own p = OInd a -> ~ H p) -> PendCI own D en d i a -> PendCI own' D' en' d i a.
Proof.
  intros H own D en own' D' en' d i a. destruct d; [apply (PendC_ext o g)|apply (PendI_ext o)].
Qed.

Variable enum : memory -> list N -> list N.
Hypothesis enum_perm : forall m l, Permutation (enum m l) l.

Lemma compose_step_ok d i : table_ok o kcomp PendCI never (stable (compose_step o gi) enum d i) d i.
Proof.
  apply (stable_ok o kcomp PendCI never (compose_step o gi) d); auto.
  destruct d; [exact (compose1_ok o Wo g Ig kcomp PendCI PendCI_ext 0 1 (fun _ _ _ _ _ => iff_refl _) (fun _ _ _ _ _ => iff_refl _) (le_S _ _ (le_n 1)) (le_n 2) eq_refl (fun _ _ => eq_refl) never)|].
  apply (ite_apply1_ok o Wo kcomp PendCI PendCI_ext (S d) (fun _ _ _ _ _ => iff_refl _)); auto.
Qed.

Lemma composeBF_spec n own D en L x F H r en' :
  (forall j, In j (ord o) -> 1 <= j <= n) ->
  EInv o own D en -> RC own [] idn (mem (st en)) L x ->
  vedge (nodeR (st en)) F -> vedge (nodeR (st en)) H ->
  composeBF enum o gi n en F H = (r, en') ->
  exists own' D', EInv o own' D' en' /\ (exists L', RC own' [] idn (mem (st en')) L' x) /\
    nodes_kept own D en own' D' en' /\ vedge (nodeR (st en')) r /\
    forall rho, dv D' r rho = dv D F (flip rho g (dv D H rho)).
Proof.
  intros Hid I R VF VH Eq. unfold composeBF in Eq. destruct (alloc (st en) 0) as [a s1] eqn:Al.
  destruct (EInv_alloc o own D en L x 0 a s1 (C F H 0) I R Al) as (Fa & La & Xa & I1 & R1 & Ma & Mb & Eu).
  set (own1 := upd own a OX) in *. set (en1 := set_st en (put s1 a (C F H 0))) in *.
  assert (U : forall e, vedge (nodeR (st en)) e -> vedge (lvl own1 0) e).
  { intros e V. eapply vedge_lvl0; [exact (ei_acc _ _ _ _ I1)|]. eapply vedge_mono; [|exact V].
    intros i b _ Ib. unfold nodeR in *. now rewrite Eu. }
  pose proof (EInv_AInv o kcomp PendCI own1 D en1 I1) as A1.
  assert (Gd : good o kcomp PendCI 0 2 0 [] own1 D en1 L x (Some (fun rho => dv D F (flip rho g (dv D H rho))))
                 (compose_req o gi 0 1 en1 F H)).
  { apply (req_good o Wo g Ig kcomp PendCI PendCI_ext 0 1 (fun _ _ _ _ _ => iff_refl _) (fun _ _ _ _ _ => iff_refl _)); auto; try lia. intros q E. exact (ei_ind _ _ _ _ I1 _ _ E).
    intros d' j b Ob. destruct (EInv_nq _ _ _ _ _ _ _ I1 Ob). }
  destruct (run_spec o Wo kcomp PendCI PendCI_ext never (stable (compose_step o gi) enum) compose_step_ok
    (fun d i en => reduce_table enum en d i)) with (n := 2%nat) (ds := [0%nat; 1%nat]) (rds := [0%nat; 1%nat])
    (cds := [0%nat; 1%nat]) (cids := map N.of_nat (seq 1 (N.to_nat n))) (c := 0%nat) (lv := 0)
    (own := own1) (D := D) (en := en1) (L := L) (x := x)
    (v := fun rho => dv D F (flip rho g (dv D H rho))) (res := compose_req o gi 0 1 en1 F H)
    as (own2 & D2 & I2 & (L2 & R2) & X2 & V2 & E2); auto.
  { intros d i _. apply reduce_table_ok; auto. }
  { simpl. unfold never. intuition lia. }
  { intros d. simpl. lia. } { intros d. simpl. lia. } { intros d Hd. unfold kcomp. cbn [klv]. lia. } { intros d. simpl. lia. }
  { intros j Ij. simpl in Ij. apply Hid in Ij. apply in_map_iff. exists (N.to_nat j). split; [lia|]. apply in_seq. lia. }
  { lia. }
  cbv zeta in I2, R2, X2, V2, E2. destruct (compose_req o gi 0 1 en1 F H) as [r1 en2]. cbn [fst snd] in *.
  change (skipn 0 (ord o)) with (ord o) in *.
  change (sweep (stable (compose_step o gi) enum) [0%nat; 1%nat] (ord o) en2) with (compose_all enum o gi (ord o) en2) in *.
  change (rall (fun d i en => reduce_table enum en d i) [0%nat; 1%nat] (ord o) (compose_all enum o gi (ord o) en2))
    with (reduce_all enum [0%nat; 1%nat] (ord o) (compose_all enum o gi (ord o) en2)) in *.
  set (en3 := reduce_all enum [0%nat; 1%nat] (ord o) (compose_all enum o gi (ord o) en2)) in *.
  set (en4 := cleanup_all [0%nat; 1%nat] (map N.of_nat (seq 1 (N.to_nat n))) en3) in *.
  apply pair_equal_spec in Eq as [<- <-].
  assert (Oa : own1 a = OX) by apply upd_same.
  destruct (ox_x _ _ _ _ _ _ X2 a Oa) as [Oa2 _].
  destruct (EInv_free o own2 D2 en4 L2 x 0 a I2 R2 Oa2 Xa) as [I5 R5].
  exists (upd own2 a (OFree 0)), D2. split; auto. split; [eauto|]. split; [|split].
  - assert (Na : forall i b, own b = ONode i -> b <> a) by (intros i b Ob ->; rewrite Ob in Fa; exact (nf_node _ Fa)).
    constructor.
    + intros i b Ob. pose proof (Na _ _ Ob) as Nb. assert (Ob1 : own1 b = ONode i) by (unfold own1; now rewrite upd_other).
      destruct (ox_node _ _ _ _ _ _ X2 i b Ob1) as [O2 T2]. split; [now rewrite upd_other|].
      unfold sameTE in *. rewrite Mb in T2 by auto. exact T2.
    + intros b rho Hb. apply (ox_D _ _ _ _ _ _ X2). destruct Hb as [->|[i Ob]]; auto. right. exists i.
      unfold own1. rewrite upd_other; eauto.
    + intros b Ob. destruct (N.eq_dec b a) as [->|Nb]; [rewrite upd_same in Ob; discriminate|]. rewrite upd_other in Ob by auto.
      apply (ox_user _ _ _ _ _ _ X2) in Ob. unfold own1 in Ob. now rewrite upd_other in Ob.
    + simpl. rewrite (ox_ut0 _ _ _ _ _ _ X2). apply Eu.
  - exact V2.
  - exact E2.
Qed.
End Alone.

Section Api.
Variable enum : memory -> list N -> list N.
Hypothesis enum_perm : forall m l, Permutation (enum m l) l.

Lemma composeBF_QS o g n D en x F H r en' : wfo o -> In g (ord o) -> (forall j, In j (ord o) -> 1 <= j <= n) ->
  QS o D en x -> vedge (nodeR (st en)) F -> vedge (nodeR (st en)) H ->
  composeBF enum o (idx o g) n en F H = (r, en') ->
  exists D', QS o D' en' x /\ sext (st en) D (st en') D' /\ vedge (nodeR (st en')) r /\
    forall rho, dv D' r rho = dv D F (flip rho g (dv D H rho)).
Proof using enum_perm.
  intros Wo Ig Hid (own & L & I & R) VF VH Hr.
  destruct (composeBF_spec o Wo g Ig enum enum_perm n own D en L x F H r en' Hid I R VF VH Hr) as (own' & D' & I' & (L' & R') & X & V & E).
  exists D'. split; [exists own', L'; auto|]. split; [|auto].
  apply (nk_sext own D en own' D' en'); [apply I|apply I'|]. exact X.
Qed.

(** ** The interface function *)

Lemma preproc_order d m l ok m' : preproc d m l = Ok (ok, m') -> mo m' = mo m.
Proof.
  unfold preproc. destruct (existsb (zero_ref m) l); [discriminate|]. destruct (existsb uisnull l); intros [= <- <-]; auto.
  unfold postproc. destruct (d_chk d); auto. destruct (mlim m <? nn (st (me m))); auto.
  assert (F1 : mo (gc m) = mo m) by (unfold gc; now destruct (gc_store (mo m) (st (me m)))).
  destruct (_ && _); simpl; auto.
Qed.
Lemma isconst_mext m m' D D' hs f : mext hs m D m' D' -> cal_isconst m' f = cal_isconst m f.
Proof. intros X. unfold cal_isconst, cal_isone, cal_iszero, cal_one, cal_zero. now rewrite (mx_one _ _ _ _ _ X). Qed.

(** The topmost variable of a function. *)
Definition topvar (m : mgr) (D : den) (f : ubdd) (i : N) : Prop :=
  In i (ord (mo m)) /\
  (exists rho, hv m D f (flip rho i true) <> hv m D f (flip rho i false)) /\
  (forall j, In j (ord (mo m)) -> idx (mo m) j < idx (mo m) i -> forall rho b, hv m D f (flip rho j b) = hv m D f rho).

Lemma compose_spec d m hs lk D f g h : MInv m hs lk D -> In f hs -> In g hs -> In h hs ->
  exists r m', cal_compose enum d m f g h = Ok (r, m') /\
    (cal_isconst m g = true -> result' m hs lk D (hv m D f) r m') /\
    (cal_isconst m g = false -> exists i, topvar m D g i /\
       result' m hs lk D (fun rho => hv m D f (flip rho i (hv m D h rho))) r m').
Proof using enum_perm.
  intros I If Ig Ih.
  destruct (preproc_live d m hs lk D [f; g; h] I) as (m1 & D1 & P & I1 & X1). { now intros k [<-|[<-|[<-|[]]]]. }
  unfold cal_compose. rewrite P. cbn [obind negb].
  rewrite (isconst_int m1 hs lk D1 g I1 Ig), (isconst_mext _ _ _ _ _ _ X1).
  destruct (cal_isconst m g) eqn:Cg.
  - exists f, (uinc m1 f). split; auto. split; [|discriminate]. intros _.
    destruct (uinc_spec m1 hs lk D1 f f I1) as [I2 X2]; auto.
    exists D1. split; [eapply mext_trans; eauto|]. split; auto.
    intros rho. rewrite (mx_h _ _ _ _ _ X2) by auto. now apply (mx_h _ _ _ _ _ X1).
  - assert (Cg1 : isconst (uint (mmem m1) g) = false).
    { now rewrite (isconst_int m1 hs lk D1 g I1 Ig), (isconst_mext _ _ _ _ _ _ X1). }
    destruct (top_depends m1 hs lk D1 g I1 Ig Cg1) as (T1 & (rho0 & T2) & T3).
    set (i := eid (uint (mmem m1) g)) in *.
    destruct (composeBF enum (mo m1) (eidx (mo m1) (uint (mmem m1) g)) (N.of_nat (length (ord (mo m1)))) (me m1)
                (uint (mmem m1) f) (uint (mmem m1) h)) as [r en] eqn:Op.
    destruct (composeBF_QS (mo m1) i _ D1 (me m1) _ _ _ r en (mi_wfo _ _ _ _ I1) T1
                (fun j Ij => proj1 (mi_ids _ _ _ _ I1 j) Ij) (mi_q _ _ _ _ I1)
                (MI_int _ _ _ _ f I1 If) (MI_int _ _ _ _ h I1 Ih) Op) as (D2 & Q2 & S2 & V2 & E2).
    destruct (MInv_step m1 hs lk D1 en D2 I1 Q2 S2) as [I2 X2].
    destruct (ret (set_me m1 en) r) as [k m'] eqn:Rt.
    exists k, m'. split; auto. split; [discriminate|]. intros _. exists i. split.
    { unfold topvar. rewrite <- (preproc_order _ _ _ _ _ P). split; auto. split.
      - exists rho0. now rewrite <- !(mx_h _ _ _ _ _ X1) by auto.
      - intros j Ij Hj rho b. rewrite <- !(mx_h _ _ _ _ _ X1) by auto. now apply T3. }
    eapply result_pre'; [eapply mext_trans; [exact X1|exact X2]|].
    eapply result_f'; [|eapply ret_result; [exact I2|exact V2|exact Rt]].
    intros rho. rewrite E2. now rewrite !(mx_h _ _ _ _ _ X1) by auto.
Qed.

Lemma compose_null d m hs lk D f g h : MInv m hs lk D ->
  (forall k, In k [f; g; h] -> uisnull k = true \/ In k hs) -> (exists k, In k [f; g; h] /\ uisnull k = true) ->
  cal_compose enum d m f g h = Undefined.
Proof. intros I Hk Hn. unfold cal_compose. now rewrite (preproc_null d m hs lk D [f; g; h] I). Qed.
End Api.
