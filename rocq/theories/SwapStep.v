(** * Expansion of one request when nodes may be created meanwhile.

    As in [StepProof], but the list of the nodes that hold references may grow. *)
From Coq Require Import Permutation.
From Verif Require Import Base BFModel MgrModel StoreInv Own EngInv ApplyProof BinopProof StepProof ReduceProof EngineProof NestProof QProof.

Section TwoX.
Variable o : order.
Hypothesis Wo : wfo o.
Variable k : kind.
Variable Pend : (N -> tag) -> den -> eng -> nat -> N -> N -> Prop.
Hypothesis Pend_ext : forall H own D en own' D' en' d i a,
  EAcc own en -> EAcc own' en' -> SWF o (st en) ->
  ext H own D en own' D' en' -> own a = OQue d i -> ~ H a ->
  (forall p, own p = OInd a -> ~ H p) -> Pend own D en d i a -> Pend own' D' en' d i a.

Notation AInv := (AInv o k Pend).
Local Notation RC := (RCq (kun k)).

Definition goodx (a : N) (n : nat) (lv : N) (S : list N) (own : N -> tag) (D : den) (en : eng) (x : N -> N)
  (v : option ((N -> bool) -> bool)) (res : edge * eng) : Prop :=
  exists own' D' L', AInv a own' D' S (snd res) /\ RC own' S idn (mem (st (snd res))) L' x /\
    ext (fun _ => False) own D en own' D' (snd res) /\
    (match v with
     | Some f => vedge (lvl own' n) (fst res) /\ lv <= eidx o (fst res) /\ forall rho, dv D' (fst res) rho = f rho
     | None => eptr (fst res) = NUL
     end) /\
    (forall b d' j, own' b = OQue d' j -> own b = OQue d' j \/ ((d' < n)%nat /\ lv <= idx o j)).

Lemma good_goodx a n lv S own D en L x v res : good o k Pend a n lv S own D en L x v res -> goodx a n lv S own D en x v res.
Proof. intros (own' & D' & A & R & X). exists own', D', L. auto. Qed.
Lemma goodx_v a n lv S own D en x v v' res : (forall rho, v rho = v' rho) ->
  goodx a n lv S own D en x (Some v) res -> goodx a n lv S own D en x (Some v') res.
Proof.
  intros E (own' & D' & L' & A & R & X & (V & G & Dv) & H). exists own', D', L'. repeat (split; auto).
  intros rho. now rewrite Dv, E.
Qed.

Definition pokx (a : N) (d : nat) (i : N) (S : list N) (own : N -> tag) (D : den) (en : eng)
  (v : option ((N -> bool) -> bool)) (proc : eng -> edge * eng) : Prop :=
  forall own1 D1 en1 L1 x1,
  AInv a own1 D1 S en1 -> RC own1 S idn (mem (st en1)) L1 x1 -> own1 a = OQue d i ->
  ext (fun b => b = a) own D en own1 D1 en1 ->
  (forall d' j b, own1 b = OQue d' j -> idx o i + 1 <= idx o j -> ~ In b S /\ b <> a) ->
  goodx a (klv k d) (idx o i + 1) S own1 D1 en1 x1 v (proc en1).

Lemma icr_inc : forall s r, icr s r = icr s r \/ (isnul r = true /\ icr s r = s).
Proof. now left. Qed.

Lemma twox_ok a d i own D S en L x v1 v0 p1 p0 :
  AInv 0 own D S en -> RC own S idn (mem (st en)) L x -> own a = OQue d i -> kun k d i = false -> ~ In a S ->
  (forall d' j b, own b = OQue d' j -> idx o i < idx o j -> ~ In b S) ->
  (forall p, own p <> OInd a) ->
  pokx a d i S own D en v1 p1 -> pokx a d i S own D en v0 p0 ->
  (v1 = None -> knl k = true /\ v0 <> None) -> (v0 = None -> knl k = true /\ v1 <> None) ->
  (forall rho, D a rho = match v1, v0 with
                         | Some f, Some g => kcb k d i rho f g
                         | Some f, None => f rho
                         | None, Some g => g rho
                         | None, None => false
                         end) ->
  exists own' D' L',
    AInv 0 own' D' (a :: S) (two icr p1 p0 en a) /\
    RC own' (a :: S) idn (mem (st (two icr p1 p0 en a))) L' x /\
    ext (fun b => b = a \/ own b = OInd a) own D en own' D' (two icr p1 p0 en a) /\
    (forall b d' j, own' b = OQue d' j -> own b = OQue d' j \/ ((d' < klv k d)%nat /\ idx o i < idx o j)).
Proof.
  intros A0 R Oa Ku Na HSi NI P1 P0 HN1 HN0 HD.
  pose proof (AInv_h o k Pend a _ _ _ _ A0) as A. pose proof (ai_acc _ _ _ _ _ _ _ _ A) as AC.
  assert (Below : forall ow, (forall d' j b, ow b = OQue d' j -> own b = OQue d' j \/ ((d' < klv k d)%nat /\ idx o i + 1 <= idx o j)) ->
            (forall b d' j, own b = OQue d' j -> ow b = OQue d' j) ->
            forall d' j b, ow b = OQue d' j -> idx o i + 1 <= idx o j -> ~ In b S /\ b <> a).
  { intros ow H1 H2 d' j b Ob Lj. split.
    - intros Ib. destruct (ai_S _ _ _ _ _ _ _ _ A b Ib) as (d1 & i1 & E).
      pose proof (H2 _ _ _ E). assert (d' = d1 /\ j = i1) as [-> ->] by (split; congruence).
      apply (HSi _ _ _ E); [lia|auto].
    - intros ->. pose proof (H2 _ _ _ Oa). assert (j = i) by congruence. subst j. lia. }
  unfold two.
  destruct (P1 own D en L x A R Oa) as (own1 & D1 & La & A1 & R1 & X1 & G1 & N1).
  { eapply ext_weaken; [|apply ext_refl]. simpl. tauto. }
  { apply (Below own); auto. }
  destruct (p1 en) as [r1 en1]. cbn [fst snd] in *.
  assert (Oa1 : own1 a = OQue d i) by (eapply oque_ext; eauto).
  assert (T1 : tgt own1 (eptr r1)).
  { destruct v1; [eapply lvl_tgt; apply G1|left; rewrite G1; apply N.le_refl]. }
  destruct (write_inc o k Pend Pend_ext icr icr_inc a own1 D1 S en1 La x r1 d i (fun c => set_ct c r1)) as (A2 & R2 & X2 & n2 & M2); auto.
  cbv zeta in A2, R2, X2, M2.
  set (en1' := set_st en1 (put (icr (st en1) r1) a (set_ct (mem (icr (st en1) r1) a) r1))) in *.
  pose proof (ai_acc _ _ _ _ _ _ _ _ A1) as AC1. pose proof (ai_acc _ _ _ _ _ _ _ _ A2) as AC2.
  destruct (P0 own1 D1 en1' La (xadd x (eptr r1)) A2 R2 Oa1) as (own2 & D2 & Lb & A3 & R3 & X3 & G0 & N3).
  { eapply ext_weaken; [|eapply ext_trans; [exact AC|exact AC1|exact X1|exact X2]]. simpl. tauto. }
  { apply (Below own1).
    - intros d' j b Ob. exact (N1 b d' j Ob).
    - intros b d' j Ob. exact (oque_ext _ _ _ _ _ _ _ _ _ _ X1 Ob). }
  destruct (p0 en1') as [r0 en2]. cbn [fst snd] in *.
  assert (Oa2 : own2 a = OQue d i) by (eapply oque_ext; eauto).
  assert (T0 : tgt own2 (eptr r0)).
  { destruct v0; [eapply lvl_tgt; apply G0|left; rewrite G0; apply N.le_refl]. }
  destruct (write_inc o k Pend Pend_ext icr icr_inc a own2 D2 S en2 Lb (xadd x (eptr r1)) r0 d i (fun c => set_ce c r0)) as (A4 & R4 & X4 & n4 & M4); auto.
  cbv zeta in A4, R4, X4, M4.
  set (en3 := set_st en2 (put (icr (st en2) r0) a (set_ce (mem (icr (st en2) r0) a) r0))) in *.
  pose proof (ai_acc _ _ _ _ _ _ _ _ A3) as AC3. pose proof (ai_acc _ _ _ _ _ _ _ _ A4) as AC4.
  assert (XX : ext (fun b => b = a \/ own b = OInd a) own D en own2 D2 en3).
  { eapply ext_weaken; [|eapply ext_trans; [exact AC|exact AC1|exact X1|
      eapply ext_trans; [exact AC1|exact AC2|exact X2|eapply ext_trans; [exact AC2|exact AC3|exact X3|exact X4]]]].
    simpl. intros b Hb. left. tauto. }
  assert (Ct2 : ct (mem (st en2) a) = r1).
  { destruct (x_mem _ _ _ _ _ _ _ X3 a) as [E _]; [right; rewrite Oa1; auto|auto|]. rewrite E, M2. reflexivity. }
  assert (Ct : ct (mem (st en3) a) = r1) by (rewrite M4; simpl; auto).
  assert (Ce : ce (mem (st en3) a) = r0) by (rewrite M4; reflexivity).
  assert (T1' : tgt own2 (eptr r1)).
  { destruct v1; [|left; rewrite G1; apply N.le_refl]. eapply lvl_tgt. eapply ext_vedge; [exact X3|apply G1]. }
  assert (DDa : forall rho, D2 a rho = D a rho).
  { intros rho. apply (x_D _ _ _ _ _ _ _ XX); [right|]; rewrite Oa; auto; discriminate. }
  assert (G1' : match v1 with
     | Some f => vedge (lvl own2 (klv k d)) r1 /\ idx o i + 1 <= eidx o r1 /\ forall rho, dv D2 r1 rho = f rho
     | None => eptr r1 = NUL end).
  { destruct v1; auto. destruct G1 as (V & G & Dv). split; [exact (ext_vedge _ _ _ _ _ _ _ _ _ X3 V)|]. split; auto.
    intros rho. rewrite <- Dv. exact (ext_dv _ _ _ _ _ _ _ _ _ _ X3 AC2 V). }
  exists own2, D2, (a :: Lb). split; [|split; [|split; [exact XX|]]].
  - eapply AInv_close; eauto.
    + assert (U1 : isnul r1 = match v1 with Some _ => false | None => true end).
      { destruct v1; [eapply nul_lvl; [exact AC4|]; apply G1'|]. unfold isnul. rewrite G1. reflexivity. }
      assert (U0 : isnul r0 = match v0 with Some _ => false | None => true end).
      { destruct v0; [eapply nul_lvl; [exact AC4|]; apply G0|]. unfold isnul. rewrite G0. reflexivity. }
      unfold Applied. rewrite Ku. constructor; rewrite ?Ct, ?Ce, ?U1, ?U0.
      * destruct v1; [intros _; split; [apply G1'|unfold gt_idx; fold (eidx o r1); destruct G1' as (_ & G & _); lia]|discriminate].
      * destruct v0; [intros _; split; [apply G0|unfold gt_idx; fold (eidx o r0); destruct G0 as (_ & G & _); lia]|discriminate].
      * destruct v1; [now left|]. right. destruct (HN1 eq_refl) as [H1 H2]. split; auto. destruct v0; [auto|congruence].
      * destruct v0; [now left|]. right. destruct (HN0 eq_refl) as [H1 H2]. split; auto. destruct v1; [auto|congruence].
      * intros rho. rewrite DDa, HD. unfold comb. rewrite U1, U0.
        destruct v1, v0; auto.
        -- destruct G1' as (_ & _ & E1). destruct G0 as (_ & _ & E0). symmetry. now apply kcb_ext.
        -- destruct G1' as (_ & _ & E1). now rewrite E1.
        -- destruct G0 as (_ & _ & E0). now rewrite E0.
        -- destruct (HN1 eq_refl) as [_ H2]. congruence.
    + intros p Op. apply (NI p). eapply (x_ind _ _ _ _ _ _ _ XX); eauto.
  - change (RC own2 (a :: S) idn (mem (st en3)) (a :: Lb) x).
    eapply RC_apply; eauto; rewrite ?Ct, ?Ce; auto.
    intros b Lt Fb. pose proof (rc_x _ _ _ _ _ _ R4 b Lt Fb) as Hx. unfold xadd in Hx. lia.
  - intros b d' j Ob. destruct (N3 _ _ _ Ob) as [Ob1|H]; [|right; split; [apply H|destruct H; lia]].
    destruct (N1 _ _ _ Ob1) as [Ob2|H]; [auto|right; split; [apply H|destruct H; lia]].
Qed.


Variable Need : nat -> nat -> Prop.
Variable step : nat -> N -> eng -> N -> eng.

Definition stepx_ok (d : nat) : Prop := forall own D S en L x i a,
  AInv 0 own D S en -> RC own S idn (mem (st en)) L x -> own a = OQue d i -> ~ In a S ->
  (forall d' b, Need d d' -> own b = OQue d' i -> In b S) ->
  (forall d' j b, own b = OQue d' j -> idx o i < idx o j -> ~ In b S) ->
  (forall p q, own p = OInd q -> x p = 0) ->
  exists own' D' L',
    AInv 0 own' D' (a :: S) (step d i en a) /\
    RC own' (a :: S) idn (mem (st (step d i en a))) L' x /\
    ext (fun b => b = a \/ own b = OInd a) own D en own' D' (step d i en a) /\
    (forall b d' j, own' b = OQue d' j -> own b = OQue d' j \/ ((d' < klv k d)%nat /\ idx o i < idx o j)).

Section Table.
Variable d : nat.
Hypothesis step_spec : stepx_ok d.

Lemma foldx_step i : forall l own D S en L x,
  AInv 0 own D S en -> RC own S idn (mem (st en)) L x -> NoDup l ->
  (forall a, In a l -> own a = OQue d i /\ ~ In a S) ->
  (forall d' b, Need d d' -> own b = OQue d' i -> In b S) ->
  (forall d' j b, own b = OQue d' j -> idx o i < idx o j -> ~ In b S) ->
  (forall p q, own p = OInd q -> x p = 0) ->
  exists own' D' L', let en' := fold_left (step d i) l en in
    AInv 0 own' D' (rev l ++ S) en' /\ RC own' (rev l ++ S) idn (mem (st en')) L' x /\
    ext anyH own D en own' D' en' /\
    (forall b d' j, own' b = OQue d' j -> own b = OQue d' j \/ ((d' < klv k d)%nat /\ idx o i < idx o j)).
Proof using step_spec.
  induction l as [|a l IH]; intros own D S en L x A R ND Hl Hd Hi HI.
  - exists own, D, L. simpl. split; auto. split; auto. split; [eapply ext_any; apply ext_refl|]. auto.
  - destruct (Hl a (or_introl eq_refl)) as [Oa Na].
    destruct (step_spec own D S en L x i a A R Oa Na Hd Hi HI) as (own1 & D1 & L1 & A1 & R1 & X1 & N1).
    inversion ND as [|? ? Nal NDl]; subst.
    destruct (IH own1 D1 (a :: S) (step d i en a) L1 x A1 R1 NDl) as (own2 & D2 & L2 & A2 & R2 & X2 & N2).
    + intros b Ib. destruct (Hl b (or_intror Ib)) as [Ob Nb]. split.
      * eapply oque_ext; eauto.
      * intros [?|?]; congruence.
    + intros d' b Ld Ob. right. destruct (N1 _ _ _ Ob) as [Ob'|[_ ?]]; [|lia]. eauto.
    + intros d' j b Ob Lt [<-|Ib].
      * pose proof (oque_ext _ _ _ _ _ _ _ _ _ _ X1 Oa). assert (i = j) by congruence. subst. lia.
      * destruct (ai_S _ _ _ _ _ _ _ _ A b Ib) as (d1 & i1 & E).
        pose proof (oque_ext _ _ _ _ _ _ _ _ _ _ X1 E) as E1. rewrite E1 in Ob. injection Ob as -> ->.
        eapply Hi; eauto.
    + exact (ind_x _ _ _ _ _ _ _ _ _ _ _ _ (ai_acc _ _ _ _ _ _ _ _ A1) R X1 HI).
    + exists own2, D2, L2. cbn [fold_left rev]. rewrite <- app_assoc. cbn [app].
      split; auto. split; auto.
      split; [eapply ext_any_trans; [exact (ai_acc _ _ _ _ _ _ _ _ A)|exact (ai_acc _ _ _ _ _ _ _ _ A1)| |exact X2]; eapply ext_any; eauto|].
      intros b d' j Ob. destruct (N2 _ _ _ Ob) as [Ob'|?]; auto.
Qed.

Variable enum : memory -> list N -> list N.
Hypothesis enum_perm : forall m l, Permutation (enum m l) l.

Lemma stablex_ok i : table_ok o k Pend Need (stable step enum d i) d i.
Proof using step_spec enum_perm.
  intros own D S en L x A R Ii H0 Hd Hi HI. set (l := enum (mem (st en)) (que en d i)).
  pose proof (ai_acc _ _ _ _ _ _ _ _ A) as AC.
  assert (Pm : Permutation l (que en d i)) by apply enum_perm.
  assert (Hl : forall a, In a l <-> own a = OQue d i).
  { intros a. rewrite <- (acc_que _ _ _ _ _ AC). split; apply Permutation_in; [|symmetry]; auto. }
  destruct (foldx_step i l own D S en L x A R) as (own' & D' & L' & A' & R' & X' & N'); auto.
  - eapply Permutation_NoDup; [symmetry; exact Pm|]. exact (acc_nd _ _ _ AC (OQue d i) eq_refl).
  - intros a Ia. apply Hl in Ia. auto.
  - exists own', D', (rev l ++ S), L'. cbv zeta. unfold stable. fold l.
    split; auto. split; auto. split; auto. split; auto.
    intros b. rewrite in_app_iff, <- in_rev, Hl. tauto.
Qed.
End Table.

(** A node made during the apply phase. *)
Lemma goodx_node a n lv S own D en L x i t e r found s1 s2 :
  AInv a own D S en -> RC own S idn (mem (st en)) L x -> (forall q, own a <> OInd q) ->
  In i (ord o) -> lv <= idx o i -> vedge (lvl own 0) t -> vedge (lvl own 0) e -> gt_idx o i t -> gt_idx o i e ->
  find_or_add (st en) i t e = (r, found, s1) ->
  s2 = (if found then s1 else icr (icr s1 t) e) ->
  goodx a n lv S own D en x (Some (fun rho : N -> bool => if rho i then dv D t rho else dv D e rho)) (r, set_st en s2).
Proof using Wo Pend_ext.
  intros A R Hh Ii Li Vt Ve Gt Ge Fa ->. pose proof (ai_acc _ _ _ _ _ _ _ _ A) as AC.
  destruct (nest_in o k Pend a own D S en L x A R) as [I0 R0].
  assert (Nd : forall z, vedge (lvl own 0) z -> vedge (nodeR (st (start (st en)))) z).
  { intros z V. eapply vedge_mono; [|exact V]. intros j b _ [H|(d & Hd & _)]; [|lia]. apply (acc_node _ _ _ _ AC). exact H. }
  destruct (mk_E o (hid own) D (start (st en)) (nodesof own L) (xin own idn (mem (st en)) L x) i t e r found s1
    (if found then s1 else icr (icr s1 t) e) Wo I0 R0 Ii (Nd t Vt) (Nd e Ve) Gt Ge Fa) as (own' & D' & L' & (I4 & R4 & X4) & _ & V & Ge' & E).
  { intros ->. apply seqv_refl. } { intros ->. apply seqv_refl. }
  destruct (nest_out o k Pend Pend_ext a own D S en L x own' D' _ L' A R Hh I4 R4 X4) as (own2 & D2 & L2 & A2 & R2 & X2 & F2 & Q2).
  exists own2, D2, L2. cbn [fst snd]. split; [exact A2|]. split; [exact R2|]. split; [exact X2|]. split.
  - destruct (F2 r V) as [V2 E2]. split; [eapply vedge_lvl_mono; [|exact V2]; lia|]. split; [unfold eidx; lia|].
    intros rho. rewrite E2. apply E.
  - intros b d' j Ob. left. now apply Q2.
Qed.
End TwoX.
