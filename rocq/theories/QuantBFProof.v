(** * Breadth-first quantification: nested passes and the reduction at a quantified variable. *)
From Coq Require Import Permutation.
From Verif Require Import Base BFModel BatchModel MgrModel ApiModel QuantModel QuantBFModel StoreInv Own EngInv ApplyProof BinopProof
  StepProof RunProof ReduceProof EngineProof OpProof MultiProof NestProof ITEProof ApiStruct QuantProof PlaceProof SubstProof.

Definition hd_ok {P} (okp : (N -> tag) -> den -> P -> Prop) : Prop := forall own D p, okp own D p -> okp (hid own) D p.

(** A batch of operations on a store without requests. *)
Definition hdQ (Q : (N -> tag) -> den -> Prop) : Prop := forall own D, Q own D -> Q (hid own) D.
Definition bspec {P} (o : order) (Q : (N -> tag) -> den -> Prop) (okp : (N -> tag) -> den -> P -> Prop) (val : den -> P -> bfn)
  (nb : store -> list P -> list edge * store) : Prop := forall own D s L x ps rs s',
  EInv o own D (start s) -> RC own [] idn (mem s) L x -> Q own D -> (forall p, In p ps -> okp own D p) -> nb s ps = (rs, s') ->
  exists own' D', EInv o own' D' (start s') /\ (exists L', RC own' [] idn (mem s') L' x) /\
    oext own D (start s) own' D' (start s') /\
    Forall2 (fun p r => vedge (nodeR s') r /\ forall rho, dv D' r rho = val D p rho) ps rs.

(** A pass inside the reduction of another one. *)
Lemma nested_state {P} o k Q okp val nb x S own D en (ps : list P) rs s : hdQ Q -> hd_ok okp -> bspec o Q okp val nb ->
  RState o k x S own D en -> Q own D -> (forall p, In p ps -> okp own D p) -> nb (st en) ps = (rs, s) ->
  let en2 := set_st en s in
  exists own2 D2, RState o k x S own2 D2 en2 /\ rext own D en own2 D2 en2 /\
    (forall b d j, own2 b = OQue d j <-> own b = OQue d j) /\
    Forall2 (fun p r => vedge (vnode own2) r /\ forall rho, dv D2 r rho = val D p rho) ps rs.
Proof.
  intros Hq Hh B (fw & L & I & R & RO & HS & Hx & Hd) HQ Hp E en2.
  destruct (nest_red_in o k own D S en fw L x I R RO) as [I0 R0].
  destruct (B (hid own) D (st en) _ _ ps rs s I0 R0 (Hq _ _ HQ) (fun p Ip => Hh _ _ _ (Hp p Ip)) E) as (own' & D' & I4 & (L4 & R4) & X4 & F4).
  destruct (nest_red_out o k own D S en fw L x I R RO own' D' (start s) L4 I4 R4 X4) as
    (own2 & D2 & rs2 & L2 & I2 & R2 & RO2 & X2 & V2 & Q2 & O2).
  exists own2, D2. split.
  { exists rs2, L2. split; auto. split; auto. split; auto. split; [|split].
    - intros b d j Ob. apply Q2 in Ob. eauto.
    - intros b d j Ob. apply Q2 in Ob. eauto.
    - intros b d j Ob. apply O2 in Ob. eauto. }
  split; auto. split; auto.
  eapply Forall2_impl_in; [|exact F4]. cbn beta. intros p r _ [Vr Er]. destruct (V2 r Vr) as [V3 E3]. split; auto.
  intros rho. now rewrite E3.
Qed.

(** ** A batch of disjunctions *)

Lemma enot_enot e : enot (enot e) = e.
Proof. destruct e as [i p b]. unfold enot; simpl. now rewrite negb_involutive. Qed.
Lemma tcase_or R t e : vedge R t -> vedge R e -> tcase op_or t e = tcase op_nand (enot t) (enot e).
Proof.
  intros Vt Ve. assert (Ct : forall f, vedge R f -> isconst f = true -> eptr f = ONE).
  { intros f [[_ P]|[N _]] C; auto. unfold isconst in C. apply N.eqb_eq in C. congruence. }
  pose proof (Ct t Vt) as Pt. pose proof (Ct e Ve) as Pe. clear Ct Vt Ve.
  destruct t as [ti tp tb], e as [ei ep eb]. cbn in *. unfold isone, isconst, eeq, sameptr, enot, one in *; cbn in *.
  destruct (ti =? 0); [rewrite Pt by auto|destruct (ei =? 0); [rewrite Pe by auto|]].
  - change (ONE =? ONE) with true. destruct tb; cbn; auto. now rewrite negb_involutive.
  - change (ONE =? ONE) with true. destruct eb; cbn; auto. now rewrite negb_involutive.
  - destruct (tp =? ep); auto. destruct tb, eb; auto.
Qed.
Lemma normalize_enot t e : normalize (enot t) (enot e) = (let '(f, g) := normalize t e in (enot f, enot g)).
Proof. unfold normalize. destruct t, e; simpl. now destruct (_ <? _). Qed.
Lemma norreq_eq o en p R : vedge R (fst p) -> vedge R (snd p) -> norreq o en p = opreq o op_nand 0 en (enot (fst p)) (enot (snd p)).
Proof. intros V1 V2. unfold norreq, opreq. rewrite (tcase_or R), normalize_enot by auto. now destruct (normalize (fst p) (snd p)). Qed.

Definition okp2 (own : N -> tag) (D : den) (p : edge * edge) : Prop := vedge (vnode own) (fst p) /\ vedge (vnode own) (snd p).
Definition val2 (D : den) (p : edge * edge) : bfn := fun rho => dv D (fst p) rho || dv D (snd p) rho.
Lemma vnode_hid own e : vedge (vnode own) e -> vedge (vnode (hid own)) e.
Proof. apply vedge_mono. intros i a _ Oa. now apply hid_node. Qed.
Lemma okp2_hd : hd_ok okp2.
Proof. intros own D p [V1 V2]. split; now apply vnode_hid. Qed.

Section NorBatch.
Variable o : order.
Hypothesis Wo : wfo o.
Variable enum : memory -> list N -> list N.
Hypothesis enum_perm : forall m l, Permutation (enum m l) l.

Lemma norBatch_ok : bspec o anyQ okp2 val2 (norBatch enum o (ord o)).
Proof using Wo enum_perm.
  intros own D s L x ps rs s' I0 R0 _ Hp E. unfold norBatch in E.
  destruct (batch_spec (norreq o) o Wo kstd (PendB o op_nand) (PendB_ext o op_nand) below
     (stable (bstep o op_nand) enum)) with (rt := fun d i en => reduce_table enum en d i) (n := 1%nat) (ds := [0%nat]) (rds := [0%nat])
     (lv := 0) (okp := fun own => okp2 own D)
     (val := val2)
     (cds := [0%nat]) (cids := ord o) (c := 0%nat) (ps := ps)
     (own := own) (D := D) (en := start s) (L := L) (x := x)
     as (own' & D' & I4 & (L4 & R4) & X4 & F4).
  - intros d j. apply stable_ok; auto. apply (apply1_ok o Wo op_nand op_nand_ok).
  - intros d j _. apply reduce_table_ok; auto.
  - change [0%nat] with (seq 0 1). apply okds_seq. intros e. simpl. lia.
  - intros d. simpl. lia.
  - intros d. simpl. lia.
  - intros d. simpl. lia.
  - intros own1 D1 en1 own1' D1' en1' p AC X (V1 & V2). split.
    + split; eapply vnode_ext; eauto.
    + intros rho. unfold val2. now rewrite (ext_dv _ _ _ _ _ _ _ _ _ _ X AC (vnode_lvl _ 0 _ V1)), (ext_dv _ _ _ _ _ _ _ _ _ _ X AC (vnode_lvl _ 0 _ V2)).
  - intros own1 D1 en1 L1 x1 p A1 R1 (V1 & V2). pose proof (ai_acc _ _ _ _ _ _ _ _ A1) as AC1.
    assert (Z0 : own1 0 = ONone) by (eapply acc_low; [exact AC1|lia]).
    rewrite (norreq_eq o en1 p _ V1 V2). destruct (opreq o op_nand 0 en1 (enot (fst p)) (enot (snd p))) as [r en'] eqn:Er.
    destruct (opreq_spec o Wo op_nand op_nand_ok 0 own1 D1 [] en1 L1 x1 0%nat 0 (enot (fst p)) (enot (snd p)) r en' A1 R1) as
      (own2 & D2 & A2 & R2 & X2 & Vr & Gr & Er' & _ & Q2); auto; try lia.
    { intros q Eq. congruence. }
    { apply vedge_enot. now apply vnode_lvl. } { apply vedge_enot. now apply vnode_lvl. }
    { intros d' j b Ob _. split; auto. intros ->. congruence. }
    exists own2, D2. cbn [fst snd]. split; auto. split; auto. split; auto. split; [split; [|split]; auto|].
    + intros rho. rewrite Er'. cbn [bsem op_nand]. rewrite !dv_enot. unfold val2. now destruct (dv D1 (fst p) rho), (dv D1 (snd p) rho).
    + intros b d' j Ob. destruct (Q2 _ _ _ Ob) as [?|[-> ?]]; auto.
  - intros d Hd. assert (d = 0%nat) by lia. subst d. now left.
  - auto.
  - lia.
  - exact I0.
  - exact R0.
  - exact Hp.
  - cbv zeta in I4, R4, X4, F4.
    destruct (reqs (norreq o) (start s) ps) as [qs en1]. cbn [fst snd] in *.
    apply pair_equal_spec in E as [<- <-]. change (skipn 0 (ord o)) with (ord o) in *.
    change (sweep (stable (bstep o op_nand) enum) [0%nat]) with (apply_all enum o op_nand [0%nat]) in *.
    change (rall (fun d i en => reduce_table enum en d i) [0%nat]) with (reduce_all enum [0%nat]) in *.
    set (en4 := cleanup_all [0%nat] _ _) in *.
    exists own', D'. split; [|split; [|split; [|exact F4]]]; auto.
    + destruct I4 as [B1 B2 B3 B4 B5 B6]. constructor; auto.
      eapply acc_perm; [exact B1|]. intros t _. destruct t; simpl; auto; [now rewrite B4|now rewrite B5].
    + eauto.
    + destruct X4. constructor; auto.
Qed.
End NorBatch.

(** ** The reduction at a quantified variable *)

Section QReduce.
Variable o : order.
Hypothesis Wo : wfo o.
Variable enum : memory -> list N -> list N.
Hypothesis enum_perm : forall m l, Permutation (enum m l) l.
Variable k : kind.
Variables (d : nat) (i : N).
Hypothesis Ii : In i (ord o).
Hypothesis Ku : kun k d i = true.
Hypothesis Kc : forall rho t e, kcb k d i rho t e = t rho || e rho.
Notation RState := (RState o k).

Lemma qRInv_set own D en l l' : RInv o k own D (set_que en d i l) -> Permutation l' l -> RInv o k own D (set_que en d i l').
Proof using.
  intros [A W DK Q DN NI] P. constructor; auto.
  unfold EAcc. eapply acc_perm; [exact A|]. intros t _. destruct t; simpl; auto.
  unfold upd2. destruct (Nat.eqb d0 d && (i0 =? i)%N); auto.
Qed.
Lemma qRState_set x S own D en l l' : RState x S own D (set_que en d i l) -> Permutation l' l -> RState x S own D (set_que en d i l').
Proof using. intros (rs & L & I & R) P. exists rs, L. split; [eapply qRInv_set; eauto|exact R]. Qed.

Section One.
Variables (x : N -> N) (S : list N) (own : N -> tag) (D : den) (en : eng) (a : N) (l : list N).
Hypothesis RS : RState x S own D (set_que en d i (a :: l)).
Hypothesis Low : forall d' j b, own b = OQue d' j -> idx o j <= idx o i.
Notation m := (mem (st en)).

(** The value of a waiting request. *)
Lemma qvalue : let t := fwd m (ct (m a)) in vedge (vnode own) t /\ (kix k = true -> gt_idx o i t) /\
  exists v, kel k own D m i (ce (m a)) v /\ forall rho, D a rho = dv D t rho || v rho.
Proof using RS Low Ku Kc.
  destruct RS as (rs & L & I & R & RO & HS & Hx & Hd).
  pose proof (Oa _ _ _ _ _ _ _ _ _ I) as O_a.
  destruct (ri_que _ _ _ _ _ I _ _ _ O_a) as [_ Ap]. unfold RApplied in Ap. rewrite Ku in Ap.
  destruct Ap as [B1 B2 (v & B3 & B4)].
  change (st (set_que en d i (a :: l))) with (st en) in *.
  destruct (fwd_spec o k own D _ rs i _ I RO B1 B2 Low) as (Vt & Gt & Dt & _).
  change (st (set_que en d i (a :: l))) with (st en) in *.
  cbv zeta. split; [exact Vt|]. split; [exact Gt|]. exists v. split; auto. intros rho. now rewrite B4, Kc, Dt.
Qed.

(** Forwarded to a node, whose count takes that of the request. *)
Lemma qforward r (inc : bool) : vedge (vnode own) r -> (kix k = true -> idx o i <= idx o (eid r)) -> (forall rho, dv D r rho = D a rho) ->
  (inc = false -> eptr r = ONE) ->
  let s1 := if inc then addref (st en) r (Z.of_N (cr (m a))) else st en in
  let en' := set_que (add_don (set_st en (put s1 a (C r efwd (cr (mem s1 a))))) d i a) d i l in
  exists own' D', RState x S own' D' en' /\ rext own D (set_que en d i (a :: l)) own' D' en'.
Proof using Wo RS Low Ku.
  intros Vr Ir Dr Hone s1 en'. destruct RS as (rs & L & I & R & RO & HS & Hx & Hd).
  pose proof (Oa _ _ _ _ _ _ _ _ _ I) as O_a. pose proof (ri_acc _ _ _ _ _ I) as A. pose proof (ri_swf _ _ _ _ _ I) as W.
  change (st (set_que en d i (a :: l))) with (st en) in *.
  assert (R3 : 2 < a) by (apply (acc_rng _ _ _ A); congruence).
  assert (NaL : ~ In a L).
  { rewrite (rc_L _ _ _ _ _ _ R), O_a. intros [(? & ?)|(d' & j & E & _ & H)]; [discriminate|]. injection E as <- <-. congruence. }
  assert (VnX : forall b, own b = OX -> b <> eptr r).
  { intros b E Eb. destruct Vr as [[_ P]|[_ P]].
    - rewrite P in Eb. subst b. rewrite (acc_one_none _ _ A) in E. discriminate.
    - unfold vnode in P. congruence. }
  set (n := cr (m a)) in *.
  assert (Cn : n <= MAXREF) by (apply (rc_max _ _ _ _ _ _ R); right; eauto).
  assert (Cn' : n = MAXREF \/ n = occ rs m L a).
  { destruct (rc_cnt _ _ _ _ _ _ R a) as [E|E]; [right; eauto|left; auto|].
    right. unfold n. rewrite E, (Hx _ _ _ O_a). lia. }
  pose proof (swf_onerc _ _ W) as M1.
  assert (Sm : forall b, sameTE m (mem s1) b). { intros b. unfold s1. destruct inc; [apply sameTE_addref|split; auto]. }
  assert (Cr : forall b, cr (mem s1 b) = if inc && (b =? eptr r) then rc_add (cr (m b)) (Z.of_N n) else cr (m b)).
  { intros b. unfold s1. destruct inc; [|reflexivity]. now rewrite cr_addref. }
  assert (Pu : forall b, b <> a -> mem (put s1 a (C r efwd (cr (mem s1 a)))) b = mem s1 b)
      by (intros b Nb; simpl; now rewrite upd_other).
  assert (P : Post o k own D en S x d i a l en').
  { apply (forward_less o Wo k own D en rs S L x d i a l I R RO HS Hx Low _ r (cr (mem s1 a)) L); auto.
    - split; [apply (rc_nd _ _ _ _ _ _ R)|]. intros c. split; [|tauto]. intros Ic. split; auto. congruence.
    - intros j. unfold s1. destruct inc; auto.
    - intros j. unfold s1. destruct inc; auto.
    - unfold s1. destruct inc; auto.
    - simpl. apply upd_same.
    - intros b Nb. unfold sameTE. rewrite Pu by auto. apply Sm.
    - intros b Ob. assert (b <> a) by congruence. rewrite Pu by auto. apply mem_cell_eq; auto. rewrite Cr.
      pose proof (VnX _ Ob). destruct (N.eqb_spec b (eptr r)); [congruence|]. now rewrite andb_false_r.
    - intros _. rewrite Pu by (unfold ONE; lia). rewrite Cr, M1. destruct (inc && _); reflexivity.
    - intros b Cb Nb. rewrite Pu by auto. rewrite Cr. pose proof (rc_max _ _ _ _ _ _ R b Cb) as Mb.
      destruct (N.eqb_spec b (eptr r)) as [Eb|Eb].
      + destruct inc.
        * cbn [andb]. rewrite rc_add_spec by (unfold MAXREF in *; lia). rewrite <- Eb, N.eqb_refl.
          destruct (N.eqb_spec (cr (m b)) MAXREF) as [E|E].
          -- split; [lia|]. split; auto.
          -- split; [unfold MAXREF in *; lia|]. split; [tauto|]. intros E2. destruct Cn' as [C'|C']; [left; unfold MAXREF in *; lia|].
             simpl b2n. unfold MAXREF in *. destruct (Z.min_spec 255 (Z.of_N (cr (m b)) + Z.of_N n)) as [[? ->]|[? ->]]; [left|right]; lia.
        * exfalso. rewrite Hone in Eb by auto. destruct Cb as [[j Cb]|(d' & j & Cb)]; rewrite Eb, (acc_one_none _ _ A) in Cb; discriminate.
      + rewrite andb_false_r. split; auto. split; auto. intros ->. right. destruct (N.eqb_spec (eptr r) b); [congruence|]. simpl. lia. }
  destruct P as (own1 & D1 & rs1 & L1 & I1 & R1 & RO1 & X1 & _).
  exists own1, D1. split; auto. exists rs1, L1. split; auto. split; auto. split; auto. split; [|split].
  - intros b d' j Ob. apply (rx_que _ _ _ _ _ _ X1) in Ob as [Ob _]. eauto.
  - intros b d' j Ob. apply (rx_que _ _ _ _ _ _ X1) in Ob as [Ob _]. eauto.
  - intros b d' j Ob. apply (rx_donq _ _ _ _ _ _ X1) in Ob as [Ob|Ob]; eauto.
Qed.
End One.

Section Table.
Variables (x : N -> N) (S : list N).

Lemma qfold : forall l pd own D en,
  RState x S own D (set_que en d i (l ++ pd)) -> (forall d' j b, own b = OQue d' j -> idx o j <= idx o i) ->
  exists own' D' en' pd', fold_left (qstep d i) l (set_que en d i [], pd) = (set_que en' d i [], pd') /\
    RState x S own' D' (set_que en' d i pd') /\ rext own D (set_que en d i (l ++ pd)) own' D' (set_que en' d i pd').
Proof using Wo Ku Kc.
  induction l as [|a l IH]; intros pd own D en RS Low.
  - exists own, D, en, pd. split; auto. split; auto. apply rext_refl.
  - cbn [fold_left]. unfold qstep at 2. cbn [fst snd]. change (st (set_que en d i [])) with (st en). cbv zeta.
    destruct (isone (fwd (mem (st en)) (ct (mem (st en) a)))) eqn:E1.
    + destruct (qvalue x S own D en a (l ++ pd) RS Low) as (Vt & Gt & v & _ & Ev). cbv zeta in Vt, Gt, Ev.
      set (t := fwd (mem (st en)) (ct (mem (st en) a))) in *.
      assert (Pt : eptr t = ONE /\ eneg t = false).
      { unfold isone, eeq in E1. apply andb_true_iff in E1 as [E1 E2]. apply N.eqb_eq in E1. apply eqb_prop in E2. auto. }
      destruct (qforward x S own D en a (l ++ pd) RS Low t false Vt) as (own1 & D1 & RS1 & X1).
      { intros Kx. specialize (Gt Kx). unfold gt_idx in Gt. lia. }
      { intros rho. rewrite Ev. assert (dv D t rho = true) as ->; [|reflexivity].
        destruct RS as (rs & L & I & _). pose proof (dv_one D (st en) rho (ri_dok _ _ _ _ _ I)) as H1. revert H1. unfold dv. destruct Pt as [-> ->]. auto. }
      { intros _. apply Pt. }
      cbv iota in RS1, X1. set (en1 := add_don (set_st en (put (st en) a (C t efwd (cr (mem (st en) a))))) d i a) in *.
      destruct (IH pd own1 D1 en1 RS1) as (own2 & D2 & en2 & pd2 & E2 & RS2 & X2).
      { intros d' j b Ob. apply (rx_que _ _ _ _ _ _ X1) in Ob as [Ob _]. eauto. }
      exists own2, D2, en2, pd2. split; [exact E2|]. split; auto. eapply rext_trans; eauto.
    + destruct (IH (pd ++ [a]) own D en) as (own2 & D2 & en2 & pd2 & E2 & RS2 & X2); auto.
      { eapply qRState_set; [exact RS|]. rewrite app_assoc. rewrite Permutation_app_comm. reflexivity. }
      exists own2, D2, en2, pd2. split; auto. split; auto. eapply rext_trans; [apply rext_set|exact X2].
Qed.

Lemma qffold : forall qs own D en,
  RState x S own D (set_que en d i (map fst qs)) -> (forall d' j b, own b = OQue d' j -> idx o j <= idx o i) ->
  (forall q, In q qs -> vedge (vnode own) (snd q) /\ (kix k = true -> idx o i <= idx o (eid (snd q))) /\ forall rho, dv D (snd q) rho = D (fst q) rho) ->
  exists own' D' en', fold_left (qfinish d i) qs (set_que en d i []) = set_que en' d i [] /\
    RState x S own' D' (set_que en' d i []) /\ rext own D (set_que en d i (map fst qs)) own' D' (set_que en' d i []).
Proof using Wo Ku.
  induction qs as [|[a r] qs IH]; intros own D en RS Low HQ.
  - exists own, D, en. split; auto. split; auto. apply rext_refl.
  - cbn [fold_left map fst] in *.
    destruct (HQ (a, r) (or_introl eq_refl)) as (Vr & Ir & Er). cbn [fst snd] in Vr, Ir, Er.
    destruct (qforward x S own D en a (map fst qs) RS Low r true Vr Ir Er) as (own1 & D1 & RS1 & X1); [discriminate|]. cbv zeta iota in RS1, X1.
    change (qfinish d i (set_que en d i []) (a, r)) with (set_que (qfinish d i en (a, r)) d i []).
    destruct (IH own1 D1 (qfinish d i en (a, r)) RS1) as (own2 & D2 & en2 & E2 & RS2 & X2).
    + intros d' j b Ob. apply (rx_que _ _ _ _ _ _ X1) in Ob as [Ob _]. eauto.
    + intros q Iq. destruct (HQ q (or_intror Iq)) as (Vq & Iq' & Eq). split; [eapply vnode_vedge; eauto|]. split; auto.
      intros rho. rewrite (RL_dv _ _ _ _ _ _ (snd q) rho X1).
      * rewrite Eq. symmetry. apply (rx_D _ _ _ _ _ _ X1). right. exists i. right. left. exists d.
        destruct RS as (rs & L & I & _).
        apply (acc_que _ _ _ _ _ (ri_acc _ _ _ _ _ I)). simpl. rewrite upd2_same. right. now apply in_map.
      * now apply vnode_RL.
    + exists own2, D2, en2. split; auto. split; auto. eapply rext_trans; eauto.
Qed.
End Table.

(** The whole table. *)
Context {P : Type}.
Variable els : memory -> N -> P.
Variable nb : store -> list P -> list edge * store.
Variable okp : (N -> tag) -> den -> P -> Prop.
Variable val : den -> P -> bfn.
Variable Q : (N -> tag) -> den -> Prop.
Hypothesis Q_rext : forall own D en own' D' en', rext own D en own' D' en' -> Q own D -> Q own' D'.
Hypothesis Q_hd : hdQ Q.
Hypothesis okp_hd : hd_ok okp.
Hypothesis nb_ok : bspec o Q okp val nb.
Hypothesis okp_el : forall own D m a v, Q own D -> kel k own D m i (ce (m a)) v -> okp own D (els m a) /\ forall r, v r = val D (els m a) r.
Hypothesis okp_ind : forall own D en p, RInv o k own D en -> okp own D p -> forall j, In j (ord o) -> idx o j <= idx o i -> indep (val D p) j.

Lemma qreduce_ok : kix k = true -> rtable_okQ o k Q (qreduce enum o els nb d i) d i.
Proof using Wo enum_perm Ku Kc Ii Q_rext Q_hd okp_hd nb_ok okp_el okp_ind.
  intros Kx x S own D en RS HQ Low. unfold qreduce. set (l := enum (mem (st en)) (que en d i)).
  assert (RS1 : RState x S own D (set_que en d i (l ++ []))).
  { rewrite app_nil_r. destruct RS as (rs & L & I & R). exists rs, L. split; [|auto].
    apply RInv_perm; auto. apply enum_perm. }
  destruct (qfold x S l [] own D en RS1 Low) as (own1 & D1 & en1 & pd & -> & RS2 & X1).
  assert (X0 : rext own D en own1 D1 (set_que en1 d i pd)).
  { eapply rext_trans; [|exact X1]. constructor; auto; intros; split; auto; split; auto. }
  assert (Low1 : forall d' j b, own1 b = OQue d' j -> idx o j <= idx o i).
  { intros d' j b Ob. apply (rx_que _ _ _ _ _ _ X1) in Ob as [Ob _]. eauto. }
  change (st (set_que en1 d i [])) with (st en1). cbv zeta. set (m := mem (st en1)).
  destruct (nb (st en1) (map (els m) pd)) as [es s1] eqn:Eb.
  pose proof (Q_rext _ _ _ _ _ _ X0 HQ) as HQ1.
  assert (Oq : forall a, In a pd -> own1 a = OQue d i).
  { intros a Ia. destruct RS2 as (fw & L & I & _). apply (acc_que _ _ _ _ _ (ri_acc _ _ _ _ _ I)). simpl. now rewrite upd2_same. }
  assert (Hq : forall a, In a pd -> let t := fwd m (ct (m a)) in okp own1 D1 (els m a) /\ vedge (vnode own1) t /\ gt_idx o i t /\
            forall rho, D1 a rho = dv D1 t rho || val D1 (els m a) rho).
  { intros a Ia. pose proof Ia as Ia'. apply in_split in Ia' as (l1 & l2 & E).
    assert (RS3 : RState x S own1 D1 (set_que en1 d i (a :: l1 ++ l2))).
    { eapply qRState_set; [exact RS2|]. rewrite E. apply Permutation_middle. }
    destruct (qvalue x S own1 D1 en1 a (l1 ++ l2) RS3 Low1) as (Vt & Gt & v & Kv & Ev). cbv zeta in *. fold m in Vt, Gt, Kv, Ev.
    destruct (okp_el own1 D1 m a v HQ1 Kv) as [Ok Eq]. split; auto. split; auto. split; auto. intros rho. now rewrite Ev, Eq. }
  destruct (nested_state o k Q okp val nb x S own1 D1 (set_que en1 d i pd) (map (els m) pd) es s1 Q_hd okp_hd nb_ok RS2 HQ1)
    as (own2 & D2 & RS3 & X2 & Q2 & F2).
  { intros p Ip. apply in_map_iff in Ip as (a & <- & Ia). now apply Hq. }
  { exact Eb. }
  destruct (Forall2_combine (els m) _ pd es F2) as [Len Hc].
  change (set_st (set_que en1 d i pd) s1) with (set_que (set_st en1 s1) d i pd) in *.
  set (qs := rev (List.combine pd es)). set (f := fun q : N * edge => (fwd m (ct (m (fst q))), snd q)).
  assert (Hqs : forall q, In q qs -> In (fst q) pd /\ vedge (vnode own2) (snd q) /\ forall rho, dv D2 (snd q) rho = val D1 (els m (fst q)) rho).
  { intros q Iq. apply in_rev in Iq. now apply Hc. }
  assert (T2 : forall a, In a pd -> vedge (vnode own2) (fwd m (ct (m a))) /\ forall rho, dv D2 (fwd m (ct (m a))) rho = dv D1 (fwd m (ct (m a))) rho).
  { intros a Ia. destruct (Hq a Ia) as (_ & Vt & _). split; [eapply vnode_vedge; eauto|]. intros rho. eapply RL_dv; [exact X2|]. now apply vnode_RL. }
  assert (Fst : map fst qs = rev pd). { unfold qs. now rewrite map_rev, combine_fst. }
  assert (RS3' : RState x S own2 D2 (set_que (set_st en1 s1) d i (map fst qs))).
  { eapply qRState_set; [exact RS3|]. rewrite Fst. symmetry. apply Permutation_rev. }
  destruct (norBatch enum o (ord o) s1 (map f qs)) as [rs s2] eqn:En.
  destruct (nested_state o k anyQ okp2 val2 (norBatch enum o (ord o)) x S own2 D2 (set_que (set_st en1 s1) d i (map fst qs)) (map f qs) rs s2
    (fun _ _ q => q) okp2_hd (norBatch_ok o Wo enum enum_perm) RS3' Logic.I) as (own3 & D3 & RS4 & X3 & Q3 & F3).
  { intros p Ip. apply in_map_iff in Ip as (q & <- & Iq). destruct (Hqs q Iq) as (Ia & Vq & _). split; [apply T2; auto|exact Vq]. }
  { exact En. }
  change (set_st (set_que (set_st en1 s1) d i (map fst qs)) s2) with (set_que (set_st en1 s2) d i (map fst qs)) in *.
  change (set_st (set_que en1 d i []) s2) with (set_que (set_st en1 s2) d i []).
  destruct (Forall2_combine f _ qs rs F3) as [Len3 Hc3].
  assert (X12 : rext own1 D1 (set_que en1 d i pd) own3 D3 (set_que (set_st en1 s2) d i (map fst qs))).
  { eapply rext_trans; [exact X2|]. eapply rext_trans; [apply (rext_set own2 D2 (set_st en1 s1) d i pd (map fst qs))|exact X3]. }
  assert (EC : List.combine (map fst qs) rs = map (fun z => (fst (fst z), snd z)) (List.combine qs rs)).
  { clear. generalize rs. induction qs as [|q l' IH]; intros [|r rs']; simpl; auto. now rewrite IH. }
  assert (MF : map fst (List.combine (map fst qs) rs) = map fst qs) by (apply combine_fst; now rewrite map_length).
  destruct (qffold x S (List.combine (map fst qs) rs) own3 D3 (set_st en1 s2)) as (own4 & D4 & en4 & E4 & RS5 & X4).
  - rewrite MF. exact RS4.
  - intros d' j b Ob. apply Q3, Q2 in Ob. eauto.
  - intros q Iq. rewrite EC in Iq. apply in_map_iff in Iq as ([q0 r] & <- & Iq). cbn [fst snd].
    destruct (Hc3 _ Iq) as (Iq0 & Vr & Er). cbn [fst snd] in Iq0, Vr, Er. destruct (Hqs q0 Iq0) as (Ia & Vq & Eq).
    destruct (Hq _ Ia) as (Ok & Vt & Gt & Ea). cbv zeta in Ea. destruct (T2 _ Ia) as [_ Et].
    assert (Ef : forall rho, dv D3 r rho = D1 (fst q0) rho).
    { intros rho. rewrite Er, Ea. unfold val2, f. cbn [fst snd]. now rewrite Et, Eq. }
    split; [exact Vr|]. split.
    + intros _. destruct RS4 as (fw4 & L4 & I4 & _). pose proof (ri_acc _ _ _ _ _ I4) as A4.
      assert (gt_idx o i r); [|unfold gt_idx in *; lia].
      apply (indep_gt o D3 (st (set_que (set_st en1 s2) d i (map fst qs)))); auto.
      * exact (ri_swf _ _ _ _ _ I4). * exact (ri_dok _ _ _ _ _ I4).
      * now apply (vnode_nodeR own3).
      * intros j Ij Lj rho b. rewrite !Ef, !Ea. destruct RS2 as (fw & L & I & _).
        rewrite (okp_ind own1 D1 _ _ I Ok j Ij Lj rho b).
        rewrite (gt_indep o D1 _ _ i j Wo (ri_swf _ _ _ _ _ I) (ri_dok _ _ _ _ _ I) (proj1 (vnode_nodeR _ _ _ (ri_acc _ _ _ _ _ I)) Vt) Ij Lj Gt rho b). reflexivity.
    + intros rho. rewrite Ef. symmetry. apply (rx_D _ _ _ _ _ _ X12). right. exists i. right. left. exists d. auto.
  - rewrite E4. rewrite MF in X4. exists own4, D4. split; auto. split.
    + eapply rext_trans; [exact X0|]. eapply rext_trans; [exact X12|exact X4].
    + intros b Ob. destruct RS5 as (fw & L & I & _). apply (acc_que _ _ _ _ _ (ri_acc _ _ _ _ _ I)) in Ob.
      simpl in Ob. rewrite upd2_same in Ob. destruct Ob.
Qed.
End QReduce.
