(** * Correctness of the breadth-first if-then-else. *)
From Coq Require Import Permutation.
From Verif Require Import Base BFModel ITEModel StoreInv Own EngInv ApplyProof BinopProof StepProof ReduceProof EngineProof.

(** Change of an unlisted tag. *)
Lemma acc_retag own K lim a t :
  Acc own K lim -> listed (own a) = false -> own a <> ONone -> listed t = false -> Acc (upd own a t) K lim.
Proof.
  intros [I ND R L] La Na Lt. constructor; auto.
  - intros u b Hu. rewrite I by auto. destruct (N.eq_dec b a) as [->|Nb].
    + rewrite upd_same. split; intros E; rewrite <- E in Hu; congruence.
    + rewrite upd_other by auto. tauto.
  - intros b Hb. destruct (N.eq_dec b a) as [->|Nb]; auto. rewrite upd_other in Hb by auto. auto.
Qed.

(** Cells that are neither counted nor pointed to may change hands. *)
Lemma RC_ind {q0} own own' S rs m m' L x p a :
  2 < p -> freeish (own p) -> own' p = OInd a -> (forall b, b <> p -> own' b = own b) ->
  (forall b, b <> p -> m' b = m b) -> RCq q0 own S rs m L x -> RCq q0 own' S rs m' L x.
Proof.
  intros Lp Fp Op Ob Mb [B1 B2 B3 B4 B5 B6].
  assert (NpL : ~ In p L).
  { rewrite B2. destruct Fp as [Fp|[j Fp]]; rewrite Fp; intros [(? & ?)|(? & ? & ? & ?)]; discriminate. }
  assert (Tm : forall q, tgt own q -> tgt own' q).
  { intros q Tq. unfold tgt, counted. rewrite Ob; [exact Tq|]. intros ->.
    apply tgt_nf in Tq as [E|E]; [unfold NUL in E; lia|tauto]. }
  assert (Cm : forall q, counted own' q -> counted own q /\ q <> p).
  { intros q Cq. assert (q <> p). { intros ->. destruct Cq as [(? & E)|(? & ? & E)]; rewrite Op in E; discriminate. }
    split; auto. unfold counted in *. rewrite Ob in Cq; auto. }
  constructor; auto.
  - intros b. rewrite B2. destruct (N.eq_dec b p) as [->|Nb].
    + rewrite Op. split.
      * destruct Fp as [Fp|[j Fp]]; rewrite Fp; intros [(? & ?)|(? & ? & ? & ?)]; discriminate.
      * intros [(? & ?)|(? & ? & ? & ?)]; discriminate.
    + rewrite Ob by auto. tauto.
  - intros b Ib. rewrite Mb by congruence. destruct (B3 b Ib). auto.
  - intros b Cb. destruct (Cm b Cb) as [C1 Nb]. rewrite Mb by auto. rewrite (occ_frame rs m m'); auto.
    intros c Ic. unfold sameTE. rewrite Mb by congruence. auto.
  - intros b Cb. destruct (Cm b Cb) as [C1 Nb]. rewrite Mb by auto. auto.
  - intros b Lb Fb. apply B6; auto. rewrite Ob in Fb; auto. intros ->. rewrite Op in Fb. destruct (nf_ind _ Fb).
Qed.

Lemma RC_unind {q0} own own' S rs m L x p a i :
  own p = OInd a -> x p = 0 -> own' p = OFree i -> (forall b, b <> p -> own' b = own b) ->
  RCq q0 own S rs m L x -> RCq q0 own' S rs m L x.
Proof.
  intros Op Xp Op' Ob [B1 B2 B3 B4 B5 B6].
  assert (Tm : forall q, tgt own q -> tgt own' q).
  { intros q Tq. destruct (N.eq_dec q p) as [->|Nq].
    - destruct Tq as [E|[[(? & E)|(? & ? & E)]|(? & ? & E)]]; try (rewrite Op in E; discriminate). left; exact E.
    - unfold tgt, counted. rewrite Ob; auto. }
  assert (Cm : forall q, counted own' q -> counted own q).
  { intros q Cq. assert (q <> p). { intros ->. destruct Cq as [(? & E)|(? & ? & E)]; rewrite Op' in E; discriminate. }
    unfold counted in *. rewrite Ob in Cq; auto. }
  constructor; auto.
  - intros b. rewrite B2. destruct (N.eq_dec b p) as [->|Nb].
    + rewrite Op, Op'. split; intros [(? & ?)|(? & ? & ? & ?)]; discriminate.
    + rewrite Ob by auto. tauto.
  - intros b Ib. destruct (B3 b Ib). auto.
  - intros b Lb Fb. destruct (N.eq_dec b p) as [->|Nb]; auto. apply B6; auto. rewrite Ob in Fb; auto.
Qed.

Section ITE.
Variable o : order.
Hypothesis Wo : wfo o.

(** A pending request: the operands are nodes, the operation is not pipelined. *)
Record PendI (own : N -> tag) (D : den) (en : eng) (i a : N) : Prop := {
  pi_p : own (eptr (ce (mem (st en) a))) = OInd a;
  pi_u : forall p, own p = OInd a -> p = eptr (ce (mem (st en) a));
  pi_F : vedge (lvl own 0) (ct (mem (st en) a));
  pi_G : vedge (lvl own 0) (ct (mem (st en) (eptr (ce (mem (st en) a)))));
  pi_H : vedge (lvl own 0) (ce (mem (st en) (eptr (ce (mem (st en) a)))));
  pi_Fn : eid (ct (mem (st en) a)) <> 0;
  pi_i : i = minid3 o (ct (mem (st en) a)) (ct (mem (st en) (eptr (ce (mem (st en) a)))))
               (ce (mem (st en) (eptr (ce (mem (st en) a)))));
  pi_D : forall rho, D a rho = if dv D (ct (mem (st en) a)) rho
             then dv D (ct (mem (st en) (eptr (ce (mem (st en) a))))) rho
             else dv D (ce (mem (st en) (eptr (ce (mem (st en) a))))) rho
}.

Lemma PendI_ext : forall H own D en own' D' en' d i a,
  EAcc own en -> EAcc own' en' -> SWF o (st en) ->
  ext H own D en own' D' en' -> own a = OQue d i -> ~ H a ->
  (forall p, own p = OInd a -> ~ H p) -> PendI own D en i a -> PendI own' D' en' i a.
Proof.
  intros H own D en own' D' en' d i a A A' W X Oa Ha Hp [B1 B2 B3 B4 B5 B6 B7 B8].
  destruct (x_mem _ _ _ _ _ _ _ X a) as [Et Ee]; [right; rewrite Oa; auto|auto|].
  set (p := eptr (ce (mem (st en) a))) in *.
  destruct (x_mem _ _ _ _ _ _ _ X p) as [Gt Ge]; [right; rewrite B1; auto|auto|].
  assert (Op : own' p = OInd a).
  { rewrite (x_own _ _ _ _ _ _ _ X); auto; rewrite B1; auto. }
  assert (Ep : eptr (ce (mem (st en') a)) = p) by (rewrite Ee; reflexivity).
  constructor; rewrite ?Ep, ?Et, ?Gt, ?Ge; auto; try (eapply ext_vedge; eauto).
  { intros q Oq. apply B2. eapply (x_ind _ _ _ _ _ _ _ X); eauto. }
  intros rho. rewrite (x_D _ _ _ _ _ _ _ X) by (rewrite ?Oa; try discriminate; right; rewrite Oa; auto).
  rewrite B8, !(ext_dv _ _ _ _ _ _ _ _ _ _ X A) by eauto. auto.
Qed.

Lemma minid3_idx f g h : minindex3 o f g h = idx o (minid3 o f g h).
Proof. unfold minindex3, minid3, eidx. repeat destruct (_ <=? _); auto. Qed.

Lemma minid3_cases f g h :
  (minid3 o f g h = eid f \/ minid3 o f g h = eid g \/ minid3 o f g h = eid h) /\
  idx o (minid3 o f g h) <= eidx o f /\ idx o (minid3 o f g h) <= eidx o g /\ idx o (minid3 o f g h) <= eidx o h.
Proof.
  unfold minid3, eidx. destruct (N.leb_spec (idx o (eid f)) (idx o (eid g))).
  - destruct (N.leb_spec (idx o (eid f)) (idx o (eid h))); repeat split; auto; lia.
  - destruct (N.leb_spec (idx o (eid g)) (idx o (eid h))); repeat split; auto; lia.
Qed.

Lemma tfind3_some m l f g h a : tfind3 m l f g h = Some a ->
  In a l /\ eeq f (ct (m a)) = true /\ eeq g (ct (m (eptr (ce (m a))))) = true /\ eeq h (ce (m (eptr (ce (m a))))) = true.
Proof. intros H. apply find_some in H. rewrite !andb_true_iff in H. tauto. Qed.

(** The operand manipulations of [CalOpITE] keep validity, levels and meaning. *)
Definition ite3 (a b c : bool) : bool := if a then b else c.

Lemma ite_subst_spec (P : edge -> Prop) (v : N -> bool) f g h g1 h1 :
  v ONE = true -> P g -> P h -> P one -> P zero -> ite_subst f g h = (g1, h1) ->
  P g1 /\ P h1 /\
  ite3 (xorb (eneg f) (v (eptr f))) (xorb (eneg g1) (v (eptr g1))) (xorb (eneg h1) (v (eptr h1))) =
  ite3 (xorb (eneg f) (v (eptr f))) (xorb (eneg g) (v (eptr g))) (xorb (eneg h) (v (eptr h))).
Proof.
  intros V Pg Ph P1 P0. unfold ite_subst. intros [= <- <-].
  unfold sameptr. destruct (N.eqb_spec (eptr f) (eptr g)) as [Eg|Eg], (N.eqb_spec (eptr f) (eptr h)) as [Eh|Eh];
  destruct (eneg f) eqn:Nf, (eneg g) eqn:Ng, (eneg h) eqn:Nh; simpl; (split; [auto|]); (split; [auto|]);
  rewrite ?V, ?Ng, ?Nh, <- ?Eg, <- ?Eh; unfold ite3; destruct (v (eptr f)); simpl; auto.
Qed.

Lemma ite_phase_spec (P : edge -> Prop) (v : N -> bool) f g h f2 g2 h2 c :
  (forall e, P e -> P (enot e)) -> P f -> P g -> P h -> ite_phase f g h = (f2, g2, h2, c) ->
  P f2 /\ P g2 /\ P h2 /\ eneg f2 = false /\ eneg g2 = false /\
  xorb c (ite3 (xorb (eneg f2) (v (eptr f2))) (xorb (eneg g2) (v (eptr g2))) (xorb (eneg h2) (v (eptr h2)))) =
  ite3 (xorb (eneg f) (v (eptr f))) (xorb (eneg g) (v (eptr g))) (xorb (eneg h) (v (eptr h))).
Proof.
  intros N Pf Pg Ph. unfold ite_phase.
  destruct (eneg f) eqn:Nf, (eneg g) eqn:Ng, (eneg h) eqn:Nh; simpl; intros [= <- <- <- <-];
  (split; [auto|]); (split; [auto|]); (split; [auto|]); simpl; rewrite ?Nf, ?Ng, ?Nh; simpl; (split; [auto|]); (split; [auto|]);
  unfold ite3; destruct (v (eptr f)), (v (eptr g)), (v (eptr h)); reflexivity.
Qed.

(** The engine the requests live in: they are those of queue [dI]. *)
Variable k : kind.
Local Notation RC := (RCq (kun k)).
Variable Pend : (N -> tag) -> den -> eng -> nat -> N -> N -> Prop.
Hypothesis Pend_ext : forall H own D en own' D' en' d i a,
  EAcc own en -> EAcc own' en' -> SWF o (st en) ->
  ext H own D en own' D' en' -> own a = OQue d i -> ~ H a ->
  (forall p, own p = OInd a -> ~ H p) -> Pend own D en d i a -> Pend own' D' en' d i a.
Variable d : nat.
Hypothesis Pend_I : forall own D en i a, Pend own D en d i a <-> PendI own D en i a.
Notation AInv := (AInv o k Pend).

Lemma request3_spec h0 own D S en L x i F G H r en' :
  AInv h0 own D S en -> RC own S idn (mem (st en)) L x -> (forall q, own h0 <> OInd q) ->
  vedge (lvl own 0) F -> vedge (lvl own 0) G -> vedge (lvl own 0) H -> eid F <> 0 -> i = minid3 o F G H ->
  (forall b, own b = OQue d i -> ~ In b S /\ b <> h0) ->
  request3 en d i F G H = (r, en') ->
  exists own' D',
    AInv h0 own' D' S en' /\ RC own' S idn (mem (st en')) L x /\
    ext (fun _ => False) own D en own' D' en' /\
    eid r = i /\ eneg r = false /\ own' (eptr r) = OQue d i /\
    (forall rho, D' (eptr r) rho = if dv D F rho then dv D G rho else dv D H rho) /\
    (forall d' j, d' <> d \/ j <> i -> que en' d' j = que en d' j) /\
    (forall b d' j, own' b = OQue d' j -> own b = OQue d' j \/ (d' = d /\ j = i)).
Proof.
  intros A R Hh VF VG VH NF Ei HS Rq. pose proof (ai_acc _ _ _ _ _ _ _ _ A) as AC.
  unfold request3 in Rq.
  destruct (tfind3 (mem (st en)) (que en d i) F G H) as [a|] eqn:T.
  - injection Rq as <- <-. apply tfind3_some in T as (Ia & Ef & Eg & Eh).
    apply (acc_que _ _ _ _ _ AC) in Ia.
    exists own, D. split; auto. split; [exact R|]. split; [apply ext_refl|]. simpl. split; auto. split; auto. split; auto.
    split; [|split; auto].
    intros rho. destruct (HS a Ia) as [Na Nh]. destruct (ai_que _ _ _ _ _ _ _ _ A _ _ _ Ia) as [_ Hst].
    destruct (Hst Nh) as [[? _]|[_ Pe]]; [tauto|]. apply Pend_I in Pe.
    rewrite (pi_D _ _ _ _ _ Pe). now rewrite (dv_eeq D F _ _ Ef), (dv_eeq D G _ _ Eg), (dv_eeq D H _ _ Eh).
  - destruct (alloc (st en) i) as [a s1] eqn:Al. destruct (alloc s1 i) as [p s2] eqn:Al2. injection Rq as <- <-.
    destruct (alloc_spec _ _ _ _ _ _ _ AC Al) as (Fa & Ra & Rx & A1 & Em & Eu & En).
    destruct (alloc_spec _ _ _ _ _ _ _ A1 Al2) as (Fp & Rp & Rx2 & A2 & Em2 & Eu2 & En2).
    assert (Npa : p <> a).
    { intros ->. rewrite upd_same in Fp. destruct (nf_ox Fp). }
    rewrite upd_other in Fp by auto.
    set (v := fun rho => if dv D F rho then dv D G rho else dv D H rho).
    set (en' := set_que (set_st en (put (put s2 p (C G H 0)) a (C F (E 0 p false) 0))) d i (a :: que en d i)) in *.
    set (own' := upd (upd (upd (upd own a OX) p OX) a (OQue d i)) p (OInd a)).
    assert (Oa : own' a = OQue d i) by (unfold own'; rewrite upd_other, upd_same; auto).
    assert (Op : own' p = OInd a) by (unfold own'; apply upd_same).
    assert (Ob : forall b, b <> a -> b <> p -> own' b = own b) by (intros; unfold own'; rewrite !upd_other; auto).
    assert (Ma : mem (st en') a = C F (E 0 p false) 0) by (unfold en'; simpl; apply upd_same).
    assert (Mp : mem (st en') p = C G H 0) by (unfold en'; simpl; rewrite upd_other, upd_same; auto).
    assert (Mb : forall b, b <> a -> b <> p -> mem (st en') b = mem (st en) b).
    { intros b Nb Np. unfold en'; simpl. rewrite !upd_other, Em2, upd_other, Em, upd_other by auto. auto. }
    assert (NFr : forall b, ~ freeish (own b) -> b <> a /\ b <> p) by (intros; split; congruence).
    assert (Lw : forall b, b <= 2 -> b <> a /\ b <> p) by (intros; split; lia).
    assert (Kb : forall b, kept own b -> b <> a /\ b <> p) by (intros b [?|?]; auto).
    assert (AC' : EAcc own' en').
    { unfold EAcc, own'. apply acc_retag; [|rewrite upd_other, upd_same by auto; auto..|auto].
      - apply (acc_give _ (kont s2 (que en) (don en))).
        + exact A2.
        + rewrite upd_other, upd_same; auto.
        + reflexivity.
        + unfold en'; simpl. rewrite upd2_same. apply Permutation_refl.
        + intros t Lt Nt. unfold en'; destruct t; simpl; auto. rewrite upd2_other; auto.
          destruct (Nat.eq_dec d0 d); [right|left]; congruence.
      - discriminate. }
    assert (X : ext (fun _ => False) own D en own' (upd D a v) en').
    { constructor; auto.
      + intros b Nf _. apply NFr in Nf as [? ?]. auto.
      + intros b rho Kk _. apply Kb in Kk as [? ?]. now rewrite upd_other.
      + intros b Kk _. apply Kb in Kk as [? ?]. unfold sameTE. now rewrite Mb.
      + intros b Obx. rewrite Mb; auto; intros ->; rewrite Obx in *; [destruct (nf_ox Fa)|destruct (nf_ox Fp)].
      + rewrite Mb by (unfold ONE; lia). auto.
      + unfold en'; simpl. now rewrite Eu2, Eu.
      + intros q c d' j Oc Oq. destruct (N.eq_dec q p) as [->|Nq].
        * assert (c = a) by congruence. subst c. rewrite Oc in Fa. destruct (nf_que _ _ Fa).
        * destruct (N.eq_dec q a) as [->|Nqa]; [congruence|]. rewrite Ob in Oq; auto. }
    assert (Da : forall e rho, vedge (lvl own 0) e -> dv (upd D a v) e rho = dv D e rho).
    { intros e rho Ve. eapply ext_dv; eauto. }
    exists own', (upd D a v). split; [|split; [|split; [exact X|]]].
    + eapply (AInv_ext o k Pend Pend_ext h0 (fun _ => False) own D S en); eauto.
      * intros j. unfold en'; simpl. now rewrite Eu2, Eu.
      * intros; tauto.
      * intros b d' j Obb. destruct (N.eq_dec b a) as [->|Nb].
        -- right. split; auto. rewrite Oa in Obb. injection Obb as <- <-. split.
           ++ destruct (minid3_cases F G H) as [Hc [Hc1 _]].
              assert (IF : In (eid F) (ord o)) by (eapply lvl_ord; eauto).
              pose proof (wfo_lt_const o _ Wo IF) as HcF. unfold eidx in Hc1. rewrite <- Ei in Hc, Hc1.
              assert (i <> 0). { intros ->. rewrite (wfo_const o Wo) in Hc1. lia. }
              destruct Hc as [E|[E|E]]; rewrite E in *; eapply lvl_ord; eauto.
           ++ assert (Ep : eptr (ce (mem (st en') a)) = p) by (rewrite Ma; reflexivity).
              assert (Et : ct (mem (st en') a) = F) by (rewrite Ma; reflexivity).
              assert (Gt : ct (mem (st en') p) = G) by (rewrite Mp; reflexivity).
              assert (Ge : ce (mem (st en') p) = H) by (rewrite Mp; reflexivity).
              apply Pend_I. constructor; rewrite ?Ep, ?Et, ?Gt, ?Ge; auto; try (eapply ext_vedge; eauto).
              { intros q Oq. destruct (N.eq_dec q p); auto. destruct (N.eq_dec q a) as [->|Nqa]; [congruence|].
                rewrite Ob in Oq by auto.
                destruct (ai_ind _ _ _ _ _ _ _ _ A q a Oq) as [_ (d1 & i1 & E)]. rewrite E in Fa. destruct (nf_que _ _ Fa). }
              intros rho. rewrite upd_same, !Da by auto. reflexivity.
        -- left. rewrite <- Obb. symmetry. apply Ob; auto. intros ->. congruence.
      * intros q b Oq. destruct (N.eq_dec q p) as [->|Np].
        -- assert (b = a) by congruence. subst b. right. eauto.
        -- left. destruct (N.eq_dec q a) as [->|Nqa]; [congruence|]. rewrite Ob in Oq; auto.
    + pose (ownA := upd own p (OInd a)).
      assert (RA : RC ownA S idn (upd (mem (st en)) p (C G H 0)) L x).
      { apply (RC_ind own ownA S idn (mem (st en)) (upd (mem (st en)) p (C G H 0)) L x p a); auto.
        - lia.
        - unfold ownA; apply upd_same.
        - intros; unfold ownA; rewrite upd_other; auto.
        - intros; rewrite upd_other; auto. }
      eapply (RC_new ownA own' S (upd (mem (st en)) p (C G H 0)) _ L x a d i F (E 0 p false)); eauto; try lia.
      * unfold ownA. rewrite upd_other; auto.
      * intros b Nb. unfold ownA. destruct (N.eq_dec b p) as [->|Np]; [rewrite upd_same; auto|rewrite upd_other; auto].
      * intros Ia. destruct (ai_S _ _ _ _ _ _ _ _ A a Ia) as (d1 & i1 & E). rewrite E in Fa. destruct (nf_que _ _ Fa).
      * intros b Nb. destruct (N.eq_dec b p) as [->|Np]; [rewrite upd_same; auto|rewrite upd_other; auto].
    + simpl. split; auto. split; auto. split; auto. split; [|split].
      * intros rho. now rewrite upd_same.
      * intros d' j Hd. unfold en'; simpl. now rewrite upd2_other.
      * intros b d' j Obb. destruct (N.eq_dec b a) as [->|Nb].
        -- rewrite Oa in Obb. injection Obb as <- <-. auto.
        -- left. rewrite <- Obb. symmetry. apply Ob; auto. intros ->; congruence.
Qed.

Lemma opite_spec h0 own D S en L x (lv : N) f g h r en' :
  AInv h0 own D S en -> RC own S idn (mem (st en)) L x -> (forall q, own h0 <> OInd q) ->
  vedge (lvl own 0) f -> vedge (lvl own 0) g -> vedge (lvl own 0) h ->
  lv <= eidx o f -> lv <= eidx o g -> lv <= eidx o h ->
  (forall d' j b, own b = OQue d' j -> lv <= idx o j -> ~ In b S /\ b <> h0) ->
  opite o d en f g h = (r, en') ->
  exists own' D',
    AInv h0 own' D' S en' /\ RC own' S idn (mem (st en')) L x /\
    ext (fun _ => False) own D en own' D' en' /\
    vedge (lvl own' (Datatypes.S d)) r /\ lv <= eidx o r /\
    (forall rho, dv D' r rho = if dv D f rho then dv D g rho else dv D h rho) /\
    (forall d' j, idx o j < lv -> que en' d' j = que en d' j) /\
    (forall b d' j, own' b = OQue d' j -> own b = OQue d' j \/ (d' = d /\ lv <= idx o j)).
Proof.
  intros A R Hh Vf Vg Vh Kf Kg Kh HS Rq. pose proof (ai_acc _ _ _ _ _ _ _ _ A) as AC.
  pose proof (ai_dok _ _ _ _ _ _ _ _ A) as DK.
  unfold opite in Rq. destruct (ite_subst f g h) as [g1 h1] eqn:E1.
  destruct (ite_phase f g1 h1) as [[[f2 g2] h2] c] eqn:E2.
  set (P := fun e => vedge (lvl own 0) e /\ lv <= eidx o e).
  assert (Kc : lv <= CONST_INDEX) by (pose proof (lvl_idx_le _ _ _ _ _ _ _ _ _ _ Wo A Vf); unfold eidx in *; lia).
  assert (P1 : P one) by (split; [apply vedge_one|unfold eidx; simpl; rewrite (wfo_const o Wo); auto]).
  assert (P0 : P zero) by (split; [apply vedge_zero|unfold eidx; simpl; rewrite (wfo_const o Wo); auto]).
  assert (Pn : forall e, P e -> P (enot e)) by (intros e [Q1 Q2]; split; [now apply vedge_enot|exact Q2]).
  assert (Pg : P g) by (split; auto). assert (Ph : P h) by (split; auto). assert (Pf : P f) by (split; auto).
  assert (Pc : forall e b, P e -> P (ephase e b)) by (intros e b [Q1 Q2]; split; [now apply vedge_ephase|exact Q2]).
  pose proof (fun rho => ite_subst_spec P (fun a => D a rho) f g h g1 h1 (dok_one _ _ DK rho) Pg Ph P1 P0 E1) as S1.
  destruct (S1 (fun _ => true)) as (Pg1 & Ph1 & _).
  pose proof (fun rho => ite_phase_spec P (fun a => D a rho) f g1 h1 f2 g2 h2 c Pn Pf Pg1 Ph1 E2) as S2.
  destruct (S2 (fun _ => true)) as (Pf2 & Pg2 & Ph2 & Nf2 & Ng2 & _).
  assert (Sem : forall rho, xorb c (if dv D f2 rho then dv D g2 rho else dv D h2 rho) =
                  if dv D f rho then dv D g rho else dv D h rho).
  { intros rho. destruct (S1 rho) as (_ & _ & Q1). destruct (S2 rho) as (_ & _ & _ & _ & _ & Q2).
    unfold ite3 in *. unfold dv. rewrite Q2. exact Q1. }
  clear S1 S2.
  assert (Term : forall e, P e -> (forall rho, xorb c (dv D e rho) = if dv D f rho then dv D g rho else dv D h rho) ->
     (ephase e c, en) = (r, en') ->
     exists own' D', AInv h0 own' D' S en' /\ RC own' S idn (mem (st en')) L x /\
    ext (fun _ => False) own D en own' D' en' /\
    vedge (lvl own' (Datatypes.S d)) r /\ lv <= eidx o r /\
    (forall rho, dv D' r rho = if dv D f rho then dv D g rho else dv D h rho) /\
    (forall d' j, idx o j < lv -> que en' d' j = que en d' j) /\
    (forall b d' j, own' b = OQue d' j -> own b = OQue d' j \/ (d' = d /\ lv <= idx o j))).
  { intros e Pe Se [= <- <-]. exists own, D. split; auto. split; auto. split; [apply ext_refl|].
    destruct (Pc e c Pe) as [Q1 Q2]. split; [eapply vedge_lvl_mono; [|exact Q1]; lia|]. split; auto. split; [|auto].
    intros rho. rewrite dv_ephase. auto. }
  assert (Cst : forall e rho, P e -> eid e = 0 -> dv D e rho = negb (eneg e)).
  { intros e rho [[[I Q]|[I Q]] _] Hi; [|congruence]. unfold dv. rewrite Q, (dok_one _ _ DK). now destruct (eneg e). }
  destruct (isconst f2 || eeq g2 h2) eqn:T1.
  { apply (Term g2); auto. intros rho. rewrite <- Sem. f_equal. apply orb_true_iff in T1 as [T1|T1].
    - unfold isconst in T1. apply N.eqb_eq in T1. rewrite (Cst f2) by auto. now rewrite Nf2.
    - rewrite (dv_eeq D g2 h2 rho T1). now destruct (dv D f2 rho). }
  apply orb_false_iff in T1 as [T1 T1']. unfold isconst in T1. apply N.eqb_neq in T1.
  destruct (isconst g2 && isconst h2) eqn:T2.
  { apply andb_true_iff in T2 as [T2 T3]. unfold isconst in T2, T3. apply N.eqb_eq in T2, T3.
    apply (Term f2); auto. intros rho. rewrite <- Sem. f_equal. rewrite (Cst g2), (Cst h2), Ng2 by auto.
    assert (eneg h2 = true).
    { destruct (eneg h2) eqn:Nh2; auto. exfalso.
      assert (eeq g2 h2 = true); [|congruence]. apply eeq_true.
      destruct Pg2 as [[[_ Q1]|[? _]] _]; [|congruence]. destruct Ph2 as [[[_ Q2]|[? _]] _]; [|congruence].
      rewrite Q1, Q2. split; congruence. }
    rewrite H. now destruct (dv D f2 rho). }
  destruct (request3 en d (minid3 o f2 g2 h2) f2 g2 h2) as [q en1] eqn:Rr. injection Rq as <- <-.
  destruct Pf2 as [Vf2 Kf2]. destruct Pg2 as [Vg2 Kg2]. destruct Ph2 as [Vh2 Kh2].
  assert (Ki : lv <= idx o (minid3 o f2 g2 h2)).
  { destruct (minid3_cases f2 g2 h2) as [[E|[E|E]] _]; rewrite E; auto. }
  destruct (request3_spec h0 own D S en L x _ f2 g2 h2 q en1 A R Hh Vf2 Vg2 Vh2 T1 eq_refl) as
    (own' & D' & A' & R' & X' & Er & En & Or & Dr & Q' & N'); auto.
  { intros b Ob. eapply HS; eauto. }
  exists own', D'. split; auto. split; auto. split; auto. split; [|split; [|split; [|split]]].
  - apply vedge_ephase. right. rewrite Er. split.
    + intros E0. destruct (minid3_cases f2 g2 h2) as [_ [Hm _]]. rewrite E0, (wfo_const o Wo) in Hm.
      pose proof (wfo_lt_const o _ Wo (lvl_ord _ _ _ _ _ _ _ _ _ _ A Vf2 T1)). unfold eidx in Hm. lia.
    + right. exists d. split; auto.
  - unfold eidx. simpl. rewrite Er. auto.
  - intros rho. rewrite dv_ephase. unfold dv at 1. rewrite En, xorb_false_l, Dr. apply Sem.
  - intros d' j Lj. apply Q'. destruct (N.eq_dec j (minid3 o f2 g2 h2)); subst; [lia|auto].
  - intros b d' j Ob. destruct (N' _ _ _ Ob) as [?|[-> ->]]; auto.
Qed.

Lemma good_ite a n lv own D S en L x f g h :
  AInv a own D S en -> RC own S idn (mem (st en)) L x -> (forall q, own a <> OInd q) ->
  vedge (lvl own 0) f -> vedge (lvl own 0) g -> vedge (lvl own 0) h ->
  lv <= eidx o f -> lv <= eidx o g -> lv <= eidx o h -> (d < n)%nat ->
  (forall d' j b, own b = OQue d' j -> lv <= idx o j -> ~ In b S /\ b <> a) ->
  good o k Pend a n lv S own D en L x (Some (fun rho => if dv D f rho then dv D g rho else dv D h rho)) (opite o d en f g h).
Proof.
  intros A R Hh Vf Vg Vh Kf Kg Kh Ld HS. destruct (opite o d en f g h) as [r en'] eqn:E.
  destruct (opite_spec a own D S en L x lv f g h r en' A R Hh Vf Vg Vh Kf Kg Kh HS E) as
    (own' & D' & A' & R' & X & V & Kr & Dv & _ & N').
  exists own', D'. cbn [fst snd]. split; auto. split; auto. split; auto. split; [split; [|auto]|].
  - eapply vedge_lvl_mono; [|exact V]. lia.
  - intros b d' j Ob. destruct (N' _ _ _ Ob) as [?|[-> ?]]; auto.
Qed.

(** Cofactors of a valid operand at level [i]. *)
Lemma cof_pick own D S en i e h0 :
  AInv h0 own D S en -> vedge (lvl own 0) e -> idx o i <= eidx o e -> In i (ord o) ->
  (eidx o e = idx o i /\ eid e = i /\
     vedge (lvl own 0) (thenof (mem (st en)) e) /\ vedge (lvl own 0) (elseof (mem (st en)) e) /\
     gt_idx o i (thenof (mem (st en)) e) /\ gt_idx o i (elseof (mem (st en)) e) /\
     forall rho, dv D e rho = if rho i then dv D (thenof (mem (st en)) e) rho else dv D (elseof (mem (st en)) e) rho)
  \/ (idx o i < eidx o e /\ gt_idx o i e).
Proof.
  intros A V Le Ii. destruct (N.eq_dec (eidx o e) (idx o i)) as [Eq|Nq].
  - left. assert (N0 : eid e <> 0).
    { intros E0. unfold eidx in Eq. rewrite E0, (wfo_const o Wo) in Eq. pose proof (wfo_lt_const o _ Wo Ii). lia. }
    assert (Ei : eid e = i).
    { eapply wfo_inj; eauto. eapply lvl_ord; eauto. }
    split; auto. split; auto. rewrite <- Ei. eapply expand0; eauto.
  - right. unfold gt_idx, eidx in *. split; lia.
Qed.

Hypothesis k_lv : (d < klv k d)%nat.
Hypothesis k_cb : kcb k = kite.
Hypothesis k_un : forall i, kun k d i = false.
Variable Need : nat -> nat -> Prop.

Lemma ite_apply1_ok : step_ok o k Pend Need (ite_apply1 o) d.
Proof.
  intros own D S en L x i a A0 R Oa Na _ HSi HI.
  pose proof (AInv_h o k Pend a _ _ _ _ A0) as A. pose proof (ai_acc _ _ _ _ _ _ _ _ A) as AC.
  assert (R3 : 2 < a) by (apply (acc_rng _ _ _ AC); congruence).
  destruct (ai_que _ _ _ _ _ _ _ _ A0 _ _ _ Oa) as [Ii Hst].
  destruct Hst as [[? _]|[_ Pe]]; [lia|tauto|]. apply Pend_I in Pe.
  destruct Pe as [Pp Pu VF VG VH NF Ei DF].
  set (F := ct (mem (st en) a)) in *. set (p := eptr (ce (mem (st en) a))) in *.
  set (G := ct (mem (st en) p)) in *. set (H := ce (mem (st en) p)) in *.
  assert (Hh : forall q, own a <> OInd q) by (rewrite Oa; discriminate).
  destruct (minid3_cases F G H) as [Hc [M1 [M2 M3]]]. rewrite <- Ei in Hc, M1, M2, M3.
  assert (exists fx fxb gx gxb hx hxb, cofactors3 o (mem (st en)) F G H = ((fx, fxb), (gx, gxb), (hx, hxb)) /\
     vedge (lvl own 0) fx /\ vedge (lvl own 0) fxb /\ vedge (lvl own 0) gx /\ vedge (lvl own 0) gxb /\
     vedge (lvl own 0) hx /\ vedge (lvl own 0) hxb /\
     gt_idx o i fx /\ gt_idx o i fxb /\ gt_idx o i gx /\ gt_idx o i gxb /\ gt_idx o i hx /\ gt_idx o i hxb /\
     (forall rho, dv D F rho = if rho i then dv D fx rho else dv D fxb rho) /\
     (forall rho, dv D G rho = if rho i then dv D gx rho else dv D gxb rho) /\
     (forall rho, dv D H rho = if rho i then dv D hx rho else dv D hxb rho)) as
     (fx & fxb & gx & gxb & hx & hxb & EC & V1 & V2 & V3 & V4 & V5 & V6 & G1 & G2 & G3 & G4 & G5 & G6 & DvF & DvG & DvH).
  { assert (Id : forall e (rho : N -> bool), dv D e rho = if rho i then dv D e rho else dv D e rho).
    { intros e rho. now destruct (rho i). }
    assert (Hm : eidx o F = idx o i \/ eidx o G = idx o i \/ eidx o H = idx o i).
    { unfold eidx. destruct Hc as [E|[E|E]]; rewrite <- E; auto. }
    clearbody F G H. clear Ei Hc DF NF.
    unfold cofactors3.
    destruct (cof_pick own D S en i F a A VF M1 Ii) as [(IF & EF & P1 & P2 & P3 & P4 & P5)|[IF GF]];
    destruct (cof_pick own D S en i G a A VG M2 Ii) as [(IG & EG & Q1 & Q2 & Q3 & Q4 & Q5)|[IG GG]];
    destruct (cof_pick own D S en i H a A VH M3 Ii) as [(IH & EH & S1 & S2 & S3 & S4 & S5)|[IH GH]];
    destruct (N.eqb_spec (eidx o F) (eidx o G)); try lia;
    try (destruct (N.ltb_spec (eidx o F) (eidx o G)); try lia);
    repeat match goal with |- context [eidx o H =? ?b] => destruct (N.eqb_spec (eidx o H) b); try lia end;
    repeat match goal with |- context [eidx o H <? ?b] => destruct (N.ltb_spec (eidx o H) b); try lia end;
    do 6 eexists; (split; [reflexivity|]); repeat match goal with |- _ /\ _ => split end; auto. }
  unfold ite_apply1. fold F p G H. rewrite EC.
  destruct (opite o d en fx gx hx) as [r1 en1] eqn:O1.
  assert (Below : forall ow, (forall d' j b, ow b = OQue d' j -> own b = OQue d' j \/ (d' = d /\ idx o i + 1 <= idx o j)) ->
            (forall b d' j, own b = OQue d' j -> ow b = OQue d' j) ->
            forall d' j b, ow b = OQue d' j -> idx o i + 1 <= idx o j -> ~ In b S /\ b <> a).
  { intros ow H1 H2 d' j b Ob Lj. split.
    - intros Ib. destruct (ai_S _ _ _ _ _ _ _ _ A b Ib) as (d1 & i1 & E).
      pose proof (H2 _ _ _ E). assert (d' = d1 /\ j = i1) as [-> ->] by (split; congruence).
      apply (HSi _ _ _ E); [lia|auto].
    - intros ->. pose proof (H2 _ _ _ Oa). assert (j = i) by congruence. subst j. lia. }
  destruct (opite_spec a own D S en L x (idx o i + 1) fx gx hx r1 en1 A R Hh V1 V3 V5) as
    (own1 & D1 & A1 & R1 & X1 & Vr1 & Kr1 & Dr1 & Q1 & N1); auto;
    try (unfold gt_idx, eidx in *; lia).
  { apply (Below own); auto. }
  assert (Oa1 : own1 a = OQue d i) by (eapply oque_ext; eauto).
  destruct (write_child o k Pend Pend_ext a own1 D1 S en1 L x r1 d i (fun c => set_ct c r1)) as
    (A2 & R2 & X2 & n2 & M2'); auto; [eapply lvl_tgt; eauto|].
  cbv zeta in A2, R2, X2, M2'.
  set (en1' := set_st en1 (put (icr (st en1) r1) a (set_ct (mem (icr (st en1) r1) a) r1))) in *.
  destruct (opite o d en1' fxb gxb hxb) as [r0 en2] eqn:O2.
  pose proof (ai_acc _ _ _ _ _ _ _ _ A1) as AC1. pose proof (ai_acc _ _ _ _ _ _ _ _ A2) as AC2.
  assert (Hh1 : forall q, own1 a <> OInd q) by (rewrite Oa1; discriminate).
  assert (V2' : vedge (lvl own1 0) fxb) by exact (ext_vedge _ _ _ _ _ _ _ _ _ X1 V2).
  assert (V4' : vedge (lvl own1 0) gxb) by exact (ext_vedge _ _ _ _ _ _ _ _ _ X1 V4).
  assert (V6' : vedge (lvl own1 0) hxb) by exact (ext_vedge _ _ _ _ _ _ _ _ _ X1 V6).
  destruct (opite_spec a own1 D1 S en1' L (xadd x (eptr r1)) (idx o i + 1) fxb gxb hxb r0 en2 A2 R2 Hh1 V2' V4' V6') as
    (own2 & D2 & A3 & R3' & X3 & Vr0 & Kr0 & Dr0 & Q3 & N3); auto;
    try (unfold gt_idx, eidx in *; lia).
  { apply (Below own1).
    - intros d' j b Ob. exact (N1 b d' j Ob).
    - intros b d' j Ob. exact (oque_ext _ _ _ _ _ _ _ _ _ _ X1 Ob). }
  assert (Oa2 : own2 a = OQue d i) by (eapply oque_ext; eauto).
  destruct (write_child o k Pend Pend_ext a own2 D2 S en2 L (xadd x (eptr r1)) r0 d i (fun c => set_ce c r0)) as
    (A4 & R4 & X4 & n4 & M4); auto; [eapply lvl_tgt; eauto|].
  cbv zeta in A4, R4, X4, M4.
  set (en3 := set_st en2 (put (icr (st en2) r0) a (set_ce (mem (icr (st en2) r0) a) r0))) in *.
  pose proof (ai_acc _ _ _ _ _ _ _ _ A3) as AC3. pose proof (ai_acc _ _ _ _ _ _ _ _ A4) as AC4.
  assert (XX : ext (fun b => b = a) own D en own2 D2 en3).
  { eapply ext_weaken; [|eapply ext_trans; [exact AC|exact AC1|exact X1|
      eapply ext_trans; [exact AC1|exact AC2|exact X2|eapply ext_trans; [exact AC2|exact AC3|exact X3|exact X4]]]].
    simpl. intros b Hb. tauto. }
  assert (Npa : p <> a) by congruence.
  assert (Op2 : own2 p = OInd a).
  { rewrite (x_own _ _ _ _ _ _ _ XX); auto; rewrite Pp; auto. }
  (* the second node, as found when it is freed *)
  assert (Ce2 : ce (mem (st en2) a) = ce (mem (st en) a)).
  { destruct (x_mem _ _ _ _ _ _ _ X3 a) as [_ E]; [right; rewrite Oa1; auto|auto|]. rewrite E, M2'.
    destruct (x_mem _ _ _ _ _ _ _ X1 a) as [_ E1]; [right; rewrite Oa; auto|auto|]. simpl. exact E1. }
  assert (Ep : eptr (ce (mem (icr (st en2) r0) a)) = p).
  { destruct (sameTE_icr (st en2) r0 a) as [_ E]. rewrite E, Ce2. reflexivity. }
  rewrite Ep.
  set (en4 := set_st en2 (put (free_node (icr (st en2) r0) i p) a (set_ce (mem (free_node (icr (st en2) r0) i p) a) r0))).
  change (mem (free_node (icr (st en2) r0) i p) a) with (mem (icr (st en2) r0) a) in en4.
  assert (Me : mem (st en4) = mem (st en3)) by reflexivity.
  set (own4 := upd own2 p (OFree i)).
  assert (AC5 : EAcc own4 en4).
  { unfold EAcc, own4.
    assert (AX : Acc (upd own2 p OX) (kont (st en3) (que en3) (don en3)) (nx (st en3))).
    { apply acc_retag; auto; rewrite Op2; auto; discriminate. }
    assert (Eu2 : forall b, upd own2 p (OFree i) b = upd (upd own2 p OX) p (OFree i) b).
    { intros b. unfold upd. destruct (b =? p); auto. }
    apply (EAcc_ext (upd (upd own2 p OX) p (OFree i)) _ en4 Eu2). unfold EAcc.
    apply (acc_give _ (kont (st en3) (que en3) (don en3))); auto.
    - apply upd_same.
    - simpl. rewrite upd_same. apply Permutation_refl.
    - intros t Lt Nt. destruct t; simpl; auto. rewrite upd_other; auto. congruence. }
  assert (Ob4 : forall b, b <> p -> own4 b = own2 b) by (intros; unfold own4; rewrite upd_other; auto).
  assert (Op4 : own4 p = OFree i) by (unfold own4; apply upd_same).
  assert (X5 : ext (fun b => own2 b = OInd a) own2 D2 en3 own4 D2 en4).
  { constructor; auto.
    - intros b _ Hb. apply Ob4. intros ->. exact (Hb a Op2 Op2).
    - intros b _ _. split; reflexivity.
    - intros q c d' j _ Oq. destruct (N.eq_dec q p) as [->|Nq]; [congruence|]. rewrite Ob4 in Oq; auto. }
  assert (Pu2 : forall q, own2 q = OInd a -> q = p).
  { intros q Oq. apply Pu. eapply (x_ind _ _ _ _ _ _ _ XX); eauto. }
  assert (A5 : AInv a own4 D2 S en4).
  { eapply (AInv_ext o k Pend Pend_ext a _ own2 D2 S en3 own4 D2 en4 A4 X5); auto.
    - rewrite Oa2. discriminate.
    - intros b d' j Ob. left. destruct (N.eq_dec b p) as [->|Nb]; [congruence|]. rewrite Ob4 in Ob; auto.
    - intros q b Oq. left. destruct (N.eq_dec q p) as [->|Nb]; [congruence|]. rewrite Ob4 in Oq; auto. }
  assert (XA : ext (fun b => b = a \/ own b = OInd a) own D en own4 D2 en4).
  { eapply ext_weaken; [|exact (ext_trans _ _ _ _ _ _ _ _ _ _ _ AC AC4 XX X5)].
    simpl. intros b [Hb|Hb]; auto. right. eapply (x_ind _ _ _ _ _ _ _ XX); eauto. }
  (* contents of the request *)
  assert (Ct2 : ct (mem (st en2) a) = r1).
  { destruct (x_mem _ _ _ _ _ _ _ X3 a) as [E _]; [right; rewrite Oa1; auto|auto|]. rewrite E, M2'. reflexivity. }
  assert (Ct : ct (mem (st en4) a) = r1) by (rewrite Me, M4; simpl; auto).
  assert (Ce : ce (mem (st en4) a) = r0) by (rewrite Me, M4; reflexivity).
  assert (V1' : vedge (lvl own4 (Datatypes.S d)) r1).
  { apply (ext_vedge _ _ _ _ _ _ _ _ _ X5). exact (ext_vedge _ _ _ _ _ _ _ _ _ X3 Vr1). }
  assert (V0' : vedge (lvl own4 (Datatypes.S d)) r0) by exact (ext_vedge _ _ _ _ _ _ _ _ _ X5 Vr0).
  assert (Dva : forall e rho, vedge (lvl own 0) e -> dv D1 e rho = dv D e rho).
  { intros e rho Ve. exact (ext_dv _ _ _ _ _ _ _ _ _ _ X1 AC Ve). }
  assert (Dr1' : forall rho, dv D2 r1 rho = dv D1 r1 rho).
  { intros rho. exact (ext_dv _ _ _ _ _ _ _ _ _ _ X3 AC2 Vr1). }
  assert (DDa : forall rho, D2 a rho = D a rho).
  { intros rho. apply (x_D _ _ _ _ _ _ _ XA); [right|]; rewrite Oa; auto; discriminate. }
  assert (Oa4 : own4 a = OQue d i) by (rewrite Ob4; auto).
  exists own4, D2. split; [|split; [|split; [exact XA|]]].
  - eapply AInv_close; eauto.
    + apply Applied_two; rewrite ?Ct, ?Ce; auto; try (unfold gt_idx, eidx in *; lia);
        try (eapply vedge_lvl_mono; [exact k_lv|]; assumption).
      rewrite k_cb. unfold kite. intros rho. rewrite DDa, DF, DvF, DvG, DvH, Dr1', Dr1, Dr0, !Dva by auto. now destruct (rho i).
    + intros q Oq. destruct (N.eq_dec q p) as [->|Nq]; [congruence|]. rewrite Ob4 in Oq by auto. apply Nq. auto.
  - rewrite k_un. change (RC own4 (a :: S) idn (mem (st en4)) (a :: L) x).
    apply (RC_unind own2 own4 (a :: S) idn (mem (st en4)) (a :: L) x p a i); auto.
    { eapply HI; eauto. }
    rewrite Me. eapply RC_apply; eauto; rewrite <- ?Me, ?Ct, ?Ce.
    + eapply lvl_tgt; exact (ext_vedge _ _ _ _ _ _ _ _ _ X3 Vr1).
    + eapply lvl_tgt; eauto.
    + exact R4.
    + intros b Lb Fb. pose proof (rc_x _ _ _ _ _ _ R4 b Lb Fb) as Hx. unfold xadd in Hx. lia.
  - intros b d' j Ob. destruct (N.eq_dec b p) as [->|Nb]; [congruence|]. rewrite Ob4 in Ob by auto.
    destruct (N3 _ _ _ Ob) as [Ob1|[-> ?]]; [|right; split; lia].
    destruct (N1 _ _ _ Ob1) as [Ob2|[-> ?]]; [auto|right; split; lia].
Qed.

End ITE.

Section Run.
Variable o : order.
Hypothesis Wo : wfo o.
Variable enum : memory -> list N -> list N.
Hypothesis enum_perm : forall m l, Permutation (enum m l) l.

Definition PendA (own : N -> tag) (D : den) (en : eng) (_ : nat) (i a : N) : Prop := PendI o own D en i a.

Lemma PendA_ext : forall H own D en own' D' en' d i a,
  EAcc own en -> EAcc own' en' -> SWF o (st en) ->
  ext H own D en own' D' en' -> own a = OQue d i -> ~ H a ->
  (forall p, own p = OInd a -> ~ H p) -> PendA own D en d i a -> PendA own' D' en' d i a.
Proof. exact (PendI_ext o). Qed.

Theorem opITEBF_spec own D en L x f g h r en' :
  EInv o own D en -> RC own [] idn (mem (st en)) L x ->
  vedge (nodeR (st en)) f -> vedge (nodeR (st en)) g -> vedge (nodeR (st en)) h ->
  opITEBF enum o en f g h = (r, en') ->
  exists own' D', EInv o own' D' en' /\ (exists L', RC own' [] idn (mem (st en')) L' x) /\
    oext own D en own' D' en' /\ vedge (nodeR (st en')) r /\
    forall rho, dv D' r rho = if dv D f rho then dv D g rho else dv D h rho.
Proof.
  intros I R Vf Vg Vh H. unfold opITEBF in H.
  destruct (opite o 0 en f g h) as [q en1] eqn:Rq.
  pose proof (EInv_AInv o kstd PendA own D en I) as A0.
  pose proof (ei_acc _ _ _ _ I) as AC.
  assert (H0 : forall q, own 0 <> OInd q) by (intros p E; exact (ei_ind _ _ _ _ I 0 p E)).
  destruct (minid3_cases o f g h) as [Hc [M1 [M2 M3]]].
  destruct (opite_spec o Wo kstd PendA PendA_ext 0%nat (fun _ _ _ _ _ => iff_refl _) 0 own D [] en L x (idx o (minid3 o f g h)) f g h q en1 A0 R H0) as
    (own1 & D1 & A1 & R1 & X1 & Vq & Kq & Eq & Qq & Qown); auto.
  { eapply vedge_lvl0; eauto. }
  { eapply vedge_lvl0; eauto. }
  { eapply vedge_lvl0; eauto. }
  { intros d j b Ob. destruct (EInv_nq _ _ _ _ _ _ _ I Ob). }
  set (k := N.to_nat (minindex3 o f g h)) in *.
  assert (Xb : forall d j b, own1 b = OQue d j -> d = 0%nat /\ minindex3 o f g h <= idx o j).
  { intros d j b Ob. rewrite minid3_idx. destruct (Qown _ _ _ Ob) as [E|E]; auto. destruct (EInv_nq _ _ _ _ _ _ _ I E). }
  assert (Hx : forall t b, own1 b = t -> t <> ONone -> own b <> t -> t <> OX -> (forall i, t <> OFree i) -> x b = 0).
  { intros t b Ob Nt Nb _ _. assert (2 < b) by (apply (acc_rng _ _ _ (ai_acc _ _ _ _ _ _ _ _ A1)); congruence).
    destruct (freeish_dec (own b)) as [Fb|Fb]; [eapply (rc_x _ _ _ _ _ _ R); eauto|].
    rewrite (x_own _ _ _ _ _ _ _ X1) in Ob; auto. congruence. }
  destruct (core_clean o Wo enum enum_perm PendA PendA_ext (ite_apply1 o)
              (fun d => ite_apply1_ok o Wo kstd PendA PendA_ext d (fun _ _ _ _ _ => iff_refl _) (Nat.lt_succ_diag_r d) eq_refl (fun _ => eq_refl) below)
              1 k own1 D1 en1 L x A1 R1) as (own2 & D2 & I2 & R2 & X2 & F2); auto.
  { intros d j b Ob. destruct (Xb _ _ _ Ob). unfold k. lia. }
  { intros d j b Ob. destruct (Xb _ _ _ Ob). lia. }
  { intros d j b Ob. apply (Hx _ _ Ob); try discriminate. apply (EInv_nq _ _ _ _ _ _ _ I). }
  { intros p a Op. apply (Hx _ _ Op); try discriminate. apply (ei_ind _ _ _ _ I). }
  cbv zeta in I2, R2, X2, F2.
  change (sweep (stable (ite_apply1 o) enum) (seq 0 1)) with (ite_all enum o [0%nat]) in *.
  change (seq 0 1) with [0%nat] in *. fold k in H. injection H as <- <-.
  destruct (F2 q Vq) as [F3 F4].
  exists own2, D2. split; auto. split; auto. split; [|split; auto].
  - eapply oext_trans; [|exact X2]. eapply ext_oext; eauto. exact (ai_acc _ _ _ _ _ _ _ _ A1).
  - intros rho. rewrite F4. apply Eq.
Qed.
End Run.
