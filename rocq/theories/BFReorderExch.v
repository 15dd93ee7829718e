(** Breadth-first reordering: the whole exchange. *)
From Coq Require Import NArith ZArith List Bool Lia Permutation.
From Verif Require Import Base BFModel StoreInv MgrModel ApiModel ReorderModel ReorderProof ReorderStep ReorderRen ReorderInit ReorderBack
  PackModel BFReorderModel BFReorderSim BFReorderSwap BFReorderMove BFReorderNode.
Import ListNotations.
Open Scope N_scope.

Lemma rs_frame2 m w m' e e' : rs m w e e' ->
  (forall a, inw w a -> ct (m' a) = ct (m a) /\ ce (m' a) = ce (m a)) -> eptr (ce (m' (eptr e'))) <> 0 -> rs m' w e e'.
Proof.
  intros H F Hn. induction H as [e H|e e' Hw H0 H IH].
  - now apply rs_end.
  - destruct (F (eptr e)) as [F1 F2]; auto. apply rs_fwd; auto; [now rewrite F2|]. rewrite F1. auto.
Qed.
Lemma fold_swap1_stuck o k i j l r : (forall p, r <> Ok p) -> fold_left (swap1 o k i j) l r = r.
Proof. intros H. induction l as [|a l IH]; cbn [fold_left]; auto. destruct r as [p| |]; [destruct (H p); auto| |]; exact IH. Qed.
Lemma fold_bsweep1_stuck j l r : (forall p, r <> Ok p) -> fold_left (bsweep1 j) l r = r.
Proof. intros H. induction l as [|a l IH]; cbn [fold_left]; auto. destruct r as [p| |]; [destruct (H p); auto| |]; exact IH. Qed.
Lemma remove_map ren a l : (forall b, In b l -> ren b = ren a -> b = a) -> remove N.eq_dec (ren a) (map ren l) = map ren (remove N.eq_dec a l).
Proof.
  induction l as [|b l IH]; intros H; cbn [map remove]; auto.
  destruct (N.eq_dec (ren a) (ren b)) as [E|NE], (N.eq_dec a b) as [E'|NE']; try congruence.
  - apply IH. intros; apply H; auto. now right.
  - exfalso. apply NE'. symmetry. apply H; auto. now left.
  - cbn [map]. f_equal. apply IH. intros; apply H; auto. now right.
Qed.
Lemma filter_map' {A B} (f : A -> B) (g : B -> bool) (h : A -> bool) l : (forall x, In x l -> g (f x) = h x) -> filter g (map f l) = map f (filter h l).
Proof.
  induction l as [|a l IH]; intros H; cbn [map filter]; auto. rewrite (H a) by now left. rewrite IH by (intros; apply H; now right). now destruct (h a).
Qed.

Section Exch.
Variable c1 : cell.
Hypothesis C1 : eptr (ce c1) <> 0 /\ cr c1 = MAXREF.
Notation SIM := (SIM c1).

(** *** Changes of the memory alone *)
Lemma sim_mem L d s w ren m' : SIM L d s w ren ->
  (forall a, inn L d a -> cr (m' (ren a)) = cr (mem s (ren a)) /\ rs m' w (ct (m' (ren a))) (re d ren (dt (dm d a))) /\
     rs m' w (ce (m' (ren a))) (re d ren (de (dm d a))) /\ eptr (ce (m' (ren a))) <> 0) ->
  (forall u, In u (dtab d 0) -> ce (m' u) = ce (mem s u) /\ cr (m' u) = cr (mem s u) /\ rs m' w (ct (m' u)) (re d ren (dt (dm d u)))) ->
  m' ONE = mem s ONE -> SIM L d (set_mem s m') w ren.
Proof.
  intros S H1 H2 H3. destruct S. constructor; auto; cbn [mem set_mem].
  - now rewrite H3.
  - intros a Na. rewrite (proj1 (H1 a Na)). auto.
  - intros a Na. apply H1. auto.
  - intros a Na. destruct (H1 a Na) as (_ & A & B & _). auto.
  - intros u Iu. destruct (H2 u Iu) as (A & B & D). destruct (si_us u Iu) as (_ & A' & B'). split; auto. split; congruence.
Qed.
Lemma rs_nz L d s w ren e p : SIM L d s w ren -> okp L d (fst p) -> rs (mem s) w e (re d ren p) -> eptr e <> 0.
Proof.
  intros S O H. remember (re d ren p) as e' eqn:Ee. destruct H as [e H|e e' Hw H0 H].
  - subst e. unfold re. cbn [eptr]. eapply okp_ren_nz; eauto.
  - assert (Q : 2 < eptr e < nx s) by (apply (si_live _ _ _ _ _ _ S); right; now left). lia.
Qed.

(** The edges of a node are made to lead one forwarding less. *)
Lemma sim_fix1 L d s w ren a : XS L d -> SIM L d s w ren -> inn L d a ->
  SIM L d (set_mem s (fix1 (mem s) (ren a))) w ren /\ STEP L d s w ren L d (set_mem s (fix1 (mem s) (ren a))) w ren.
Proof.
  intros X S Na. pose proof (ren_nw c1 _ _ _ _ _ _ S Na) as NW. destruct (xs_ch _ _ X a Na) as [Ot Oe].
  destruct (si_ch _ _ _ _ _ _ S a Na) as [R1 R2].
  set (m' := fix1 (mem s) (ren a)).
  assert (Ma : m' (ren a) = C (fwd (mem s) (ct (mem s (ren a)))) (fwd (mem s) (ce (mem s (ren a)))) (cr (mem s (ren a)))) by apply upd_same'.
  assert (Mo : forall x, x <> ren a -> m' x = mem s x) by (intros x Hx; now apply upd_other').
  assert (MW : forall x, inw w x -> ct (m' x) = ct (mem s x) /\ ce (m' x) = ce (mem s x)).
  { intros x Hx. rewrite Mo by (intros ->; auto). auto. }
  assert (NZ : eptr (ce (m' (ren a))) <> 0).
  { rewrite Ma. cbn [ce]. apply rs_step in R2. eapply rs_nz; [exact S|exact Oe|exact R2]. }
  assert (RS : forall e p, okp L d (fst p) -> rs (mem s) w e (re d ren p) -> rs m' w e (re d ren p)).
  { intros e p O H. eapply rs_frame2; [exact H|exact MW|]. unfold re. cbn [eptr].
    destruct (N.eq_dec (ren (fst p)) (ren a)) as [->|Nq]; auto. rewrite Mo by auto. eapply okp_nf; eauto. }
  split; [|constructor; auto].
  apply sim_mem; auto.
  - intros b Nb. destruct (xs_ch _ _ X b Nb). destruct (N.eq_dec b a) as [->|Nba].
    + split; [rewrite Ma; reflexivity|]. split; [|split; [|exact NZ]]; rewrite Ma; cbn [ct ce]; apply RS; auto; now apply rs_step.
    + assert (Q : m' (ren b) = mem s (ren b)) by (apply Mo; intros E; apply Nba; exact (si_inj _ _ _ _ _ _ S b a Nb Na E)).
      rewrite Q. destruct (si_ch _ _ _ _ _ _ S b Nb). split; auto. split; auto. split; auto. exact (si_nf _ _ _ _ _ _ S b Nb).
  - intros u Iu. rewrite Mo; [|intros ->; exact (si_ru _ _ _ _ _ _ S a Na Iu)]. destruct (si_us _ _ _ _ _ _ S u Iu) as (Q & _).
    split; auto. split; auto. apply RS; auto. exact (xs_us _ _ X u Iu).
  - apply Mo. pose proof (ren_rng c1 _ _ _ _ _ _ S Na). unfold ONE. lia.
Qed.
Lemma sim_fixes L d w ren : XS L d -> forall l s, SIM L d s w ren -> (forall a, In a l -> inn L d a) ->
  SIM L d (set_mem s (fold_left fix1 (map ren l) (mem s))) w ren /\ STEP L d s w ren L d (set_mem s (fold_left fix1 (map ren l) (mem s))) w ren.
Proof.
  intros X. induction l as [|a l IH]; intros s S H; cbn [map fold_left].
  - split; [|constructor; auto]. apply (SIM_sext c1 L d s); auto.
  - destruct (sim_fix1 L d s w ren a X S (H a (or_introl eq_refl))) as [S1 T1].
    destruct (IH (set_mem s (fix1 (mem s) (ren a))) S1) as [S2 T2]; [intros; apply H; now right|].
    split; [exact S2|]. constructor; auto. intros e p O O' R. apply (st_keep _ _ _ _ _ _ _ _ _ _ T2); auto.
    apply (st_keep _ _ _ _ _ _ _ _ _ _ T1); auto.
Qed.
Lemma clean_raw L d s w ren a : SIM L d s w ren -> inn L d a -> clean (mem s) (ren a) = true ->
  ct (mem s (ren a)) = re d ren (dt (dm d a)) /\ ce (mem s (ren a)) = re d ren (de (dm d a)).
Proof.
  intros S Na H. unfold clean in H. apply andb_true_iff in H as [H1 H2]. apply negb_true_iff in H1, H2.
  destruct (si_ch _ _ _ _ _ _ S a Na). split; eapply rs_raw; eauto.
Qed.

(** *** Removal of a node *)
Lemma sim_remove d s w ren j a d' s' : j <> 0 -> XS [] d -> SIM [] d s w ren -> In a (dtab d j) ->
  dm d' = dm d -> dtab d' = upd (dtab d) j (remove N.eq_dec a (dtab d j)) ->
  mem s' = mem s -> ut s' = upd (ut s) j (remove N.eq_dec (ren a) (ut s j)) -> fl s' = upd (fl s) j (ren a :: fl s j) -> nx s' = nx s ->
  SIM [] d' s' w ren.
Proof.
  intros j0 X S Ia Dm Dt Sm St Sf Sx.
  assert (Na : inn [] d a) by (left; eauto).
  assert (IN : forall c, inn [] d' c -> inn [] d c).
  { intros c [(v & Nv & Iv)|[]]. rewrite Dt in Iv. unfold upd in Iv. destruct (N.eqb_spec v j) as [Ev|_]; [|left; eauto].
    apply in_remove in Iv as [Iv _]. left. eauto. }
  assert (T0 : dtab d' 0 = dtab d 0) by (rewrite Dt; apply upd_other'; auto).
  assert (RE : forall p, re d' ren p = re d ren p) by (intros p; unfold re; now rewrite Dm).
  assert (UT : ut s' = upd (ut s) j (map ren (remove N.eq_dec a (dtab d j)))).
  { rewrite St, (si_tab _ _ _ _ _ _ S j j0), remove_map; auto. intros b Ib E.
    apply (si_inj _ _ _ _ _ _ S); auto. left. eauto. }
  assert (LV : forall x, live [] s' w ren x -> live [] s w ren x /\ x <> ren a).
  { intros x. unfold live. rewrite UT. intros [(v & Iv)|[H|[]]].
    - unfold upd in Iv. destruct (N.eqb_spec v j) as [Ev|Nv].
      + apply in_map_iff in Iv as (b & <- & Ib). apply in_remove in Ib as [Ib Nb].
        split; [left; exists j; rewrite (si_tab _ _ _ _ _ _ S j j0); now apply in_map|].
        intros E. apply Nb. apply (si_inj _ _ _ _ _ _ S); auto. left. eauto.
      + split; [left; eauto|]. intros ->. destruct (N.eq_dec v 0) as [->|N0].
        * rewrite (si_0 _ _ _ _ _ _ S) in Iv. exact (si_ru _ _ _ _ _ _ S a Na Iv).
        * rewrite (si_tab _ _ _ _ _ _ S v N0) in Iv. apply in_map_iff in Iv as (b & E & Ib).
          assert (b = a) by (apply (si_inj _ _ _ _ _ _ S); auto; left; eauto). subst b.
          destruct (xs_tab _ _ X v a Ib) as [Q1 _]. destruct (xs_tab _ _ X j a Ia) as [Q2 _]. congruence.
    - split; [right; now left|]. intros ->. exact (ren_nw c1 _ _ _ _ _ _ S Na H). }
  pose proof (ren_live c1 _ _ _ _ _ _ S Na) as LA.
  constructor; rewrite ?Dm, ?Sm, ?Sx, ?T0.
  - rewrite UT, upd_other' by auto. apply S.
  - intros v Nv. rewrite UT, Dt. unfold upd. destruct (N.eqb_spec v j) as [_|_]; [reflexivity|]. exact (si_tab _ _ _ _ _ _ S v Nv).
  - apply S.
  - apply S.
  - apply S.
  - intros b c Hb Hc. apply (si_inj _ _ _ _ _ _ S); auto.
  - intros b Hb. exact (si_ru _ _ _ _ _ _ S b (IN _ Hb)).
  - intros x Hx. apply (si_live _ _ _ _ _ _ S). now apply LV.
  - exact (si_nx _ _ _ _ _ _ S).
  - intros v. rewrite Sf. unfold upd. destruct (N.eqb_spec v j) as [->|_]; [|apply S]. constructor; [|apply S].
    intros Q. exact (proj2 (si_fl _ _ _ _ _ _ S j _ Q) LA).
  - intros v x. rewrite Sf. unfold upd. intros Ix.
    assert (Q : x = ren a \/ In x (fl s v)) by (destruct (N.eqb_spec v j) as [->|_]; [destruct Ix as [<-|Ix]; auto|auto]).
    destruct Q as [->|Q].
    + split; [exact (si_live _ _ _ _ _ _ S _ LA)|]. intros Q. apply LV in Q. now apply Q.
    + destruct (si_fl _ _ _ _ _ _ S v x Q) as [Q1 Q2]. split; auto. intros Q3. apply LV in Q3 as [Q3 _]. auto.
  - assert (NFL : forall v, ~ In (ren a) (fl s v)) by (intros v Q; exact (proj2 (si_fl _ _ _ _ _ _ S v _ Q) LA)).
    intros v v' x. rewrite Sf. unfold upd. destruct (N.eqb_spec v j) as [Ev|_], (N.eqb_spec v' j) as [Ev'|_]; try congruence.
    + intros [<-|I1] I2; [destruct (NFL _ I2)|]. rewrite Ev. exact (si_fld _ _ _ _ _ _ S _ _ _ I1 I2).
    + intros I1 [<-|I2]; [destruct (NFL _ I1)|]. rewrite Ev'. exact (si_fld _ _ _ _ _ _ S _ _ _ I1 I2).
    + intros I1 I2. exact (si_fld _ _ _ _ _ _ S _ _ _ I1 I2).
  - apply S.
  - apply S.
  - intros x Hx. destruct (si_wt _ _ _ _ _ _ S x Hx) as [Q1 Q2]. split; auto. intros v Iv. rewrite St in Iv. unfold upd in Iv.
    destruct (N.eqb_spec v j) as [Ev|_]; [apply in_remove in Iv as [Iv _]|]; exact (Q1 _ Iv).
  - intros b Hb. exact (si_cr _ _ _ _ _ _ S b (IN _ Hb)).
  - intros b Hb. exact (si_mx _ _ _ _ _ _ S b (IN _ Hb)).
  - intros b Hb. exact (si_nf _ _ _ _ _ _ S b (IN _ Hb)).
  - intros b Hb. rewrite !RE. exact (si_ch _ _ _ _ _ _ S b (IN _ Hb)).
  - intros u Iu. rewrite RE. exact (si_us _ _ _ _ _ _ S u Iu).
Qed.

Lemma sim_sweep1 d s w ren j a s' : j <> 0 -> XS [] d -> SIM [] d s w ren -> In a (dtab d j) ->
  bsweep1 j (Ok s) (ren a) = Ok s' ->
  SIM [] (sweep1 j d a) s' w ren /\ (forall e p, okp [] d (fst p) -> rs (mem s) w e (re d ren p) -> rs (mem s') w e (re (sweep1 j d a) ren p)).
Proof.
  intros j0 X S Ia. assert (Na : inn [] d a) by (left; eauto). unfold bsweep1, sweep1. cbn [obind].
  rewrite (si_cr _ _ _ _ _ _ S a Na). destruct (drc (dm d a) =? 0).
  2:{ intros H. injection H as <-. auto. }
  destruct (clean (mem s) (ren a)) eqn:Q; [|discriminate]. destruct (clean_raw _ _ _ _ _ _ S Na Q) as [R1 R2].
  destruct (xs_ch _ _ X a Na) as [Ot Oe]. intros H. injection H as <-.
  rewrite R1, R2. remember (dt (dm d a)) as t eqn:Et. remember (de (dm d a)) as e eqn:Ee.
  destruct (sim_dcr c1 C1 [] d s w ren t X S Ot) as [S1 T1].
  pose proof (XS_dcr _ _ t X) as X1.
  assert (RE1 : forall p, re (ddcr d t) ren p = re d ren p) by (intros p; apply re_ext; apply ddcr_same).
  assert (Oe1 : okp [] (ddcr d t) (fst e)) by exact Oe.
  destruct (sim_dcr c1 C1 [] (ddcr d t) (dcr s (re d ren t)) w ren e X1 S1 Oe1) as [S2 T2]. rewrite RE1 in S2, T2.
  pose proof (XS_dcr _ _ e X1) as X2.
  match goal with |- SIM [] ?z ?y _ _ /\ _ => set (d' := z); set (s' := y) end.
  split.
  - apply (sim_remove (ddcr (ddcr d t) e) (dcr (dcr s (re d ren t)) (re d ren e)) w ren j a); auto; try reflexivity.
  - intros g p O H. change (mem s') with (mem (dcr (dcr s (re d ren t)) (re d ren e))).
    replace (re d' ren p) with (re (ddcr (ddcr d t) e) ren p) by reflexivity.
    apply (st_keep _ _ _ _ _ _ _ _ _ _ T2); auto. apply (st_keep _ _ _ _ _ _ _ _ _ _ T1); auto.
Qed.

Variables (o : order) (k i j : N) (M : N -> N -> bool).
Hypothesis Wo : wfo o.
Hypothesis Hi : nth_error (ord o) (N.to_nat k) = Some i.
Hypothesis Hj : nth_error (ord o) (S (N.to_nat k)) = Some j.
Let o' := swap_order o k i j.
Lemma wo' : wfo o'. Proof. now apply sw_wfo. Qed.
Lemma oi' : In i (ord o'). Proof. apply (sw_in o k i j). now apply (sw_i o k i Wo Hi). Qed.
Lemma oj' : In j (ord o'). Proof. apply (sw_in o k i j). now apply (sw_j o k j Wo Hj). Qed.
Lemma oij' : idx o' i = idx o' j + 1.
Proof. unfold o'. rewrite (sw_idx_i o k i j), (sw_idx_j o k i j) by auto. reflexivity. Qed.

Lemma sim_swaps : forall L D d s w ren s' w', XI o' i j M L D d -> SIM L d s w ren -> CLR i L d s ren ->
  fold_left (swap1 o k i j) (map ren L) (Ok (s, w)) = Ok (s', w') ->
  exists ren', SIM [] (fold_left (exchange1 i j) L d) s' w' ren' /\
    STEP L d s w ren [] (fold_left (exchange1 i j) L d) s' w' ren' /\ (forall a, inn L d a -> inn [] (fold_left (exchange1 i j) L d) a).
Proof.
  induction L as [|f L IH]; intros D d s w ren s' w' X S E; cbn [map fold_left].
  - intros H. injection H as <- <-. exists ren. split; auto. split; [apply STEP_refl|auto].
  - destruct (swap1 o k i j (Ok (s, w)) (ren f)) as [[s1 w1]| |] eqn:Q.
    2,3: rewrite fold_swap1_stuck by discriminate; discriminate.
    destruct (sim_swap1 c1 C1 o k i j M Wo Hi Hj L D d s w ren f s1 w1 X S E Q) as (ren1 & S1 & T1 & E1 & I1).
    destruct (exchange1_spec o' i j M wo' oi' oj' oij' L D d f X) as (D1 & X1 & _).
    replace (map ren L) with (map ren1 L).
    2:{ apply map_ext_in. intros a Ia. apply (st_ren _ _ _ _ _ _ _ _ _ _ T1); auto. right. now right. }
    intros H. destruct (IH D1 _ s1 w1 ren1 s' w' X1 S1 E1 H) as (ren2 & S2 & T2 & I2).
    exists ren2. split; auto. split; [|auto].
    eapply STEP_trans; [exact I1| | |exact T1|exact T2]; [intros a Ia; now right|intros a []].
Qed.

Lemma sim_sweeps x w ren : (forall b, (0 <= x b)%Z) -> forall l D d P s s', XI o' i j M [] D d -> XR [] d P x -> SIM [] d s w ren -> NoDup l ->
  (forall a, In a l -> In a (dtab d j)) -> fold_left (bsweep1 j) (map ren l) (Ok s) = Ok s' ->
  SIM [] (fold_left (sweep1 j) l d) s' w ren /\
  (forall e p, okp [] d (fst p) -> okp [] (fold_left (sweep1 j) l d) (fst p) -> rs (mem s) w e (re d ren p) -> rs (mem s') w e (re (fold_left (sweep1 j) l d) ren p)) /\
  (forall a, inn [] (fold_left (sweep1 j) l d) a -> inn [] d a).
Proof.
  intros Hx. assert (j0 : j <> 0) by exact (proj1 (sw_j o k j Wo Hj)).
  induction l as [|a l IH]; intros D d P s s' X R S ND Hl; cbn [map fold_left].
  - intros H. injection H as <-. auto.
  - destruct (bsweep1 j (Ok s) (ren a)) as [s1| |] eqn:Q.
    2,3: rewrite fold_bsweep1_stuck by discriminate; discriminate.
    pose proof (Hl a (or_introl eq_refl)) as Ia.
    destruct (sim_sweep1 d s w ren j a s1 j0 (XI_XS _ _ _ _ _ _ _ X) S Ia Q) as [S1 K1].
    destruct (sweep1_spec o' i j M wo' oj' oij' D d P x a X R Hx Ia) as (X1 & _ & [P1 R1] & Kp).
    inversion ND as [|? ? Nal ND']; subst.
    intros H. destruct (IH D _ P1 s1 s' X1 R1 S1 ND') as (S2 & K2 & I2); auto.
    { intros b Ib. apply Kp; [apply Hl; now right|]. intros ->; auto. }
    assert (I1 : forall b, inn [] (sweep1 j d a) b -> inn [] d b).
    { intros b [(v & Nv & Iv)|[]]. left. exists v. split; auto. unfold sweep1 in Iv. destruct (drc (dm d a) =? 0); auto.
      unfold ddcr, dput, set_dtab in Iv. cbn [dtab] in Iv. unfold upd in Iv. destruct (N.eqb_spec v j) as [->|_]; auto.
      now apply in_remove in Iv as [Iv _]. }
    split; auto. split; auto. intros e p O O' H'. apply K2; auto. destruct O' as [O'|O']; [now left|right]. auto.
Qed.

(** *** Taking the nodes out of the table *)
Lemma sim_pull d s w ren L d1 s1 : SIM [] d s w ren -> pulled i j d L d1 -> i <> 0 ->
  mem s1 = mem s -> ut s1 = upd (ut s) i (map ren (dtab d1 i)) -> fl s1 = fl s -> nx s1 = nx s -> SIM L d1 s1 w ren.
Proof.
  intros S PL i0 Em Eu Ef En.
  assert (IN : forall a, inn L d1 a -> inn [] d a).
  { intros a [(v & Nv & Iv)|Ia].
    - left. exists v. split; auto. destruct (N.eq_dec v i) as [->|Nvi]; [apply (pl_in _ _ _ _ _ PL); auto|].
      now rewrite <- (pl_ot _ _ _ _ _ PL).
    - left. exists i. split; auto. apply (pl_in _ _ _ _ _ PL); auto. }
  assert (RE : forall p, re d1 ren p = re d ren p) by (intros p; unfold re; now rewrite (pl_m _ _ _ _ _ PL)).
  assert (T0 : dtab d1 0 = dtab d 0) by (apply (pl_ot _ _ _ _ _ PL); auto).
  assert (SUB : forall v x, In x (ut s1 v) -> In x (ut s v)).
  { intros v x. rewrite Eu. unfold upd. destruct (N.eqb_spec v i) as [->|_]; auto. rewrite (si_tab _ _ _ _ _ _ S i i0).
    intros Ix. apply in_map_iff in Ix as (a & <- & Ia). apply in_map. apply (pl_in _ _ _ _ _ PL); auto. }
  assert (LV : forall x, live L s1 w ren x -> live [] s w ren x).
  { intros x [(v & H)|[H|H]]; [left; eauto|right; now left|]. left. exists i. rewrite (si_tab _ _ _ _ _ _ S i i0).
    apply in_map_iff in H as (a & <- & Ia). apply in_map. apply (pl_in _ _ _ _ _ PL); auto. }
  constructor; rewrite ?Em, ?En, ?Ef, ?(pl_m _ _ _ _ _ PL), ?T0.
  - rewrite Eu, upd_other' by auto. apply S.
  - intros v Nv. rewrite Eu. unfold upd. destruct (N.eqb_spec v i) as [->|Nvi]; auto. rewrite (pl_ot _ _ _ _ _ PL) by auto. now apply S.
  - apply S.
  - apply S.
  - apply S.
  - intros a b Ha Hb. apply (si_inj _ _ _ _ _ _ S); auto.
  - intros a Ha. exact (si_ru _ _ _ _ _ _ S a (IN _ Ha)).
  - intros x Hx. apply (si_live _ _ _ _ _ _ S). auto.
  - exact (si_nx _ _ _ _ _ _ S).
  - exact (si_fln _ _ _ _ _ _ S).
  - intros v x Ix. destruct (si_fl _ _ _ _ _ _ S v x Ix) as [Q1 Q2]. split; auto.
  - apply S.
  - apply S.
  - apply S.
  - intros x Hx. destruct (si_wt _ _ _ _ _ _ S x Hx) as [Q1 Q2]. split.
    + intros v Iv. exact (Q1 v (SUB _ _ Iv)).
    + intros Q. apply in_map_iff in Q as (a & <- & Ia). apply (Q1 i). rewrite (si_tab _ _ _ _ _ _ S i i0). apply in_map.
      apply (pl_in _ _ _ _ _ PL); auto.
  - intros b Hb. exact (si_cr _ _ _ _ _ _ S b (IN _ Hb)).
  - intros b Hb. exact (si_mx _ _ _ _ _ _ S b (IN _ Hb)).
  - intros b Hb. exact (si_nf _ _ _ _ _ _ S b (IN _ Hb)).
  - intros b Hb. rewrite !RE. exact (si_ch _ _ _ _ _ _ S b (IN _ Hb)).
  - intros u Iu. rewrite RE. exact (si_us _ _ _ _ _ _ S u Iu).
Qed.

(** *** The exchange *)
Theorem sim_exchange D d P x i1 j1 s w ren (flag : bool) s' w' :
  XI o i1 j1 M [] D d -> XR [] d P x -> (forall b, (0 <= x b)%Z) -> SIM [] d s w ren ->
  (if M i j then
     let m1 := if flag then fold_left fix1 (ut s i) (mem s) else mem s in
     if forallb (fun a => clean m1 a && (btouch o k m1 a || same_children (mem s) m1 a)) (ut s i) then
       let L := rev (filter (btouch o k m1) (ut s i)) in
       let s1 := set_nn (set_ut (set_mem s m1) (upd (ut s) i (filter (fun a => negb (btouch o k m1 a)) (ut s i))))
                        (nn s - N.of_nat (length L)) in
       obind (fold_left (swap1 o k i j) L (Ok (s1, w))) (fun p =>
       obind (fold_left (bsweep1 j) (ut (fst p) j) (Ok (fst p))) (fun s2 => Ok (s2, snd p)))
     else Undefined
   else Ok (s, w)) = Ok (s', w') ->
  exists ren', SIM [] (exchange M d i j) s' w' ren' /\
    (forall e p, okp [] d (fst p) -> okp [] (exchange M d i j) (fst p) -> rs (mem s) w e (re d ren p) ->
       rs (mem s') w' e (re (exchange M d i j) ren' p)) /\
    (forall a, inn [] d a -> fst (dt (dm d a)) = ONE -> fst (de (dm d a)) = ONE -> ren' a = ren a).
Proof.
  intros X R Hx S. pose proof (XI_XS _ _ _ _ _ _ _ X) as XS0.
  destruct (sw_i o k i Wo Hi) as (I1 & I2 & I3). destruct (sw_j o k j Wo Hj) as (J1 & J2 & J3).
  unfold exchange. destruct (M i j) eqn:EM.
  2:{ intros H. injection H as <- <-. exists ren. auto. }
  cbv zeta. rewrite (si_tab _ _ _ _ _ _ S i I1).
  set (m1 := if flag then fold_left fix1 (map ren (dtab d i)) (mem s) else mem s).
  assert (SM : SIM [] d (set_mem s m1) w ren /\ STEP [] d s w ren [] d (set_mem s m1) w ren).
  { unfold m1. destruct flag.
    - apply sim_fixes; auto. intros a Ia. left. eauto.
    - split; [apply (SIM_sext c1 [] d s); auto|constructor; auto]. }
  destruct SM as [SM TM].
  destruct (forallb _ (map ren (dtab d i))) eqn:G; [|discriminate].
  assert (RAW : forall a, In a (dtab d i) -> ct (m1 (ren a)) = re d ren (dt (dm d a)) /\ ce (m1 (ren a)) = re d ren (de (dm d a))).
  { intros a Ia. rewrite forallb_forall in G. specialize (G (ren a) (in_map ren _ _ Ia)). apply andb_true_iff in G as [G _].
    apply (clean_raw [] d (set_mem s m1) w ren a); auto. left. eauto. }
  assert (LV : forall a c, In a (dtab d i) -> c = fst (dt (dm d a)) \/ c = fst (de (dm d a)) ->
             k < idx o (did (dm d c)) /\ (k + 1 <? idx o (did (dm d c))) = negb (did (dm d c) =? j)).
  { intros a c Ia Hc. assert (Na : inn [] d a) by (left; eauto).
    destruct (x_lv _ _ _ _ _ _ _ X i a c I1 Ia Hc) as [V _]. rewrite I2 in V. split; auto.
    destruct (N.eqb_spec (did (dm d c)) j) as [E|NE]; cbn [negb].
    - rewrite E, J2. apply N.ltb_irrefl.
    - apply N.ltb_lt. assert (NJ : idx o (did (dm d c)) <> k + 1); [|lia]. rewrite <- J2. intros Q. apply NE.
      destruct (x_ch _ _ _ _ _ _ _ X a Na) as (O1 & O2 & _).
      assert (Oc : okp [] d c) by (destruct Hc as [-> | ->]; auto). destruct Oc as [->|Nc].
      + exfalso. rewrite (proj1 (x_one _ _ _ _ _ _ _ X)) in Q.
        rewrite (wfo_const o Wo) in Q. pose proof (wfo_len o Wo). pose proof (wfo_in o j Wo J3). lia.
      + apply (wfo_inj o); auto. exact (x_ord _ _ _ _ _ _ _ X c Nc). }
  assert (TCH : forall a, In a (dtab d i) -> btouch o k m1 (ren a) = touches d j a).
  { intros a Ia. destruct (RAW a Ia) as [E1 E2]. unfold btouch, touches, below2. rewrite E1, E2. unfold re. cbn [eid].
    rewrite (proj2 (LV a _ Ia (or_introl eq_refl))), (proj2 (LV a _ Ia (or_intror eq_refl))).
    rewrite negb_andb, !negb_involutive. reflexivity. }
  set (L := rev (filter (touches d j) (dtab d i))).
  set (d1 := set_dtab d i (filter (fun a => negb (touches d j a)) (dtab d i))).
  rewrite (filter_map' ren _ (touches d j)) by exact TCH.
  rewrite (filter_map' ren _ (fun a => negb (touches d j a))) by (intros a Ia; now rewrite TCH).
  rewrite <- map_rev. fold L.
  match goal with |- context [fold_left (swap1 o k i j) (map ren L) (Ok (?z, w))] => set (s1 := z) end.
  assert (PL : pulled i j d L d1).
  { constructor; try reflexivity.
    - intros v Nv. unfold d1. cbn [dtab set_dtab]. now apply upd_other'.
    - unfold d1. cbn [dtab set_dtab]. rewrite upd_same'. apply NoDup_filter, X.
    - unfold L. apply NoDup_rev, NoDup_filter, X.
    - intros a. unfold d1, L. cbn [dtab set_dtab]. rewrite upd_same', <- in_rev, !filter_In.
      destruct (touches d j a); simpl; intuition congruence.
    - intros a. unfold d1, L. cbn [dtab set_dtab]. rewrite upd_same', <- in_rev, !filter_In.
      intros [_ Q] [_ Q']. rewrite Q' in Q. discriminate.
    - intros a. unfold L. rewrite <- in_rev, filter_In. intros [_ Q]. unfold touches in Q.
      apply orb_true_iff in Q as [Q|Q]; apply N.eqb_eq in Q; auto.
    - intros a c. unfold d1. cbn [dtab set_dtab]. rewrite upd_same', filter_In. intros [_ Q].
      apply negb_true_iff in Q. unfold touches in Q. apply orb_false_iff in Q as [Q1 Q2].
      apply N.eqb_neq in Q1, Q2. intros [->| ->]; auto. }
  pose proof (pull_XI o k i j Wo Hi Hj M D d L d1 i1 j1 X PL) as X1.
  pose proof (pull_XR i j d L d1 PL P x R) as R1.
  assert (S1 : SIM L d1 s1 w ren).
  { apply (sim_pull d (set_mem s m1) w ren L d1 s1); auto. unfold s1, d1. cbn [ut set_nn set_ut set_mem dtab set_dtab]. now rewrite upd_same'. }
  assert (E1 : CLR i L d1 s1 ren).
  { assert (Q : forall c, In c (dtab d1 i) \/ In c L -> In c (dtab d i)) by (intros c Hc; apply (pl_in _ _ _ _ _ PL); auto).
    assert (QL : forall c a, In c (dtab d i) -> a = fst (dt (dm d c)) \/ a = fst (de (dm d c)) -> ~ In a L).
    { intros c a Ic Ha Ia. assert (Ia' : In a (dtab d i)) by (apply Q; auto). destruct (LV c a Ic Ha) as [V _].
      rewrite (proj1 (xs_tab _ _ XS0 i a Ia')), I2 in V. lia. }
    constructor.
    - intros c Hc. exact (RAW c (Q c Hc)).
    - intros c Hc. split; eapply QL; eauto. }
  destruct (fold_left (swap1 o k i j) (map ren L) (Ok (s1, w))) as [[s2 w2]| |] eqn:F1; cbn [obind fst snd]; try discriminate.
  destruct (sim_swaps L D d1 s1 w ren s2 w2 X1 S1 E1 F1) as (ren2 & S2 & T2 & In2).
  destruct (exchange_fold o' i j M wo' oi' oj' oij' L D d1 X1) as (D2 & X2 & _ & RR).
  destruct (RR P x Hx R1) as [P2 R2].
  rewrite (si_tab _ _ _ _ _ _ S2 j J1).
  destruct (fold_left (bsweep1 j) _ (Ok s2)) as [s3| |] eqn:F2; cbn [obind]; try discriminate.
  intros H. injection H as <- <-.
  destruct (sim_sweeps x w2 ren2 Hx _ D2 _ P2 s2 s3 X2 R2 S2 (xs_nd _ _ (XI_XS _ _ _ _ _ _ _ X2) j) (fun a Ia => Ia) F2) as (S3 & K3 & _).
  assert (INL : forall a, inn [] d a -> inn L d1 a).
  { intros a [(v & Nv & Iv)|[]]. destruct (N.eq_dec v i) as [->|Nvi].
    - apply (pl_in _ _ _ _ _ PL) in Iv as [Iv|Iv]; [left; eauto|now right].
    - left. exists v. split; auto. now rewrite (pl_ot _ _ _ _ _ PL). }
  exists ren2. split; [exact S3|]. split.
  - intros e p O O' H. apply K3; auto.
    + destruct O as [O|O]; [now left|right; auto].
    + apply (st_keep _ _ _ _ _ _ _ _ _ _ T2).
      * destruct O as [O|O]; [now left|right; auto].
      * destruct O as [O|O]; [now left|right; auto].
      * apply (st_keep _ _ _ _ _ _ _ _ _ _ TM); auto.
  - intros a Na A1 A2. apply (st_ren _ _ _ _ _ _ _ _ _ _ T2); auto. intros Ia. exfalso.
    destruct (pl_L _ _ _ _ _ PL a Ia) as [Q|Q]; rewrite ?A1, ?A2, (proj1 (x_one _ _ _ _ _ _ _ X)) in Q; congruence.
Qed.
End Exch.
