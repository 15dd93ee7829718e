(** Breadth-first reordering: exchange of two variables, related to the one of depth-first reordering. *)
From Coq Require Import NArith ZArith List Bool Lia Permutation.
From Verif Require Import Base BFModel StoreInv MgrModel ApiModel ReorderModel ReorderProof ReorderStep ReorderRen ReorderInit ReorderBack
  PackModel BFReorderModel BFReorderSim.
Import ListNotations.
Open Scope N_scope.

Lemma STEP_trans L d s w ren L1 d1 s1 w1 ren1 L2 d2 s2 w2 ren2 :
  (forall a, inn L d a -> inn L1 d1 a) -> (forall a, In a L1 -> In a L) -> (forall a, In a L2 -> In a L1) ->
  STEP L d s w ren L1 d1 s1 w1 ren1 -> STEP L1 d1 s1 w1 ren1 L2 d2 s2 w2 ren2 -> STEP L d s w ren L2 d2 s2 w2 ren2.
Proof.
  intros Mo I1 I2 [A1 A2] [B1 B2]. constructor.
  - intros e p O O2 H. assert (O1 : okp L1 d1 (fst p)) by (destruct O as [O|O]; [now left|right; auto]). auto.
  - intros a Na H. rewrite B2, A2; auto.
Qed.

Lemma re_dnot d ren p : re d ren (dnot p) = enot (re d ren p).
Proof. destruct p as [a x]. reflexivity. Qed.
Lemma enot_enot e : enot (enot e) = e.
Proof. destruct e as [a b c]. unfold enot. cbn. now rewrite negb_involutive. Qed.
Lemma find_map' {A B} (f : A -> B) (g : B -> bool) l : find g (map f l) = option_map f (find (fun x => g (f x)) l).
Proof. induction l as [|a l IH]; cbn [map find]; auto. destruct (g (f a)); auto. Qed.
Lemma find_ext_in' {A} (f g : A -> bool) l : (forall x, In x l -> f x = g x) -> find f l = find g l.
Proof.
  induction l as [|a l IH]; intros H; cbn [find]; auto. rewrite (H a) by now left. destruct (g a); auto.
  apply IH. intros; apply H; now right.
Qed.

Section Swap.
Variable c1 : cell.
Hypothesis C1 : eptr (ce c1) <> 0 /\ cr c1 = MAXREF.
Notation SIM := (SIM c1).

Lemma eeq_re L d s w ren p q : XS L d -> SIM L d s w ren -> okp L d (fst p) -> okp L d (fst q) ->
  eeq (re d ren p) (re d ren q) = deq p q.
Proof.
  intros X S Op Oq. unfold eeq, deq, re. cbn [eptr eneg]. f_equal.
  destruct (N.eqb_spec (ren (fst p)) (ren (fst q))) as [E|E], (N.eqb_spec (fst p) (fst q)) as [E'|E']; auto; [|congruence].
  destruct E'. eapply okp_inj; eauto.
Qed.
Lemma deq_sym p q : deq p q = deq q p.
Proof. unfold deq. rewrite N.eqb_sym. f_equal. now destruct (snd p), (snd q). Qed.

Lemma SIM_sext L d s s' w ren : SIM L d s w ren -> mem s' = mem s -> (forall v, ut s' v = ut s v) -> fl s' = fl s -> nx s' = nx s ->
  SIM L d s' w ren.
Proof.
  intros [] Em Eu Ef En. assert (LV : forall x, live L s' w ren x -> live L s w ren x).
  { intros x [(v & H)|H]; [left; exists v; now rewrite <- Eu|now right]. }
  constructor; rewrite ?Em, ?Eu, ?Ef, ?En; auto.
  - intros v Nv. rewrite Eu. auto.
  - intros v x Ix. destruct (si_fl v x Ix) as [Q1 Q2]. split; auto.
  - intros x Hx. destruct (si_wt x Hx) as [Q1 Q2]. split; auto. intros v. rewrite Eu. auto.
Qed.
(** The depth-first state matters only pointwise. *)
Lemma SIM_dext L d d' s w ren : SIM L d s w ren -> (forall a, dm d' a = dm d a) -> (forall v, dtab d' v = dtab d v) -> SIM L d' s w ren.
Proof.
  intros S Em Et. assert (IN : forall a, inn L d' a -> inn L d a).
  { intros a [(v & Nv & H)|H]; [left; exists v; split; auto; now rewrite <- Et|now right]. }
  assert (RE : forall p, re d' ren p = re d ren p) by (intros p; apply re_ext; now rewrite Em).
  destruct S. constructor; rewrite ?Em, ?Et; auto.
  - intros v Nv. rewrite Et. auto.
  - intros a Na. rewrite Em. auto.
  - intros a Na. rewrite Em. auto.
  - intros a Na. rewrite !RE, Em. auto.
  - intros u. rewrite ?Et. intros Iu. rewrite RE, Em. auto.
Qed.

Variables (i j : N).
(** The nodes of the upper variable, in and out of the table, have edges to nodes, and not to nodes taken out. *)
Record CLR (L : list N) (d : dst) (s : store) (ren : N -> N) : Prop := {
  cl_raw : forall c, In c (dtab d i) \/ In c L -> ct (mem s (ren c)) = re d ren (dt (dm d c)) /\ ce (mem s (ren c)) = re d ren (de (dm d c));
  cl_nl : forall c, In c (dtab d i) \/ In c L -> ~ In (fst (dt (dm d c))) L /\ ~ In (fst (de (dm d c))) L
}.

Lemma CLR_drc L d s ren d' s' : CLR L d s ren ->
  (forall a, did (dm d' a) = did (dm d a) /\ dt (dm d' a) = dt (dm d a) /\ de (dm d' a) = de (dm d a)) ->
  (forall a, ct (mem s' a) = ct (mem s a) /\ ce (mem s' a) = ce (mem s a)) -> dtab d' = dtab d -> CLR L d' s' ren.
Proof.
  intros [A B] Hd Hs Ht. constructor; rewrite Ht.
  - intros c Hc. destruct (Hs (ren c)) as [-> ->]. destruct (Hd c) as (_ & -> & ->). rewrite !(re_ext d d') by apply Hd. auto.
  - intros c Hc. destruct (Hd c) as (_ & -> & ->). auto.
Qed.
Lemma icr_same s e a : ct (mem (icr s e) a) = ct (mem s a) /\ ce (mem (icr s e) a) = ce (mem s a).
Proof. unfold icr, put, set_mem. cbn [mem]. unfold upd. destruct (N.eqb_spec a (eptr e)) as [->|_]; auto. Qed.
Lemma dcr_same s e a : ct (mem (dcr s e) a) = ct (mem s a) /\ ce (mem (dcr s e) a) = ce (mem s a).
Proof. unfold dcr, put, set_mem. cbn [mem]. unfold upd. destruct (N.eqb_spec a (eptr e)) as [->|_]; auto. Qed.

(** What one step within the exchange gives; nodes are only added. *)
Record GO (L : list N) (d : dst) (s : store) (w : N -> list N) (ren : N -> N) (d' : dst) (s' : store) (ren' : N -> N) : Prop := {
  go_sim : SIM L d' s' w ren';
  go_step : STEP L d s w ren L d' s' w ren';
  go_xs : XS L d';
  go_cl : CLR L d' s' ren';
  go_re : forall p, okp L d (fst p) -> re d' ren' p = re d ren p;
  go_inn : forall a, inn L d a -> inn L d' a;
  go_node : forall a, node L d a -> node L d' a;
  go_keep : forall a, node L d a -> did (dm d' a) = did (dm d a) /\ dt (dm d' a) = dt (dm d a) /\ de (dm d' a) = de (dm d a)
}.
Lemma GO_trans L d s w ren d1 s1 ren1 d2 s2 ren2 :
  GO L d s w ren d1 s1 ren1 -> GO L d1 s1 w ren1 d2 s2 ren2 -> GO L d s w ren d2 s2 ren2.
Proof.
  intros [A1 A2 A3 A4 A5 A6 N1 A7] [B1 B2 B3 B4 B5 B6 N2 B7]. constructor; auto.
  - eapply STEP_trans; eauto.
  - intros p O. rewrite B5, A5; auto. destruct O as [O|O]; [now left|right; auto].
  - intros a Na. destruct (A7 a Na) as (E1 & E2 & E3). destruct (B7 a (N1 a Na)) as (F1 & F2 & F3).
    split; [congruence|]. split; congruence.
Qed.
Lemma GO_refl L d s w ren : SIM L d s w ren -> XS L d -> CLR L d s ren -> GO L d s w ren d s ren.
Proof. intros A B E. constructor; auto. apply STEP_refl. Qed.
Lemma GO_icr L d s w ren p : SIM L d s w ren -> XS L d -> CLR L d s ren -> okp L d (fst p) ->
  GO L d s w ren (dicr d p) (icr s (re d ren p)) ren.
Proof.
  intros S X E O. destruct (sim_icr c1 C1 L d s w ren p X S O) as [A B]. constructor; auto.
  - now apply XS_icr.
  - apply (CLR_drc L d s ren); auto; [apply dicr_same|apply icr_same].
  - intros q _. apply re_ext. apply dicr_same.
  - intros a _. apply dicr_same.
Qed.
Lemma GO_dcr L d s w ren p : SIM L d s w ren -> XS L d -> CLR L d s ren -> okp L d (fst p) ->
  GO L d s w ren (ddcr d p) (dcr s (re d ren p)) ren.
Proof.
  intros S X E O. destruct (sim_dcr c1 C1 L d s w ren p X S O) as [A B]. constructor; auto.
  - now apply XS_dcr.
  - apply (CLR_drc L d s ren); auto; [apply ddcr_same|apply dcr_same].
  - intros q _. apply re_ext. apply ddcr_same.
  - intros a _. apply ddcr_same.
Qed.

Hypothesis i0 : i <> 0.

Lemma GO_findadd L d s w ren t e a found d1 :
  SIM L d s w ren -> XS L d -> CLR L d s ren -> okp L d (fst t) -> okp L d (fst e) -> ~ In (fst t) L -> ~ In (fst e) L ->
  dfindadd d i t e = (a, found, d1) ->
  exists s1 ren1, uniq_add s i (re d ren t) (re d ren e) = (re d1 ren1 (a, false), found, s1) /\
    GO L d s w ren d1 s1 ren1 /\ inn L d1 a /\ ~ In a L.
Proof.
  intros S X E Ot Oe Nt Ne. unfold dfindadd, uniq_add, tfindadd, tfind. rewrite (si_tab _ _ _ _ _ _ S i i0).
  rewrite find_map', (find_ext_in' (fun x => eeq (re d ren t) (ct (mem s (ren x))) && eeq (re d ren e) (ce (mem s (ren x)))) (dhas d t e)).
  2:{ intros c Ic. destruct (cl_raw _ _ _ _ E c (or_introl Ic)) as [-> ->].
      assert (Nc : inn L d c) by (left; eauto). destruct (xs_ch _ _ X c Nc).
      rewrite !(eeq_re L d s w) by auto. unfold dhas. now rewrite (deq_sym t), (deq_sym e). }
  destruct (find (dhas d t e) (dtab d i)) as [c|] eqn:F; cbn [option_map].
  - intros H. apply pair_equal_spec in H as [H <-]. apply pair_equal_spec in H as [<- <-].
    apply find_some in F as [Ic _]. eexists _, ren. split.
    + f_equal. f_equal. unfold re. cbn [fst snd]. f_equal. symmetry. exact (proj1 (xs_tab _ _ X i c Ic)).
    + split; [|split; [left; eauto|exact (proj1 (proj2 (xs_tab _ _ X i c Ic)))]].
      match goal with |- GO _ _ _ _ _ _ ?z _ => set (s0 := z) end.
      assert (S0 : SIM L d s0 w ren).
      { apply (SIM_sext L d s); auto; try reflexivity. intros v. unfold s0. cbn [ut set_nn set_ut]. unfold upd.
        destruct (N.eqb_spec v i) as [->|_]; auto. symmetry. exact (si_tab _ _ _ _ _ _ S i i0). }
      constructor; auto.
      * constructor; auto.
      * destruct E. constructor; auto.
  - destruct (dalloc d) as [b d2] eqn:DA. destruct (alloc s i) as [b' s2] eqn:SA. intros H.
    apply pair_equal_spec in H as [H <-]. apply pair_equal_spec in H as [<- <-].
    set (d' := set_dtab (dput d2 b (DN i 0 t e)) i (b :: dtab d2 i)).
    set (s' := set_nn (set_ut (put s2 b' (C (re d ren t) (re d ren e) 0))
          (upd (ut (put s2 b' (C (re d ren t) (re d ren e) 0))) i (b' :: map ren (dtab d i)))) (nn (put s2 b' (C (re d ren t) (re d ren e) 0)) + 1)).
    destruct (alloc_fresh c1 C1 L d s w ren i b' s2 S SA) as (_ & _ & U2 & _).
    destruct (sim_new c1 C1 L d s w ren i t e b d2 b' s2 d' s' X S i0 Ot Oe DA SA) as (S1 & T1 & X1 & R1 & F1 & F2 & I1); try reflexivity.
    { unfold s', set_nn, set_ut, put, set_mem. cbn [ut]. rewrite U2. now rewrite (si_tab _ _ _ _ _ _ S i i0). }
    exists s', (upd ren b b'). split.
    + f_equal. f_equal. unfold re. cbn [fst snd]. rewrite upd_same'. unfold d', set_dtab, dput. cbn [dm]. now rewrite upd_same'.
    + split.
      2:{ split; [apply I1; now left|]. intros Q. apply F1. now right. }
      assert (OKn : forall c, okp L d c -> c <> b) by (intros c [->|Hc] Q; [now apply F2|subst c; apply F1; now apply inn_node]).
      assert (DM : dm d' = upd (dm d) b (DN i 0 t e)).
      { unfold d', set_dtab, dput. cbn [dm]. destruct (dalloc_fresh c1 C1 L d b d2 X DA) as (_ & _ & -> & _). reflexivity. }
      assert (DT : dtab d' i = b :: dtab d i).
      { unfold d', set_dtab, dput. cbn [dtab]. rewrite upd_same'. destruct (dalloc_fresh c1 C1 L d b d2 X DA) as (_ & _ & _ & -> & _). reflexivity. }
      assert (MM : forall x, x <> b' -> mem s' x = mem s x).
      { intros x Hx. unfold s', set_nn, set_ut, put, set_mem. cbn [mem]. rewrite upd_other' by auto.
        destruct (alloc_fresh c1 C1 L d s w ren i b' s2 S SA) as (_ & _ & _ & _ & _ & Q & _). rewrite Q.
        destruct (N.eqb_spec x b'); congruence. }
      assert (Mb : mem s' b' = C (re d ren t) (re d ren e) 0).
      { unfold s', set_nn, set_ut, put, set_mem. cbn [mem]. now rewrite upd_same'. }
      assert (OLD : forall c, In c (dtab d i) \/ In c L -> inn L d c /\ c <> b /\ ren c <> b').
      { intros c Hc. assert (Nc : inn L d c) by (destruct Hc as [Hc|Hc]; [left; eauto|now right]).
        split; auto. split; [apply OKn; now right|]. intros Q.
        destruct (alloc_fresh c1 C1 L d s w ren i b' s2 S SA) as (Q1 & _). apply Q1. rewrite <- Q. eapply ren_live; eauto. }
      constructor; auto.
      * constructor.
        -- intros c. rewrite DT. intros Hc.
           assert (Hc' : c = b \/ In c (dtab d i) \/ In c L) by (destruct Hc as [[<-|Hc]|Hc]; auto). destruct Hc' as [->|Hc'].
           ++ rewrite upd_same', Mb, DM, upd_same'. cbn [ct ce dt de]. rewrite !R1 by auto. auto.
           ++ destruct (OLD c Hc') as (Nc & Q1 & Q2). rewrite upd_other', MM, DM, upd_other' by auto.
              destruct (xs_ch _ _ X c Nc). rewrite !R1 by auto. now apply (cl_raw _ _ _ _ E).
        -- intros c. rewrite DT. intros Hc.
           assert (Hc' : c = b \/ In c (dtab d i) \/ In c L) by (destruct Hc as [[<-|Hc]|Hc]; auto). destruct Hc' as [->|Hc'].
           ++ rewrite DM, upd_same'. auto.
           ++ destruct (OLD c Hc') as (Nc & Q1 & Q2). rewrite DM, upd_other' by auto. now apply (cl_nl _ _ _ _ E).
      * intros c Nc. apply I1. now right.
      * intros c Hc. destruct Hc as [(v & Hc)|Hc]; [|now right]. left. exists v.
        unfold d', set_dtab, dput. cbn [dtab]. destruct (dalloc_fresh c1 C1 L d b d2 X DA) as (_ & _ & _ & DTT & _). rewrite DTT.
        unfold upd. destruct (N.eqb_spec v i) as [->|_]; auto. now right.
      * intros c Nc. rewrite DM, upd_other' by (intros ->; auto). auto.
Qed.

Lemma live_nn L s w ren n : live L (set_nn s n) w ren = live L s w ren.
Proof. reflexivity. Qed.
Lemma GO_bump L d s w ren d1 s1 ren1 f : GO L d s w ren d1 s1 ren1 -> GO L d s w ren (dbump d1 f) s1 ren1.
Proof.
  intros [A1 A2 A3 A4 A5 A6 A8 A7]. constructor; auto.
  - destruct A1. constructor; auto.
  - destruct A2. constructor; auto.
  - destruct A3. constructor; auto.
  - destruct A4. constructor; auto.
Qed.

Lemma GO_choose L d s w ren t e n found d1 :
  SIM L d s w ren -> XS L d -> CLR L d s ren -> okp L d (fst t) -> okp L d (fst e) -> ~ In (fst t) L -> ~ In (fst e) L ->
  (if deq e t then (t, true, d) else dunique d i t e) = (n, found, d1) ->
  exists s1 ren1, (if eeq (re d ren t) (re d ren e) then (re d ren e, true, s) else find_or_add s i (re d ren t) (re d ren e))
      = (re d1 ren1 n, found, s1) /\
    GO L d s w ren d1 s1 ren1 /\ okp L d1 (fst n) /\ ~ In (fst n) L.
Proof.
  intros S X E Ot Oe Nt Ne. rewrite (eeq_re L d s w) by auto. rewrite (deq_sym e t).
  destruct (deq t e) eqn:Q.
  - apply deq_iff in Q as <-. intros H. apply pair_equal_spec in H as [H <-]. apply pair_equal_spec in H as [<- <-].
    exists s, ren. split; auto. split; [now apply GO_refl|auto].
  - unfold dunique, find_or_add. rewrite Q, (eeq_re L d s w), Q by auto. change (eneg (re d ren t)) with (snd t).
    destruct (snd t) eqn:Sg.
    + destruct (dfindadd d i (dnot t) (dnot e)) as [[a f] d0] eqn:F. intros H. apply pair_equal_spec in H as [H <-]. apply pair_equal_spec in H as [<- <-].
      destruct (GO_findadd L d s w ren (dnot t) (dnot e) a f d0 S X E Ot Oe Nt Ne F) as (s1 & ren1 & U & G & Ia & Nl).
      rewrite !re_dnot in U. rewrite U. exists s1, ren1. split; [reflexivity|]. split; [now apply GO_bump|]. split; [right; exact Ia|exact Nl].
    + destruct (dfindadd d i t e) as [[a f] d0] eqn:F. intros H. apply pair_equal_spec in H as [H <-]. apply pair_equal_spec in H as [<- <-].
      destruct (GO_findadd L d s w ren t e a f d0 S X E Ot Oe Nt Ne F) as (s1 & ren1 & U & G & Ia & Nl).
      rewrite U. exists s1, ren1. split; [reflexivity|]. split; [now apply GO_bump|]. split; [right; exact Ia|exact Nl].
Qed.
End Swap.
