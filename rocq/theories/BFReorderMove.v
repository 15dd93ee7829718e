(** Breadth-first reordering: one node of the upper variable. *)
From Coq Require Import NArith ZArith List Bool Lia Permutation.
From Verif Require Import Base BFModel StoreInv MgrModel ApiModel ReorderModel ReorderProof ReorderStep ReorderRen ReorderInit ReorderBack
  PackModel BFReorderModel BFReorderSim BFReorderSwap.
Import ListNotations.
Open Scope N_scope.

Lemma rs_extend m w m' w' e e' n jj : rs m w e e' ->
  (forall a, inw w a -> ct (m' a) = ct (m a) /\ ce (m' a) = ce (m a)) -> (forall a, inw w a -> inw w' a) ->
  inw w' (eptr e') -> ct (m' (eptr e')) = E jj n false -> ce (m' (eptr e')) = efwd -> eptr (ce (m' n)) <> 0 ->
  rs m' w' e (E jj n (eneg e')).
Proof.
  intros H F Hi Hw T1 T2 Tn. induction H as [e H|e e' Hw' H0 H IH].
  - apply rs_fwd; auto; [now rewrite T2|]. rewrite T1. unfold ephase. cbn [eid eptr eneg]. rewrite xorb_false_l. apply rs_end. exact Tn.
  - destruct (F (eptr e)) as [F1 F2]; auto. apply rs_fwd; auto; [now rewrite F2|]. rewrite F1. auto.
Qed.

Section Move.
Variable c1 : cell.
Hypothesis C1 : eptr (ce c1) <> 0 /\ cr c1 = MAXREF.
Notation SIM := (SIM c1).
Variables (i j : N).
Hypothesis j0 : j <> 0.

Lemma sim_move L d s w ren f n1 n0 n s1 d' s' :
  XS (f :: L) d -> SIM (f :: L) d s w ren -> okp (f :: L) d (fst n1) -> okp (f :: L) d (fst n0) -> fst n1 <> f -> fst n0 <> f ->
  alloc s j = (n, s1) ->
  dm d' = upd (dm d) f (DN j (drc (dm d f)) n1 n0) -> dtab d' = upd (dtab d) j (f :: dtab d j) ->
  (forall x, mem s' x = if x =? n then C (re d ren n1) (re d ren n0) (cr (mem s (ren f)))
                        else if x =? ren f then C (E j n false) efwd (cr (mem s (ren f))) else mem s x) ->
  ut s' = upd (ut s) j (n :: ut s j) -> fl s' = fl s1 -> nx s' = nx s1 ->
  let w' := upd w i (ren f :: w i) in
  let ren' := upd ren f n in
  SIM L d' s' w' ren' /\ STEP (f :: L) d s w ren L d' s' w' ren' /\ (forall p, fst p <> f -> re d' ren' p = re d ren p) /\
  (forall a, inn L d' a <-> inn (f :: L) d a) /\ n <> ren f /\ (forall a, inn (f :: L) d a -> a <> f -> mem s' (ren a) = mem s (ren a)).
Proof.
  intros X S O1 O0 Nf1 Nf0 SA Dm Dt MM St Sf Sx w' ren'.
  destruct (alloc_fresh c1 C1 _ _ _ _ _ _ _ _ S SA) as (Fb & Rb & S2 & S3 & _ & _ & S5 & S6).
  assert (Hf : inn (f :: L) d f) by (right; now left).
  pose proof (xs_ndL _ _ X) as NDL. inversion NDL as [|? ? NfL ND']; subst.
  assert (NfT : forall v, ~ In f (dtab d v)) by (intros v Iv; apply (xs_tab _ _ X v f) in Iv; apply Iv; now left).
  assert (IN : forall c, inn L d' c <-> inn (f :: L) d c).
  { intros c. unfold inn. rewrite Dt. split.
    - intros [(u & Hu & Ic)|Ic]; [|right; now right]. unfold upd in Ic. destruct (N.eqb_spec u j) as [Eu|_].
      + destruct Ic as [<-|Ic]; [right; now left|]. left. eauto.
      + left. eauto.
    - intros [(u & Hu & Ic)|[<-|Ic]]; [|left; exists j; split; auto; rewrite upd_same'; now left|now right].
      left. exists u. split; auto. unfold upd. destruct (N.eqb_spec u j) as [->|_]; auto. now right. }
  assert (LF : live (f :: L) s w ren (ren f)) by (eapply ren_live; eauto).
  assert (NF : n <> ren f) by (intros Q; apply Fb; now rewrite Q).
  assert (f1 : f <> ONE) by (eapply xs_inn_nz; eauto).
  assert (Rn : forall c, c <> f -> ren' c = ren c) by (intros c Nc; unfold ren'; now apply upd_other').
  assert (Rf : ren' f = n) by apply upd_same'.
  assert (RE : forall p, fst p <> f -> re d' ren' p = re d ren p).
  { intros p Np. unfold re. rewrite Dm, upd_other', Rn by auto. reflexivity. }
  assert (LN : forall x, live (f :: L) s w ren x -> x <> n) by (intros x Hx ->; auto).
  assert (ML0 : forall x, x <> n -> x <> ren f -> mem s' x = mem s x).
  { intros x A B. rewrite MM. destruct (N.eqb_spec x n); [contradiction|]. destruct (N.eqb_spec x (ren f)); [contradiction|reflexivity]. }
  assert (RF : forall c, inn (f :: L) d c -> c <> f -> ren c <> ren f).
  { intros c Nc Q E. apply Q. exact (si_inj _ _ _ _ _ _ S c f Nc Hf E). }
  assert (ML : forall c, inn (f :: L) d c -> c <> f -> mem s' (ren c) = mem s (ren c)).
  { intros c Nc Q. apply ML0; auto. apply LN. eapply ren_live; eauto. }
  assert (MLo : forall c, okp (f :: L) d c -> c <> f -> mem s' (ren c) = mem s (ren c)).
  { intros c [->|Nc] Q; auto. rewrite (si_one _ _ _ _ _ _ S). apply ML0; [unfold ONE; lia|].
    pose proof (ren_rng c1 _ _ _ _ _ _ S Hf). unfold ONE. lia. }
  assert (MW : forall a, inw w a -> mem s' a = mem s a).
  { intros a Ha. apply ML0; [apply LN; right; now left|]. intros ->. apply (ren_nw c1 _ _ _ _ _ _ S Hf). exact Ha. }
  assert (Mn : mem s' n = C (re d ren n1) (re d ren n0) (cr (mem s (ren f)))) by (rewrite MM, N.eqb_refl; auto).
  assert (Mf : mem s' (ren f) = C (E j n false) efwd (cr (mem s (ren f)))).
  { rewrite MM, N.eqb_refl. destruct (N.eqb_spec (ren f) n) as [Q|_]; [congruence|auto]. }
  assert (IW : forall a, inw w' a <-> a = ren f \/ inw w a).
  { intros a. unfold inw, w'. split.
    - intros (v & Ia). unfold upd in Ia. destruct (N.eqb_spec v i) as [Ev|_]; [destruct Ia as [<-|Ia]; auto|]; right; eauto.
    - intros [->|(v & Ia)]; [exists i; rewrite upd_same'; now left|]. exists v. unfold upd. destruct (N.eqb_spec v i) as [->|_]; auto. now right. }
  assert (RSX : forall g p, okp (f :: L) d (fst p) -> rs (mem s) w g (re d ren p) -> rs (mem s') w' g (re d' ren' p)).
  { intros g p Op H. destruct (N.eq_dec (fst p) f) as [Ef|Nf].
    - replace (re d' ren' p) with (E j n (eneg (re d ren p))).
      2:{ unfold re. cbn [eneg]. rewrite Ef, Rf, Dm, upd_same'. reflexivity. }
      eapply rs_extend; [exact H| | | | | |].
      + intros a Ha. rewrite MW by auto. auto.
      + intros a Ha. apply IW. auto.
      + unfold re. cbn [eptr]. rewrite Ef. apply IW. now left.
      + unfold re. cbn [eptr]. rewrite Ef, Mf. reflexivity.
      + unfold re. cbn [eptr]. rewrite Ef, Mf. reflexivity.
      + rewrite Mn. unfold re. cbn [eptr ce]. eapply okp_ren_nz; eauto.
    - rewrite RE by auto. eapply rs_frame; [exact H| |].
      + intros a [Ha| ->]; [rewrite MW by auto; auto|]. unfold re. cbn [eptr]. rewrite MLo by auto. auto.
      + intros a Ha. apply IW. auto. }
  assert (T0 : dtab d' 0 = dtab d 0) by (rewrite Dt; apply upd_other'; auto).
  assert (Du : forall u, In u (dtab d 0) -> u <> f /\ mem s' u = mem s u).
  { intros u Iu. split; [intros ->; exact (NfT 0 Iu)|]. apply ML0.
    - apply LN. left. exists 0. now rewrite (si_0 _ _ _ _ _ _ S).
    - intros ->. exact (si_ru _ _ _ _ _ _ S f Hf Iu). }
  assert (MLn : map ren' L = map ren L).
  { apply map_ext_in. intros c Ic. apply Rn. intros ->. auto. }
  assert (LV : forall x, live L s' w' ren' x -> x = n \/ live (f :: L) s w ren x).
  { intros x. unfold live. rewrite MLn, St, IW. intros [(u & Iu)|[[->|H]|H]]; auto.
    - unfold upd in Iu. destruct (N.eqb_spec u j) as [Eu|_]; [destruct Iu as [<-|Iu]; auto|]; right; left; eauto.
    - right. right. right. now right. }
  split; [|split; [constructor|split; [exact RE|split; [exact IN|split; [exact NF|exact ML]]]]].
  - constructor.
    + rewrite St, T0. rewrite upd_other' by auto. apply S.
    + intros u Hu. rewrite St, Dt. unfold upd. destruct (N.eqb_spec u j) as [->|Nu].
      * cbn [map]. rewrite Rf. f_equal. rewrite (si_tab _ _ _ _ _ _ S j j0). apply map_ext_in. intros c Ic. symmetry. apply Rn.
        intros ->. exact (NfT j Ic).
      * rewrite (si_tab _ _ _ _ _ _ S u Hu). apply map_ext_in. intros c Ic. symmetry. apply Rn. intros ->. exact (NfT u Ic).
    + rewrite Rn by auto. apply S.
    + rewrite ML0; [apply S|unfold ONE; lia|]. pose proof (ren_rng c1 _ _ _ _ _ _ S Hf). unfold ONE. lia.
    + rewrite Dm, upd_other' by auto. apply S.
    + intros a b. rewrite !IN. intros Ha Hb. destruct (N.eq_dec a f) as [->|Na], (N.eq_dec b f) as [->|Nb]; auto.
      * rewrite Rf, Rn by auto. intros Q. destruct Fb. rewrite Q. eapply ren_live; eauto.
      * rewrite Rf, Rn by auto. intros Q. destruct Fb. rewrite <- Q. eapply ren_live; eauto.
      * rewrite !Rn by auto. now apply S.
    + intros a. rewrite IN, T0. intros Ha. destruct (N.eq_dec a f) as [->|Na].
      * rewrite Rf. intros Q. apply Fb. left. exists 0. now rewrite (si_0 _ _ _ _ _ _ S).
      * rewrite Rn by auto. now apply S.
    + intros x Hx. rewrite Sx. apply LV in Hx as [->|Hx]; [exact Rb|]. apply (si_live _ _ _ _ _ _ S) in Hx. lia.
    + rewrite Sx. pose proof (si_nx _ _ _ _ _ _ S). lia.
    + rewrite Sf. exact S5.
    + intros u x. rewrite Sf, Sx. intros Ix. apply S6 in Ix as [Ix Nx]. destruct (si_fl _ _ _ _ _ _ S u x Ix) as [Q1 Q2].
      split; [lia|]. intros Q. apply LV in Q as [Q|Q]; auto.
    + intros u u' x. rewrite Sf. intros I1 I2. apply S6 in I1 as [I1 _]. apply S6 in I2 as [I2 _]. exact (si_fld _ _ _ _ _ _ S _ _ _ I1 I2).
    + intros v. unfold w', upd. destruct (N.eqb_spec v i) as [->|_]; [|apply S]. constructor; [|apply S].
      intros Q. apply (ren_nw c1 _ _ _ _ _ _ S Hf). exists i. exact Q.
    + assert (NW : forall v, ~ In (ren f) (w v)) by (intros v Q; apply (ren_nw c1 _ _ _ _ _ _ S Hf); exists v; exact Q).
      intros v v' x. unfold w', upd. destruct (N.eqb_spec v i) as [Ev|_], (N.eqb_spec v' i) as [Ev'|_]; try congruence.
      * intros [<-|I1] I2; [destruct (NW _ I2)|]. rewrite Ev. exact (si_wd _ _ _ _ _ _ S _ _ _ I1 I2).
      * intros I1 [<-|I2]; [destruct (NW _ I1)|]. rewrite Ev'. exact (si_wd _ _ _ _ _ _ S _ _ _ I1 I2).
      * intros I1 I2. exact (si_wd _ _ _ _ _ _ S _ _ _ I1 I2).
    + intros x Hx. rewrite MLn. apply IW in Hx as [->|Hx].
      * split.
        -- intros v. rewrite St. assert (Q0 : forall v, ~ In (ren f) (ut s v)).
           { intros u. destruct (N.eq_dec u 0) as [->|Nu].
             - rewrite (si_0 _ _ _ _ _ _ S). exact (si_ru _ _ _ _ _ _ S f Hf).
             - rewrite (si_tab _ _ _ _ _ _ S u Nu). intros Q. apply in_map_iff in Q as (c & Ec & Ic).
               apply (RF c); auto; [left; eauto|]. intros ->. exact (NfT u Ic). }
           unfold upd. destruct (N.eqb_spec v j) as [->|_]; auto. intros [Q|Q]; [congruence|exact (Q0 j Q)].
        -- intros Q. apply in_map_iff in Q as (c & Ec & Ic). apply (RF c); auto; [right; now right|]. intros ->. auto.
      * destruct (si_wt _ _ _ _ _ _ S x Hx) as [Q1 Q2]. split; [|intros Q; apply Q2; now right].
        intros u. rewrite St. unfold upd. destruct (N.eqb_spec u j) as [->|_]; auto.
        intros [<-|Q]; [apply Fb; right; now left|]. exact (Q1 j Q).
    + intros a. rewrite IN, Dm. intros Ha. destruct (N.eq_dec a f) as [->|Na].
      * rewrite Rf, Mn, upd_same'. exact (si_cr _ _ _ _ _ _ S f Ha).
      * rewrite Rn, ML, upd_other' by auto. exact (si_cr _ _ _ _ _ _ S a Ha).
    + intros a. rewrite IN, Dm. intros Ha. destruct (N.eq_dec a f) as [->|Na].
      * rewrite upd_same'. exact (si_mx _ _ _ _ _ _ S f Ha).
      * rewrite upd_other' by auto. exact (si_mx _ _ _ _ _ _ S a Ha).
    + intros a. rewrite IN. intros Ha. destruct (N.eq_dec a f) as [->|Na].
      * rewrite Rf, Mn. cbn [ce re eptr]. eapply okp_ren_nz; eauto.
      * rewrite Rn, ML by auto. exact (si_nf _ _ _ _ _ _ S a Ha).
    + intros a. rewrite IN, Dm. intros Ha. destruct (N.eq_dec a f) as [->|Na].
      * rewrite Rf, Mn, upd_same'. cbn [ct ce dt de]. split; apply RSX; auto; apply (rs_re c1 C1 (f :: L)); auto.
      * rewrite Rn, ML, upd_other' by auto. destruct (xs_ch _ _ X a Ha). destruct (si_ch _ _ _ _ _ _ S a Ha). auto.
    + intros u. rewrite T0. intros Iu. destruct (Du u Iu) as [Nu Mu]. rewrite Mu, Dm, upd_other' by auto.
      destruct (si_us _ _ _ _ _ _ S u Iu) as (Q1 & Q2 & Q3). split; auto. apply RSX; auto. exact (xs_us _ _ X u Iu).
  - intros g p Op _. now apply RSX.
  - intros a Ha H. apply Rn. intros ->. apply NfL. apply H. now left.
Qed.
End Move.
