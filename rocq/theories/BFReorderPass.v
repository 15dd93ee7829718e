(** Breadth-first reordering: the repair of edges and whole passes. *)
From Coq Require Import NArith ZArith List Bool Lia Permutation.
From Verif Require Import Base BFModel StoreInv MgrModel ApiModel ReorderModel ReorderProof ReorderStep ReorderRen ReorderInit ReorderBack
  PackModel BFReorderModel BFReorderSim BFReorderSwap BFReorderMove BFReorderNode BFReorderExch.
Import ListNotations.
Open Scope N_scope.

(** *** Straightening the chains of forwardings *)
Lemma follow_rs m w : forall n e x e', follow n m e = Some x -> rs m w e e' -> x = e'.
Proof.
  induction n as [|n IH]; intros e x e' F R; cbn [follow] in F; [discriminate|].
  destruct (forwarded m e) eqn:Fe.
  - eapply IH; [exact F|]. now apply rs_step.
  - injection F as <-. eapply rs_raw; eauto.
Qed.
Lemma rs_straight m w a n x : follow n m (ct (m a)) = Some x -> forall e e', rs m w e e' ->
  rs (upd m a (C x (ce (m a)) (cr (m a)))) w e e'.
Proof.
  intros F. set (m' := upd m a _).
  assert (CE : forall b, ce (m' b) = ce (m b)).
  { intros b. unfold m', upd. destruct (N.eqb_spec b a) as [->|_]; reflexivity. }
  intros e e' R. induction R as [e H|e e' Hw H0 R IH].
  - apply rs_end. now rewrite CE.
  - destruct (N.eq_dec (eptr e) a) as [Ea|Na].
    + apply rs_fwd; auto; [now rewrite CE|]. rewrite Ea in *. unfold m' at 2. rewrite upd_same'. cbn [ct].
      assert (Q : rs m w (ct (m a)) (ephase e' (eneg e))).
      { apply (rs_phase _ _ _ _ (eneg e)) in R. rewrite eph_eph in R. replace (xorb (eneg e) (eneg e)) with false in R by (now destruct (eneg e)).
        replace (ephase (ct (m a)) false) with (ct (m a)) in R; auto. destruct (ct (m a)) as [u v z]. unfold ephase. cbn. now destruct z. }
      rewrite (follow_rs m w n _ _ _ F Q), eph_eph.
      replace (ephase e' (xorb (eneg e) (eneg e))) with e'.
      * apply rs_end. rewrite CE. eapply rs_end_nf; eauto.
      * destruct e' as [u v z]. unfold ephase. cbn. destruct z, (eneg e); reflexivity.
    + apply rs_fwd; auto; [now rewrite CE|]. unfold m' at 2. rewrite upd_other' by auto. exact IH.
Qed.

Section Pass.
Variable c1 : cell.
Hypothesis C1 : eptr (ce c1) <> 0 /\ cr c1 = MAXREF.
Notation SIM := (SIM c1).

Definition keeps (d : dst) (s : store) (w : N -> list N) (ren : N -> N) (s' : store) (w' : N -> list N) : Prop :=
  forall e p, okp [] d (fst p) -> rs (mem s) w e (re d ren p) -> rs (mem s') w' e (re d ren p).

Lemma sim_straight1 d w ren n a : inw w a -> forall s m', XS [] d -> SIM [] d s w ren ->
  straight1 n (Ok (mem s)) a = Ok m' -> SIM [] d (set_mem s m') w ren /\ keeps d s w ren (set_mem s m') w.
Proof.
  intros Wa s m' X S H. unfold straight1 in H. cbn [obind] in H.
  destruct (follow n (mem s) (ct (mem s a))) as [x|] eqn:F; [|discriminate]. injection H as <-.
  pose proof (rs_straight (mem s) w a n x F) as RS. set (m' := upd (mem s) a _) in *.
  assert (MO : forall b, b <> a -> m' b = mem s b) by (intros b Hb; now apply upd_other').
  split; [|intros e p _ R; now apply RS].
  apply (sim_mem c1); auto.
  - intros b Nb. assert (Q : m' (ren b) = mem s (ren b)).
    { apply MO. intros E. pose proof (ren_nw c1 _ _ _ _ _ _ S Nb) as NW. rewrite E in NW. auto. }
    rewrite Q. destruct (si_ch _ _ _ _ _ _ S b Nb). split; auto. split; auto. split; auto. exact (si_nf _ _ _ _ _ _ S b Nb).
  - intros u Iu. rewrite MO; [|intros ->; exact (proj2 (user_rng c1 _ _ _ _ _ _ S Iu) Wa)].
    destruct (si_us _ _ _ _ _ _ S u Iu) as (Q & _). auto.
  - apply MO. assert (2 < a < nx s) by (apply (si_live _ _ _ _ _ _ S); right; now left). unfold ONE. lia.
Qed.
Lemma straight1_stuck n l r : (forall p, r <> Ok p) -> fold_left (straight1 n) l r = r.
Proof. intros H. induction l as [|a l IH]; cbn [fold_left]; auto. destruct r as [p| |]; [destruct (H p); auto| |]; exact IH. Qed.
Lemma keeps_refl d s w ren : keeps d s w ren s w. Proof. intros e p _ R. exact R. Qed.
Lemma keeps_trans d s w ren s1 w1 s2 w2 : keeps d s w ren s1 w1 -> keeps d s1 w1 ren s2 w2 -> keeps d s w ren s2 w2.
Proof. intros A B e p O R. apply B; auto. Qed.
Lemma sim_set_mem d s w ren : SIM [] d s w ren -> SIM [] d (set_mem s (mem s)) w ren.
Proof. intros S. apply (SIM_sext c1 [] d s); auto. Qed.
Lemma sim_straight d w ren n : forall l s m', (forall a, In a l -> inw w a) -> XS [] d -> SIM [] d s w ren ->
  fold_left (straight1 n) l (Ok (mem s)) = Ok m' -> SIM [] d (set_mem s m') w ren /\ keeps d s w ren (set_mem s m') w.
Proof.
  induction l as [|a l IH]; intros s m' Hl X S H; cbn [fold_left] in H.
  - injection H as <-. split; [now apply sim_set_mem|]. intros e p _ R. exact R.
  - destruct (straight1 n (Ok (mem s)) a) as [m1| |] eqn:E1.
    2,3: rewrite straight1_stuck in H by congruence; discriminate.
    destruct (sim_straight1 d w ren n a (Hl a (or_introl eq_refl)) s m1 X S E1) as [S1 K1].
    destruct (IH (set_mem s m1) m' (fun b Hb => Hl b (or_intror Hb)) X S1 H) as [S2 K2].
    split; [exact S2|]. eapply keeps_trans; [exact K1|exact K2].
Qed.

(** *** Nodes whose children are no forwardings *)
Definition raw (d : dst) (s : store) (ren : N -> N) (a : N) : Prop :=
  ct (mem s (ren a)) = re d ren (dt (dm d a)) /\ ce (mem s (ren a)) = re d ren (de (dm d a)).
Lemma fwd_re d s w ren p : SIM [] d s w ren -> okp [] d (fst p) -> fwd (mem s) (re d ren p) = re d ren p.
Proof.
  intros S O. unfold fwd. pose proof (okp_nf c1 C1 _ _ _ _ _ _ S O) as H. apply N.eqb_neq in H. unfold re at 1. cbn [eptr]. now rewrite H.
Qed.
Lemma fixes_raw d w ren a : XS [] d -> inn [] d a -> forall l s, (forall b, In b l -> inn [] d b) -> SIM [] d s w ren -> raw d s ren a ->
  raw d (set_mem s (fold_left fix1 (map ren l) (mem s))) ren a.
Proof.
  intros X Na. induction l as [|b l IH]; intros s Hl S R; cbn [map fold_left]; [exact R|].
  assert (Nb : inn [] d b) by (apply Hl; now left).
  destruct (sim_fix1 c1 C1 [] d s w ren b X S Nb) as [S1 _].
  apply (IH (set_mem s (fix1 (mem s) (ren b)))); auto; [intros; apply Hl; now right|].
  unfold raw. cbn [mem set_mem]. unfold fix1, upd. destruct (N.eqb_spec (ren a) (ren b)) as [E|_]; [|exact R].
  assert (a = b) by (apply (si_inj _ _ _ _ _ _ S); auto). subst b. unfold fixc. cbn [ct ce].
  destruct R as [-> ->]. destruct (xs_ch _ _ X a Na). split; eapply fwd_re; eauto.
Qed.
Lemma sim_cof d s w ren i : i <> 0 -> XS [] d -> SIM [] d s w ren ->
  forallb (clean (fold_left fix1 (ut s i) (mem s))) (ut s i) = true ->
  let s' := set_mem s (fold_left fix1 (ut s i) (mem s)) in
  SIM [] d s' w ren /\ keeps d s w ren s' w /\ (forall a, In a (dtab d i) -> raw d s' ren a) /\
  (forall a, inn [] d a -> raw d s ren a -> raw d s' ren a).
Proof.
  intros i0 X S G s'. subst s'. rewrite (si_tab _ _ _ _ _ _ S i i0) in *.
  assert (NI : forall a, In a (dtab d i) -> inn [] d a) by (intros a Ia; left; eauto).
  destruct (sim_fixes c1 C1 [] d w ren X (dtab d i) s S NI) as [S1 T1].
  split; [exact S1|]. split; [|split].
  - intros e p O R. exact (st_keep _ _ _ _ _ _ _ _ _ _ T1 e p O O R).
  - intros a Ia. rewrite forallb_forall in G. specialize (G (ren a) (in_map ren _ _ Ia)).
    exact (clean_raw c1 _ _ _ _ _ a S1 (NI a Ia) G).
  - intros a Na R. eapply fixes_raw; eauto.
Qed.

(** *** User nodes *)
Lemma sim_user d w ren : XS [] d -> forall l s, (forall u, In u l -> In u (dtab d 0)) -> SIM [] d s w ren ->
  let s' := set_mem s (fold_left fix_user l (mem s)) in
  SIM [] d s' w ren /\ keeps d s w ren s' w /\ (forall a, inn [] d a -> mem s' (ren a) = mem s (ren a)).
Proof.
  intros X. induction l as [|u l IH]; intros s Hl S; cbn [fold_left].
  - split; [now apply sim_set_mem|]. split; [intros e p _ R; exact R|auto].
  - assert (Iu : In u (dtab d 0)) by (apply Hl; now left). set (m' := fix_user (mem s) u).
    assert (MO : forall b, b <> u -> m' b = mem s b) by (intros b Hb; now apply upd_other').
    assert (Mu : m' u = C (fwd (mem s) (ct (mem s u))) (ce (mem s u)) (cr (mem s u))) by apply upd_same'.
    assert (CE : forall b, ce (m' b) = ce (mem s b)).
    { intros b. unfold m', fix_user, upd. destruct (N.eqb_spec b u) as [->|_]; reflexivity. }
    destruct (user_rng c1 _ _ _ _ _ _ S Iu) as [Ru Wu].
    assert (RS : forall e e', rs (mem s) w e e' -> rs m' w e e').
    { intros e e' R. eapply rs_frame2; [exact R| |].
      - intros b Hb. rewrite MO; auto. intros ->. auto.
      - rewrite CE. eapply rs_end_nf; eauto. }
    assert (NN : forall a, inn [] d a -> m' (ren a) = mem s (ren a)).
    { intros a Na. apply MO. intros E. apply (si_ru _ _ _ _ _ _ S a Na). now rewrite E. }
    assert (S1 : SIM [] d (set_mem s m') w ren).
    { apply (sim_mem c1); auto.
      - intros b Nb. rewrite (NN b Nb). destruct (si_ch _ _ _ _ _ _ S b Nb). split; auto. split; auto. split; auto. exact (si_nf _ _ _ _ _ _ S b Nb).
      - intros v Iv. destruct (si_us _ _ _ _ _ _ S v Iv) as (Q & _). split; [now rewrite CE|]. destruct (N.eq_dec v u) as [->|Nv].
        + rewrite Mu. cbn [ct cr]. split; auto. apply RS. now apply rs_step.
        + rewrite (MO v Nv). auto.
      - apply MO. unfold ONE. lia. }
    destruct (IH (set_mem s m') (fun v Hv => Hl v (or_intror Hv)) S1) as (S2 & K2 & N2).
    split; [exact S2|]. split.
    + eapply keeps_trans; [|exact K2]. intros e p _ R. now apply RS.
    + intros a Na. etransitivity; [exact (N2 a Na)|]. exact (NN a Na).
Qed.

(** *** The forwardings are given up *)
Lemma rs_none m e e' : rs m (fun _ => []) e e' -> e = e'.
Proof. intros R. inversion R as [|? ? [v []]]; auto. Qed.
Lemma nodup_app {A} (l k : list A) : NoDup l -> NoDup k -> (forall a, In a l -> ~ In a k) -> NoDup (l ++ k).
Proof.
  induction 1 as [|a l Ha Hl IH]; intros Hk Hd; cbn [app]; auto. constructor.
  - intros Q. apply in_app_iff in Q as [Q|Q]; [auto|]. exact (Hd a (or_introl eq_refl) Q).
  - apply IH; auto. intros b Hb. apply Hd. now right.
Qed.
Lemma sim_reclaim d s w ren : XS [] d -> SIM [] d s w ren -> (forall a, inn [] d a -> raw d s ren a) ->
  (forall u, In u (dtab d 0) -> ct (mem s u) = re d ren (dt (dm d u))) ->
  SIM [] d (set_fl s (fun i => w i ++ fl s i)) (fun _ => []) ren.
Proof.
  intros X S Ra Ru.
  assert (RE : forall p, okp [] d (fst p) -> rs (mem s) (fun _ => []) (re d ren p) (re d ren p)).
  { intros p O. apply rs_end. unfold re. cbn [eptr]. eapply okp_nf; eauto. }
  assert (LV : forall x, live [] s (fun _ => []) ren x -> exists v, In x (ut s v)).
  { intros x [H|[[v []]|[]]]; auto. }
  assert (FW : forall v v' x, In x (w v) -> In x (fl s v') -> False).
  { intros v v' x Iw If. apply (proj2 (si_fl _ _ _ _ _ _ S v' x If)). right. left. now exists v. }
  constructor; cbn [mem ut fl nx set_fl].
  - apply S.
  - exact (si_tab _ _ _ _ _ _ S).
  - apply S.
  - apply S.
  - apply S.
  - exact (si_inj _ _ _ _ _ _ S).
  - exact (si_ru _ _ _ _ _ _ S).
  - intros x H. apply (si_live _ _ _ _ _ _ S). left. now apply LV.
  - exact (si_nx _ _ _ _ _ _ S).
  - intros v. apply nodup_app; [exact (si_wn _ _ _ _ _ _ S v)|exact (si_fln _ _ _ _ _ _ S v)|]. intros x A B. eauto.
  - intros v x H. apply in_app_iff in H as [H|H].
    + assert (Hw : inw w x) by (now exists v). split; [apply (si_live _ _ _ _ _ _ S); right; now left|].
      intros Q. apply LV in Q as [v' Q]. exact (proj1 (si_wt _ _ _ _ _ _ S x Hw) v' Q).
    + destruct (si_fl _ _ _ _ _ _ S v x H) as [A B]. split; auto. intros Q. apply B. left. now apply LV.
  - intros v v' x H H'. apply in_app_iff in H as [H|H]; apply in_app_iff in H' as [H'|H'].
    + exact (si_wd _ _ _ _ _ _ S v v' x H H').
    + destruct (FW _ _ _ H H').
    + destruct (FW _ _ _ H' H).
    + exact (si_fld _ _ _ _ _ _ S v v' x H H').
  - intros v. constructor.
  - intros v v' x [].
  - intros x [v []].
  - exact (si_cr _ _ _ _ _ _ S).
  - exact (si_mx _ _ _ _ _ _ S).
  - exact (si_nf _ _ _ _ _ _ S).
  - intros a Na. destruct (Ra a Na) as [-> ->]. destruct (xs_ch _ _ X a Na). auto.
  - intros u Iu. rewrite (Ru u Iu). destruct (si_us _ _ _ _ _ _ S u Iu) as (_ & A & B). split; auto. apply RE. exact (xs_us _ _ X u Iu).
Qed.
End Pass.
