(** Breadth-first reordering: an invariant of whole passes. *)
From Coq Require Import NArith ZArith List Bool Lia Permutation.
From Verif Require Import Base BFModel StoreInv MgrModel ApiModel ReorderModel ReorderProof ReorderStep ReorderRen ReorderInit ReorderBack
  PackModel BFReorderModel BFReorderSim BFReorderSwap BFReorderMove BFReorderNode BFReorderExch BFReorderPass BFReorderFree.
Import ListNotations.
Open Scope N_scope.

(** Two associations with corresponding images. *)
Definition arelP (Q : edge -> edge -> Prop) (a a' : assoc) : Prop :=
  aid a' = aid a /\ arc a' = arc a /\ alast a' = alast a /\
  forall i, match amap a i, amap a' i with Some e, Some e' => Q e e' | None, None => True | _, _ => False end.
Lemma arelP_fixup Q o i j a a' : arelP Q a a' -> arelP Q (fixup_assoc o i j a) (fixup_assoc o i j a').
Proof.
  intros (A1 & A2 & A3 & A4).
  assert (N : forall i, isnone (amap a' i) = isnone (amap a i)).
  { intros v. specialize (A4 v). destruct (amap a v), (amap a' v); try tauto; reflexivity. }
  unfold fixup_assoc. rewrite A3, !N.
  repeat match goal with |- context [if ?z then _ else _] => destruct z end; repeat split; cbn [aid arc alast amap]; auto; congruence.
Qed.
Lemma arelP_imp (Q Q' : edge -> edge -> Prop) a a' :
  (forall i e e', amap a i = Some e -> Q e e' -> Q' e e') -> arelP Q a a' -> arelP Q' a a'.
Proof.
  intros H (A1 & A2 & A3 & A4). repeat split; auto. intros i. specialize (A4 i). specialize (H i).
  destruct (amap a i), (amap a' i); auto.
Qed.
Lemma Forall2_imp_in {A B} (R R' : A -> B -> Prop) l k : (forall x y, In x l -> R x y -> R' x y) -> Forall2 R l k -> Forall2 R' l k.
Proof. intros H F. induction F; constructor; auto; [apply H; auto; now left|]. apply IHF. intros; apply H; auto. now right. Qed.
Lemma Forall2_map2 {A B} (R : A -> B -> Prop) f g l k : (forall x y, R x y -> R (f x) (g y)) -> Forall2 R l k -> Forall2 R (map f l) (map g k).
Proof. intros H F. induction F; cbn [map]; constructor; auto. Qed.

Section Inv.
Variable c1 : cell.
Hypothesis C1 : eptr (ce c1) <> 0 /\ cr c1 = MAXREF.
Variables (Mx : N -> N -> bool) (x : N -> Z) (r0 : rst) (D0 : den) (f0 : N -> list N).
Hypothesis Hx : forall b, (0 <= x b)%Z.
Hypothesis HIM : forall a i e, In a (rtemp r0 :: rassoc r0) -> amap a i = Some e -> okp [] (rd r0) (eptr e) /\ (0 < x (eptr e))%Z.
Notation SIM := (SIM c1).

(** The nodes of the variables themselves. *)
Definition isvar (v b : N) : Prop := v <> 0 /\ In b (dtab (rd r0) v) /\ (0 < x b)%Z /\ dt (dm (rd r0) b) = (ONE, false) /\ de (dm (rd r0) b) = (ONE, true).
Definition img (d : dst) (m : memory) (w : N -> list N) (ren : N -> N) (e e' : edge) : Prop := rs m w e' (re d ren (eptr e, eneg e)).

Record BI (r : rst) (D1 : den) (ren : N -> N) (b : bst) : Prop := {
  bi_sw : exists sw, r = fold_left (exchange_at Mx) sw r0;
  bi_ri : RI Mx x r0 D0 r D1;
  bi_sim : SIM [] (rd r) (bs b) (bw b) ren;
  bi_o : bo b = ro r;
  bi_t : arelP (img (rd r) (mem (bs b)) (bw b) ren) (rtemp r) (btemp b);
  bi_a : Forall2 (arelP (img (rd r) (mem (bs b)) (bw b) ren)) (rassoc r) (bassoc b);
  bi_v : forall v a, isvar v a -> ren a = a
}.

Lemma ri_image r D1 a i e : RI Mx x r0 D0 r D1 -> In a (rtemp r :: rassoc r) -> amap a i = Some e -> okp [] (rd r) (eptr e) /\ (0 < x (eptr e))%Z.
Proof.
  intros [W P X R G Nx [T1 T2] [A1 A2]] Ia Ea.
  assert (exists a0, In a0 (rtemp r0 :: rassoc r0) /\ asame a0 a) as (a0 & I0 & (_ & S2 & _)).
  { destruct Ia as [<-|Ia]; [exists (rtemp r0); split; [now left|auto]|].
    clear - A1 Ia. induction A1 as [|y z l l' Hyz H IH]; [destruct Ia|]. destruct Ia as [<-|Ia].
    - exists y. split; [right; now left|auto].
    - destruct (IH Ia) as (c & [Ic|Ic] & Sc); exists c; split; auto; [now left|right; now right]. }
  rewrite S2 in Ea. destruct (HIM a0 i e I0 Ea) as [O Q]. split; auto. apply (gx_D _ _ _ _ _ G); auto.
Qed.
Lemma xs_ri r D1 : RI Mx x r0 D0 r D1 -> XS [] (rd r).
Proof. intros R. exact (XI_XS _ _ _ _ _ _ _ (ri_xi _ _ _ _ _ _ R)). Qed.

(** A change of the memory. *)
Lemma BI_mem r D1 ren b s' : BI r D1 ren b -> SIM [] (rd r) s' (bw b) ren -> keeps (rd r) (bs b) (bw b) ren s' (bw b) ->
  BI r D1 ren (set_bs b s').
Proof.
  intros B S K. pose proof B as [B1 B2 B3 B4 B5 B6 B7]. constructor; cbn [set_bs bs bw bo btemp bassoc]; auto.
  - eapply arelP_imp; [|exact B5]. intros i e e' Ee R. apply K; auto. cbn [fst]. eapply ri_image; eauto. now left.
  - eapply Forall2_imp_in; [|exact B6]. intros a a' Ia. apply arelP_imp. intros i e e' Ee R. apply K; auto. cbn [fst]. eapply ri_image; eauto. now right.
Qed.

Lemma BI_bswap r D1 ren b k flag b' : BI r D1 ren b -> bswap Mx k flag b = Ok b' -> exists r' D' ren', BI r' D' ren' b'.
Proof.
  intros B H. pose proof B as [[sw B1] B2 B3 B4 B5 B6 B7]. unfold bswap in H. rewrite B4 in H.
  destruct (nth_error (ord (ro r)) (N.to_nat k)) as [i|] eqn:Hi; [|injection H as <-; eauto].
  destruct (nth_error (ord (ro r)) (S (N.to_nat k))) as [j|] eqn:Hj; [|injection H as <-; eauto].
  cbv zeta in H.
  match type of H with obind ?z _ = _ => destruct z as [[s' w']| |] eqn:Ex; cbn [obind fst snd] in H; try discriminate end.
  injection H as <-.
  destruct (exchange_at_spec Mx x Hx r0 D0 r D1 k B2) as [D' R'].
  destruct (ri_xr _ _ _ _ _ _ B2) as [P XRr].
  destruct (sim_exchange c1 C1 (ro r) k i j Mx (ri_wfo _ _ _ _ _ _ B2) Hi Hj D1 (rd r) P x 0 0 (bs b) (bw b) ren flag s' w'
              (ri_xi _ _ _ _ _ _ B2) XRr Hx B3 Ex) as (ren' & S' & K' & V').
  assert (ER : exchange_at Mx r k = RS (exchange Mx (rd r) i j) (swap_order (ro r) k i j)
         (fixup_assoc (ro r) i j (rtemp r)) (map (fixup_assoc (ro r) i j) (rassoc r))).
  { unfold exchange_at. now rewrite Hi, Hj. }
  assert (KI : forall a v e e', In a (rtemp r :: rassoc r) -> amap a v = Some e -> img (rd r) (mem (bs b)) (bw b) ren e e' ->
     img (exchange Mx (rd r) i j) (mem s') w' ren' e e').
  { intros a v e e' Ia Ea Q. unfold img. apply K'; auto; cbn [fst].
    - eapply ri_image; eauto.
    - assert (exists a2, In a2 (rtemp (exchange_at Mx r k) :: rassoc (exchange_at Mx r k)) /\ amap a2 v = Some e) as (a2 & I2 & E2).
      { rewrite ER. cbn [rtemp rassoc]. exists (fixup_assoc (ro r) i j a). split.
        - destruct Ia as [<-|Ia]; [now left|right; now apply in_map].
        - destruct (fixup_same (ro r) i j a) as (_ & -> & _). exact Ea. }
      destruct (ri_image _ _ a2 v e R' I2 E2) as [O _]. rewrite ER in O. exact O. }
  exists (exchange_at Mx r k), D', ren'. rewrite ER in *. constructor; cbn [bs bw bo btemp bassoc rd ro rtemp rassoc]; auto.
  - exists (sw ++ [k]). rewrite fold_left_app. cbn [fold_left]. rewrite <- B1. now rewrite ER.
  - apply arelP_fixup. eapply arelP_imp; [|exact B5]. intros v e e' Ee Q. eapply KI; eauto. now left.
  - apply Forall2_map2; [intros; now apply arelP_fixup|].
    eapply Forall2_imp_in; [|exact B6]. intros a a' Ia. apply arelP_imp. intros v e e' Ee Q. eapply KI; eauto. now right.
  - intros v a Va. pose proof (B7 v a Va) as V5. destruct Va as (v0 & V1 & V2 & V3 & V4).
    destruct (gx_v _ _ _ _ _ (ri_gx _ _ _ _ _ _ B2) v a v0 V1 V2 V3 V4) as (T1 & T2 & T3).
    assert (Q : ren' a = ren a); [|congruence]. apply V'; [left; eauto|now rewrite T2|now rewrite T3].
Qed.
Lemma ord_nz r D1 i : RI Mx x r0 D0 r D1 -> In i (ord (ro r)) -> i <> 0.
Proof. intros R Ii. exact (proj1 (wfo_in _ i (ri_wfo _ _ _ _ _ _ R) Ii)). Qed.
Lemma BI_cof r D1 ren b i b' : BI r D1 ren b -> In i (ord (bo b)) -> fix_cofactors b i = Ok b' ->
  BI r D1 ren b' /\ (forall a, In a (dtab (rd r) i) -> raw (rd r) (bs b') ren a) /\
  (forall a, inn [] (rd r) a -> raw (rd r) (bs b) ren a -> raw (rd r) (bs b') ren a).
Proof.
  intros B Ii H. unfold fix_cofactors in H. cbv zeta in H. destruct (forallb _ _) eqn:G; [|discriminate]. injection H as <-.
  rewrite (bi_o _ _ _ _ B) in Ii. pose proof (bi_ri _ _ _ _ B) as R.
  destruct (sim_cof c1 C1 (rd r) (bs b) (bw b) ren i (ord_nz _ _ _ R Ii) (xs_ri _ _ R) (bi_sim _ _ _ _ B) G) as (S & K & A1 & A2).
  split; [now apply BI_mem|]. split; auto.
Qed.
Lemma BI_straighten r D1 ren ids b b' : BI r D1 ren b -> straighten ids b = Ok b' -> BI r D1 ren b'.
Proof.
  intros B H. unfold straighten in H.
  destruct (fold_left _ _ _) as [m| |] eqn:F; cbn [obind] in H; try discriminate. injection H as <-.
  destruct (sim_straight c1 C1 (rd r) (bw b) ren (S (nforwarded b)) (flat_map (bw b) (rev ids)) (bs b) m) as [S K]; auto.
  - intros a Ia. apply in_flat_map in Ia as (v & _ & Ia). now exists v.
  - exact (xs_ri _ _ (bi_ri _ _ _ _ B)).
  - exact (bi_sim _ _ _ _ B).
  - now apply BI_mem.
Qed.
Lemma cofs_stuck (l : list N) (q : outcome bst) : (forall b, q <> Ok b) -> fold_left (fun r i => obind r (fun b => fix_cofactors b i)) l q = q.
Proof. intros H. induction l as [|a l IH]; cbn [fold_left]; auto. destruct q as [p| |]; [destruct (H p); auto| |]; exact IH. Qed.
Lemma BI_cofs r D1 ren : forall l b b', BI r D1 ren b -> (forall i, In i l -> In i (ord (bo b))) ->
  fold_left (fun q i => obind q (fun b => fix_cofactors b i)) l (Ok b) = Ok b' ->
  BI r D1 ren b' /\ (forall i a, In i l -> In a (dtab (rd r) i) -> raw (rd r) (bs b') ren a) /\
  (forall a, inn [] (rd r) a -> raw (rd r) (bs b) ren a -> raw (rd r) (bs b') ren a).
Proof.
  induction l as [|i l IH]; intros b b' B Hl H; cbn [fold_left] in H.
  - injection H as <-. split; auto. split; [intros i a []|auto].
  - cbn [obind] in H. destruct (fix_cofactors b i) as [b1| |] eqn:E.
    2,3: rewrite cofs_stuck in H by congruence; discriminate.
    assert (Ii : In i (ord (bo b))) by (apply Hl; now left).
    destruct (BI_cof _ _ _ _ _ _ B Ii E) as (B1 & R1 & K1).
    assert (Eo : bo b1 = bo b) by (rewrite (bi_o _ _ _ _ B1), (bi_o _ _ _ _ B); reflexivity).
    destruct (IH b1 b' B1) as (B2 & R2 & K2); auto.
    { intros v Iv. rewrite Eo. apply Hl. now right. }
    split; auto. split.
    + intros v a [<-|Iv] Ia; [|eauto]. apply K2; auto. rewrite (bi_o _ _ _ _ B) in Ii. left. exists i. split; auto.
      exact (ord_nz _ _ _ (bi_ri _ _ _ _ B) Ii).
    + intros a Na Ra. apply K2; auto.
Qed.

Lemma BI_finish r D1 ren b b' : BI r D1 ren b -> finish_pass b = Ok b' -> BI r D1 ren b' /\ bw b' = fun _ => [].
Proof.
  intros B H. unfold finish_pass in H.
  destruct (fold_left _ _ (Ok b)) as [b1| |] eqn:F; cbn [obind] in H; try discriminate.
  destruct (BI_cofs r D1 ren _ b b1 B (fun i Ii => proj2 (in_rev _ i) Ii) F) as (B1 & R1 & _).
  pose proof B1 as [I1 I2 I3 I4 I5 I6 I7].
  assert (Eo : bo b = ro r) by exact (bi_o _ _ _ _ B). rewrite Eo in R1.
  pose proof (xs_ri _ _ I2) as X. pose proof (ri_xi _ _ _ _ _ _ I2) as XX.
  cbv zeta in H. match type of H with (if ?z then _ else _) = _ => destruct z eqn:G; [|discriminate] end. injection H as <-.
  apply andb_true_iff in G as [G1 G2]. rewrite forallb_forall in G1, G2.
  rewrite (si_0 _ _ _ _ _ _ I3) in *.
  destruct (sim_user c1 C1 (rd r) (bw b1) ren X (dtab (rd r) 0) (bs b1) (fun u Hu => Hu) I3) as (S2 & K2 & N2).
  set (m2 := fold_left fix_user (dtab (rd r) 0) (mem (bs b1))) in *.
  assert (RA : forall a, inn [] (rd r) a -> raw (rd r) (set_mem (bs b1) m2) ren a).
  { intros a Na. unfold raw. rewrite (N2 a Na). pose proof (x_ord _ _ _ _ _ _ _ XX a Na) as Io.
    destruct Na as [(v & Nv & Iv)|[]]. rewrite (proj1 (xs_tab _ _ X v a Iv)) in Io. apply (R1 v); auto. now apply -> in_rev. }
  assert (RU : forall u, In u (dtab (rd r) 0) -> ct (m2 u) = re (rd r) ren (dt (dm (rd r) u))).
  { intros u Iu. destruct (si_us _ _ _ _ _ _ S2 u Iu) as (Q & _). cbn [mem set_mem] in Q.
    eapply rs_raw; [exact Q|]. specialize (G1 u Iu). now apply negb_true_iff in G1. }
  pose proof (sim_reclaim c1 C1 (rd r) (set_mem (bs b1) m2) (bw b1) ren X S2 RA RU) as S3.
  assert (KI : forall a a', In a (rtemp r :: rassoc r) -> arelP (img (rd r) (mem (bs b1)) (bw b1) ren) a a' ->
     good_images (bo b1) m2 (fix_images m2 a') = true -> arelP (img (rd r) m2 (fun _ => []) ren) a (fix_images m2 a')).
  { intros a a' Ia (A1 & A2 & A3 & A4) Gd. repeat split; cbn [fix_images aid arc alast]; auto.
    intros i. specialize (A4 i). unfold fix_images. cbn [amap]. destruct (amap a i) as [e|] eqn:Ea, (amap a' i) as [e'|] eqn:Ea'; auto.
    destruct (ri_image r D1 a i e I2 Ia Ea) as [O _].
    assert (Ii : In i (ord (bo b1))).
    { rewrite I4. destruct (ri_t _ _ _ _ _ _ I2) as [_ TA]. destruct (ri_a _ _ _ _ _ _ I2) as [_ AA].
      destruct Ia as [<-|Ia]; [exact (proj1 (al_le _ _ TA i e Ea))|]. rewrite Forall_forall in AA. exact (proj1 (al_le _ _ (AA a Ia) i e Ea)). }
    unfold good_images in Gd. rewrite forallb_forall in Gd. specialize (Gd i Ii). unfold fix_images in Gd. cbn [amap] in Gd. rewrite Ea' in Gd.
    apply negb_true_iff in Gd. unfold img in *.
    assert (Q : rs m2 (bw b1) (fwd m2 e') (re (rd r) ren (eptr e, eneg e))).
    { apply rs_step. exact (K2 e' (eptr e, eneg e) O A4). }
    rewrite (rs_raw _ _ _ _ Q Gd). apply rs_end. unfold re. cbn [eptr fst]. exact (okp_nf c1 C1 _ _ _ _ _ _ S2 O). }
  split; [|reflexivity]. constructor; cbn [bs bw bo btemp bassoc]; auto.
  - apply KI; [now left|exact I5|]. apply G2. now left.
  - assert (G3 : forall a, In a (map (fix_images m2) (bassoc b1)) -> good_images (bo b1) m2 a = true) by (intros a Ia; apply G2; now right).
    clear - KI I6 G3. assert (In3 : forall a, In a (rassoc r) -> In a (rtemp r :: rassoc r)) by (intros; now right).
    revert I6 G3 In3. generalize (rassoc r) at 1 2 4. generalize (bassoc b1). intros l' l F. induction F as [|a a' l l' Ha F IH]; intros G3 In3; cbn [map]; constructor.
    + apply KI; auto; [apply In3; now left|]. apply G3. now left.
    + apply IH; [intros; apply G3; now right|intros; apply In3; now right].
Qed.

(** *** The search *)
Definition some_BI (b : bst) : Prop := (exists r D1 ren, BI r D1 ren b) /\ FK f0 b.
Lemma some_bswap b k flag b' : some_BI b -> bswap Mx k flag b = Ok b' -> some_BI b'.
Proof. intros [(r & D1 & ren & B) F] H. split; [exact (BI_bswap _ _ _ _ _ _ _ B H)|]. eapply FK_bswap; eauto. Qed.
Lemma some_swaps l b b' : some_BI b -> swaps Mx l b = Ok b' -> some_BI b'.
Proof.
  unfold swaps. revert b. induction l as [|p l IH]; intros b B H; cbn [fold_left] in H; [now injection H as <-|].
  cbn [obind] in H. destruct (bswap Mx (fst p) (snd p) b) as [b1| |] eqn:E.
  - eapply IH; [|exact H]. eapply some_bswap; eauto.
  - exfalso. clear - H. induction l as [|q l IH]; cbn [fold_left obind] in H; [discriminate|auto].
  - exfalso. clear - H. induction l as [|q l IH]; cbn [fold_left obind] in H; [discriminate|auto].
Qed.
Lemma some_straighten ids b b' : some_BI b -> straighten ids b = Ok b' -> some_BI b'.
Proof. intros [(r & D1 & ren & B) F] H. split; [|eapply FK_straighten; eauto]. exists r, D1, ren. eapply BI_straighten; eauto. Qed.
Lemma some_cof b i b' : some_BI b -> In i (ord (bo b)) -> fix_cofactors b i = Ok b' -> some_BI b'.
Proof. intros [(r & D1 & ren & B) F] Ii H. split; [|eapply FK_cof; eauto]. exists r, D1, ren. eapply BI_cof; eauto. Qed.

Lemma some_window2 k b q : some_BI b -> window2 Mx k b = Ok q -> some_BI (fst q).
Proof.
  intros B H. unfold window2 in H. cbv zeta in H. apply obind_ok in H as (b1 & H1 & H).
  pose proof (some_bswap _ _ _ _ B H1) as B1. apply obind_ok in H as (b2 & H2 & H).
  assert (B2 : some_BI b2).
  { destruct (bsize b <? bsize b1); [exact (some_bswap _ _ _ _ B1 H2)|injection H2 as <-; exact B1]. }
  apply obind_ok in H as (b3 & H3 & H). injection H as <-. cbn [fst]. exact (some_straighten _ _ _ B2 H3).
Qed.
Lemma some_window3 k b q : some_BI b -> window3 Mx k b = Ok q -> some_BI (fst q).
Proof.
  intros B H. unfold window3 in H. cbv zeta in H. apply obind_ok in H as (b1 & H1 & H).
  pose proof (some_bswap _ _ _ _ B H1) as B1. destruct (if bsize b1 <? bsize b then (1, bsize b1) else (0, bsize b)) as [t1 z1].
  apply obind_ok in H as (b2 & H2 & H). pose proof (some_bswap _ _ _ _ B1 H2) as B2. destruct (if bsize b2 <? z1 then _ else _) as [t2 z2].
  apply obind_ok in H as (b3 & H3 & H). pose proof (some_bswap _ _ _ _ B2 H3) as B3. destruct (if bsize b3 <=? z2 then _ else _) as [t3 z3].
  apply obind_ok in H as (b4 & H4 & H). pose proof (some_bswap _ _ _ _ B3 H4) as B4. destruct (if bsize b4 <=? z3 then _ else _) as [t4 z4].
  apply obind_ok in H as (b5 & H5 & H). pose proof (some_bswap _ _ _ _ B4 H5) as B5. destruct (if bsize b5 <=? z4 then _ else _) as [t5 z5].
  apply obind_ok in H as (b6 & H6 & H). pose proof (some_swaps _ _ _ B5 H6) as B6.
  apply obind_ok in H as (b7 & H7 & H).
  assert (B7 : some_BI b7).
  { destruct ((t5 =? 0) || (t5 =? 3)); [|injection H7 as <-; exact B6].
    destruct (nth_error (ord (bo b6)) k) as [i|] eqn:Ei; [|injection H7 as <-; exact B6].
    exact (some_cof _ _ _ B6 (nth_error_In _ _ Ei) H7). }
  apply obind_ok in H as (b8 & H8 & H). injection H as <-. cbn [fst]. exact (some_straighten _ _ _ B7 H8).
Qed.
Definition some_3 (q : pst3) : Prop := some_BI (fst (fst q)).
Lemma some_one_window lim k q q' : some_3 q -> one_window Mx lim (Ok q) k = Ok q' -> some_3 q'.
Proof.
  destruct q as [[b lv] any]. unfold some_3. cbn [fst]. intros B H. unfold one_window in H. cbn [obind] in H.
  destruct (lv k); [|injection H as <-; exact B].
  apply obind_ok in H as ([b1 moved] & H1 & H).
  assert (B1 : some_BI b1).
  { destruct (k <? length (ord (bo b)) - 2)%nat.
    - apply obind_ok in H1 as (q & Hq & H1). destruct (lim <? _); [discriminate|]. injection H1 as ->. exact (some_window3 _ _ _ B Hq).
    - exact (some_window2 _ _ _ B H1). }
  destruct moved; injection H as <-; exact B1.
Qed.
Lemma one_window_stuck lim l (q : outcome pst3) : (forall p, q <> Ok p) -> fold_left (one_window Mx lim) l q = q.
Proof. intros H. induction l as [|a l IH]; cbn [fold_left]; auto. destruct q as [p| |]; [destruct (H p); auto| |]; exact IH. Qed.
Lemma some_windows lim : forall l q q', some_3 q -> fold_left (one_window Mx lim) l (Ok q) = Ok q' -> some_3 q'.
Proof.
  induction l as [|k l IH]; intros q q' B H; cbn [fold_left] in H; [injection H as <-; exact B|].
  destruct (one_window Mx lim (Ok q) k) as [q1| |] eqn:E.
  - eapply IH; [eapply some_one_window; eauto|exact H].
  - rewrite one_window_stuck in H by congruence. discriminate.
  - rewrite one_window_stuck in H by congruence. discriminate.
Qed.
Definition clean_BI (b : bst) : Prop := some_BI b /\ bw b = fun _ => [].
Lemma some_pass lim b lv q : some_BI b -> one_pass Mx lim b lv = Ok q -> clean_BI (fst (fst q)).
Proof.
  intros B H. unfold one_pass in H. apply obind_ok in H as ([[b1 lv1] any] & H1 & H).
  assert (B1 : some_BI b1) by exact (some_windows lim _ (b, lv, false) (b1, lv1, any) B H1).
  apply obind_ok in H as (b2 & H2 & H). injection H as <-. cbn [fst]. destruct B1 as [(r & D1 & ren & B1) F1].
  destruct (BI_finish _ _ _ _ _ B1 H2) as [B2 W]. split; [|exact W]. split; [eauto|]. eapply FK_finish; eauto.
Qed.
Theorem passes_BI lim : forall n b lv b', some_BI b -> passes n Mx lim b lv = Ok b' -> clean_BI b'.
Proof.
  induction n as [|n IH]; intros b lv b' B H; cbn [passes] in H; [discriminate|].
  apply obind_ok in H as ([[b1 lv1] any] & H1 & H). pose proof (some_pass _ _ _ _ B H1) as Q. cbn [fst] in Q.
  destruct any; [|injection H as <-; exact Q]. eapply IH; [|exact H]. exact (proj1 Q).
Qed.
End Inv.
