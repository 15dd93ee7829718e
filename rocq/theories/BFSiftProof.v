(** * Breadth-first sifting keeps the correspondence with depth-first reordering. *)
From Coq Require Import NArith ZArith List Bool Lia Permutation.
From Verif Require Import Base BFModel StoreInv MgrModel ApiModel ReorderModel ReorderProof ReorderStep ReorderRen ReorderInit ReorderBack
  PackModel BFReorderModel BFReorderSim BFReorderSwap BFReorderMove BFReorderNode BFReorderExch BFReorderPass BFReorderFree BFReorderInv BFSiftModel.
Import ListNotations.
Open Scope N_scope.

(** ** Forwardings stay *)
Lemma swap1_mono o k i j s w f s' w' : swap1 o k i j (Ok (s, w)) f = Ok (s', w') -> w' = upd w i (f :: w i).
Proof.
  intros H. unfold swap1 in H. cbn [obind] in H.
  destruct (bcof o k (mem s) (ce (mem s f))) as [f01 f00]. destruct (bcof o k (mem s) (ct (mem s f))) as [f11 f10].
  destruct (_ || _ || _ || _); [discriminate|].
  destruct (if eeq f10 f00 then (f00, true, s) else find_or_add s i f10 f00) as [[n0 b0] s1].
  destruct (if eeq f11 f01 then _ else _) as [[n1 b1] s3]. destruct (alloc _ j) as [n s8]. injection H as _ <-. reflexivity.
Qed.
Lemma swaps_mono o k i j : forall l s w s' w', fold_left (swap1 o k i j) l (Ok (s, w)) = Ok (s', w') -> forall a, inw w a -> inw w' a.
Proof.
  induction l as [|f l IH]; intros s w s' w' H; cbn [fold_left] in H; [now injection H as _ <-|].
  destruct (swap1 o k i j (Ok (s, w)) f) as [[s1 w1]| |] eqn:E.
  - intros a [v Ia]. apply (IH _ _ _ _ H). rewrite (swap1_mono _ _ _ _ _ _ _ _ _ E). exists v. unfold upd. destruct (N.eqb_spec v i) as [Ev|_]; [|exact Ia].
    right. congruence.
  - rewrite swap1_stuck in H by congruence. discriminate.
  - rewrite swap1_stuck in H by congruence. discriminate.
Qed.
Lemma bswap_mono Mx k flag b b' : bswap Mx k flag b = Ok b' -> forall a, inw (bw b) a -> inw (bw b') a.
Proof.
  intros H. unfold bswap in H.
  destruct (nth_error (ord (bo b)) (N.to_nat k)) as [i|] eqn:Hi; [|now injection H as <-].
  destruct (nth_error (ord (bo b)) (S (N.to_nat k))) as [j|] eqn:Hj; [|now injection H as <-].
  cbv zeta in H. apply obind_ok in H as ([s' w'] & Ex & H). injection H as <-. cbn [bw fst snd].
  destruct (Mx i j); [|injection Ex as <- <-; auto].
  match type of Ex with (if ?z then _ else _) = _ => destruct z; [|discriminate] end.
  apply obind_ok in Ex as ([s2 w2] & E2 & Ex). apply obind_ok in Ex as (s3 & E3 & Ex). cbn [fst snd] in E3, Ex. injection Ex as _ <-.
  exact (swaps_mono _ _ _ _ _ _ _ _ _ E2).
Qed.

Section Sift.
Variable c1 : cell.
Hypothesis C1 : eptr (ce c1) <> 0 /\ cr c1 = MAXREF.
Variables (Mx : N -> N -> bool) (x : N -> Z) (r0 : rst) (D0 : den) (f0 : N -> list N).
Hypothesis Hx : forall b, (0 <= x b)%Z.
Hypothesis HIM : forall a i e, In a (rtemp r0 :: rassoc r0) -> amap a i = Some e -> okp [] (rd r0) (eptr e) /\ (0 < x (eptr e))%Z.
Notation BI := (BI c1 Mx x r0 D0).
Notation some_BI := (some_BI c1 Mx x r0 D0 f0).
Notation SIM := (SIM c1).

Lemma some_mem b s' : (forall r D1 ren, BI r D1 ren b -> SIM [] (rd r) s' (bw b) ren /\ keeps (rd r) (bs b) (bw b) ren s' (bw b)) ->
  fl s' = fl (bs b) -> some_BI b -> some_BI (set_bs b s').
Proof.
  intros H Hf [(r & D1 & ren & B) F]. split.
  - exists r, D1, ren. destruct (H _ _ _ B). apply (BI_mem c1 Mx x r0 D0 HIM); auto.
  - intros v Nv. cbn [set_bs bs bw]. rewrite Hf. exact (F v Nv).
Qed.

(** *** The repair of what is held outside *)
Lemma some_held b b' : some_BI b -> fix_held b = Ok b' -> some_BI b' /\ bw b' = bw b.
Proof.
  intros [(r & D1 & ren & B) F] H. unfold fix_held in H. cbv zeta in H. destruct (forallb _ _) in H; [|discriminate]. injection H as <-.
  pose proof B as [I1 I2 I3 I4 I5 I6 I7]. pose proof (xs_ri Mx x r0 D0 _ _ I2) as X.
  rewrite (si_0 _ _ _ _ _ _ I3).
  destruct (sim_user c1 C1 (rd r) (bw b) ren X (dtab (rd r) 0) (bs b) (fun u Hu => Hu) I3) as (S2 & K2 & N2).
  set (m2 := fold_left fix_user (dtab (rd r) 0) (mem (bs b))) in *.
  assert (KI : forall a a', In a (rtemp r :: rassoc r) -> arelP (img (rd r) (mem (bs b)) (bw b) ren) a a' ->
     arelP (img (rd r) m2 (bw b) ren) a (fix_images m2 a')).
  { intros a a' Ia (A1 & A2 & A3 & A4). repeat split; cbn [fix_images aid arc alast]; auto.
    intros i. specialize (A4 i). unfold fix_images. cbn [amap]. destruct (amap a i) as [e|] eqn:Ea, (amap a' i) as [e'|] eqn:Ea'; auto.
    destruct (ri_image Mx x r0 D0 HIM r D1 a i e I2 Ia Ea) as [O _]. unfold img in *.
    apply rs_step. exact (K2 e' (eptr e, eneg e) O A4). }
  split; [|reflexivity]. split; [|exact F]. exists r, D1, ren. constructor; cbn [bs bw bo btemp bassoc]; auto.
  - apply KI; [now left|exact I5].
  - assert (In3 : forall a, In a (rassoc r) -> In a (rtemp r :: rassoc r)) by (intros; now right).
    clear - KI I6 In3. revert I6 In3. generalize (rassoc r) at 1 2 4. generalize (bassoc b). intros l' l F.
    induction F as [|a a' l l' Ha F IH]; intros In3; cbn [map]; constructor.
    + apply KI; auto. apply In3. now left.
    + apply IH. intros; apply In3; now right.
Qed.
Lemma cof_bw b i b' : fix_cofactors b i = Ok b' -> bw b' = bw b.
Proof. intros H. unfold fix_cofactors in H. cbv zeta in H. destruct (forallb _ _); [|discriminate]. injection H as <-. reflexivity. Qed.
Lemma some_levels : forall l b b', some_BI b -> fix_levels l b = Ok b' -> some_BI b' /\ bw b' = bw b.
Proof.
  unfold fix_levels. induction l as [|k l IH]; intros b b' B H; cbn [fold_left] in H; [now injection H as <-|]. cbn [obind] in H.
  match type of H with fold_left _ _ ?z = _ => destruct z as [b1| |] eqn:E end.
  - assert (B1 : some_BI b1 /\ bw b1 = bw b).
    { destruct (nth_error (ord (bo b)) k) as [i|] eqn:Ei; [|injection E as <-; auto]. split; [|eapply cof_bw; eauto].
      eapply (some_cof c1 C1 Mx x r0 D0 f0 HIM); eauto. eapply nth_error_In; eauto. }
    destruct B1 as [B1 W1]. destruct (IH b1 b' B1 H) as [B2 W2]. split; auto. congruence.
  - exfalso. clear - H. induction l as [|q l IH]; cbn [fold_left obind] in H; [discriminate|auto].
  - exfalso. clear - H. induction l as [|q l IH]; cbn [fold_left obind] in H; [discriminate|auto].
Qed.

(** *** Double forwardings *)
Lemma sim_front d w ren : forall l s m' l', (forall a, In a l -> inw w a) -> XS [] d -> SIM [] d s w ren ->
  fix_front (mem s) l = Ok (m', l') ->
  (SIM [] d (set_mem s m') w ren /\ keeps d s w ren (set_mem s m') w) /\ forall a, In a l' -> inw w a.
Proof.
  induction l as [|a l IH]; intros s m' l' Hl X S H; cbn [fix_front] in H.
  - injection H as <- <-. split; [|intros a []]. split; [now apply sim_set_mem|intros e p _ R; exact R].
  - destruct (forwarded (mem s) (ct (mem s a))).
    + apply obind_ok in H as (m1 & E1 & H).
      destruct (sim_straight1 c1 C1 d w ren 2 a (Hl a (or_introl eq_refl)) s m1 X S E1) as [S1 K1].
      destruct (IH (set_mem s m1) m' l' (fun b Hb => Hl b (or_intror Hb)) X S1 H) as [[S2 K2] L2].
      split; [|exact L2]. split; [exact S2|]. eapply keeps_trans; [exact K1|exact K2].
    + injection H as <- <-. split; [|exact Hl]. split; [now apply sim_set_mem|intros e p _ R; exact R].
Qed.

(** *** The search *)
Definition SI (s : sst) : Prop := some_BI (sb s) /\ forall v a, In a (sl s v) -> inw (bw (sb s)) a.
Lemma SI_flag s f : SI s -> SI (set_sflag s f). Proof. exact (fun H => H). Qed.
Lemma SI_swap k flag s s' : SI s -> sift_swap Mx k flag s = Ok s' -> SI s'.
Proof.
  intros [B L] H. unfold sift_swap in H. apply obind_ok in H as (b & E & H).
  pose proof (some_bswap c1 C1 Mx x r0 D0 f0 Hx HIM _ _ _ _ B E) as B1. pose proof (bswap_mono _ _ _ _ _ E) as Mo.
  destruct (nth_error (ord (bo (sb s))) k) as [i|]; injection H as <-; split; cbn [sb sl set_sb]; auto; [|intros v a Ia; eauto].
  intros v a Ia. unfold upd in Ia. destruct (v =? i); [|eauto]. apply in_app_iff in Ia as [Ia|Ia]; [|eauto].
  exists i. set (q := (length (bw b i) - length (bw (sb s) i))%nat) in Ia. rewrite <- (firstn_skipn q (bw b i)). apply in_or_app. now left.
Qed.
Lemma SI_fix i s s' : SI s -> fix_forwarding i s = Ok s' -> SI s'.
Proof.
  intros [B L] H. unfold fix_forwarding in H. apply obind_ok in H as ([m' l'] & E & H). injection H as <-. cbn [fst snd].
  assert (Q : forall r D1 ren, BI r D1 ren (sb s) ->
     (SIM [] (rd r) (set_mem (bs (sb s)) m') (bw (sb s)) ren /\ keeps (rd r) (bs (sb s)) (bw (sb s)) ren (set_mem (bs (sb s)) m') (bw (sb s))) /\
     forall a, In a l' -> inw (bw (sb s)) a).
  { intros r D1 ren BB. eapply sim_front; eauto.
    - exact (xs_ri Mx x r0 D0 _ _ (bi_ri _ _ _ _ _ _ _ _ _ BB)).
    - exact (bi_sim _ _ _ _ _ _ _ _ _ BB). }
  split; cbn [sb sl].
  - apply some_mem; auto. intros r D1 ren BB. exact (proj1 (Q _ _ _ BB)).
  - intros v a Ia. cbn [set_bs bw]. unfold upd in Ia. destruct (v =? i); [|eauto].
    destruct B as [(r & D1 & ren & BB) _]. exact (proj2 (Q _ _ _ BB) a Ia).
Qed.
Lemma SI_give ks s b : SI s -> some_BI b -> bw b = bw (sb s) -> SI (give_up ks (set_sb s b)).
Proof.
  intros [_ L] B W. split; cbn [give_up sb sl set_sb]; auto. intros v a Ia. rewrite W. destruct (at_some _ _ v); [destruct Ia|eauto].
Qed.
Lemma SI_cleanup lv rc s s' : SI s -> cleanup lv rc s = Ok s' -> SI s'.
Proof.
  intros S H. unfold cleanup in H. apply obind_ok in H as (b1 & E1 & H). apply obind_ok in H as (b2 & E2 & H). injection H as <-.
  destruct (some_held _ _ (proj1 S) E1) as [B1 W1]. destruct (some_levels _ _ _ B1 E2) as [B2 W2]. apply SI_give; auto. congruence.
Qed.
Lemma SI_phase4 best rc s s' : SI s -> phase4 best rc s = Ok s' -> SI s'.
Proof.
  intros S H. unfold phase4 in H. apply obind_ok in H as (b1 & E1 & H). apply obind_ok in H as (b2 & E2 & H). injection H as <-.
  destruct (some_levels _ _ _ (proj1 S) E1) as [B1 W1]. destruct (some_held _ _ B1 E2) as [B2 W2]. apply SI_give; auto. congruence.
Qed.
Lemma SI_down lim c s s' : SI s -> step_down Mx lim c s = Ok s' -> SI s'.
Proof.
  intros S H. unfold step_down in H. apply obind_ok in H as (s1 & E1 & H). pose proof (SI_swap _ _ _ _ S E1) as S1.
  destruct (lim <? snum s1); [exact (SI_cleanup _ _ _ _ S1 H)|now injection H as <-].
Qed.
Lemma SI_up lim ff rc c s s' : SI s -> step_up Mx lim ff rc c s = Ok s' -> SI s'.
Proof.
  intros S H. unfold step_up in H. apply obind_ok in H as (s1 & E1 & H). pose proof (SI_swap _ _ _ _ S E1) as S1.
  apply obind_ok in H as (s2 & E2 & H).
  assert (S2 : SI s2).
  { destruct ff; [|now injection E2 as <-]. destruct (nth_error _ c) as [i|]; [exact (SI_fix _ _ _ S1 E2)|now injection E2 as <-]. }
  destruct (lim <? snum s2); [exact (SI_cleanup _ _ _ _ S2 H)|now injection H as <-].
Qed.
Lemma SI_downs lim : forall n c s s', SI s -> downs Mx lim n c s = Ok s' -> SI s'.
Proof.
  induction n as [|n IH]; intros c s s' S H; cbn [downs] in H; [now injection H as <-|].
  apply obind_ok in H as (s1 & E1 & H). eapply IH; [|exact H]. eapply SI_down; eauto.
Qed.
Lemma SI_ups lim rc : forall n c s s', SI s -> ups Mx lim rc n c s = Ok s' -> SI s'.
Proof.
  induction n as [|n IH]; intros c s s' S H; cbn [ups] in H; [now injection H as <-|].
  apply obind_ok in H as (s1 & E1 & H). eapply IH; [|exact H]. eapply SI_up; eauto.
Qed.
Lemma SI_down_search lim le : forall n c best bi s s' c' z bi' t, SI s -> down_search Mx lim le n c best bi s = Ok (s', c', z, bi', t) -> SI s'.
Proof.
  induction n as [|n IH]; intros c best bi s s' c' z bi' t S H; cbn [down_search] in H; [now injection H as <- _ _ _ _|].
  apply obind_ok in H as (s1 & E1 & H). pose proof (SI_down _ _ _ _ S E1) as S1. cbv zeta in H.
  destruct (2 * best <=? ssize s1); [now injection H as <- _ _ _ _|]. destruct (if le then _ else _); eapply IH; eauto.
Qed.
Lemma SI_up_search lim le mx rc : forall c best bi s s' c' z bi', SI s -> up_search Mx lim le mx rc c best bi s = Ok (s', c', z, bi') -> SI s'.
Proof.
  induction c as [|c IH]; intros best bi s s' c' z bi' S H; cbn [up_search] in H; [now injection H as <- _ _ _|].
  apply obind_ok in H as (s1 & E1 & H). pose proof (SI_up _ _ _ _ _ _ S E1) as S1. cbv zeta in H.
  destruct (mx <? ssize s1); [now injection H as <- _ _ _|]. destruct (if le then _ else _); eapply IH; eauto.
Qed.
Lemma SI_one lim grow start s s' : SI s -> sift_one Mx lim grow start s = Ok s' -> SI s'.
Proof.
  intros S H. unfold sift_one in H. cbv zeta in H. apply (SI_flag s false) in S. set (s1 := set_sflag s false) in *. clearbody s1. clear s.
  destruct (Nat.div2 _ <=? start)%nat.
  - apply obind_ok in H as ([[[[s2 c2] b2] i2] t] & E2 & H). pose proof (SI_down_search _ _ _ _ _ _ _ _ _ _ _ _ S E2) as S2.
    apply obind_ok in H as (s3 & E3 & H). pose proof (SI_ups _ _ _ _ _ _ S2 E3) as S3.
    apply obind_ok in H as ([[[s4 c4] b4] i4] & E4 & H). pose proof (SI_up_search _ _ _ _ _ _ _ _ _ _ _ _ S3 E4) as S4.
    apply obind_ok in H as (s5 & E5 & H).
    assert (S5 : SI s5) by (destruct (sflag s4); [exact (SI_cleanup _ _ _ _ S4 E5)|now injection E5 as <-]).
    apply obind_ok in H as (s6 & E6 & H). pose proof (SI_downs _ _ _ _ _ S5 E6) as S6.
    destruct (sflag s6); [exact (SI_phase4 _ _ _ _ S6 H)|now injection H as <-].
  - apply obind_ok in H as ([[[s2 c2] b2] i2] & E2 & H). pose proof (SI_up_search _ _ _ _ _ _ _ _ _ _ _ _ S E2) as S2.
    apply obind_ok in H as (s3 & E3 & H).
    assert (S3 : SI s3) by (destruct (sflag s2); [exact (SI_cleanup _ _ _ _ S2 E3)|now injection E3 as <-]).
    apply obind_ok in H as (s4 & E4 & H). pose proof (SI_downs _ _ _ _ _ S3 E4) as S4.
    apply obind_ok in H as ([[[[s5 c5] b5] i5] t] & E5 & H). pose proof (SI_down_search _ _ _ _ _ _ _ _ _ _ _ _ S4 E5) as S5.
    apply obind_ok in H as (s6 & E6 & H). pose proof (SI_ups _ _ _ _ _ _ S5 E6) as S6.
    destruct (sflag s6); [exact (SI_phase4 _ _ _ _ S6 H)|now injection H as <-].
Qed.
Lemma SI_all lim grow maxv maxs : forall i ids sh s s', SI s -> sift_all Mx lim grow maxv maxs i ids sh s = Ok s' -> SI s'.
Proof.
  induction i as [|i IH]; intros ids sh s s' S H; cbn [sift_all] in H; [now injection H as <-|].
  destruct ((sh <=? maxv) && (sswaps s <=? maxs)); [|now injection H as <-].
  destruct (most _ _ _ _) as [j cnt]. destruct (cnt <=? 1)%nat; [now injection H as <-|].
  apply obind_ok in H as (s1 & E1 & H). eapply IH; [|exact H]. eapply SI_one; eauto.
Qed.

(** *** The end *)
Definition drop_w (b : bst) : bst := BS (bs b) (fun _ => []) (bo b) (btemp b) (bassoc b).
Lemma sim_drop d s w ren : XS [] d -> SIM [] d s w ren -> (forall a, inn [] d a -> raw d s ren a) ->
  (forall u, In u (dtab d 0) -> ct (mem s u) = re d ren (dt (dm d u))) ->
  SIM [] d s (fun _ => []) ren.
Proof.
  intros X S Ra Ru. pose proof (sim_reclaim c1 C1 d s w ren X S Ra Ru) as Q.
  constructor.
  - exact (si_0 _ _ _ _ _ _ Q).
  - exact (si_tab _ _ _ _ _ _ Q).
  - exact (si_one _ _ _ _ _ _ Q).
  - exact (si_c1 _ _ _ _ _ _ Q).
  - exact (si_d1 _ _ _ _ _ _ Q).
  - exact (si_inj _ _ _ _ _ _ Q).
  - exact (si_ru _ _ _ _ _ _ Q).
  - exact (si_live _ _ _ _ _ _ Q).
  - exact (si_nx _ _ _ _ _ _ Q).
  - exact (si_fln _ _ _ _ _ _ S).
  - intros v a Ia. apply (si_fl _ _ _ _ _ _ Q v a). cbn [fl set_fl]. apply in_or_app. now right.
  - exact (si_fld _ _ _ _ _ _ S).
  - exact (si_wn _ _ _ _ _ _ Q).
  - exact (si_wd _ _ _ _ _ _ Q).
  - exact (si_wt _ _ _ _ _ _ Q).
  - exact (si_cr _ _ _ _ _ _ Q).
  - exact (si_mx _ _ _ _ _ _ Q).
  - exact (si_nf _ _ _ _ _ _ Q).
  - exact (si_ch _ _ _ _ _ _ Q).
  - exact (si_us _ _ _ _ _ _ Q).
Qed.
Theorem sift_clean b : some_BI b -> no_forwarding b = true -> clean_BI c1 Mx x r0 D0 f0 (drop_w b).
Proof.
  intros [(r & D1 & ren & B) F] H. unfold no_forwarding in H. cbv zeta in H.
  apply andb_true_iff in H as [H G3]. apply andb_true_iff in H as [G1 G2]. rewrite forallb_forall in G1, G2, G3.
  pose proof B as [I1 I2 I3 I4 I5 I6 I7]. pose proof (xs_ri Mx x r0 D0 _ _ I2) as X. pose proof (ri_xi _ _ _ _ _ _ I2) as XX.
  rewrite (si_0 _ _ _ _ _ _ I3) in G2.
  assert (RA : forall a, inn [] (rd r) a -> raw (rd r) (bs b) ren a).
  { intros a Na. pose proof (x_ord _ _ _ _ _ _ _ XX a Na) as Io. pose proof Na as [(v & Nv & Iv)|[]].
    rewrite (proj1 (xs_tab _ _ X v a Iv)) in Io. rewrite I4 in G1. specialize (G1 v Io). rewrite forallb_forall in G1.
    eapply (clean_raw c1); eauto. apply G1. rewrite (si_tab _ _ _ _ _ _ I3 v Nv). now apply in_map. }
  assert (RU : forall u, In u (dtab (rd r) 0) -> ct (mem (bs b) u) = re (rd r) ren (dt (dm (rd r) u))).
  { intros u Iu. destruct (si_us _ _ _ _ _ _ I3 u Iu) as (Q & _). eapply rs_raw; [exact Q|]. specialize (G2 u Iu). now apply negb_true_iff in G2. }
  pose proof (sim_drop _ _ _ _ X I3 RA RU) as S3.
  assert (KI : forall a a', In a (rtemp r :: rassoc r) -> arelP (img (rd r) (mem (bs b)) (bw b) ren) a a' ->
     good_images (bo b) (mem (bs b)) a' = true -> arelP (img (rd r) (mem (bs b)) (fun _ => []) ren) a a').
  { intros a a' Ia (A1 & A2 & A3 & A4) Gd. repeat split; auto.
    intros i. specialize (A4 i). destruct (amap a i) as [e|] eqn:Ea, (amap a' i) as [e'|] eqn:Ea'; auto.
    destruct (ri_image Mx x r0 D0 HIM r D1 a i e I2 Ia Ea) as [O _].
    assert (Ii : In i (ord (bo b))).
    { rewrite I4. destruct (ri_t _ _ _ _ _ _ I2) as [_ TA]. destruct (ri_a _ _ _ _ _ _ I2) as [_ AA].
      destruct Ia as [<-|Ia]; [exact (proj1 (al_le _ _ TA i e Ea))|]. rewrite Forall_forall in AA. exact (proj1 (al_le _ _ (AA a Ia) i e Ea)). }
    unfold good_images in Gd. rewrite forallb_forall in Gd. specialize (Gd i Ii). rewrite Ea' in Gd.
    apply negb_true_iff in Gd. unfold img in *. rewrite (rs_raw _ _ _ _ A4 Gd). apply rs_end. unfold re. cbn [eptr fst].
    exact (okp_nf c1 C1 _ _ _ _ _ _ I3 O). }
  split; [|reflexivity]. split.
  - exists r, D1, ren. constructor; cbn [drop_w bs bw bo btemp bassoc]; auto.
    + apply KI; [now left|exact I5|]. apply G3. now left.
    + assert (G4 : forall a, In a (bassoc b) -> good_images (bo b) (mem (bs b)) a = true) by (intros a Ia; apply G3; now right).
      clear - KI I6 G4. assert (In3 : forall a, In a (rassoc r) -> In a (rtemp r :: rassoc r)) by (intros; now right).
      revert I6 G4 In3. generalize (rassoc r) at 1 2 4. generalize (bassoc b). intros l' l F. induction F as [|a a' l l' Ha F IH]; intros G4 In3; constructor.
      * apply KI; auto; [apply In3; now left|]. apply G4. now left.
      * apply IH; [intros; apply G4; now right|intros; apply In3; now right].
  - intros v Nv. split; [exact (proj1 (F v Nv))|reflexivity].
Qed.
End Sift.
