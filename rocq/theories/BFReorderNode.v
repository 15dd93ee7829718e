(** Breadth-first reordering: the nodes of the upper variable, one after the other. *)
From Coq Require Import NArith ZArith List Bool Lia Permutation.
From Verif Require Import Base BFModel StoreInv MgrModel ApiModel ReorderModel ReorderProof ReorderStep ReorderRen ReorderInit ReorderBack
  PackModel BFReorderModel BFReorderSim BFReorderSwap BFReorderMove.
Import ListNotations.
Open Scope N_scope.

Lemma dicr_at d p a : dm (dicr d p) a = if a =? fst p then set_drc (dm d a) (rc_icr (drc (dm d a))) else dm d a.
Proof. unfold dicr, dput. cbn [dm]. unfold upd. destruct (N.eqb_spec a (fst p)) as [->|_]; reflexivity. Qed.
Lemma ddcr_at d p a : dm (ddcr d p) a = if a =? fst p then set_drc (dm d a) (rc_dcr (drc (dm d a))) else dm d a.
Proof. unfold ddcr, dput. cbn [dm]. unfold upd. destruct (N.eqb_spec a (fst p)) as [->|_]; reflexivity. Qed.
Lemma dput_at d f c a : dm (dput d f c) a = if a =? f then c else dm d a.
Proof. reflexivity. Qed.

Lemma pointwise d f c (b0 b1 : bool) f00 f10 f01 f11 f0 f1 a :
  fst f00 <> f -> fst f10 <> f -> fst f01 <> f -> fst f11 <> f -> fst f0 <> f -> fst f1 <> f -> drc c = drc (dm d f) ->
  let z := if b0 then d else dicr (dicr d f10) f00 in
  let z1 := if b1 then z else dicr (dicr z f11) f01 in
  let z2 := ddcr (ddcr z1 f0) f1 in
  let y := dput d f c in
  let y1 := if b0 then y else dicr (dicr y f00) f10 in
  let y2 := if b1 then y1 else dicr (dicr y1 f01) f11 in
  dm (ddcr (ddcr y2 f0) f1) a = dm (dput z2 f c) a /\ drc (dm z2 f) = drc (dm d f).
Proof.
  intros A1 A2 A3 A4 A5 A6 Hc z z1 z2 y y1 y2.
  assert (Q : forall p : ded, fst p <> f -> (f =? fst p) = false) by (intros p Hp; apply N.eqb_neq; congruence).
  split.
  - destruct (N.eqb_spec a f) as [->|Na].
    + rewrite dput_at, N.eqb_refl. subst y2 y1 y. destruct b0, b1; rewrite ?ddcr_at, ?dicr_at, !Q by auto; rewrite dput_at, N.eqb_refl; reflexivity.
    + rewrite dput_at. apply N.eqb_neq in Na. rewrite Na. subst y2 y1 y z2 z1 z.
      destruct b0, b1; rewrite ?ddcr_at, ?dicr_at, ?dput_at, Na; rewrite ?dicr_at, ?dput_at, ?Na;
        destruct (a =? fst f0), (a =? fst f1), (a =? fst f00), (a =? fst f10), (a =? fst f01), (a =? fst f11); reflexivity.
  - subst z2 z1 z. destruct b0, b1; rewrite ?ddcr_at, ?dicr_at, !Q by auto; reflexivity.
Qed.

Section Node.
Variable c1 : cell.
Hypothesis C1 : eptr (ce c1) <> 0 /\ cr c1 = MAXREF.
Notation SIM := (SIM c1).
Notation GO := (GO c1).
Variables (o : order) (k i j : N) (M : N -> N -> bool).
Hypothesis Wo : wfo o.
Hypothesis Hi : nth_error (ord o) (N.to_nat k) = Some i.
Hypothesis Hj : nth_error (ord o) (S (N.to_nat k)) = Some j.
Let o' := swap_order o k i j.
Lemma ii0 : i <> 0. Proof. exact (proj1 (sw_i o k i Wo Hi)). Qed.
Lemma jj0 : j <> 0. Proof. exact (proj1 (sw_j o k j Wo Hj)). Qed.

Lemma GO_then_icr L d s w ren dc sc rc p : GO i L d s w ren dc sc rc -> okp L d (fst p) ->
  GO i L d s w ren (dicr dc p) (icr sc (re d ren p)) rc.
Proof.
  intros G O. rewrite <- (go_re _ _ _ _ _ _ _ _ _ _ G p O). eapply GO_trans; [exact G|]. apply GO_icr; auto; try apply G.
  destruct O as [O|O]; [now left|right; now apply G].
Qed.
Lemma GO_then_dcr L d s w ren dc sc rc p : GO i L d s w ren dc sc rc -> okp L d (fst p) ->
  GO i L d s w ren (ddcr dc p) (dcr sc (re d ren p)) rc.
Proof.
  intros G O. rewrite <- (go_re _ _ _ _ _ _ _ _ _ _ G p O). eapply GO_trans; [exact G|]. apply GO_dcr; auto; try apply G.
  destruct O as [O|O]; [now left|right; now apply G].
Qed.
Lemma GO_counts L d s w ren dc sc rc (b0 b1 : bool) f00 f10 f01 f11 f0 f1 : GO i L d s w ren dc sc rc ->
  okp L d (fst f00) -> okp L d (fst f10) -> okp L d (fst f01) -> okp L d (fst f11) -> okp L d (fst f0) -> okp L d (fst f1) ->
  let z := if b0 then dc else dicr (dicr dc f10) f00 in
  let z1 := if b1 then z else dicr (dicr z f11) f01 in
  let y := if b0 then sc else icr (icr sc (re d ren f10)) (re d ren f00) in
  let y1 := if b1 then y else icr (icr y (re d ren f11)) (re d ren f01) in
  GO i L d s w ren (ddcr (ddcr z1 f0) f1) (dcr (dcr y1 (re d ren f0)) (re d ren f1)) rc.
Proof.
  intros G A1 A2 A3 A4 A5 A6 z z1 y y1. apply GO_then_dcr; auto. apply GO_then_dcr; auto. subst z1 y1 z y.
  destruct b0, b1; auto; repeat (apply GO_then_icr; auto).
Qed.

Lemma STEP_dext L d s w ren L' d1 d2 s' w' ren' : STEP L d s w ren L' d1 s' w' ren' ->
  (forall a, dm d2 a = dm d1 a) -> (forall v, dtab d2 v = dtab d1 v) -> STEP L d s w ren L' d2 s' w' ren'.
Proof.
  intros [A B] Em Et. constructor; auto. intros e p O O' H. rewrite (re_ext d1 d2) by now rewrite Em. apply A; auto.
  destruct O' as [O'|[(v & Nv & Iv)|O']]; [now left| |right; now right]. right. left. exists v. split; auto. now rewrite <- Et.
Qed.

Lemma bcof_sim L D d s w ren f c pt pe bt be : XI o' i j M (f :: L) D d -> SIM (f :: L) d s w ren ->
  c = dt (dm d f) \/ c = de (dm d f) -> dcof d j c = (pt, pe) -> bcof o k (mem s) (re d ren c) = (bt, be) ->
  forwarded (mem s) bt = false -> forwarded (mem s) be = false -> bt = re d ren pt /\ be = re d ren pe.
Proof.
  intros X S Hc. assert (If : In f (f :: L)) by now left.
  assert (Hc' : fst c = fst (dt (dm d f)) \/ fst c = fst (de (dm d f))) by (destruct Hc as [-> | ->]; auto).
  destruct (x_lvL _ _ _ _ _ _ _ X f _ If Hc') as [NL V].
  assert (Ei : idx o' i = k + 1) by now apply sw_idx_i.
  destruct (sw_j o k j Wo Hj) as (_ & Ej & _).
  unfold dcof, bcof, below2. replace (eid (re d ren c)) with (did (dm d (fst c))) by reflexivity.
  destruct (N.eqb_spec (did (dm d (fst c))) j) as [E|NE]; intros H1; apply pair_equal_spec in H1 as [<- <-].
  - rewrite E, Ej, N.ltb_irrefl. intros H2; apply pair_equal_spec in H2 as [<- <-].
    assert (Hn : inn (f :: L) d (fst c)).
    { destruct (x_ch _ _ _ _ _ _ _ X f (or_intror If)) as (U1 & U2 & _). assert (Oc : okp (f :: L) d (fst c)) by (destruct Hc as [-> | ->]; auto).
      destruct Oc as [Oc|Oc]; auto. exfalso. rewrite Oc in E. destruct (x_one _ _ _ _ _ _ _ X) as (Q & _). apply jj0. congruence. }
    destruct (si_ch _ _ _ _ _ _ S _ Hn) as [T1 T2]. rewrite !re_dtag. unfold thenof, elseof. cbn [re eptr eneg].
    intros F1 F2. split; f_equal; eapply rs_raw; eauto.
  - assert (LL : k + 1 <? idx o (did (dm d (fst c))) = true).
    { apply N.ltb_lt. destruct V as [(V & _)|V]; [congruence|]. rewrite Ei in V.
      assert (NI : did (dm d (fst c)) <> i) by (intros Q; rewrite Q, Ei in V; lia).
      unfold o' in V. rewrite (sw_idx o k i j) in V by auto. exact V. }
    rewrite LL. intros H2; apply pair_equal_spec in H2 as [<- <-]. auto.
Qed.

Lemma rc_add0 n : n <= MAXREF -> rc_add 0 (Z.of_N n) = n.
Proof.
  intros H. unfold rc_add. replace (0 <? MAXREF) with true by reflexivity. rewrite Z.add_0_l. 
  assert (B : (0 <= Z.of_N n < 65536)%Z) by (unfold MAXREF in H; lia). rewrite Z.mod_small by exact B. rewrite N2Z.id.
  apply N.ltb_ge in H. now rewrite H.
Qed.

Lemma sim_swap1 L D d s w ren f s' w' :
  XI o' i j M (f :: L) D d -> SIM (f :: L) d s w ren -> CLR i (f :: L) d s ren ->
  swap1 o k i j (Ok (s, w)) (ren f) = Ok (s', w') ->
  exists ren', SIM L (exchange1 i j d f) s' w' ren' /\ STEP (f :: L) d s w ren L (exchange1 i j d f) s' w' ren' /\
    CLR i L (exchange1 i j d f) s' ren' /\ (forall a, inn (f :: L) d a -> inn L (exchange1 i j d f) a).
Proof.
  intros X S ECL. pose proof (XI_XS _ _ _ _ _ _ _ X) as XS0.
  assert (If : In f (f :: L)) by now left. assert (Hf : inn (f :: L) d f) by now right.
  destruct (cl_raw _ _ _ _ _ ECL f (or_intror If)) as [R1 R0].
  destruct (cl_nl _ _ _ _ _ ECL f (or_intror If)) as [NL1 NL0].
  unfold swap1. cbn [obind]. rewrite R1, R0.
  unfold exchange1, exchange_aux.
  remember (de (dm d f)) as f0 eqn:Ef0. remember (dt (dm d f)) as f1 eqn:Ef1.
  destruct (dcof d j f0) as [f01 f00] eqn:K0. destruct (dcof d j f1) as [f11 f10] eqn:K1.
  assert (Wo' : wfo o') by (now apply sw_wfo).
  destruct (sw_i o k i Wo Hi) as (_ & Gi & Ii). destruct (sw_j o k j Wo Hj) as (_ & Gj & Ij).
  assert (Ii' : In i (ord o')) by (apply (sw_in o k i j); auto).
  assert (Ij' : In j (ord o')) by (apply (sw_in o k i j); auto).
  assert (Hij' : idx o' i = idx o' j + 1).
  { unfold o'. rewrite (sw_idx_i o k i j), (sw_idx_j o k i j) by auto. reflexivity. }
  destruct (dcof_spec o' i j M Wo' Ij' Hij' _ _ _ f f0 _ _ X If (or_intror Ef0) K0) as (A1 & A2 & A3 & A4 & _).
  destruct (dcof_spec o' i j M Wo' Ij' Hij' _ _ _ f f1 _ _ X If (or_introl Ef1) K1) as (B1 & B2 & B3 & B4 & _).
  assert (Oc : okp (f :: L) d (fst f1) /\ okp (f :: L) d (fst f0)).
  { destruct (x_ch _ _ _ _ _ _ _ X f Hf) as (U1 & U2 & _). rewrite Ef0, Ef1. auto. }
  destruct Oc as [Of1 Of0].
  assert (LNL : forall p, low o' i d p -> ~ In (fst p) (f :: L)) by (intros p Hp; exact (low_notL o' i j M Hij' _ _ _ X _ Hp)).
  destruct (bcof o k (mem s) (re d ren f0)) as [g01 g00] eqn:Q0. destruct (bcof o k (mem s) (re d ren f1)) as [g11 g10] eqn:Q1.
  destruct (forwarded (mem s) g10 || forwarded (mem s) g11 || forwarded (mem s) g00 || forwarded (mem s) g01) eqn:G; [discriminate|].
  apply orb_false_iff in G as [G G01]. apply orb_false_iff in G as [G G00]. apply orb_false_iff in G as [G10 G11].
  destruct (bcof_sim _ _ _ _ _ _ _ _ _ _ _ _ X S (or_intror Ef0) K0 Q0 G01 G00) as [-> ->].
  destruct (bcof_sim _ _ _ _ _ _ _ _ _ _ _ _ X S (or_introl Ef1) K1 Q1 G11 G10) as [-> ->].
  (* first new node *)
  replace (if deq f00 f10 then (f00, true, d) else dunique d i f10 f00) with (if deq f00 f10 then (f10, true, d) else dunique d i f10 f00)
    by (destruct (deq f00 f10) eqn:Q; auto; apply deq_iff in Q as ->; auto).
  destruct (if deq f00 f10 then (f10, true, d) else dunique d i f10 f00) as [[n0 b0] d1] eqn:H0.
  destruct (GO_choose c1 C1 i ii0 (f :: L) d s w ren f10 f00 n0 b0 d1 S XS0 ECL B2 A2 (LNL _ B4) (LNL _ A4) H0) as (s1 & ren1 & U0 & Go01 & On0 & Nn0).
  rewrite U0. clear U0.
  pose proof (GO_icr c1 C1 i (f :: L) d1 s1 w ren1 n0 (go_sim _ _ _ _ _ _ _ _ _ _ Go01) (go_xs _ _ _ _ _ _ _ _ _ _ Go01) (go_cl _ _ _ _ _ _ _ _ _ _ Go01) On0) as Go12.
  set (d2 := dicr d1 n0) in *. set (s2 := icr s1 (re d1 ren1 n0)) in *.
  pose proof (GO_trans _ _ _ _ _ _ _ _ _ _ _ _ _ Go01 Go12) as Go02.
  destruct (if deq f01 f11 then (f11, true, d2) else dunique d2 i f11 f01) as [[n1 b1] d3] eqn:H1.
  assert (OK2 : forall p : ded, okp (f :: L) d (fst p) -> okp (f :: L) d2 (fst p)).
  { intros p [O|O]; [now left|right; exact (go_inn _ _ _ _ _ _ _ _ _ _ Go02 _ O)]. }
  destruct (GO_choose c1 C1 i ii0 (f :: L) d2 s2 w ren1 f11 f01 n1 b1 d3 (go_sim _ _ _ _ _ _ _ _ _ _ Go02) (go_xs _ _ _ _ _ _ _ _ _ _ Go02)
              (go_cl _ _ _ _ _ _ _ _ _ _ Go02) (OK2 _ B1) (OK2 _ A1) (LNL _ B3) (LNL _ A3) H1) as (s3 & ren3 & U1 & Go23 & On1 & Nn1).
  rewrite !(go_re _ _ _ _ _ _ _ _ _ _ Go02) in U1 by auto. rewrite U1. clear U1.
  pose proof (GO_icr c1 C1 i (f :: L) d3 s3 w ren3 n1 (go_sim _ _ _ _ _ _ _ _ _ _ Go23) (go_xs _ _ _ _ _ _ _ _ _ _ Go23) (go_cl _ _ _ _ _ _ _ _ _ _ Go23) On1) as Go34.
  set (d4 := dicr d3 n1) in *. set (s4 := icr s3 (re d3 ren3 n1)) in *.
  pose proof (GO_trans _ _ _ _ _ _ _ _ _ _ _ _ _ Go02 (GO_trans _ _ _ _ _ _ _ _ _ _ _ _ _ Go23 Go34)) as Go04.
  pose proof (GO_counts _ _ _ _ _ _ _ _ b0 b1 f00 f10 f01 f11 f0 f1 Go04 A2 B2 A1 B1 Of0 Of1) as Go07. cbv zeta in Go07.
  set (z := if b0 then d4 else dicr (dicr d4 f10) f00) in *. set (z1 := if b1 then z else dicr (dicr z f11) f01) in *.
  set (d7 := ddcr (ddcr z1 f0) f1) in *.
  set (y := if b0 then s4 else icr (icr s4 (re d ren f10)) (re d ren f00)) in *.
  set (y1 := if b1 then y else icr (icr y (re d ren f11)) (re d ren f01)) in *.
  set (s7 := dcr (dcr y1 (re d ren f0)) (re d ren f1)) in *.
  destruct (alloc s7 j) as [n s8] eqn:SA. intros HH. injection HH as Es' Ew'.
  assert (Dc : forall p q, did (dm (dicr p q) (fst n1)) = did (dm p (fst n1)) /\ did (dm (dicr p q) (fst n0)) = did (dm p (fst n0)))
    by (intros p q; split; apply dicr_same).
  assert (Dd : forall p q, did (dm (ddcr p q) (fst n1)) = did (dm p (fst n1)) /\ did (dm (ddcr p q) (fst n0)) = did (dm p (fst n0)))
    by (intros p q; split; apply ddcr_same).
  assert (I47 : forall a, did (dm d7 a) = did (dm d4 a)).
  { intros a. unfold d7. rewrite (proj1 (ddcr_same _ _ a)), (proj1 (ddcr_same _ _ a)). unfold z1, z.
    destruct b0, b1; rewrite ?(proj1 (dicr_same _ _ a)); reflexivity. }
  assert (T47 : forall v, dtab d7 v = dtab d4 v) by (intros v; unfold d7, z1, z; destruct b0, b1; reflexivity).
  assert (IN47 : forall a, inn (f :: L) d4 a -> inn (f :: L) d7 a).
  { intros a [(v & Nv & Iv)|Ia]; [left; exists v; split; auto; now rewrite T47|now right]. }
  assert (O1 : okp (f :: L) d7 (fst n1)).
  { destruct On1 as [Q|Q]; [now left|right]. apply IN47. exact (go_inn _ _ _ _ _ _ _ _ _ _ Go34 _ Q). }
  assert (O0 : okp (f :: L) d7 (fst n0)).
  { destruct On0 as [Q|Q]; [now left|right]. apply IN47. apply (go_inn _ _ _ _ _ _ _ _ _ _ Go34), (go_inn _ _ _ _ _ _ _ _ _ _ Go23), (go_inn _ _ _ _ _ _ _ _ _ _ Go12). exact Q. }
  assert (RE1 : re d3 ren3 n1 = re d7 ren3 n1).
  { apply re_ext. rewrite I47. symmetry. apply dicr_same. }
  assert (RE0 : re d1 ren1 n0 = re d7 ren3 n0).
  { rewrite (re_ext d4 d7) by apply I47. rewrite (re_ext d3 d4) by apply dicr_same.
    rewrite (go_re _ _ _ _ _ _ _ _ _ _ Go23); [symmetry; apply re_ext; apply dicr_same|].
    destruct On0 as [Q|Q]; [now left|right]. exact (go_inn _ _ _ _ _ _ _ _ _ _ Go12 _ Q). }
  assert (Rf : ren3 f = ren f).
  { exact (st_ren _ _ _ _ _ _ _ _ _ _ (go_step _ _ _ _ _ _ _ _ _ _ Go07) f Hf (fun q => q)). }
  pose proof (go_sim _ _ _ _ _ _ _ _ _ _ Go07) as S7. pose proof (go_xs _ _ _ _ _ _ _ _ _ _ Go07) as X7.
  destruct (alloc_fresh c1 C1 _ _ _ _ _ _ _ _ S7 SA) as (Fb & Rb & Ut8 & _ & _ & M8 & _).
  assert (NF : n <> ren f) by (intros Q; apply Fb; rewrite Q, <- Rf; exact (ren_live c1 _ _ _ _ _ _ S7 (or_intror If))).
  set (d' := set_dtab (dput d7 f (DN j (drc (dm d7 f)) n1 n0)) j (f :: dtab d7 j)).
  assert (Mx : cr (mem s7 (ren f)) <= MAXREF).
  { rewrite <- Rf, (si_cr _ _ _ _ _ _ S7 f (or_intror If)). exact (si_mx _ _ _ _ _ _ S7 f (or_intror If)). }
  assert (MM : forall x, mem s' x = if x =? n then C (re d7 ren3 n1) (re d7 ren3 n0) (cr (mem s7 (ren3 f)))
                        else if x =? ren3 f then C (E j n false) efwd (cr (mem s7 (ren3 f))) else mem s7 x).
  { assert (Ff : mem s8 (ren f) = mem s7 (ren f)) by (rewrite M8; destruct (N.eqb_spec (ren f) n); congruence).
    intros x. rewrite <- Es', Rf, RE1, RE0. unfold addref, put, set_mem, set_nn, set_ut. cbn [mem eptr ut]. unfold upd.
    assert (Q : (ren f =? n) = false) by (apply N.eqb_neq; congruence). assert (Q' : (n =? ren f) = false) by (apply N.eqb_neq; congruence).
    rewrite !Q, !N.eqb_refl, !Q', ?Q, ?N.eqb_refl. cbn [cr]. rewrite Ff.
    destruct (N.eqb_spec x n) as [->|Nx].
    - cbn [set_cr ct ce cr]. unfold set_cr. cbn [ct ce cr]. rewrite rc_add0 by auto. reflexivity.
    - destruct (N.eqb_spec x (ren f)) as [Ex|Nf']; [reflexivity|]. rewrite M8. destruct (N.eqb_spec x n); congruence. }
  destruct (sim_move c1 C1 i j jj0 L d7 s7 w ren3 f n1 n0 n s8 d' s' X7 S7 O1 O0) as (SM & STM & REM & INM & _ & MLM); auto.
  { intros Q. apply Nn1. left. auto. }
  { intros Q. apply Nn0. left. auto. }
  { rewrite <- Es'. unfold addref, put, set_mem, set_nn, set_ut. cbn [ut]. rewrite Ut8. reflexivity. }
  { rewrite <- Es'. reflexivity. }
  { rewrite <- Es'. reflexivity. }
  rewrite Rf in SM, STM. rewrite Ew' in SM, STM.
  match goal with |- exists _, SIM _ ?Z _ _ _ /\ _ => set (dd := Z) end.
  assert (NEf : forall p : ded, ~ In (fst p) (f :: L) -> fst p <> f) by (intros p Hp Q; apply Hp; left; auto).
  assert (D4f : drc (dm d7 f) = drc (dm d4 f)).
  { pose proof (pointwise d4 f (DN j (drc (dm d4 f)) n1 n0) b0 b1 f00 f10 f01 f11 f0 f1 f (NEf _ (LNL _ A4)) (NEf _ (LNL _ B4))
        (NEf _ (LNL _ A3)) (NEf _ (LNL _ B3)) (NEf _ NL0) (NEf _ NL1) eq_refl) as PW. exact (proj2 PW). }
  assert (PM : forall a, dm dd a = dm d' a).
  { intros a. pose proof (pointwise d4 f (DN j (drc (dm d4 f)) n1 n0) b0 b1 f00 f10 f01 f11 f0 f1 a (NEf _ (LNL _ A4)) (NEf _ (LNL _ B4))
        (NEf _ (LNL _ A3)) (NEf _ (LNL _ B3)) (NEf _ NL0) (NEf _ NL1) eq_refl) as PW. cbv zeta in PW.
    unfold d'. rewrite D4f. exact (proj1 PW). }
  assert (PT : forall v, dtab dd v = dtab d' v).
  { intros v. unfold dd, d', d7, z1, z. destruct b0, b1; reflexivity. }
  assert (IN4 : forall a, inn (f :: L) d a -> inn L dd a).
  { intros a Ha. apply (go_inn _ _ _ _ _ _ _ _ _ _ Go07), INM in Ha.
    destruct Ha as [(v & Nv & Iv)|Ha]; [left; exists v; split; auto; now rewrite PT|now right]. }
  exists (upd ren3 f n). split; [|split; [|split; [|exact IN4]]].
  - apply (SIM_dext c1 _ d'); auto.
  - apply (STEP_dext _ _ _ _ _ _ d'); auto. eapply STEP_trans; [| | |exact (go_step _ _ _ _ _ _ _ _ _ _ Go07)|exact STM].
    + exact (go_inn _ _ _ _ _ _ _ _ _ _ Go07).
    + auto.
    + intros a Ia. now right.
  - apply (CLR_drc i L d' s'); auto.
    2:{ intros a. rewrite PM. auto. }
    2:{ unfold dd, d', d7, z1, z. destruct b0, b1; reflexivity. }
    pose proof (go_cl _ _ _ _ _ _ _ _ _ _ Go07) as CL7.
    assert (ij : i <> j) by exact (sw_ij o k i j Wo Hi Hj).
    assert (TI : dtab d' i = dtab d7 i) by (unfold d', set_dtab, dput; cbn [dtab]; rewrite upd_other' by auto; reflexivity).
    assert (OLD : forall c, In c (dtab d' i) \/ In c L -> (In c (dtab d7 i) \/ In c (f :: L)) /\ inn (f :: L) d7 c /\ c <> f).
    { intros c. rewrite TI. intros [Hc|Hc].
      - split; auto. split; [left; exists i; split; [exact ii0|exact Hc]|]. intros ->. apply (xs_tab _ _ X7 i f Hc). now left.
      - split; [right; now right|]. split; [right; now right|]. intros ->. pose proof (xs_ndL _ _ X7) as ND. inversion ND; auto. }
    constructor.
    + intros c Hc. destruct (OLD c Hc) as (Hc' & Nc & Nf). destruct (cl_nl _ _ _ _ _ CL7 c Hc') as [N1 N2].
      rewrite upd_other', MLM by auto. unfold d' at 2 4. unfold set_dtab, dput. cbn [dm]. rewrite upd_other' by auto.
      rewrite !REM; [exact (cl_raw _ _ _ _ _ CL7 c Hc')|intros Q; apply N2; left; auto|intros Q; apply N1; left; auto].
    + intros c Hc. destruct (OLD c Hc) as (Hc' & Nc & Nf). destruct (cl_nl _ _ _ _ _ CL7 c Hc') as [N1 N2].
      unfold d', set_dtab, dput. cbn [dm]. rewrite upd_other' by auto. split; intros Q; [apply N1|apply N2]; now right.
Qed.
End Node.
