(** Reordering: the store after reallocation satisfies the store invariant. *)
From Coq Require Import NArith ZArith List Bool Lia Permutation.
From Verif Require Import Base BFModel StoreInv Own EngInv ApplyProof EngineProof QProof MgrModel ApiModel MInv
  ReorderModel ReorderProof ReorderStep ReorderRen ReorderInit.
Import ListNotations.
Open Scope N_scope.

Section Back.
Variables (o : order) (Mx : N -> N -> bool) (D : den) (s d : dst) (ren : N -> N) (f0 : list N) (P : list N) (x : N -> N).
Hypothesis Wo : wfo o.
Hypothesis X : XI o 0 0 Mx [] D s.
Hypothesis R : XR [] s P (fun b => Z.of_N (x b)).
Hypothesis RN : REN s d ren.
Hypothesis F0 : NoDup f0 /\ forall b, In b f0 -> 2 < b < dnx s /\ ~ In b (dtab s 0).

Let b' := back f0 d.

(** The new address of a node. *)
Definition rn (a : N) : N := if did (dm s a) =? 0 then a else ren a.
(** The meaning of the new addresses. *)
Definition D2 : den := fun b =>
  match find (fun a => negb (did (dm s a) =? 0) && (ren a =? b)) P with Some a => D a | None => D b end.

Lemma P_inn a : In a P -> did (dm s a) <> 0 -> inn [] s a.
Proof.
  intros Ia Hd. apply (xr_P _ _ _ _ R) in Ia as [(v & Ia)|[]]. left. exists v. split; auto.
  destruct (x_tab _ _ _ _ _ _ _ X v a Ia) as (<- & _). auto.
Qed.
Lemma inn_P a : inn [] s a -> In a P /\ did (dm s a) <> 0.
Proof.
  intros Na. split; [apply (xr_P _ _ _ _ R); now apply inn_node|]. now apply (inn_did o Mx D s 0 0 X).
Qed.
Lemma user_P u : In u (dtab s 0) -> In u P /\ did (dm s u) = 0 /\ 2 < u < dnx s.
Proof.
  intros Iu. destruct (x_tab _ _ _ _ _ _ _ X 0 u Iu) as (E0 & _ & Ru). split; auto.
  apply (xr_P _ _ _ _ R). left. eauto.
Qed.
Lemma P_user a : In a P -> did (dm s a) = 0 -> In a (dtab s 0).
Proof.
  intros Ia Hd. apply (xr_P _ _ _ _ R) in Ia as [(v & Ia)|[]].
  destruct (x_tab _ _ _ _ _ _ _ X v a Ia) as (E & _). congruence.
Qed.
Lemma rn_inn a : inn [] s a -> rn a = ren a.
Proof. intros Na. unfold rn. destruct (N.eqb_spec (did (dm s a)) 0); auto. now destruct (inn_P a Na). Qed.
Lemma rn_usr u : In u (dtab s 0) -> rn u = u.
Proof. intros Iu. unfold rn. destruct (user_P u Iu) as (_ & -> & _). reflexivity. Qed.

Lemma ren_ge a : inn [] s a -> dnx s <= ren a < dnx d /\ 2 < ren a.
Proof. intros Na. pose proof (rn_rng _ _ _ RN a Na). pose proof (x_nx _ _ _ _ _ _ _ X). lia. Qed.
Lemma ren_okp a b : okp [] s a -> okp [] s b -> ren a = ren b -> a = b.
Proof.
  intros [->|Na] [->|Nb]; auto; rewrite ?(rn_one _ _ _ RN); intros E.
  - pose proof (ren_ge b Nb). unfold ONE in *. lia.
  - pose proof (ren_ge a Na). unfold ONE in *. lia.
  - exact (rn_inj _ _ _ RN a b Na Nb E).
Qed.
Lemma ren_rn c b : okp [] s c -> In b P -> (ren c =? rn b) = (c =? b).
Proof.
  intros Oc Ib. pose proof (x_nx _ _ _ _ _ _ _ X) as Nx.
  destruct (N.eq_dec (did (dm s b)) 0) as [Z|Z].
  - pose proof (P_user b Ib Z) as Iu. rewrite (rn_usr b Iu). destruct (user_P b Iu) as (_ & _ & Rb).
    destruct Oc as [->|Nc]; [now rewrite (rn_one _ _ _ RN)|].
    pose proof (ren_ge c Nc). destruct (inn_P c Nc) as [_ Hd].
    destruct (N.eqb_spec (ren c) b); [lia|]. destruct (N.eqb_spec c b); congruence.
  - pose proof (P_inn b Ib Z) as Nb. rewrite (rn_inn b Nb).
    destruct (N.eqb_spec (ren c) (ren b)) as [E|E], (N.eqb_spec c b) as [E'|E']; try congruence.
    destruct E'. apply ren_okp; auto. now right.
Qed.

Lemma D2_ren a : inn [] s a -> D2 (ren a) = D a.
Proof.
  intros Na. unfold D2. destruct (inn_P a Na) as [Ia Hd].
  destruct (find _ P) as [c|] eqn:F.
  - apply find_some in F as [Ic F]. apply andb_true_iff in F as [F1 F2]. apply negb_true_iff, N.eqb_neq in F1.
    apply N.eqb_eq in F2. now rewrite (rn_inj _ _ _ RN c a (P_inn c Ic F1) Na F2).
  - exfalso. pose proof (find_none _ _ F a Ia) as F'. cbv beta in F'. rewrite N.eqb_refl, andb_true_r in F'.
    apply negb_false_iff, N.eqb_eq in F'. auto.
Qed.
Lemma D2_old b : b < dnx s -> D2 b = D b.
Proof.
  intros Lb. unfold D2. destruct (find _ P) as [c|] eqn:F; auto.
  apply find_some in F as [Ic F]. apply andb_true_iff in F as [F1 F2]. apply negb_true_iff, N.eqb_neq in F1.
  apply N.eqb_eq in F2. pose proof (ren_ge c (P_inn c Ic F1)). lia.
Qed.
Lemma D2_okp c rho : okp [] s c -> D2 (ren c) rho = D c rho.
Proof.
  intros [->|Nc]; [|now rewrite D2_ren]. rewrite (rn_one _ _ _ RN), D2_old; auto.
  pose proof (x_nx _ _ _ _ _ _ _ X). unfold ONE. lia.
Qed.

Definition re (p : ded) : edge := E (did (dm s (fst p))) (ren (fst p)) (snd p).
Lemma d_did c : okp [] s c -> did (dm d (ren c)) = did (dm s c).
Proof.
  intros [->|Nc]; [rewrite (rn_one _ _ _ RN), (rn_dm1 _ _ _ RN); reflexivity|].
  now rewrite (rn_new _ _ _ RN c Nc).
Qed.
Lemma vedge_re p : okp [] s (fst p) -> vedge (nodeR b') (re p).
Proof.
  intros [E|Nc]; unfold re.
  - left. cbn [eid eptr]. rewrite E, (rn_one _ _ _ RN). split; auto. apply (x_one _ _ _ _ _ _ _ X).
  - right. cbn [eid eptr]. destruct (inn_did o Mx D s 0 0 X _ Nc) as (Ic & Hd & _). split; auto.
    unfold nodeR, b', back. cbn [ut]. apply (rn_tab _ _ _ RN); eauto.
Qed.
Lemma dv_re p rho : okp [] s (fst p) -> dv D2 (re p) rho = dval D p rho.
Proof. intros O. unfold dv, re, dval. cbn [eneg eptr]. now rewrite D2_okp. Qed.

Lemma mem_new a : inn [] s a -> ct (mem b' (ren a)) = re (dt (dm s a)) /\ ce (mem b' (ren a)) = re (de (dm s a)) /\
   cr (mem b' (ren a)) = drc (dm s a).
Proof.
  intros Na. destruct (x_ch _ _ _ _ _ _ _ X a Na) as (O1 & O2 & _).
  unfold b', back. cbn [mem]. pose proof (ren_ge a Na). destruct (N.eqb_spec (ren a) ONE) as [Q|_]; [unfold ONE in Q; lia|].
  rewrite (rn_new _ _ _ RN a Na). cbn [ct ce cr dt de drc rp fst snd]. unfold re. rewrite !d_did; auto.
Qed.
Lemma mem_user u : In u (dtab s 0) -> ct (mem b' u) = re (dt (dm s u)) /\ ce (mem b' u) = one /\ cr (mem b' u) = drc (dm s u).
Proof.
  intros Iu. destruct (x_user _ _ _ _ _ _ _ X u Iu) as (O1 & O2 & O3). destruct (user_P u Iu) as (_ & _ & Ru).
  unfold b', back. cbn [mem]. destruct (N.eqb_spec u ONE) as [Q|_]; [unfold ONE in Q; lia|].
  rewrite (rn_user _ _ _ RN u Iu). cbn [ct ce cr dt de drc rp fst snd]. rewrite O3. cbn [fst snd].
  rewrite (rn_dm1 _ _ _ RN), (proj1 (x_one _ _ _ _ _ _ _ X)). unfold re. rewrite d_did; auto.
Qed.
Lemma mem_rn a : In a P -> eptr (ct (mem b' (rn a))) = ren (fst (dt (dm s a))) /\
   eptr (ce (mem b' (rn a))) = ren (fst (de (dm s a))) /\ cr (mem b' (rn a)) = drc (dm s a) /\
   okp [] s (fst (dt (dm s a))) /\ okp [] s (fst (de (dm s a))).
Proof.
  intros Ia. destruct (N.eq_dec (did (dm s a)) 0) as [Z|Z].
  - pose proof (P_user a Ia Z) as Iu. rewrite (rn_usr a Iu). destruct (mem_user a Iu) as (-> & -> & ->).
    destruct (x_user _ _ _ _ _ _ _ X a Iu) as (O1 & _ & ->). cbn [re eptr one fst]. rewrite (rn_one _ _ _ RN).
    do 4 (split; [auto; fail|]). now left.
  - pose proof (P_inn a Ia Z) as Na. rewrite (rn_inn a Na). destruct (mem_new a Na) as (-> & -> & ->).
    destruct (x_ch _ _ _ _ _ _ _ X a Na) as (O1 & O2 & _). auto.
Qed.

Lemma ut_b v : ut b' v = dtab d v.
Proof. reflexivity. Qed.
Lemma in_b v a : v <> 0 -> In a (ut b' v) -> exists c, In c (dtab s v) /\ a = ren c /\ inn [] s c /\ did (dm s c) = v /\ In v (ord o).
Proof.
  intros Hv Ia. rewrite ut_b in Ia. apply (rn_tab _ _ _ RN v a Hv) in Ia as (c & Ic & ->). exists c.
  destruct (in_tab o Mx D s 0 0 X v c Hv Ic) as (Nc & Ec & _). split; auto. split; auto. split; auto. split; auto.
  rewrite <- Ec. exact (x_ord _ _ _ _ _ _ _ X c Nc).
Qed.
Lemma in_b0 u : In u (ut b' 0) <-> In u (dtab s 0).
Proof. rewrite ut_b, (rn_0 _ _ _ RN). tauto. Qed.
Lemma did_b v a : In a (ut b' v) -> did (dm d a) = v.
Proof.
  intros Ia. destruct (N.eq_dec v 0) as [->|Hv].
  - apply in_b0 in Ia. rewrite (rn_user _ _ _ RN a Ia). now destruct (user_P a Ia) as (_ & E & _).
  - destruct (in_b v a Hv Ia) as (c & Ic & -> & Nc & Ec & _). rewrite d_did; auto. now right.
Qed.

Lemma back_SWF : SWF o b'.
Proof.
  constructor.
  - intros v a Hv Ia. destruct (in_b v a Hv Ia) as (c & Ic & -> & Nc & Ec & Iv).
    destruct (mem_new c Nc) as (T1 & T2 & _). destruct (x_ch _ _ _ _ _ _ _ X c Nc) as (O1 & O2 & O3 & O4).
    constructor; rewrite ?T1, ?T2; auto.
    + now apply vedge_re.
    + now apply vedge_re.
    + unfold gt_idx. cbn [re eid]. apply (x_lv _ _ _ _ _ _ _ X v c); auto.
    + unfold gt_idx. cbn [re eid]. apply (x_lv _ _ _ _ _ _ _ X v c); auto.
    + unfold eeq. cbn [re eptr eneg]. apply andb_false_iff.
      destruct (N.eqb_spec (ren (fst (dt (dm s c)))) (ren (fst (de (dm s c))))) as [E|E]; auto. right.
      apply ren_okp in E; auto. destruct (Bool.eqb (snd (dt (dm s c))) (snd (de (dm s c)))) eqn:Eb; auto.
      apply Bool.eqb_prop in Eb. destruct O4. destruct (dt (dm s c)), (de (dm s c)). cbn in *. congruence.
  - intros u Iu. apply in_b0 in Iu. destruct (mem_user u Iu) as (T1 & T2 & _). rewrite T1, T2.
    destruct (x_user _ _ _ _ _ _ _ X u Iu) as (O1 & O2 & O3). split; [now apply vedge_re|]. split; auto.
  - intros v a b Ia Ib E1 E2. apply eeq_true in E1 as [E1 E1']. apply eeq_true in E2 as [E2 E2'].
    destruct (N.eq_dec v 0) as [->|Hv].
    + apply in_b0 in Ia. apply in_b0 in Ib. apply (x_uu _ _ _ _ _ _ _ X); auto.
      destruct (mem_user a Ia) as (T1 & _). destruct (mem_user b Ib) as (T2 & _). rewrite T1, T2 in *. cbn [re eptr eneg] in *.
      destruct (x_user _ _ _ _ _ _ _ X a Ia) as (O1 & _). destruct (x_user _ _ _ _ _ _ _ X b Ib) as (O2 & _).
      apply ren_okp in E1; auto. destruct (dt (dm s a)), (dt (dm s b)). cbn in *. congruence.
    + destruct (in_b v a Hv Ia) as (c & Ic & -> & Nc & Ec & _). destruct (in_b v b Hv Ib) as (c' & Ic' & -> & Nc' & Ec' & _).
      destruct (mem_new c Nc) as (T1 & T2 & _). destruct (mem_new c' Nc') as (T1' & T2' & _).
      rewrite T1, T1', T2, T2' in *. cbn [re eptr eneg] in *.
      destruct (x_ch _ _ _ _ _ _ _ X c Nc) as (O1 & O2 & _). destruct (x_ch _ _ _ _ _ _ _ X c' Nc') as (O1' & O2' & _).
      apply ren_okp in E1; auto. apply ren_okp in E2; auto. f_equal.
      apply (x_inj _ _ _ _ _ _ _ X); [now right|now right|]. intros rho.
      rewrite (x_D _ _ _ _ _ _ _ X c rho Nc), (x_D _ _ _ _ _ _ _ X c' rho Nc'), Ec, Ec'. unfold dval. now rewrite E1, E1', E2, E2'.
  - intros v w a Ia Ib. apply did_b in Ia. apply did_b in Ib. congruence.
  - intros v a Ia. destruct (N.eq_dec v 0) as [->|Hv].
    + apply in_b0 in Ia. apply user_P in Ia. lia.
    + destruct (in_b v a Hv Ia) as (c & Ic & -> & Nc & Ec & _). apply ren_ge in Nc. lia.
  - unfold b', back. cbn [mem]. rewrite N.eqb_refl. cbn [ce eptr]. rewrite (rn_dm1 _ _ _ RN). apply (x_one _ _ _ _ _ _ _ X).
  - unfold b', back. cbn [mem]. rewrite N.eqb_refl. cbn [cr]. rewrite (rn_dm1 _ _ _ RN). apply (x_one _ _ _ _ _ _ _ X).
Qed.

Lemma back_Dok : Dok D2 b'.
Proof.
  constructor.
  - intros rho. rewrite <- (rn_one _ _ _ RN), D2_okp by now left. apply (x_D1 _ _ _ _ _ _ _ X).
  - intros v a rho Hv Ia. destruct (in_b v a Hv Ia) as (c & Ic & -> & Nc & Ec & Iv).
    destruct (mem_new c Nc) as (T1 & T2 & _). destruct (x_ch _ _ _ _ _ _ _ X c Nc) as (O1 & O2 & O3 & O4).
    rewrite T1, T2, !dv_re, D2_ren by auto. rewrite (x_D _ _ _ _ _ _ _ X c rho Nc), Ec. reflexivity.
Qed.

(** Ownership. *)
Definition own2 (a : N) : tag :=
  match find (fun v => existsb (N.eqb a) (dtab d v)) (0 :: ord o) with
  | Some v => ONode v
  | None => if existsb (N.eqb a) f0 then OFree 0 else ONone
  end.
Lemma exb a l : existsb (N.eqb a) l = true <-> In a l.
Proof.
  rewrite existsb_exists. split; [intros (y & H & E); apply N.eqb_eq in E; now subst|].
  intros H. exists a. split; auto. apply N.eqb_refl.
Qed.
Lemma own2_node v a : own2 a = ONode v <-> In a (ut b' v).
Proof.
  unfold own2. destruct (find _ (0 :: ord o)) as [w|] eqn:F.
  - apply find_some in F as [_ F]. apply exb in F. split.
    + intros E. injection E as <-. exact F.
    + intros Ia. f_equal. apply did_b in Ia. apply (did_b w) in F. congruence.
  - split; [destruct (existsb _ f0); discriminate|]. intros Ia. exfalso.
    assert (Iv : In v (0 :: ord o)).
    { destruct (N.eq_dec v 0) as [->|Hv]; [now left|]. destruct (in_b v a Hv Ia) as (c & _ & _ & _ & _ & Q). now right. }
    pose proof (find_none _ _ F v Iv) as F'. cbv beta in F'. apply not_true_iff_false in F'. apply F'. now apply exb.
Qed.
Lemma f0_node a : In a f0 -> forall v, ~ In a (ut b' v).
Proof.
  intros Ia v Ib. destruct F0 as [_ F]. destruct (F a Ia) as [F1 F2]. destruct (N.eq_dec v 0) as [->|Hv].
  - apply in_b0 in Ib. auto.
  - destruct (in_b v a Hv Ib) as (c & _ & -> & Nc & _). apply ren_ge in Nc. lia.
Qed.
Lemma own2_free a : own2 a = OFree 0 <-> In a f0.
Proof.
  unfold own2. destruct (find _ (0 :: ord o)) as [w|] eqn:F.
  - apply find_some in F as [_ F]. apply exb in F. split; [discriminate|]. intros Ia. destruct (f0_node a Ia w F).
  - destruct (existsb (N.eqb a) f0) eqn:E; [apply exb in E; tauto|]. split; [discriminate|]. intros Ia. apply exb in Ia. congruence.
Qed.
Lemma own2_cases a : (exists v, own2 a = ONode v) \/ own2 a = OFree 0 \/ own2 a = ONone.
Proof. unfold own2. destruct (find _ _); eauto. destruct (existsb _ _); auto. Qed.

Lemma back_EInv en : (forall k i, que en k i = []) -> (forall k i, don en k i = []) -> EInv o own2 D2 (set_st en b').
Proof.
  intros Hq Hd. constructor.
  - unfold EAcc. cbn [st set_st que don]. constructor.
    + intros t a Ht. destruct t as [| |v|v|k v|k v|c]; try discriminate; cbn [kont].
      * symmetry. apply own2_node.
      * destruct (N.eq_dec v 0) as [->|Hv].
        -- unfold b', back. cbn [fl]. rewrite N.eqb_refl. symmetry. apply own2_free.
        -- unfold b', back. cbn [fl]. apply N.eqb_neq in Hv as Hv'. rewrite Hv'. split; [intros []|].
           intros E. destruct (own2_cases a) as [[w Q]|[Q|Q]]; congruence.
      * rewrite Hq. split; [intros []|]. intros E. destruct (own2_cases a) as [[w Q]|[Q|Q]]; congruence.
      * rewrite Hd. split; [intros []|]. intros E. destruct (own2_cases a) as [[w Q]|[Q|Q]]; congruence.
    + intros t Ht. destruct t as [| |v|v|k v|k v|c]; try discriminate; cbn [kont].
      * apply (rn_nd _ _ _ RN).
      * unfold b', back. cbn [fl]. destruct (v =? 0); [apply F0|constructor].
      * rewrite Hq. constructor.
      * rewrite Hd. constructor.
    + intros a Ha. pose proof (rn_nx _ _ _ RN) as Nx. unfold b', back. cbn [nx].
      destruct (own2_cases a) as [[w Q]|[Q|Q]]; [| |congruence].
      * apply own2_node in Q. destruct (N.eq_dec w 0) as [->|Hv].
        -- apply in_b0 in Q. apply user_P in Q. lia.
        -- destruct (in_b w a Hv Q) as (c & _ & -> & Nc & _). apply ren_ge in Nc. lia.
      * apply own2_free in Q. apply F0 in Q as [Q _]. lia.
    + unfold b', back. cbn [nx]. pose proof (rn_nx _ _ _ RN) as Nx. pose proof (x_nx _ _ _ _ _ _ _ X). lia.
  - exact back_SWF.
  - exact back_Dok.
  - exact Hq.
  - exact Hd.
  - intros p a Q. destruct (own2_cases p) as [[w Q']|[Q'|Q']]; congruence.
Qed.

Lemma rn_inj' a b : In a P -> In b P -> rn a = rn b -> a = b.
Proof.
  intros Ia Ib E. destruct (N.eq_dec (did (dm s a)) 0) as [Z|Z], (N.eq_dec (did (dm s b)) 0) as [Z'|Z'].
  - rewrite (rn_usr a), (rn_usr b) in E by now apply P_user. auto.
  - rewrite (rn_usr a), (rn_inn b) in E by (apply P_user || apply P_inn; auto). pose proof (ren_ge b (P_inn b Ib Z')).
    pose proof (user_P a (P_user a Ia Z)). lia.
  - rewrite (rn_usr b), (rn_inn a) in E by (apply P_user || apply P_inn; auto). pose proof (ren_ge a (P_inn a Ia Z)).
    pose proof (user_P b (P_user b Ib Z')). lia.
  - rewrite (rn_inn a), (rn_inn b) in E by (apply P_inn; auto). apply (rn_inj _ _ _ RN); auto using P_inn.
Qed.
Lemma node_b a : (exists v, In a (ut b' v)) <-> exists c, In c P /\ a = rn c.
Proof.
  split.
  - intros [v Ia]. destruct (N.eq_dec v 0) as [->|Hv].
    + apply in_b0 in Ia. exists a. split; [now apply user_P|]. symmetry. now apply rn_usr.
    + destruct (in_b v a Hv Ia) as (c & _ & -> & Nc & _). exists c. split; [now apply inn_P|]. symmetry. now apply rn_inn.
  - intros (c & Ic & ->). destruct (N.eq_dec (did (dm s c)) 0) as [Z|Z].
    + exists 0. apply in_b0. rewrite rn_usr; now apply P_user.
    + pose proof (P_inn c Ic Z) as Nc. rewrite rn_inn by auto. exists (did (dm s c)). apply (rn_tab _ _ _ RN); auto.
      exists c. split; auto. now apply (inn_did o Mx D s 0 0 X).
Qed.

Lemma back_RC x' : (forall b, In b P -> x' (rn b) = x b) -> 
  (forall b, 2 < b -> (forall v, ~ In b (ut b' v)) -> x' b = 0) ->
  RC own2 [] idn (mem b') (map rn P) x'.
Proof.
  intros H1 H2.
  assert (IL : forall a, In a (map rn P) <-> exists v, own2 a = ONode v).
  { intros a. rewrite in_map_iff. split.
    - intros (c & <- & Ic). destruct (proj2 (node_b (rn c)) (ex_intro _ c (conj Ic eq_refl))) as [v Iv]. exists v. now apply own2_node.
    - intros [v Iv]. apply own2_node in Iv. destruct (proj1 (node_b a) (ex_intro _ v Iv)) as (c & Ic & ->). eauto. }
  assert (CB : forall b, counted own2 b -> exists c, In c P /\ b = rn c).
  { intros b [Hb|(k & i & Hb)].
    - apply IL in Hb. apply in_map_iff in Hb as (c & <- & Ic). eauto.
    - destruct (own2_cases b) as [[w Q']|[Q'|Q']]; congruence. }
  constructor.
  - assert (G : forall l, NoDup l -> (forall a, In a l -> In a P) -> NoDup (map rn l)).
    { induction 1 as [|a l Na ND IH]; intros Hl; cbn [map]; constructor.
      - intros Q. apply in_map_iff in Q as (c & E & Ic). apply rn_inj' in E; [subst; auto| |]; apply Hl; [now right|now left].
      - apply IH. intros c Ic. apply Hl. now right. }
    apply G; [apply R|auto].
  - intros a. rewrite IL. split; [now left|]. intros [H|(k & i & _ & [] & _)]; auto.
  - assert (TG : forall c, okp [] s c -> tgt own2 (ren c)).
    { intros c [->|Nc].
      - left. rewrite (rn_one _ _ _ RN). unfold ONE, NUL. lia.
      - right. left. left. apply IL. apply in_map_iff. exists c. split; [now apply rn_inn|now apply inn_P]. }
    intros a Ia. apply in_map_iff in Ia as (c & <- & Ic). destruct (mem_rn c Ic) as (-> & -> & _ & O1 & O2). auto.
  - intros b Cb. destruct (CB b Cb) as (c & Ic & ->). destruct (mem_rn c Ic) as (_ & _ & Er & _). rewrite Er.
    destruct (xr_cnt _ _ _ _ R c Ic) as [_ [E|E]]; [now left|right]. rewrite H1 by auto.
    assert (Eo : forall l, (forall a, In a l -> In a P) -> Z.of_N (occ idn (mem b') (map rn l) (rn c)) = docc (dm s) l c).
    { induction l as [|a l IH]; intros Hl; cbn [map occ docc]; [reflexivity|].
      rewrite N2Z.inj_add, IH by (intros; apply Hl; now right). f_equal.
      destruct (mem_rn a (Hl a (or_introl eq_refl))) as (E1 & E2 & _ & O1 & O2).
      unfold wt, dw, idn. rewrite E1, E2, !ren_rn by auto. unfold b2n.
      destruct (fst (dt (dm s a)) =? c), (fst (de (dm s a)) =? c); reflexivity. }
    specialize (Eo P ltac:(auto)). rewrite <- Eo in E. lia.
  - intros b Cb. destruct (CB b Cb) as (c & Ic & ->). destruct (mem_rn c Ic) as (_ & _ & Er & _). rewrite Er.
    apply (xr_cnt _ _ _ _ R c Ic).
  - intros b Hb Fr. apply H2; auto. intros v Iv. apply own2_node in Iv. rewrite Iv in Fr. destruct Fr as [Fr|[i Fr]]; discriminate.
Qed.

Lemma back_QS en x' : (forall k i, que en k i = []) -> (forall k i, don en k i = []) ->
  (forall b, In b P -> x' (rn b) = x b) -> 
  (forall b, 2 < b -> (forall v, ~ In b (ut b' v)) -> x' b = 0) ->
  QS o D2 (set_st en b') x'.
Proof. intros Hq Hd H1 H2. exists own2, (map rn P). split; [now apply back_EInv|]. now apply back_RC. Qed.

(** Redirected edges. *)
Lemma efwd_spec e : okp [] s (eptr e) -> eid e = did (dm s (eptr e)) \/ inn [] s (eptr e) ->
  efwd_to (dm d) e = E (did (dm s (eptr e))) (ren (eptr e)) (eneg e).
Proof.
  intros O Hi. unfold efwd_to. destruct O as [E1|Na].
  - rewrite E1, (rn_dm1 _ _ _ RN), (rn_one _ _ _ RN). destruct (x_one _ _ _ _ _ _ _ X) as (Q1 & _ & Q).
    destruct (N.eqb_spec (fst (de (dm s ONE))) 0); [congruence|]. destruct Hi as [Hi|Hi].
    + rewrite E1 in Hi. destruct e; cbn in *; congruence.
    + apply (inn_did o Mx D s 0 0 X) in Hi. rewrite E1 in Hi. unfold ONE in Hi. lia.
  - rewrite (rn_fwd _ _ _ RN _ Na). cbn [de dt did fst snd]. rewrite N.eqb_refl. now rewrite xorb_false_l.
Qed.
Lemma efwd_ok e : okp [] s (eptr e) -> eid e = did (dm s (eptr e)) \/ inn [] s (eptr e) ->
  vedge (nodeR b') (efwd_to (dm d) e) /\ eptr (efwd_to (dm d) e) = ren (eptr e) /\
  forall rho, dv D2 (efwd_to (dm d) e) rho = dv D e rho.
Proof.
  intros O Hi. rewrite (efwd_spec e O Hi). split; [exact (vedge_re (eptr e, eneg e) O)|]. split; [reflexivity|].
  intros rho. unfold dv. cbn [eneg eptr]. now rewrite D2_okp.
Qed.
End Back.
