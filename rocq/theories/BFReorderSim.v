(** Breadth-first reordering follows depth-first reordering: every node of the one state corresponds to a node of the
    other, at an address given by a renaming; edges of the breadth-first state lead to the corresponding node through
    forwardings. *)
From Coq Require Import NArith ZArith List Bool Lia Permutation.
From Verif Require Import Base BFModel StoreInv MgrModel ApiModel ReorderModel ReorderProof ReorderStep ReorderRen ReorderInit ReorderBack
  PackModel BFReorderModel.
Import ListNotations.
Open Scope N_scope.

Definition inw (w : N -> list N) (a : N) : Prop := exists v, In a (w v).
(** The edge [e] leads to the edge [e'] through forwardings. *)
Inductive rs (m : memory) (w : N -> list N) : edge -> edge -> Prop :=
| rs_end e : eptr (ce (m (eptr e))) <> 0 -> rs m w e e
| rs_fwd e e' : inw w (eptr e) -> eptr (ce (m (eptr e))) = 0 -> rs m w (ephase (ct (m (eptr e))) (eneg e)) e' -> rs m w e e'.

Lemma rs_frame m w m' w' e e' : rs m w e e' ->
  (forall a, inw w a \/ a = eptr e' -> ct (m' a) = ct (m a) /\ ce (m' a) = ce (m a)) -> (forall a, inw w a -> inw w' a) -> rs m' w' e e'.
Proof.
  intros H. induction H as [e H|e e' Hw H0 H IH]; intros F Hi.
  - apply rs_end. destruct (F (eptr e)) as [_ ->]; auto.
  - destruct (F (eptr e)) as [F1 F2]; auto. apply rs_fwd; auto.
    + now rewrite F2.
    + rewrite F1. auto.
Qed.
Lemma rs_raw m w e e' : rs m w e e' -> forwarded m e = false -> e = e'.
Proof. intros H F. apply N.eqb_neq in F. destruct H; congruence. Qed.
Lemma rs_end_nf m w e e' : rs m w e e' -> eptr (ce (m (eptr e'))) <> 0.
Proof. induction 1; auto. Qed.
Lemma eph_eph e a b : ephase (ephase e a) b = ephase e (xorb a b).
Proof. destruct e as [x y z]. unfold ephase; cbn. f_equal. now destruct z, a, b. Qed.
Lemma rs_phase m w e e' b : rs m w e e' -> rs m w (ephase e b) (ephase e' b).
Proof.
  induction 1 as [e H|e e' Hw H0 H IH]; [now apply rs_end|]. apply rs_fwd; auto.
  rewrite eph_eph in IH. exact IH.
Qed.
Lemma rs_step m w e e' : rs m w e e' -> rs m w (fwd m e) e'.
Proof.
  intros H. unfold fwd. destruct H as [e H|e e' Hw H0 H].
  - apply N.eqb_neq in H as H'. rewrite H'. now apply rs_end.
  - rewrite H0. exact H.
Qed.

(** Structure of a state of depth-first reordering. *)
Record XS (L : list N) (d : dst) : Prop := {
  xs_tab : forall v a, In a (dtab d v) -> did (dm d a) = v /\ ~ In a L /\ 2 < a < dnx d;
  xs_nd : forall v, NoDup (dtab d v);
  xs_ndL : NoDup L;
  xs_L : forall a, In a L -> 2 < a < dnx d;
  xs_one : did (dm d ONE) = 0;
  xs_ch : forall a, inn L d a -> okp L d (fst (dt (dm d a))) /\ okp L d (fst (de (dm d a)));
  xs_us : forall u, In u (dtab d 0) -> okp L d (fst (dt (dm d u)));
  xs_fl : forall b, In b (dfl d) -> 2 < b < dnx d /\ ~ node L d b;
  xs_fln : NoDup (dfl d);
  xs_nx : 2 < dnx d
}.
Lemma XI_XS o i j M L D d : XI o i j M L D d -> XS L d.
Proof.
  intros X. constructor.
  - exact (x_tab _ _ _ _ _ _ _ X).
  - exact (x_nd _ _ _ _ _ _ _ X).
  - exact (x_ndL _ _ _ _ _ _ _ X).
  - intros a Ia. destruct (x_L _ _ _ _ _ _ _ X a Ia) as (_ & H & _). exact H.
  - exact (proj1 (x_one _ _ _ _ _ _ _ X)).
  - intros a Na. destruct (x_ch _ _ _ _ _ _ _ X a Na) as (A & B & _). auto.
  - intros u Iu. apply (x_user _ _ _ _ _ _ _ X u Iu).
  - exact (proj2 (x_fl _ _ _ _ _ _ _ X)).
  - exact (proj1 (x_fl _ _ _ _ _ _ _ X)).
  - exact (x_nx _ _ _ _ _ _ _ X).
Qed.
Lemma xs_node_rng L d a : XS L d -> node L d a -> 2 < a < dnx d.
Proof. intros X [(v & Ia)|Ia]; [now apply (xs_tab _ _ X v)|now apply X]. Qed.
Lemma xs_inn_nz L d a : XS L d -> inn L d a -> a <> ONE.
Proof. intros X Na ->. apply inn_node in Na. pose proof (xs_node_rng _ _ _ X Na). unfold ONE in *. lia. Qed.
Lemma xs_usr L d a u : XS L d -> inn L d a -> In u (dtab d 0) -> a <> u.
Proof.
  intros X [(v & Hv & Ia)|Ia] Iu ->.
  - destruct (xs_tab _ _ X v u Ia) as (E1 & _). destruct (xs_tab _ _ X 0 u Iu) as (E2 & _). congruence.
  - destruct (xs_tab _ _ X 0 u Iu) as (_ & E2 & _). auto.
Qed.

Lemma re_ext d d' ren p : did (dm d' (fst p)) = did (dm d (fst p)) -> re d' ren p = re d ren p.
Proof. intros H. unfold re. now rewrite H. Qed.
Lemma re_dtag d ren p b : re d ren (dtag p b) = ephase (re d ren p) b.
Proof. destruct p as [a x]. unfold re, dtag, ephase. cbn. reflexivity. Qed.

Section Sim.
Variable c1 : cell.
Hypothesis C1 : eptr (ce c1) <> 0 /\ cr c1 = MAXREF.

Definition live (L : list N) (s : store) (w : N -> list N) (ren : N -> N) (x : N) : Prop :=
  (exists v, In x (ut s v)) \/ inw w x \/ In x (map ren L).

Record SIM (L : list N) (d : dst) (s : store) (w : N -> list N) (ren : N -> N) : Prop := {
  si_0 : ut s 0 = dtab d 0;
  si_tab : forall v, v <> 0 -> ut s v = map ren (dtab d v);
  si_one : ren ONE = ONE;
  si_c1 : mem s ONE = c1;
  si_d1 : drc (dm d ONE) = MAXREF;
  si_inj : forall a b, inn L d a -> inn L d b -> ren a = ren b -> a = b;
  si_ru : forall a, inn L d a -> ~ In (ren a) (dtab d 0);
  si_live : forall x, live L s w ren x -> 2 < x < nx s;
  si_nx : 2 < nx s;
  si_fln : forall v, NoDup (fl s v);
  si_fl : forall v x, In x (fl s v) -> 2 < x < nx s /\ ~ live L s w ren x;
  si_fld : forall v v' x, In x (fl s v) -> In x (fl s v') -> v = v';
  si_wn : forall v, NoDup (w v);
  si_wd : forall v v' x, In x (w v) -> In x (w v') -> v = v';
  si_wt : forall x, inw w x -> (forall v, ~ In x (ut s v)) /\ ~ In x (map ren L);
  si_cr : forall a, inn L d a -> cr (mem s (ren a)) = drc (dm d a);
  si_mx : forall a, inn L d a -> drc (dm d a) <= MAXREF;
  si_nf : forall a, inn L d a -> eptr (ce (mem s (ren a))) <> 0;
  si_ch : forall a, inn L d a -> rs (mem s) w (ct (mem s (ren a))) (re d ren (dt (dm d a))) /\
                                rs (mem s) w (ce (mem s (ren a))) (re d ren (de (dm d a)));
  si_us : forall u, In u (dtab d 0) -> rs (mem s) w (ct (mem s u)) (re d ren (dt (dm d u))) /\
                                ce (mem s u) = one /\ cr (mem s u) = drc (dm d u)
}.

(** What a step does to edges held outside, and to the renaming. *)
Record STEP (L : list N) (d : dst) (s : store) (w : N -> list N) (ren : N -> N)
            (L' : list N) (d' : dst) (s' : store) (w' : N -> list N) (ren' : N -> N) : Prop := {
  st_keep : forall e p, okp L d (fst p) -> okp L' d' (fst p) -> rs (mem s) w e (re d ren p) -> rs (mem s') w' e (re d' ren' p);
  st_ren : forall a, inn L d a -> (In a L -> In a L') -> ren' a = ren a
}.
Lemma STEP_refl L d s w ren : STEP L d s w ren L d s w ren.
Proof. constructor; auto. Qed.

Lemma ren_live L d s w ren a : SIM L d s w ren -> inn L d a -> live L s w ren (ren a).
Proof.
  intros S [(v & Hv & Ia)|Ia].
  - left. exists v. rewrite (si_tab _ _ _ _ _ S v Hv). now apply in_map.
  - right. right. now apply in_map.
Qed.
Lemma ren_nw L d s w ren a : SIM L d s w ren -> inn L d a -> ~ inw w (ren a).
Proof.
  intros S Na Hw. destruct (si_wt _ _ _ _ _ S _ Hw) as [A B]. destruct Na as [(v & Hv & Ia)|Ia].
  - apply (A v). rewrite (si_tab _ _ _ _ _ S v Hv). now apply in_map.
  - apply B. now apply in_map.
Qed.
Lemma ren_rng L d s w ren a : SIM L d s w ren -> inn L d a -> 2 < ren a < nx s.
Proof. intros S Na. apply (si_live _ _ _ _ _ S). eapply ren_live; eauto. Qed.
Lemma okp_ren_nz L d s w ren a : SIM L d s w ren -> okp L d a -> ren a <> 0.
Proof.
  intros S [->|Na]; [rewrite (si_one _ _ _ _ _ S); unfold ONE; lia|]. pose proof (ren_rng _ _ _ _ _ _ S Na). lia.
Qed.
Lemma okp_nf L d s w ren a : SIM L d s w ren -> okp L d a -> eptr (ce (mem s (ren a))) <> 0.
Proof.
  intros S [->|Na]; [rewrite (si_one _ _ _ _ _ S), (si_c1 _ _ _ _ _ S); apply C1|]. now apply (si_nf _ _ _ _ _ S).
Qed.
Lemma okp_inj L d s w ren a b : XS L d -> SIM L d s w ren -> okp L d a -> okp L d b -> ren a = ren b -> a = b.
Proof.
  intros X S [->|Na] [->|Nb]; auto; rewrite ?(si_one _ _ _ _ _ S); intros E.
  - pose proof (ren_rng _ _ _ _ _ _ S Nb). unfold ONE in *. lia.
  - pose proof (ren_rng _ _ _ _ _ _ S Na). unfold ONE in *. lia.
  - exact (si_inj _ _ _ _ _ S a b Na Nb E).
Qed.
Lemma rs_re L d s w ren p : SIM L d s w ren -> okp L d (fst p) -> rs (mem s) w (re d ren p) (re d ren p).
Proof. intros S O. apply rs_end. unfold re. cbn [eptr]. eapply okp_nf; eauto. Qed.
Lemma user_rng L d s w ren u : SIM L d s w ren -> In u (dtab d 0) -> 2 < u < nx s /\ ~ inw w u.
Proof.
  intros S Iu. rewrite <- (si_0 _ _ _ _ _ S) in Iu. split.
  - apply (si_live _ _ _ _ _ S). left. eauto.
  - intros Hw. apply (si_wt _ _ _ _ _ S) in Hw as [A _]. exact (A 0 Iu).
Qed.
Lemma one_live L d s w ren x : SIM L d s w ren -> live L s w ren x -> x <> ONE.
Proof. intros S H ->. apply (si_live _ _ _ _ _ S) in H. unfold ONE in *. lia. Qed.

(** *** Counts *)

Lemma set_cr_same c : cr c = MAXREF -> set_cr c MAXREF = c.
Proof. destruct c as [x y z]. cbn. now intros ->. Qed.

Lemma sim_drc L d s w ren d' s' : XS L d -> SIM L d s w ren ->
  (forall a, did (dm d' a) = did (dm d a) /\ dt (dm d' a) = dt (dm d a) /\ de (dm d' a) = de (dm d a)) ->
  (forall a, ct (mem s' a) = ct (mem s a) /\ ce (mem s' a) = ce (mem s a)) ->
  dtab d' = dtab d -> ut s' = ut s -> fl s' = fl s -> nx s' = nx s ->
  mem s' ONE = c1 -> drc (dm d' ONE) = MAXREF ->
  (forall a, inn L d a -> cr (mem s' (ren a)) = drc (dm d' a) /\ drc (dm d' a) <= MAXREF) ->
  (forall u, In u (dtab d 0) -> cr (mem s' u) = cr (mem s u) /\ drc (dm d' u) = drc (dm d u)) ->
  SIM L d' s' w ren /\ STEP L d s w ren L d' s' w ren.
Proof.
  intros X S Hd Hs Td Ts Tf Tn M1 D1 Hc Hu.
  assert (RE : forall p, re d' ren p = re d ren p) by (intros p; apply re_ext; apply Hd).
  assert (IN : forall a, inn L d' a <-> inn L d a) by (intros a; unfold inn; now rewrite Td).
  assert (LV : forall x, live L s' w ren x <-> live L s w ren x) by (intros x; unfold live; now rewrite Ts).
  assert (RS : forall e e', rs (mem s) w e e' -> rs (mem s') w e e') by (intros e e' H; eapply rs_frame; eauto).
  split.
  - destruct S. constructor; rewrite ?Td, ?Ts, ?Tf, ?Tn; auto.
    + intros a b. rewrite !IN. auto.
    + intros a. rewrite IN. auto.
    + intros x. rewrite LV. auto.
    + intros v x Ix. rewrite LV. exact (si_fl0 v x Ix).
    + intros a. rewrite IN. intros Na. now apply Hc.
    + intros a. rewrite IN. intros Na. now apply Hc.
    + intros a. rewrite IN. destruct (Hs (ren a)) as [_ ->]. auto.
    + intros a. rewrite IN. destruct (Hs (ren a)) as [-> ->]. destruct (Hd a) as (_ & -> & ->). rewrite !RE.
      intros Na. destruct (si_ch0 a Na). auto.
    + intros u Iu. destruct (Hs u) as [-> ->]. destruct (Hd u) as (_ & -> & _). rewrite RE.
      destruct (si_us0 u Iu) as (A & B & E). destruct (Hu u Iu) as [-> ->]. auto.
  - constructor; auto. intros e p _ _. rewrite RE. auto.
Qed.

Lemma sim_count L d s w ren (p : ded) (g : N -> N) : XS L d -> SIM L d s w ren -> okp L d (fst p) ->
  g MAXREF = MAXREF -> (forall n, n <= MAXREF -> g n <= MAXREF) ->
  let d' := dput d (fst p) (set_drc (dm d (fst p)) (g (drc (dm d (fst p))))) in
  let s' := put s (ren (fst p)) (set_cr (mem s (ren (fst p))) (g (cr (mem s (ren (fst p)))))) in
  SIM L d' s' w ren /\ STEP L d s w ren L d' s' w ren.
Proof.
  intros X S O G1 G2 d' s'. pose proof (okp_inj L d s w ren) as INJ. apply sim_drc; auto; try reflexivity.
  - intros a. unfold d', dput. cbn [dm]. unfold upd. destruct (N.eqb_spec a (fst p)) as [->|_]; auto.
  - intros a. unfold s', put, set_mem. cbn [mem]. unfold upd. destruct (N.eqb_spec a (ren (fst p))) as [->|_]; auto.
  - unfold s', put, set_mem. cbn [mem]. unfold upd. destruct (N.eqb_spec ONE (ren (fst p))) as [E|_]; [|apply S].
    rewrite <- E, (si_c1 _ _ _ _ _ S), (proj2 C1), G1. apply set_cr_same, C1.
  - unfold d', dput. cbn [dm]. unfold upd. destruct (N.eqb_spec ONE (fst p)) as [<-|_]; [|apply S].
    cbn [set_drc drc]. rewrite (si_d1 _ _ _ _ _ S). auto.
  - intros a Na. pose proof (si_cr _ _ _ _ _ S a Na) as E. pose proof (si_mx _ _ _ _ _ S a Na) as Q.
    unfold s', d', put, set_mem, dput. cbn [mem dm]. unfold upd.
    destruct (N.eqb_spec a (fst p)) as [->|Ne].
    + rewrite N.eqb_refl. cbn [set_cr cr set_drc drc]. rewrite E. auto.
    + destruct (N.eqb_spec (ren a) (ren (fst p))) as [E1|_]; auto. exfalso. apply Ne. apply INJ; auto. now right.
  - intros u Iu. unfold s', d', put, set_mem, dput. cbn [mem dm]. unfold upd. split.
    + destruct (N.eqb_spec u (ren (fst p))) as [E1|_]; auto. exfalso. destruct O as [O|O].
      * rewrite O, (si_one _ _ _ _ _ S) in E1. destruct (user_rng _ _ _ _ _ _ S Iu). unfold ONE in *. lia.
      * apply (si_ru _ _ _ _ _ S _ O). now rewrite <- E1.
    + destruct (N.eqb_spec u (fst p)) as [E1|_]; auto. exfalso. destruct O as [O|O].
      * rewrite O in E1. destruct (xs_tab _ _ X 0 u Iu) as (_ & _ & R). unfold ONE in *. lia.
      * exact (xs_usr _ _ _ _ X O Iu (eq_sym E1)).
Qed.
Lemma rc_icr_max n : n <= MAXREF -> rc_icr n <= MAXREF.
Proof. unfold rc_icr. destruct (N.ltb_spec n MAXREF); lia. Qed.
Lemma rc_dcr_max n : n <= MAXREF -> rc_dcr n <= MAXREF.
Proof. unfold rc_dcr. destruct (n =? 0); [lia|]. destruct (n =? MAXREF); lia. Qed.
Lemma sim_icr L d s w ren p : XS L d -> SIM L d s w ren -> okp L d (fst p) ->
  SIM L (dicr d p) (icr s (re d ren p)) w ren /\ STEP L d s w ren L (dicr d p) (icr s (re d ren p)) w ren.
Proof. intros X S O. apply (sim_count L d s w ren p rc_icr); auto. apply rc_icr_max. Qed.
Lemma sim_dcr L d s w ren p : XS L d -> SIM L d s w ren -> okp L d (fst p) ->
  SIM L (ddcr d p) (dcr s (re d ren p)) w ren /\ STEP L d s w ren L (ddcr d p) (dcr s (re d ren p)) w ren.
Proof. intros X S O. apply (sim_count L d s w ren p rc_dcr); auto. apply rc_dcr_max. Qed.
Lemma XS_drc L d d' : XS L d ->
  (forall a, did (dm d' a) = did (dm d a) /\ dt (dm d' a) = dt (dm d a) /\ de (dm d' a) = de (dm d a)) ->
  dtab d' = dtab d -> dfl d' = dfl d -> dnx d' = dnx d -> XS L d'.
Proof.
  intros X Hd Td Tf Tn. destruct X.
  assert (Hi : forall a, did (dm d' a) = did (dm d a)) by apply Hd.
  assert (Ht : forall a, dt (dm d' a) = dt (dm d a)) by apply Hd.
  assert (He : forall a, de (dm d' a) = de (dm d a)) by apply Hd.
  constructor; unfold okp, inn, node; rewrite ?Td, ?Tf, ?Tn; auto.
  - intros v a Ia. rewrite Hi. auto.
  - now rewrite Hi.
  - intros a Na. rewrite Ht, He. apply xs_ch0. exact Na.
  - intros u Iu. rewrite Ht. now apply xs_us0.
Qed.
Lemma dicr_same d p a : did (dm (dicr d p) a) = did (dm d a) /\ dt (dm (dicr d p) a) = dt (dm d a) /\ de (dm (dicr d p) a) = de (dm d a).
Proof. unfold dicr, dput. cbn [dm]. unfold upd. destruct (N.eqb_spec a (fst p)) as [->|_]; auto. Qed.
Lemma ddcr_same d p a : did (dm (ddcr d p) a) = did (dm d a) /\ dt (dm (ddcr d p) a) = dt (dm d a) /\ de (dm (ddcr d p) a) = de (dm d a).
Proof. unfold ddcr, dput. cbn [dm]. unfold upd. destruct (N.eqb_spec a (fst p)) as [->|_]; auto. Qed.
Lemma XS_icr L d p : XS L d -> XS L (dicr d p).
Proof. intros X. apply (XS_drc L d); auto. apply dicr_same. Qed.
Lemma XS_dcr L d p : XS L d -> XS L (ddcr d p).
Proof. intros X. apply (XS_drc L d); auto. apply ddcr_same. Qed.

(** *** A new node *)

Lemma alloc_fresh L d s w ren v b s1 : SIM L d s w ren -> alloc s v = (b, s1) ->
  ~ live L s w ren b /\ 2 < b < nx s1 /\ ut s1 = ut s /\ nx s <= nx s1 /\ nn s1 = nn s /\
  (forall x, mem s1 x = if x =? b then C efwd efwd 0 else mem s x) /\
  (forall u, NoDup (fl s1 u)) /\ (forall u x, In x (fl s1 u) -> In x (fl s u) /\ x <> b).
Proof.
  intros S. unfold alloc. destruct (fl s v) as [|a r] eqn:F; intros H; apply pair_equal_spec in H as [<- <-]; cbn [ut nx mem fl nn].
  - pose proof (si_nx _ _ _ _ _ S) as Nx. split; [intros Q; apply (si_live _ _ _ _ _ S) in Q; lia|]. split; [lia|].
    split; auto. split; [lia|]. split; auto. split; [reflexivity|]. split; [apply S|].
    intros u x Ix. split; auto. apply (si_fl _ _ _ _ _ S) in Ix. lia.
  - assert (Ia : In a (fl s v)) by (rewrite F; now left). destruct (si_fl _ _ _ _ _ S v a Ia) as [R1 R2].
    split; auto. split; [exact R1|]. split; auto. split; [lia|]. split; auto. split; [reflexivity|].
    pose proof (si_fln _ _ _ _ _ S v) as ND. rewrite F in ND. inversion ND as [|? ? Na ND']; subst. split.
    + intros u. unfold upd. destruct (N.eqb_spec u v) as [->|_]; [auto|apply S].
    + intros u x. unfold upd. destruct (N.eqb_spec u v) as [->|Nu].
      * intros Ix. rewrite F. split; [now right|]. intros ->; auto.
      * intros Ix. split; auto. intros ->. apply Nu. exact (si_fld _ _ _ _ _ S u v a Ix Ia).
Qed.
Lemma dalloc_fresh L d a d1 : XS L d -> dalloc d = (a, d1) ->
  ~ node L d a /\ 2 < a < dnx d1 /\ dm d1 = dm d /\ dtab d1 = dtab d /\ dnx d <= dnx d1 /\
  (forall x, In x (dfl d1) -> In x (dfl d)).
Proof.
  intros X. unfold dalloc. destruct (dfl d) as [|c r] eqn:F; intros H; apply pair_equal_spec in H as [<- <-]; cbn [dm dtab dnx dfl].
  - pose proof (xs_nx _ _ X). split; [intros Q; pose proof (xs_node_rng _ _ _ X Q); lia|]. split; [lia|].
    split; auto. split; auto. split; [lia|intros x []].
  - destruct (xs_fl _ _ X c) as [R1 R2]; [rewrite F; now left|]. split; auto. split; auto. split; auto. split; auto. split; [lia|].
    intros x Ix. now right.
Qed.

Lemma sim_new L d s w ren v t e a d1 b s1 d' s' :
  XS L d -> SIM L d s w ren -> v <> 0 -> okp L d (fst t) -> okp L d (fst e) ->
  dalloc d = (a, d1) -> alloc s v = (b, s1) ->
  dm d' = upd (dm d1) a (DN v 0 t e) -> dtab d' = upd (dtab d1) v (a :: dtab d1 v) -> dfl d' = dfl d1 -> dnx d' = dnx d1 ->
  mem s' = upd (mem s1) b (C (re d ren t) (re d ren e) 0) -> ut s' = upd (ut s1) v (b :: ut s1 v) -> fl s' = fl s1 -> nx s' = nx s1 ->
  let ren' := upd ren a b in
  SIM L d' s' w ren' /\ STEP L d s w ren L d' s' w ren' /\ XS L d' /\ (forall p, fst p <> a -> re d' ren' p = re d ren p) /\
  ~ node L d a /\ a <> ONE /\ (forall c, inn L d' c <-> c = a \/ inn L d c).
Proof.
  intros X S Nv Ot Oe DA SA Dm Dt Df Dx Sm St Sf Sx ren'.
  destruct (dalloc_fresh _ _ _ _ X DA) as (Fa & Ra & D1 & D2 & D3 & D4).
  destruct (alloc_fresh _ _ _ _ _ _ _ _ S SA) as (Fb & Rb & S2 & S3 & _ & S4 & S5 & S6).
  rewrite D1 in Dm. rewrite D2 in Dt. rewrite S2 in St.
  assert (MM : forall x, mem s' x = if x =? b then C (re d ren t) (re d ren e) 0 else mem s x).
  { intros x. rewrite Sm. unfold upd. rewrite S4. destruct (x =? b); auto. }
  assert (IN : forall c, inn L d' c <-> c = a \/ inn L d c).
  { intros c. unfold inn. rewrite Dt. split.
    - intros [(u & Hu & Ic)|Ic]; auto. unfold upd in Ic. destruct (N.eqb_spec u v) as [->|_].
      + destruct Ic as [<-|Ic]; auto. right. left. eauto.
      + right. left. eauto.
    - intros [->|[(u & Hu & Ic)|Ic]]; [left; exists v; split; auto; rewrite upd_same'; now left| |now right].
      left. exists u. split; auto. unfold upd. destruct (N.eqb_spec u v) as [->|_]; auto. now right. }
  assert (Ia0 : forall c, inn L d c -> c <> a) by (intros c Nc ->; apply Fa; now apply inn_node).
  assert (Rn : forall c, c <> a -> ren' c = ren c) by (intros c Nc; unfold ren'; now apply upd_other').
  assert (Ra' : ren' a = b) by apply upd_same'.
  assert (A1 : a <> ONE) by (unfold ONE; lia).
  assert (OK : forall c, okp L d c -> c <> a) by (intros c [->|Nc]; auto).
  assert (RE : forall p, fst p <> a -> re d' ren' p = re d ren p).
  { intros p Np. unfold re. rewrite Dm, upd_other', Rn by auto. reflexivity. }
  assert (ML : forall c, inn L d c -> mem s' (ren c) = mem s (ren c)).
  { intros c Nc. rewrite MM. destruct (N.eqb_spec (ren c) b) as [E|_]; auto. destruct Fb. rewrite <- E. eapply ren_live; eauto. }
  assert (LN : forall c, live L s w ren c -> c <> b) by (intros c Hc ->; auto).
  assert (RS : forall g p, okp L d (fst p) -> rs (mem s) w g (re d ren p) -> rs (mem s') w g (re d' ren' p)).
  { intros g p Op H. rewrite RE by auto. eapply rs_frame; [exact H| |auto]. intros c Hc. rewrite MM.
    destruct (N.eqb_spec c b) as [->|_]; auto. exfalso. destruct Hc as [Hc|Hc]; [apply Fb; right; now left|].
    unfold re in Hc. cbn [eptr] in Hc. destruct Op as [Op|Op].
    - rewrite Op, (si_one _ _ _ _ _ S) in Hc. unfold ONE in Hc. lia.
    - apply Fb. rewrite Hc. eapply ren_live; eauto. }
  assert (MU : forall u, In u (dtab d 0) -> mem s' u = mem s u).
  { intros u Iu. rewrite MM. destruct (N.eqb_spec u b) as [->|_]; auto. destruct Fb. left. exists 0. now rewrite (si_0 _ _ _ _ _ S). }
  assert (Du : forall u, In u (dtab d 0) -> u <> a) by (intros u Iu ->; apply Fa; left; eauto).
  assert (T0 : dtab d' 0 = dtab d 0) by (rewrite Dt; apply upd_other'; auto).
  assert (MLn : map ren' L = map ren L).
  { apply map_ext_in. intros c Ic. apply Rn. intros ->. apply Fa. now right. }
  assert (LV : forall x, live L s' w ren' x <-> x = b \/ live L s w ren x).
  { intros x. unfold live. rewrite MLn, St. split.
    - intros [(u & Iu)|H]; auto. unfold upd in Iu. destruct (N.eqb_spec u v) as [Eu|_]; [destruct Iu as [<-|Iu]; auto|]; right; left; eauto.
    - intros [->|[(u & Iu)|H]]; [left; exists v; rewrite upd_same'; now left| |now right].
      left. exists u. unfold upd. destruct (N.eqb_spec u v) as [->|_]; auto. now right. }
  split.
  - constructor.
    + rewrite St, T0. rewrite upd_other' by auto. apply S.
    + intros u Hu. rewrite St, Dt. unfold upd. destruct (N.eqb_spec u v) as [->|Nu].
      * cbn [map]. rewrite Ra'. f_equal. rewrite (si_tab _ _ _ _ _ S v Nv). apply map_ext_in. intros c Ic. symmetry. apply Rn.
        intros ->. apply Fa. left. eauto.
      * rewrite (si_tab _ _ _ _ _ S u Hu). apply map_ext_in. intros c Ic. symmetry. apply Rn. intros ->. apply Fa. left. eauto.
    + rewrite Rn by auto. apply S.
    + rewrite MM. destruct (N.eqb_spec ONE b) as [<-|_]; [unfold ONE in Rb; lia|apply S].
    + rewrite Dm, upd_other' by auto. apply S.
    + intros c e0. rewrite !IN. intros [->|Hc] [->|He]; auto.
      * rewrite Ra', Rn by auto. intros E. destruct Fb. rewrite E. eapply ren_live; eauto.
      * rewrite Ra', Rn by auto. intros E. destruct Fb. rewrite <- E. eapply ren_live; eauto.
      * rewrite !Rn by auto. now apply S.
    + intros c. rewrite IN, T0. intros [->|Hc].
      * rewrite Ra'. intros Q. apply Fb. left. exists 0. now rewrite (si_0 _ _ _ _ _ S).
      * rewrite Rn by auto. now apply S.
    + intros x. rewrite LV, Sx. intros [->|H]; [exact Rb|]. apply (si_live _ _ _ _ _ S) in H. lia.
    + rewrite Sx. pose proof (si_nx _ _ _ _ _ S). lia.
    + rewrite Sf. exact S5.
    + intros u x. rewrite Sf, Sx, LV. intros Ix. apply S6 in Ix as [Ix Nx]. destruct (si_fl _ _ _ _ _ S u x Ix) as [Q1 Q2].
      split; [lia|]. intros [Q|Q]; auto.
    + intros u u' x. rewrite Sf. intros I1 I2. apply S6 in I1 as [I1 _]. apply S6 in I2 as [I2 _]. exact (si_fld _ _ _ _ _ S _ _ _ I1 I2).
    + apply S.
    + apply S.
    + intros x Hx. rewrite MLn. destruct (si_wt _ _ _ _ _ S x Hx) as [Q1 Q2]. split; auto. intros u. rewrite St. unfold upd.
      destruct (N.eqb_spec u v) as [->|_]; auto. intros [<-|Q]; [apply Fb; right; now left|]. exact (Q1 v Q).
    + intros c. rewrite IN, Dm. intros [->|Hc].
      * rewrite Ra', MM, N.eqb_refl, upd_same'. reflexivity.
      * rewrite Rn, ML, upd_other' by auto. exact (si_cr _ _ _ _ _ S c Hc).
    + intros c. rewrite IN, Dm. intros [->|Hc]; [rewrite upd_same'; cbn; unfold MAXREF; lia|]. rewrite upd_other' by auto. now apply S.
    + intros c. rewrite IN. intros [->|Hc].
      * rewrite Ra', MM, N.eqb_refl. cbn [ce re eptr]. eapply okp_ren_nz; eauto.
      * rewrite Rn, ML by auto. now apply S.
    + intros c. rewrite IN, Dm. intros [->|Hc].
      * rewrite Ra', MM, N.eqb_refl, upd_same'. cbn [ct ce dt de]. split; apply RS; auto; eapply rs_re; eauto.
      * rewrite Rn, ML, upd_other' by auto. destruct (xs_ch _ _ X c Hc). destruct (si_ch _ _ _ _ _ S c Hc). auto.
    + intros u. rewrite T0. intros Iu. rewrite MU, Dm, upd_other' by auto. destruct (si_us _ _ _ _ _ S u Iu) as (Q1 & Q2 & Q3).
      split; auto. apply RS; auto. exact (xs_us _ _ X u Iu).
  - split; [constructor|].
    + intros g p Op _. now apply RS.
    + intros c Hc _. apply Rn. auto.
    + split.
      { assert (NN : forall c, node L d' c -> c = a \/ node L d c).
        { intros c [(u & Ic)|Ic]; [|right; now right]. rewrite Dt in Ic. unfold upd in Ic. destruct (N.eqb_spec u v) as [Eu|_].
          - destruct Ic as [<-|Ic]; auto. right. left. eauto.
          - right. left. eauto. }
        assert (OK' : forall c, okp L d c -> okp L d' c) by (intros c [->|H]; [now left|right; apply IN; now right]).
        constructor.
        - intros u c. rewrite Dt, Dm, Dx. unfold upd at 1. destruct (N.eqb_spec u v) as [->|_].
          + intros [<-|Ic]; [rewrite upd_same'; split; [reflexivity|]; split; [intros Q; apply Fa; now right|lia]|].
            rewrite upd_other' by (intros ->; apply Fa; left; eauto). destruct (xs_tab _ _ X v c Ic) as (Q1 & Q2 & Q3). split; auto. split; auto. lia.
          + intros Ic. rewrite upd_other' by (intros ->; apply Fa; left; eauto). destruct (xs_tab _ _ X u c Ic) as (Q1 & Q2 & Q3). split; auto. split; auto. lia.
        - intros u. rewrite Dt. unfold upd. destruct (N.eqb_spec u v) as [->|_]; [|apply X]. constructor; [|apply X]. intros Q. apply Fa. left. eauto.
        - exact (xs_ndL _ _ X).
        - intros c Ic. rewrite Dx. pose proof (xs_L _ _ X c Ic). lia.
        - rewrite Dm, upd_other' by auto. exact (xs_one _ _ X).
        - intros c. rewrite IN, Dm. intros [->|Hc]; [rewrite upd_same'; cbn [dt de]; auto|].
          rewrite upd_other' by auto. destruct (xs_ch _ _ X c Hc). auto.
        - intros u. rewrite T0, Dm. intros Iu. rewrite upd_other' by auto. apply OK'. exact (xs_us _ _ X u Iu).
        - intros c. rewrite Df, Dx. intros Ic. pose proof (D4 c Ic) as Ic'. destruct (xs_fl _ _ X c Ic') as [Q1 Q2]. split; [lia|].
          intros Q. apply NN in Q as [->|Q]; auto. revert Ic DA. unfold dalloc. destruct (dfl d) as [|c0 r] eqn:F.
          + destruct Ic'.
          + intros Ic DA'. apply pair_equal_spec in DA' as [Ea Ed]. rewrite <- Ed in Ic. cbn [dfl] in Ic. rewrite <- Ea in Ic. pose proof (xs_fln _ _ X) as NDf. rewrite F in NDf. inversion NDf; auto.
        - rewrite Df. pose proof (xs_fln _ _ X) as NDf. revert DA. unfold dalloc. destruct (dfl d) as [|c0 r] eqn:F; intros DA';
            apply pair_equal_spec in DA' as [_ Ed]; rewrite <- Ed; cbn [dfl]; [constructor|now inversion NDf].
        - rewrite Dx. lia. }
      split; [exact RE|]. split; [exact Fa|]. split; [exact A1|exact IN].
Qed.
End Sim.
