(** * Reduction by a care set and interpolation as interface calls on the manager invariant. *)
From Coq Require Import Permutation.
From Verif Require Import Base BFModel ITEModel MgrModel ApiModel StoreInv Own EngInv ApplyProof BinopProof ReduceProof
  EngineProof OpProof MultiProof QProof GCProof VarProof MInv ApiProof ApiOps ApiStruct ApiVar ComposeProof CofSem CofactorModel CofactorProof
  BatchModel GraphModel GraphMarks GraphCall ReduceOpModel ReduceOpProof.
Open Scope N_scope.

Lemma postproc_order d m ov m' : postproc d m = (ov, m') -> mo m' = mo m.
Proof.
  assert (Hg : forall m, mo (MgrModel.gc m) = mo m) by (intros m0; unfold MgrModel.gc; now destruct (gc_store (mo m0) (st (me m0)))).
  unfold postproc. destruct (d_chk d); [now intros [= <- <-]|]. destruct (mlim m <? nn (st (me m))); [|now intros [= <- <-]].
  destruct (negb _ && _); intros [= <- <-]; exact (Hg m).
Qed.
Lemma ret_order m r h m' : ret m r = (h, m') -> mo m' = mo m.
Proof. unfold ret. destruct (getext (st (me m)) r). now intros [= <- <-]. Qed.
Lemma size1_order d m f n m' : size1 d m f = Ok (n, m') -> mo m' = mo m.
Proof.
  unfold size1, cal_size, query. destruct (preproc d m [f]) as [[ok m1]| |] eqn:P; try discriminate. apply preproc_order in P. simpl.
  destruct ok; simpl; [|now intros [= <- <-]]. destruct (fueled _) as [[k mk]| |]; try discriminate. simpl. now intros [= <- <-].
Qed.
Lemma size1_live d m hs lk D f : MInv m hs lk D -> In f hs -> exists n m1 D1, size1 d m f = Ok (n, m1) /\ kept m hs lk D m1 D1.
Proof.
  intros I If. unfold size1, cal_size.
  destruct (query_live d m hs lk D f (0, unmarked) (fun m1 F => fueled (size_of true (mo m1) (mmem m1) unmarked [F])) I If) as (m1 & D1 & K1 & E).
  destruct (kept_facts m hs lk D m1 D1 f K1 If) as (Wo & W & K & V & H).
  destruct (size_profile_spec (mo m1) (st (me m1)) Wo W [uint (mmem m1) f] unmarked true) as (n & lc & mk & L & E1 & _).
  { intros e [<-|[]]. exact V. } { intros; reflexivity. }
  exists n, m1, D1. split; auto. rewrite E, E1. reflexivity.
Qed.

Section Api.
Variable enum : memory -> list N -> list N.
Hypothesis enum_perm : forall m l, Permutation (enum m l) l.

Lemma reduceBF_QS o D en x F C r en' : wfo o -> QS o D en x -> vedge (nodeR (st en)) F -> vedge (nodeR (st en)) C ->
  isconst C && eneg C = false -> reduceBF enum o en F C = (r, en') ->
  exists D', QS o D' en' x /\ sext (st en) D (st en') D' /\ vedge (nodeR (st en')) r /\
    forall rho, dv D' r rho = cval o true (dv D F) (dv D C) rho.
Proof using enum_perm.
  intros Wo (own & L & I & R) VF VC Z Hr.
  destruct (reduceBF_spec o Wo enum enum_perm own D en L x F C r en' I R VF VC Z Hr) as (own' & D' & I' & (L' & R') & X & V & E).
  exists D'. split; [exists own', L'; auto|]. split; [|auto].
  apply (nk_sext own D en own' D' en'); [apply I|apply I'|]. exact X.
Qed.

Variable lk : N -> N.
Variable Sz : order -> bf -> N -> Prop.
Hypothesis Sz_ext : forall o F G n, (forall rho, F rho = G rho) -> Sz o F n -> Sz o G n.
Hypothesis Sz_size : forall m hs D f d, MInv m hs lk D -> In f hs ->
  exists n m1 D1, size1 d m f = Ok (n, m1) /\ kept m hs lk D m1 D1 /\ Sz (mo m) (hv m D f) n.

(** Measuring after a chain of calls that kept the functions of the handles. *)
Lemma measure o m hs D f F d : MInv m hs lk D -> In f hs -> mo m = o -> (forall rho, hv m D f rho = F rho) ->
  exists n m1 D1, size1 d m f = Ok (n, m1) /\ MInv m1 hs lk D1 /\ mext hs m D m1 D1 /\ mo m1 = o /\ Sz o F n.
Proof using Sz_ext Sz_size.
  intros I If Eo EF. destruct (Sz_size m hs D f d I If) as (n & m1 & D1 & E & [I1 X1] & S). exists n, m1, D1.
  split; auto. split; auto. split; auto. split; [rewrite (size1_order _ _ _ _ _ E); auto|]. eapply Sz_ext; [exact EF|]. now rewrite <- Eo.
Qed.
Lemma vedge_bnull o s r : SWF o s -> vedge (nodeR s) r -> isbnull r = false.
Proof using.
  intros W [[_ P]|[_ H]]; unfold isbnull; [rewrite P; reflexivity|]. pose proof (swf_addr _ _ W _ _ H) as Ha. apply N.eqb_neq. lia.
Qed.

(** What is done with a result before its size is measured. *)
Lemma finish_null_spec d m hs D r k : MInv m hs lk D -> vedge (nodeR (st (me m))) r ->
  (exists m', finish_null d m r k = Ok (unull, m') /\ result m hs lk D (dv D r) unull m') \/
  (exists h m2 D2, finish_null d m r k = k h m2 /\ MInv m2 (h :: hs) lk D2 /\ mext hs m D m2 D2 /\ mo m2 = mo m /\
     forall rho, hv m2 D2 h rho = dv D r rho).
Proof using.
  intros I V. unfold finish_null. rewrite (vedge_bnull _ _ _ (MI_swf _ _ _ _ I) V).
  destruct (ret m r) as [h m1] eqn:Rt. destruct (ret_spec m hs lk D r h m1 I V Rt) as (D1 & I1 & X1 & _ & _ & E1).
  destruct (postproc d m1) as [ov m2] eqn:P.
  destruct (postproc_MInv d m1 (h :: hs) lk D1 ov m2 I1 P) as (D2 & I2 & X2 & O2).
  assert (X2' : mext hs m1 D1 m2 D2) by (eapply mext_sub; [|exact X2]; intros; now right).
  destruct ov.
  - left. destruct (udec_spec m2 hs lk D2 h I2) as [I3 X3]. destruct (gc_MInv _ hs lk D2 I3) as [I4 X4].
    exists (MgrModel.gc (udec m2 h)). split; auto. exists D2. split.
    + eapply mext_trans; [exact X1|]. eapply mext_trans; [exact X2'|]. eapply mext_trans; eauto.
    + left. split; auto. split; auto. apply gc_ovf. exact (O2 eq_refl).
  - right. exists h, m2, D2. split; auto. split; auto. split; [eapply mext_trans; eauto|]. split.
    + rewrite (postproc_order _ _ _ _ P), (ret_order _ _ _ _ Rt). reflexivity.
    + intros rho. rewrite (mx_h _ _ _ _ _ X2) by now left. apply E1.
Qed.
(** Giving the result up for an operand. *)
Lemma instead m hs D h f F m0 D0 : MInv m (h :: hs) lk D -> mext hs m0 D0 m D -> In f hs -> (forall rho, hv m0 D0 f rho = F rho) ->
  exists m', cal_identity (udec m h) f = Ok (f, m') /\ result m0 hs lk D0 F f m'.
Proof using.
  intros I X If EF. destruct (udec_spec m hs lk D h I) as [I1 X1]. destruct (uinc_spec (udec m h) hs lk D f f I1 If eq_refl) as [I2 X2].
  exists (uinc (udec m h) f). split; [unfold cal_identity; now rewrite (uok_notnull _ _ _ _ _ I1 If)|].
  assert (X3 : mext hs m0 D0 (uinc (udec m h) f) D) by (eapply mext_trans; [exact X|]; eapply mext_trans; eauto).
  exists D. split; auto. right. split; auto. intros rho. rewrite <- EF. apply (mx_h _ _ _ _ _ X3); auto.
Qed.

(** ** [Cal_BddReduce] *)
Definition reduction (o : order) (F C R : bf) : Prop :=
  (forall rho, C rho = true -> R rho = F rho) /\ exists nR nF, Sz o R nR /\ Sz o F nF /\ nR <= nF.

Lemma reduce_spec d1 d2 d3 d4 m hs D f c : MInv m hs lk D -> In f hs -> In c hs -> (exists rho, hv m D c rho = true) ->
  exists r m' R, cal_reduce enum d1 d2 d3 d4 m f c = Ok (r, m') /\ reduction (mo m) (hv m D f) (hv m D c) R /\ result m hs lk D R r m'.
Proof using enum_perm Sz_ext Sz_size.
  intros I If Ic [q0 Hq0].
  destruct (measure (mo m) m hs D f (hv m D f) d1 I If eq_refl (fun _ => eq_refl)) as (n0 & _ & _ & _ & _ & _ & _ & S0).
  assert (Self : reduction (mo m) (hv m D f) (hv m D c) (hv m D f)).
  { split; auto. exists n0, n0. split; auto. split; auto. lia. }
  destruct (preproc_live d1 m hs lk D [f; c] I) as (m1 & D1 & P & I1 & X1). { now intros k [<-|[<-|[]]]. }
  assert (Eo : mo m1 = mo m) by (eapply preproc_order; eauto).
  unfold cal_reduce. rewrite P. cbn [obind negb].
  destruct (reduceBF enum (mo m1) (me m1) (uint (mmem m1) f) (uint (mmem m1) c)) as [r en] eqn:Op.
  pose proof (zero_dv (mo m1) D1 _ _ (mi_wfo _ _ _ _ I1) (MI_swf _ _ _ _ I1) (MI_dok _ _ _ _ I1) (MI_int _ _ _ _ c I1 Ic)) as Z.
  change (dv D1 (uint (mmem m1) c)) with (hv m1 D1 c) in *. change (dv D1 (uint (mmem m1) f)) with (hv m1 D1 f) in *.
  assert (Nz : isconst (uint (mmem m1) c) && eneg (uint (mmem m1) c) = false).
  { destruct (isconst (uint (mmem m1) c) && eneg (uint (mmem m1) c)) eqn:Ez; auto. exfalso.
    rewrite <- (mx_h _ _ _ _ _ X1) in Hq0 by auto. pose proof (proj1 Z eq_refl q0). congruence. }
  destruct (reduceBF_QS _ _ _ _ _ _ _ _ (mi_wfo _ _ _ _ I1) (mi_q _ _ _ _ I1)
              (MI_int _ _ _ _ f I1 If) (MI_int _ _ _ _ c I1 Ic) Nz Op) as (D2 & Q2 & S2 & V2 & E2).
  destruct (MInv_step m1 hs lk D1 en D2 I1 Q2 S2) as [I2 X2].
  assert (X02 : mext hs m D (set_me m1 en) D2) by (eapply mext_trans; [exact X1|exact X2]).
  set (R := cval (mo m1) true (hv m1 D1 f) (hv m1 D1 c)) in *.
  assert (Care : forall rho, hv m D c rho = true -> R rho = hv m D f rho).
  { intros rho Hc. rewrite <- (mx_h _ _ _ _ _ X1 f) by auto. rewrite <- (mx_h _ _ _ _ _ X1 c) in Hc by auto.
    apply gc_care; auto; eapply only_hv; eauto. }
  destruct (finish_null_spec d2 (set_me m1 en) hs D2 r (fun h m2 =>
           obind (size1 d3 m2 h) (fun '(nh, m3) =>
           obind (size1 d4 m3 f) (fun '(nf, m4) =>
           if nh <? nf then Ok (h, m4) else cal_identity (udec m4 h) f))) I2 V2) as [(m' & E & Rs)|(h & m2 & D3 & E & I3 & X3 & E3 & H3)]; rewrite E.
  - exists unull, m', (hv m D f). split; auto. split; auto. destruct Rs as (D' & X' & [(_ & O & I')|(I' & _)]).
    + exists D'. split; [eapply mext_trans; eauto|]. left. auto.
    + exfalso. pose proof (uok_notnull _ _ _ _ _ I' (or_introl eq_refl)). discriminate.
  - assert (X03 : mext hs m D m2 D3) by (eapply mext_trans; [exact X02|exact X3]).
    destruct (measure (mo m) m2 (h :: hs) D3 h R d3 I3 (or_introl eq_refl)) as (nh & m3 & D4 & -> & I4 & X4 & E4 & S4).
    { rewrite E3. exact Eo. } { intros rho. rewrite H3. apply E2. }
    assert (X04 : mext hs m D m3 D4) by (eapply mext_trans; [exact X03|eapply mext_sub; [|exact X4]; intros; now right]).
    cbn [obind]. destruct (measure (mo m) m3 (h :: hs) D4 f (hv m D f) d4 I4 (or_intror If) E4) as (nf & m4 & D5 & -> & I5 & X5 & E5 & S5).
    { intros rho. apply (mx_h _ _ _ _ _ X04); auto. }
    assert (X05 : mext hs m D m4 D5) by (eapply mext_trans; [exact X04|eapply mext_sub; [|exact X5]; intros; now right]).
    cbn [obind]. destruct (N.ltb_spec nh nf).
    + exists h, m4, R. split; auto. split; [split; auto; exists nh, nf; split; auto; split; auto; lia|].
      exists D5. split; auto. right. split; auto. intros rho. rewrite <- (E2 rho), <- (H3 rho).
      rewrite <- (mx_h _ _ _ _ _ X4) by now left. apply (mx_h _ _ _ _ _ X5). now left.
    + destruct (instead m4 hs D5 h f (hv m D f) m D I5 X05 If (fun _ => eq_refl)) as (m' & -> & Rs). exists f, m', (hv m D f). auto.
Qed.

Lemma reduce_null d1 d2 d3 d4 m hs D f c : MInv m hs lk D ->
  (forall k, In k [f; c] -> uisnull k = true \/ In k hs) -> (exists k, In k [f; c] /\ uisnull k = true) ->
  cal_reduce enum d1 d2 d3 d4 m f c = Ok (unull, m).
Proof using. intros I Hk Hn. unfold cal_reduce. now rewrite (preproc_null d1 m hs lk D [f; c] I). Qed.

(** ** [Cal_BddBetween] *)
Definition between (o : order) (Fmin Fmax R : bf) : Prop :=
  (forall rho, Fmin rho = true \/ Fmax rho = false -> R rho = Fmin rho \/ R rho = Fmax rho) /\
  ((forall rho, Fmin rho = true -> Fmax rho = true) -> forall rho, (Fmin rho = true -> R rho = true) /\ (R rho = true -> Fmax rho = true)) /\
  exists nR nMin nMax, Sz o R nR /\ Sz o Fmin nMin /\ Sz o Fmax nMax /\ (nR <= nMin \/ nR <= nMax).

Lemma between_spec d1 d2 d3 d4 d5 m hs D f g : MInv m hs lk D -> In f hs -> In g hs ->
  (exists rho, hv m D f rho = true \/ hv m D g rho = false) ->
  exists r m' R, cal_between enum d1 d2 d3 d4 d5 m f g = Ok (r, m') /\ between (mo m) (hv m D f) (hv m D g) R /\ result m hs lk D R r m'.
Proof using enum_perm Sz_ext Sz_size.
  intros I If Ig [q0 Hq0].
  destruct (measure (mo m) m hs D f (hv m D f) d1 I If eq_refl (fun _ => eq_refl)) as (n0 & _ & _ & _ & _ & _ & _ & S0).
  destruct (measure (mo m) m hs D g (hv m D g) d1 I Ig eq_refl (fun _ => eq_refl)) as (n1 & _ & _ & _ & _ & _ & _ & S1).
  assert (BF : between (mo m) (hv m D f) (hv m D g) (hv m D f)).
  { split; [auto|]. split; [intros H rho; split; auto|]. exists n0, n0, n1. repeat (split; [auto|]). left. lia. }
  assert (BG : between (mo m) (hv m D f) (hv m D g) (hv m D g)).
  { split; [auto|]. split; [intros H rho; split; auto|]. exists n1, n0, n1. repeat (split; [auto|]). right. lia. }
  destruct (preproc_live d1 m hs lk D [f; g] I) as (m1 & D1 & P & I1 & X1). { now intros k [<-|[<-|[]]]. }
  assert (Eo : mo m1 = mo m) by (eapply preproc_order; eauto).
  unfold cal_between. rewrite P. cbn [obind negb].
  pose proof (mi_wfo _ _ _ _ I1) as Wo. pose proof (MI_int _ _ _ _ f I1 If) as Vf. pose proof (MI_int _ _ _ _ g I1 Ig) as Vg.
  destruct (opBF enum (mo m1) op_or (me m1) (uint (mmem m1) f) (enot (uint (mmem m1) g))) as [c en0] eqn:Oc.
  destruct (opBF_QS enum enum_perm _ _ _ _ _ _ _ _ _ Wo op_or_ok (mi_q _ _ _ _ I1) Vf (proj2 (vedge_enot _ _) Vg) Oc) as (D0 & Q0 & S0' & V0 & E0).
  assert (EC : forall rho, dv D0 c rho = hv m D f rho || negb (hv m D g rho)).
  { intros rho. rewrite E0. rewrite dv_enot. change (dv D1 (uint (mmem m1) g)) with (hv m1 D1 g). change (dv D1 (uint (mmem m1) f)) with (hv m1 D1 f).
    rewrite !(mx_h _ _ _ _ _ X1) by auto. reflexivity. }
  pose proof (sext_vedge _ _ _ _ _ S0' Vf) as Vf0.
  assert (Ef0 : forall rho, dv D0 (uint (mmem m1) f) rho = hv m D f rho).
  { intros rho. rewrite (sext_dv _ _ _ _ _ rho S0' Vf). apply (mx_h _ _ _ _ _ X1); auto. }
  assert (W0 : SWF (mo m1) (st en0)) by (eapply QS_swf; eauto). assert (K0 : Dok D0 (st en0)) by (eapply QS_dok; eauto).
  destruct (reduceBF enum (mo m1) en0 (uint (mmem m1) f) c) as [r en] eqn:Op.
  pose proof (zero_dv (mo m1) D0 (st en0) c Wo W0 K0 V0) as Z.
  assert (Nz : isconst c && eneg c = false).
  { destruct (isconst c && eneg c) eqn:Ez; auto. exfalso. pose proof (proj1 Z eq_refl q0) as Hz. rewrite EC in Hz.
    destruct Hq0 as [H|H]; rewrite H in Hz; [discriminate|]. now rewrite orb_true_r in Hz. }
  destruct (reduceBF_QS _ _ _ _ _ _ _ _ Wo Q0 Vf0 V0 Nz Op) as (D2 & Q2 & S2 & V2 & E2).
  destruct (MInv_step m1 hs lk D1 en D2 I1 Q2 (sext_trans _ _ _ _ _ _ S0' S2)) as [I2 X2].
  assert (X02 : mext hs m D (set_me m1 en) D2) by (eapply mext_trans; [exact X1|exact X2]).
  assert (On : forall e, vedge (nodeR (st en0)) e -> only (ord (mo m1)) (dv D0 e)).
  { intros e Ve r1 r2 H. apply (dv_agree (mo m1) D0 (st en0) Wo W0 K0); [exact Ve|]. intros j Ij _. exact (H j Ij). }
  set (R := cval (mo m1) true (dv D0 (uint (mmem m1) f)) (dv D0 c)) in *.
  assert (Care : forall rho, hv m D f rho = true \/ hv m D g rho = false -> R rho = hv m D f rho).
  { intros rho Hc. rewrite <- Ef0. apply gc_care; [now apply On|now apply On|]. rewrite EC. destruct Hc as [-> | ->]; auto. now rewrite orb_true_r. }
  destruct (finish_null_spec d2 (set_me m1 en) hs D2 r (fun h m2 =>
           obind (size1 d3 m2 f) (fun '(nmin, m3) =>
           obind (size1 d4 m3 g) (fun '(nmax, m4) =>
           obind (size1 d5 m4 h) (fun '(nh, m5) =>
           if nh <? nmin then
             if nh <? nmax then Ok (h, m5) else cal_identity (udec m5 h) g
           else if nmin <? nmax then cal_identity (udec m5 h) f else cal_identity (udec m5 h) g)))) I2 V2)
    as [(m' & E & Rs)|(h & m2 & D3 & E & I3 & X3 & E3 & H3)]; rewrite E.
  - exists unull, m', (hv m D f). split; auto. split; auto. destruct Rs as (D' & X' & [(_ & O & I')|(I' & _)]).
    + exists D'. split; [eapply mext_trans; eauto|]. left. auto.
    + exfalso. pose proof (uok_notnull _ _ _ _ _ I' (or_introl eq_refl)). discriminate.
  - assert (X03 : mext hs m D m2 D3) by (eapply mext_trans; [exact X02|exact X3]).
    destruct (measure (mo m) m2 (h :: hs) D3 f (hv m D f) d3 I3 (or_intror If)) as (nf & m3 & D4 & -> & I4 & X4 & E4 & S4).
    { rewrite E3. exact Eo. } { intros rho. apply (mx_h _ _ _ _ _ X03); auto. }
    assert (X04 : mext hs m D m3 D4) by (eapply mext_trans; [exact X03|eapply mext_sub; [|exact X4]; intros; now right]).
    cbn [obind]. destruct (measure (mo m) m3 (h :: hs) D4 g (hv m D g) d4 I4 (or_intror Ig) E4) as (ng & m4 & D5 & -> & I5 & X5 & E5 & S5).
    { intros rho. apply (mx_h _ _ _ _ _ X04); auto. }
    assert (X05 : mext hs m D m4 D5) by (eapply mext_trans; [exact X04|eapply mext_sub; [|exact X5]; intros; now right]).
    assert (H5 : forall rho, hv m4 D5 h rho = R rho).
    { intros rho. rewrite (mx_h _ _ _ _ _ X5) by now left. rewrite (mx_h _ _ _ _ _ X4) by now left. rewrite H3. apply E2. }
    cbn [obind]. destruct (measure (mo m) m4 (h :: hs) D5 h R d5 I5 (or_introl eq_refl) E5 H5) as (nh & m5 & D6 & -> & I6 & X6 & E6 & S6).
    assert (X06 : mext hs m D m5 D6) by (eapply mext_trans; [exact X05|eapply mext_sub; [|exact X6]; intros; now right]).
    cbn [obind].
    assert (TF : exists r m' R, cal_identity (udec m5 h) f = Ok (r, m') /\ between (mo m) (hv m D f) (hv m D g) R /\ result m hs lk D R r m').
    { destruct (instead m5 hs D6 h f (hv m D f) m D I6 X06 If (fun _ => eq_refl)) as (m' & -> & Rs). exists f, m', (hv m D f). auto. }
    assert (TG : exists r m' R, cal_identity (udec m5 h) g = Ok (r, m') /\ between (mo m) (hv m D f) (hv m D g) R /\ result m hs lk D R r m').
    { destruct (instead m5 hs D6 h g (hv m D g) m D I6 X06 Ig (fun _ => eq_refl)) as (m' & -> & Rs). exists g, m', (hv m D g). auto. }
    destruct (N.ltb_spec nh nf); [destruct (N.ltb_spec nh ng); [|exact TG]|destruct (N.ltb_spec nf ng); [exact TF|exact TG]].
    exists h, m5, R. split; auto. split.
    + split; [intros rho Hr; left; auto|]. split.
      * intros Imp rho. split; [intros Hr; rewrite Care; auto|]. intros Hr. destruct (hv m D g rho) eqn:Eg; auto. rewrite Care in Hr by auto.
        rewrite <- Eg. auto.
      * exists nh, nf, ng. repeat (split; [auto|]). left. lia.
    + exists D6. split; auto. right. split; auto. intros rho. rewrite <- H5. apply (mx_h _ _ _ _ _ X6). now left.
Qed.

Lemma between_null d1 d2 d3 d4 d5 m hs D f g : MInv m hs lk D ->
  (forall k, In k [f; g] -> uisnull k = true \/ In k hs) -> (exists k, In k [f; g] /\ uisnull k = true) ->
  cal_between enum d1 d2 d3 d4 d5 m f g = Ok (unull, m).
Proof using. intros I Hk Hn. unfold cal_between. now rewrite (preproc_null d1 m hs lk D [f; g] I). Qed.
End Api.
