(** * Simultaneous substitution: the interface functions keep the manager invariant and compute the right functions. *)
From Coq Require Import Permutation Sorted.
From Verif Require Import Base BFModel ITEModel MgrModel ApiModel StoreInv Own EngInv ApplyProof BinopProof ReduceProof EngineProof
  OpProof MultiProof QProof GCProof VarProof MInv ApiProof ApiOps ApiStruct ComposeProof GraphModel GraphCube AssocModel AssocProof
  QuantModel QuantProof QuantApi SubstModel SubstProof.

(** The values of the variables after the replacement. *)
Definition replaced (D : den) (mp : N -> option edge) (rho : N -> bool) : N -> bool :=
  fun i => match mp i with Some e => dv D e rho | None => rho i end.

Lemma replaced_arel D D' a a' : arel D D' a a' -> forall rho i, replaced D' (amap a') rho i = replaced D (amap a) rho i.
Proof.
  intros (_ & _ & H) rho i. unfold replaced. specialize (H i). destruct (amap a i), (amap a' i); auto; contradiction.
Qed.

(** A node depends on its variable. *)
Lemma top_dep o D s e : wfo o -> SWF o s -> Dok D s -> vedge (nodeR s) e -> eid e <> 0 ->
  exists rho, dv D e (flip rho (eid e) true) <> dv D e (flip rho (eid e) false).
Proof.
  intros Wo W K V C. destruct (node_facts _ _ _ W V C) as (Ii & Ir & V1 & V2 & G1 & G2).
  destruct (swf_node _ _ W _ _ C Ir) as [N1 N2 N3 N4 N5 N6 N7].
  set (t := ct (mem s (eptr e))) in *. set (u := ce (mem s (eptr e))) in *.
  assert (Dec : (exists rho, dv D t rho <> dv D u rho)).
  { apply (differ o D s); [exact Wo|exact W|exact K|exact N2|exact N3|].
    intros E. change (eeq t u = false) in N7. rewrite E, eeq_refl in N7. discriminate. }
  destruct Dec as [rho Hr]. exists rho. rewrite <- (dv_then _ _ _ e rho Wo W K V C), <- (dv_else _ _ _ e rho Wo W K V C).
  unfold thenof, elseof. rewrite !dv_ephase. fold t u. destruct (eneg e), (dv D t rho), (dv D u rho); simpl in *; congruence.
Qed.

Section BF.
Variable enum : memory -> list N -> list N.
Hypothesis enum_perm : forall m l, Permutation (enum m l) l.

Lemma substBF_QS m hs lk D vs c F r en' :
  MInv m hs lk D ->
  (forall i e, vs = true -> amap (current m) i = Some e -> eid e <> 0 -> forall rho, dv D e rho = rho (eid e)) ->
  vedge (nodeR (st (me m))) F -> eid F <> 0 -> N.of_nat c <= eidx (mo m) F ->
  substBF enum (mo m) (amap (current m)) (alast (current m)) (mvb m) vs (N.of_nat (length (ord (mo m)))) c (me m) F = (r, en') ->
  exists D', QS (mo m) D' en' (xr m hs lk) /\ sext (st (me m)) D (st en') D' /\ vedge (nodeR (st en')) r /\
    forall rho, dv D' r rho = dv D F (replaced D (amap (current m)) rho).
Proof using enum_perm.
  intros I Hv VF NF Hc Hr. pose proof (mi_wfo _ _ _ _ I) as Wo.
  destruct (mi_q _ _ _ _ I) as (own & L & IE & R). pose proof (ei_acc _ _ _ _ IE) as AC.
  destruct (mi_as _ _ _ _ I _ (current_in m)) as [A1 A2 A3].
  destruct (current_facts m hs lk D I) as (F1 & F2 & F3).
  set (o := mo m) in *. set (mp := amap (current m)) in *. set (last := alast (current m)) in *.
  destruct (substBF_spec o Wo enum enum_perm mp last (mvb m) vs (fun i rho => replaced D mp rho i)) with
    (n := N.of_nat (length (ord o))) (c := c) (own := own) (D := D) (en := me m) (L := L) (x := xr m hs lk) (F := F) (r := r) (en' := en')
    as (own' & D' & I' & (L' & R') & X & V & E); auto.
  - intros i rho Hn. unfold replaced. now rewrite Hn.
  - intros i h Ev Eh Nh. split.
    + destruct (A1 i h Eh) as [_ [[Z _]|[_ Vh]]]; [congruence|].
      destruct (swf_node _ _ (MI_swf _ _ _ _ I) _ _ Nh Vh) as [Io _ _ _ _ _ _]. exact Io.
    + intros rho. unfold replaced. rewrite Eh. now apply (Hv i).
  - intros i Ii Lt. destruct (mp i) as [e|] eqn:Ei; auto. pose proof (A2 i e Ei). unfold last in Lt. lia.
  - intros e Ze. unfold eidx. rewrite Ze, (wfo_const o Wo). exact F3.
  - intros j Ij. exact (proj1 (mi_ids _ _ _ _ I j) Ij).
  - intros i Ii. unfold svar.
    assert (U : forall e, vedge (nodeR (st (me m))) e -> vedge (vnode own) e).
    { intros e Ve. eapply vedge_mono; [|exact Ve]. intros j b _ Hb. now apply (acc_node _ _ _ _ AC). }
    destruct (mp i) as [e|] eqn:Ei.
    + split; [apply U; apply (A1 i e Ei)|]. intros rho. unfold replaced. now rewrite Ei.
    + split; [apply U; apply (var_dv m hs lk D i (fun _ => true) I Ii)|]. intros rho. unfold replaced. rewrite Ei.
      apply (var_dv m hs lk D i rho I Ii).
  - exists D'. split; [exists own', L'; auto|]. split; [|auto].
    apply (nk_sext own D (me m) own' D' en'); [apply IE|apply I'|]. exact X.
Qed.

(** ** Substitution *)
Lemma substitute_spec d m hs lk D f : MInv m hs lk D -> In f hs ->
  exists r m', cal_substitute enum d m f = Ok (r, m') /\
    result' m hs lk D (fun rho => hv m D f (replaced D (amap (current m)) rho)) r m'.
Proof using enum_perm.
  intros I If.
  destruct (preproc_live d m hs lk D [f] I) as (m1 & D1 & P & I1 & X1). { now intros k [<-|[]]. }
  unfold cal_substitute. rewrite P. cbn [obind negb].
  assert (B1 : bext (hv m D f)) by exact (dv_bext _ _ _ _ (mi_wfo _ _ _ _ I) (MI_swf _ _ _ _ I) (MI_dok _ _ _ _ I) (MI_int _ _ _ _ f I If)).
  pose proof (MI_int _ _ _ _ f I1 If) as Vf. set (F := uint (mmem m1) f) in *.
  assert (EF : forall rho, dv D1 F (replaced D1 (amap (current m1)) rho) = hv m D f (replaced D (amap (current m)) rho)).
  { intros rho. unfold F. rewrite (mx_h _ _ _ _ _ X1) by auto. apply B1. intros i.
    apply (replaced_arel D D1 (current m) (current m1) (current_arel _ _ _ _ _ X1)). }
  destruct (isconst F) eqn:Cf.
  - destruct (ret m1 F) as [h m'] eqn:Rt. exists h, m'. split; auto.
    eapply result_pre'; [exact X1|]. eapply result_f'; [|eapply ret_result; [exact I1|exact Vf|exact Rt]].
    intros rho. rewrite <- EF. unfold isconst in Cf. apply N.eqb_eq in Cf.
    eapply (dv_agree (mo m1) D1 (st (me m1))); eauto using MI_swf, MI_dok; [apply I1|].
    intros i Ii Li. rewrite Cf, (wfo_const _ (mi_wfo _ _ _ _ I1)) in Li. pose proof (wfo_lt_const _ i (mi_wfo _ _ _ _ I1) Ii). lia.
  - unfold isconst in Cf. apply N.eqb_neq in Cf.
    destruct (substBF enum (mo m1) (amap (current m1)) (alast (current m1)) (mvb m1) false (N.of_nat (length (ord (mo m1)))) 0 (me m1) F) as [r en] eqn:Op.
    destruct (substBF_QS m1 hs lk D1 false 0 F r en I1) as (D2 & Q2 & S2 & V2 & E2); auto.
    { discriminate. } { lia. }
    destruct (MInv_step m1 hs lk D1 en D2 I1 Q2 S2) as [I2 X2].
    destruct (ret (set_me m1 en) r) as [k m'] eqn:Rt. exists k, m'. split; auto.
    eapply result_pre'; [eapply mext_trans; [exact X1|exact X2]|].
    eapply result_f'; [|eapply ret_result; [exact I2|exact V2|exact Rt]].
    intros rho. rewrite E2. apply EF.
Qed.

Lemma substitute_null d m hs lk D f : MInv m hs lk D -> uisnull f = true -> cal_substitute enum d m f = Ok (unull, m).
Proof.
  intros I Hn. unfold cal_substitute. rewrite (preproc_null d m hs lk D [f] I); auto.
  - intros h [<-|[]]. now left.
  - exists f. simpl. auto.
Qed.

(** ** The computed table *)
Variable slot : N -> edge -> edge -> N.

(** The meaning of the operation codes when [t] is used for the temporary association. *)
Definition ghost_subst (G : ghost) (sg : (N -> bool) -> N -> bool) (t : N) : ghost := fun c f g =>
  if c =? t then fun rho => f (sg rho) && g (sg rho) else G c f g.

Definition susable (m : mgr) (op t : N) : Prop :=
  match mcur m with None => t < op <= mtop m | Some j => op = OP_VAR_SUBSTITUTE + j end.

Lemma slookup m hs lk D op t F r : MInv m hs lk D -> susable m op t -> 36864 <= t -> vedge (nodeR (st (me m))) F ->
  cache_lookup slot op F one (mca m) = Some r ->
  vedge (nodeR (st (me m))) r /\ forall rho, dv D r rho = dv D F (replaced D (amap (current m)) rho).
Proof.
  intros I U T VF H. destruct (mi_cache _ _ _ _ I) as [G [C1 C2 C3 C4 C5 C6 C7]].
  assert (V1 : vedge (nodeR (st (me m))) one) by now left.
  assert (H' : exists k e, mca m k = Some e /\ cop e = op /\ cres e = r /\
             (forall rho, G op (dv D (cf e)) (dv D (cg e)) rho = G op (dv D F) (dv D one) rho)).
  { unfold cache_lookup in H. destruct (csort F one) as [a b] eqn:Cs. destruct (mca m (slot op F one)) as [e|] eqn:Me; [|discriminate].
    destruct (_ && _) eqn:B in H; [|discriminate]. injection H as <-. apply andb_true_iff in B as [B B3]. apply andb_true_iff in B as [B1 B2].
    apply N.eqb_eq in B3. exists (slot op F one), e. do 3 (split; [auto|]). intros rho.
    rewrite (C1 op _ (dv D a) _ (dv D b)).
    - unfold csort in Cs. destruct (out_of_order F one); injection Cs as <- <-; auto.
    - intros q. now apply dv_eeq.
    - intros q. now apply dv_eeq. }
  destruct H' as (k & e & Me & <- & <- & HG). destruct (C3 k e Me) as (E0 & E1 & E2 & E3 & E4 & E5). split; auto.
  intros rho. rewrite E5, HG. unfold susable in U. destruct (mcur m) as [j|] eqn:Mc.
  - destruct (current_perm m hs lk D j I Mc) as [Ic Ej]. rewrite U. unfold OP_VAR_SUBSTITUTE. rewrite <- Ej. rewrite (C6 _ Ic).
    + cbv zeta. rewrite (dv_one D (st (me m))) by apply (MI_dok _ _ _ _ I). now rewrite andb_true_r.
    + exact (dv_bext _ _ _ _ (mi_wfo _ _ _ _ I) (MI_swf _ _ _ _ I) (MI_dok _ _ _ _ I) VF).
    + exact (dv_bext _ _ _ _ (mi_wfo _ _ _ _ I) (MI_swf _ _ _ _ I) (MI_dok _ _ _ _ I) V1).
  - pose proof (live_range _ _ _ _ _ I E4). lia.
Qed.

Lemma sfinish_inv m hs lk D op t D' en F r : MInv m hs lk D -> susable m op t -> 36864 <= t -> t <= mtop m ->
  vedge (nodeR (st (me m))) F ->
  QS (mo m) D' en (xr m hs lk) -> sext (st (me m)) D (st en) D' -> vedge (nodeR (st en)) r ->
  (forall rho, dv D' r rho = dv D F (replaced D (amap (current m)) rho)) ->
  let m' := fun c => set_mca (set_mtop (set_me m en) t) c in
  (MInv (m' (mca m)) hs lk D' /\ mext hs m D (m' (mca m)) D') /\
  (MInv (m' (cache_insert slot op F one r (mca m))) hs lk D' /\ mext hs m D (m' (cache_insert slot op F one r (mca m))) D').
Proof.
  intros I U T1 T2 VF Q X Vr Er m'.
  destruct (MInv_step m hs lk D en D' I Q X) as [I2 X2].
  pose proof (mi_cache _ _ _ _ I) as [G0 C0].
  pose proof (CInv_sext G0 m D en D' (MI_swf _ _ _ _ I) (MI_dok _ _ _ _ I) (mi_wfo _ _ _ _ I)) as C'.
  specialize (C' (fun a Ia => mi_as _ _ _ _ I a (or_intror Ia)) X C0). destruct C' as [D1 D2 D3 D4 D5 D6 D7].
  set (sg := replaced D (amap (current m))) in *.
  set (G := match mcur m with Some _ => G0 | None => ghost_subst G0 sg op end).
  assert (Old : forall c f g, live m c -> G c f g = G0 c f g).
  { intros c f g Lc. unfold G. destruct (mcur m) eqn:Mc; auto. unfold ghost_subst, susable in *. rewrite Mc in *.
    pose proof (live_range _ _ _ _ _ I Lc). destruct (N.eqb_spec c op); [lia|]. reflexivity. }
  assert (La : forall a, In a (massoc m) -> forall k, (k = 16384 + aid a \/ k = 20480 + aid a \/ k = 32768 + aid a) -> live m k).
  { intros a Ia k Hk. left. exists a. auto. }
  assert (Lu : live (set_mtop m t) op).
  { unfold susable in U. destruct (mcur m) as [j|] eqn:Mc.
    - destruct (current_perm m hs lk D j I Mc) as [Ic Ej]. left. exists (current m). split; [exact Ic|]. rewrite Ej. unfold OP_VAR_SUBSTITUTE in U. tauto.
    - right; left. simpl. lia. }
  assert (Ll : forall c, live m c -> live (set_mtop m t) c).
  { intros c [H|[H|H]]; [left; exact H|right; left; simpl; lia|right; right; exact H]. }
  assert (VF' : vedge (nodeR (st en)) F) by exact (sext_vedge _ _ _ _ F X VF).
  assert (V1 : vedge (nodeR (st en)) one) by now left.
  assert (SW : SWF (mo m) (st en)) by exact (QS_swf _ _ _ _ Q). assert (SD : Dok D' (st en)) by exact (QS_dok _ _ _ _ Q).
  assert (EF : forall rho, dv D' F rho = dv D F rho) by (intros rho; exact (sext_dv _ _ _ _ F rho X VF)).
  assert (Gop : forall rho, dv D' r rho = G op (dv D' F) (dv D' one) rho).
  { intros rho. unfold G. unfold susable in U. destruct (mcur m) as [j|] eqn:Mc.
    - destruct (current_perm m hs lk D j I Mc) as [Ic Ej]. rewrite U. unfold OP_VAR_SUBSTITUTE. rewrite <- Ej. rewrite (D6 _ Ic).
      + cbv zeta. rewrite (dv_one D' (st en)) by apply SD. rewrite andb_true_r, Er, EF.
        apply (dv_bext _ _ _ _ (mi_wfo _ _ _ _ I) (MI_swf _ _ _ _ I) (MI_dok _ _ _ _ I) VF). intros i. unfold sg, replaced.
        destruct (amap (current m) i) as [e|] eqn:Ei; auto. symmetry.
        exact (sext_dv _ _ _ _ e rho X (proj2 (ao_dom _ _ _ (mi_as _ _ _ _ I _ (current_in m)) i e Ei))).
      + exact (dv_bext _ _ _ _ (mi_wfo _ _ _ _ I) SW SD VF').
      + exact (dv_bext _ _ _ _ (mi_wfo _ _ _ _ I) SW SD V1).
    - unfold ghost_subst. rewrite N.eqb_refl. rewrite (dv_one D' (st en)) by apply SD. now rewrite andb_true_r, Er, EF. }
  assert (Gx : forall c f f' g g', (forall q, f q = f' q) -> (forall q, g q = g' q) -> forall q, G c f g q = G c f' g' q).
  { intros c f f' g g' E1 E2 q. unfold G. destruct (mcur m); [now apply D1|]. unfold ghost_subst.
    destruct (c =? op); [now rewrite E1, E2|now apply D1]. }
  assert (Gs : forall c f g q, G c f g q = G c g f q).
  { intros c f g q. unfold G. destruct (mcur m); [now apply D2|]. unfold ghost_subst.
    destruct (c =? op); [apply andb_comm|now apply D2]. }
  assert (Cold : forall k e, mca m k = Some e -> ctmp e = false /\ vedge (nodeR (st en)) (cf e) /\ vedge (nodeR (st en)) (cg e) /\
     vedge (nodeR (st en)) (cres e) /\ live (set_mtop m t) (cop e) /\ forall rho, dv D' (cres e) rho = G (cop e) (dv D' (cf e)) (dv D' (cg e)) rho).
  { intros k e H. destruct (D3 k e H) as (E0 & E1 & E2 & E3 & E4 & E5). do 4 (split; [assumption|]). split; [exact (Ll _ E4)|].
    intros rho. rewrite E5. rewrite Old; [reflexivity|exact E4]. }
  assert (Key : forall c, (forall k e, c k = Some e -> ctmp e = false /\ vedge (nodeR (st en)) (cf e) /\ vedge (nodeR (st en)) (cg e) /\
     vedge (nodeR (st en)) (cres e) /\ live (set_mtop m t) (cop e) /\ forall rho, dv D' (cres e) rho = G (cop e) (dv D' (cf e)) (dv D' (cg e)) rho) ->
     MInv (m' c) hs lk D' /\ mext hs m D (m' c) D').
  { intros c Hc. split.
    - destruct I2 as [B1 B2 B3 B4 B5 B6 B7 B8 B9 B10 B11]. constructor; auto.
      + destruct B9 as [B9 _]. split; [exact B9|]. simpl. lia.
      + exists G. constructor; auto.
        * intros a Ia f g Bf Bg rho. rewrite Old by (eapply La; eauto). now apply (D4 a Ia).
        * intros a Ia f g Bf Bg rho. rewrite Old by (eapply La; eauto). now apply (D5 a Ia).
        * intros a Ia f g Bf Bg rho. rewrite Old by (eapply La; eauto). now apply (D6 a Ia).
        * intros f g rho. rewrite Old by (right; right; reflexivity). apply D7.
    - destruct X2 as [A1 A2 A3 A4 A5 A6 A7]. constructor; auto. }
  split; apply Key; [exact Cold|].
  intros k e. unfold cache_insert. destruct (csort F one) as [a b] eqn:Cs. unfold upd. destruct (N.eqb_spec k (slot op F one)) as [->|Nk].
  - intros [= <-]. cbn [ctmp cf cg cres cop]. split; auto. unfold csort in Cs.
    destruct (out_of_order F one); injection Cs as <- <-; do 4 (split; [assumption|]); intros rho; rewrite Gop; [apply Gs|reflexivity].
  - apply Cold.
Qed.

(** ** Variable substitution *)
Definition vars_only (m : mgr) (D : den) : Prop :=
  forall i e, amap (current m) i = Some e -> eid e <> 0 -> forall rho, dv D e rho = rho (eid e).

Lemma vars_only_mext m hs lk D m' D' : MInv m hs lk D -> MInv m' hs lk D' -> mext hs m D m' D' ->
  vars_only m D -> vars_only m' D'.
Proof.
  intros I I' X V i e' Ei Ne rho. destruct (current_arel _ _ _ _ _ X) as (_ & _ & H). specialize (H i). rewrite Ei in H.
  destruct (amap (current m) i) as [e|] eqn:Em; [|contradiction].
  pose proof (proj2 (ao_dom _ _ _ (mi_as _ _ _ _ I _ (current_in m)) i e Em)) as Ve.
  pose proof (proj2 (ao_dom _ _ _ (mi_as _ _ _ _ I' _ (current_in m')) i e' Ei)) as Ve'.
  destruct (N.eq_dec (eid e) 0) as [Z|Z].
  - exfalso. destruct Ve as [[_ P]|[N0 _]]; [|congruence].
    assert (Cst : forall r1 r2, dv D' e' r1 = dv D' e' r2).
    { intros r1 r2. rewrite !H. unfold dv. rewrite P. now rewrite !(dok_one D _ (MI_dok _ _ _ _ I)). }
    destruct (top_dep (mo m') D' (st (me m')) e' (mi_wfo _ _ _ _ I') (MI_swf _ _ _ _ I') (MI_dok _ _ _ _ I') Ve' Ne) as (r & Hd).
    apply Hd. apply Cst.
  - rewrite H, (V i e Em Z rho).
    assert (eid e' = eid e) as ->; auto.
    destruct (top_dep (mo m') D' (st (me m')) e' (mi_wfo _ _ _ _ I') (MI_swf _ _ _ _ I') (MI_dok _ _ _ _ I') Ve' Ne) as (r & Hd).
    rewrite !H, !(V i e Em Z) in Hd. unfold flip in Hd. destruct (N.eqb_spec (eid e) (eid e')); auto. now elim Hd.
Qed.

Lemma varsubstitute_spec d1 d2 m hs lk D f : MInv m hs lk D -> In f hs -> room m -> vars_only m D ->
  exists h m', cal_varsubstitute enum slot d1 d2 m f = Ok (h, m') /\
    result m hs lk D (fun rho => hv m D f (replaced D (amap (current m)) rho)) h m'.
Proof using enum_perm.
  intros I If Rm Vo. unfold cal_varsubstitute.
  destruct (preproc_live d1 m hs lk D [f] I) as (m1 & D1 & P & I1 & X1). { now intros h [<-|[]]. }
  pose proof (preproc_top _ _ _ _ _ P) as Tp. rewrite P. cbn [obind negb].
  assert (Rm1 : mcur m1 = None -> 36866 <= mtop m1). { rewrite Tp, (mx_cur _ _ _ _ _ X1). exact Rm. }
  pose proof (vars_only_mext m hs lk D m1 D1 I I1 X1 Vo) as Vo1.
  set (op := match mcur m1 with None => mtop m1 | Some j => OP_VAR_SUBSTITUTE + j end).
  set (t := match mcur m1 with None => pred16 (mtop m1) | Some j => mtop m1 end).
  assert (Em : match mcur m1 with None => (mtop m1, set_mtop m1 (pred16 (mtop m1))) | Some j => (OP_VAR_SUBSTITUTE + j, m1) end = (op, set_mtop m1 t)).
  { unfold op, t. destruct (mcur m1); auto. now rewrite set_mtop_id. }
  rewrite Em. destruct (mi_rc _ _ _ _ I1) as [_ T0].
  assert (T1 : 36864 <= t /\ t <= mtop m1).
  { unfold t, pred16. destruct (mcur m1) eqn:Mc; [lia|]. specialize (Rm1 eq_refl). destruct (N.eqb_spec (mtop m1) 0); lia. }
  assert (Us : susable m1 op t).
  { unfold susable, op, t, pred16. destruct (mcur m1) eqn:Mc; [reflexivity|]. specialize (Rm1 eq_refl). destruct (N.eqb_spec (mtop m1) 0); lia. }
  change (mo (set_mtop m1 t)) with (mo m1). change (me (set_mtop m1 t)) with (me m1). change (mca (set_mtop m1 t)) with (mca m1).
  change (mmem (set_mtop m1 t)) with (mmem m1). change (mvb (set_mtop m1 t)) with (mvb m1). change (current (set_mtop m1 t)) with (current m1).
  assert (B1 : bext (hv m D f)) by exact (dv_bext _ _ _ _ (mi_wfo _ _ _ _ I) (MI_swf _ _ _ _ I) (MI_dok _ _ _ _ I) (MI_int _ _ _ _ f I If)).
  pose proof (MI_int _ _ _ _ f I1 If) as Vf. set (F := uint (mmem m1) f) in *.
  assert (EF : forall rho, dv D1 F (replaced D1 (amap (current m1)) rho) = hv m D f (replaced D (amap (current m)) rho)).
  { intros rho. unfold F. rewrite (mx_h _ _ _ _ _ X1) by auto. apply B1. intros i.
    apply (replaced_arel D D1 (current m) (current m1) (current_arel _ _ _ _ _ X1)). }
  assert (Same : forall r, vedge (nodeR (st (me m1))) r -> (forall rho, dv D1 r rho = dv D1 F (replaced D1 (amap (current m1)) rho)) ->
     exists h m', Ok (finish d2 (set_mtop m1 t) r) = Ok (h, m') /\ result m hs lk D (fun rho => hv m D f (replaced D (amap (current m)) rho)) h m').
  { intros r Vr Er.
    assert (Sx : sext (st (me m1)) D1 (st (me m1)) D1) by apply sext_refl.
    destruct (sfinish_inv m1 hs lk D1 op t D1 (me m1) F r I1 Us (proj1 T1) (proj2 T1) Vf (mi_q _ _ _ _ I1) Sx Vr Er) as [[I2 X2] _].
    assert (Em2 : set_mca (set_mtop (set_me m1 (me m1)) t) (mca m1) = set_mtop m1 t) by now destruct m1.
    rewrite Em2 in I2, X2. destruct (finish d2 (set_mtop m1 t) r) as [h m'] eqn:Fi. exists h, m'. split; auto.
    eapply result_pre; [eapply mext_trans; [exact X1|exact X2]|].
    eapply result_f; [|eapply finish_spec; [exact I2|exact Vr|exact Fi]].
    intros rho. now rewrite Er. }
  destruct (Z.ltb_spec (alast (current m1)) (Z.of_N (eidx (mo m1) F))) as [Lt|Ge].
  - apply Same; auto. intros rho. eapply (dv_agree (mo m1) D1 (st (me m1))); eauto using MI_swf, MI_dok; [apply I1|].
    intros i Ii Li. unfold replaced. destruct (amap (current m1) i) as [e|] eqn:Ei; auto.
    destruct (current_facts m1 hs lk D1 I1) as (_ & F2 & _). pose proof (F2 i e Ei). unfold eidx in Lt. lia.
  - destruct (cache_lookup slot op F one (mca m1)) as [r|] eqn:Lo.
    + destruct (slookup m1 hs lk D1 op t F r I1 Us (proj1 T1) Vf Lo) as [Vr Er]. now apply Same.
    + assert (NF : eid F <> 0).
      { intros Z. destruct (current_facts m1 hs lk D1 I1) as (_ & _ & F3). unfold eidx in Ge.
        rewrite Z, (wfo_const _ (mi_wfo _ _ _ _ I1)) in Ge. lia. }
      destruct (substBF enum (mo m1) (amap (current m1)) (alast (current m1)) (mvb m1) true (N.of_nat (length (ord (mo m1))))
                  (N.to_nat (eidx (mo m1) F)) (me m1) F) as [r en] eqn:Op.
      destruct (substBF_QS m1 hs lk D1 true (N.to_nat (eidx (mo m1) F)) F r en I1) as (D2 & Q2 & S2 & V2 & E2); auto.
      { intros i e _. apply Vo1. } { lia. }
      destruct (sfinish_inv m1 hs lk D1 op t D2 en F r I1 Us (proj1 T1) (proj2 T1) Vf Q2 S2 V2 E2) as [_ [I2 X2]].
      cbv zeta in I2, X2.
      change (set_mca (set_me (set_mtop m1 t) en) (cache_insert slot op F one r (mca m1)))
        with (set_mca (set_mtop (set_me m1 en) t) (cache_insert slot op F one r (mca m1))).
      destruct (finish d2 _ r) as [h m'] eqn:Fi. exists h, m'. split; auto.
      eapply result_pre; [eapply mext_trans; [exact X1|exact X2]|].
      eapply result_f; [|eapply finish_spec; [exact I2|exact V2|exact Fi]].
      intros rho. rewrite E2. apply EF.
Qed.

Lemma varsubstitute_null d1 d2 m hs lk D f : MInv m hs lk D -> uisnull f = true -> cal_varsubstitute enum slot d1 d2 m f = Ok (unull, m).
Proof.
  intros I Hn. unfold cal_varsubstitute. rewrite (preproc_null d1 m hs lk D [f] I); auto.
  - intros h [<-|[]]. now left.
  - exists f. simpl. auto.
Qed.
End BF.
