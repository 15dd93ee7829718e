(** * Quantification: the interface functions keep the manager invariant and compute the right functions. *)
From Coq Require Import Permutation Sorted.
From Verif Require Import Base BFModel MgrModel ApiModel StoreInv Own EngInv ApplyProof BinopProof ReduceProof EngineProof
  OpProof MultiProof QProof GCProof VarProof MInv ApiProof ApiOps ApiStruct GraphModel GraphCube AssocModel AssocProof QuantModel QuantBFModel QuantApiModel QuantProof QuantBFOps.

Lemma ex_same mp ids mp' ids' f rho : (forall i e, mp i = Some e -> In i ids) -> (forall i e, mp' i = Some e -> In i ids') ->
  (forall i, mp i = None <-> mp' i = None) -> bext f -> ex mp ids f rho = ex mp' ids' f rho.
Proof.
  intros D1 D2 E B. apply bool_iff. rewrite (ex_iff mp ids D1), (ex_iff mp' ids' D2) by auto.
  split; intros (r & H1 & H2); exists r; (split; [|auto]); intros i Hi; apply H1; now apply E.
Qed.
Lemma sem_quant_ex mp ids F : (forall i e, mp i = Some e -> In i ids) -> sem_quant mp F ->
  forall f g, bext f -> bext g -> forall rho, F f g rho = ex mp ids (fun r => f r && g r) rho.
Proof.
  intros D S f g Bf Bg rho. apply bool_iff. rewrite (S f g Bf Bg rho), (ex_iff mp ids D).
  - split; intros (r & H1 & H2); exists r; (split; [auto|]); now apply andb_true_iff.
  - intros r1 r2 E. now rewrite (Bf r1 r2 E), (Bg r1 r2 E).
Qed.

(** Facts about the current association. *)
Lemma current_facts m hs lk D : MInv m hs lk D ->
  (forall i e, amap (current m) i = Some e -> In i (ord (mo m))) /\
  (forall i e, amap (current m) i = Some e -> (Z.of_N (idx (mo m) i) <= alast (current m))%Z) /\
  (alast (current m) < Z.of_N CONST_INDEX)%Z.
Proof.
  intros I. destruct (mi_as _ _ _ _ I _ (current_in m)) as [A1 A2 A3]. split; [intros i e H; now apply (A1 i e)|]. split; [exact A2|].
  destruct A3 as [->|(i & e & H & ->)]; [reflexivity|]. destruct (A1 i e H) as [Ii _].
  pose proof (wfo_lt_const _ i (mi_wfo _ _ _ _ I) Ii). lia.
Qed.
Lemma current_perm m hs lk D j : MInv m hs lk D -> mcur m = Some j -> In (current m) (massoc m) /\ aid (current m) = j.
Proof.
  intros I H. pose proof (mi_cur _ _ _ _ I j H) as Ij. apply in_map_iff in Ij as (a & Ea & Ia). unfold current. rewrite H.
  destruct (find (fun a => aid a =? j) (massoc m)) as [b|] eqn:Fb.
  - apply find_some in Fb as [Ib Eb]. apply N.eqb_eq in Eb. auto.
  - apply (find_none _ _ Fb) in Ia. apply N.eqb_neq in Ia. congruence.
Qed.

(** The meaning of the operation codes when the codes [t] and [t'] are used for the temporary
    association. *)
Definition ghost_temp (G : ghost) (mp : N -> option edge) (ids : list N) (t t' : N) : ghost := fun c f g =>
  if (c =? t) || (c =? t') then exq mp ids (fun r => f r && g r) else G c f g.

Definition after (m : mgr) (t : N) (s : store) (c : cache) : mgr := set_mca (set_mst (set_mtop m t) s) c.

Lemma set_mtop_id m : set_mtop m (mtop m) = m.
Proof. now destruct m. Qed.

Definition usable (m : mgr) (op t : N) : Prop :=
  match mcur m with None => t < op <= mtop m | Some j => op = OP_QUANT + j \/ op = OP_REL_PROD + j end.

Lemma live_range m hs lk D c : MInv m hs lk D -> live m c -> c < 36864 \/ mtop m < c.
Proof.
  intros I [(a & Ia & H)|[H|H]]; [|auto|subst; left; reflexivity].
  destruct (mi_rc _ _ _ _ I) as [R _]. destruct (R a Ia). left. destruct H as [H|[H|H]]; lia.
Qed.

Lemma codes m hs lk D op qop t : MInv m hs lk D -> usable m op t -> usable m qop t -> 36864 <= t -> t <= mtop m ->
  exists (G : ghost) (Lv : N -> Prop),
    (forall c f f' g g', (forall r, f r = f' r) -> (forall r, g r = g' r) -> forall r, G c f g r = G c f' g' r) /\
    (forall c f g r, G c f g r = G c g f r) /\
    (forall f g rho, G OP_NAND f g rho = negb (f rho && g rho)) /\ Lv OP_NAND /\
    cval G Lv D (st (me m)) (mca m) /\ Lv op /\ Lv qop /\
    (forall f g, bext f -> bext g -> forall rho, G op f g rho = ex (amap (current m)) (ord (mo m)) (fun r => f r && g r) rho) /\
    (forall f g, bext f -> bext g -> forall rho, G qop f g rho = ex (amap (current m)) (ord (mo m)) (fun r => f r && g r) rho) /\
    forall D' s c, QS (mo m) D' (set_st (me m) s) (xr m hs lk) -> sext (st (me m)) D s D' -> cval G Lv D' s c ->
      MInv (after m t s c) hs lk D' /\ mext hs m D (after m t s c) D'.
Proof.
  intros I Uop Uq T1 T2. destruct (current_facts m hs lk D I) as (Dm & _ & _).
  destruct (mi_cache _ _ _ _ I) as [G0 C0]. pose proof C0 as [C1 C2 C3 C4 C5 C6 C7].
  set (G := match mcur m with Some _ => G0 | None => ghost_temp G0 (amap (current m)) (ord (mo m)) op qop end).
  set (Lv := fun c => live m c \/ c = op \/ c = qop).
  assert (Old : forall c f g, live m c -> G c f g = G0 c f g).
  { intros c f g Lc. unfold G. destruct (mcur m) eqn:Mc; auto. unfold ghost_temp, usable in *. rewrite Mc in *.
    pose proof (live_range _ _ _ _ _ I Lc).
    destruct (N.eqb_spec c op); [lia|]. destruct (N.eqb_spec c qop); [lia|]. reflexivity. }
  assert (Gx : forall c f f' g g', (forall r, f r = f' r) -> (forall r, g r = g' r) -> forall r, G c f g r = G c f' g' r).
  { intros c f f' g g' E1 E2 r. unfold G. destruct (mcur m); [now apply C1|]. unfold ghost_temp.
    destruct (_ || _); [apply exq_ext; intros q; now rewrite E1, E2|now apply C1]. }
  assert (Gs : forall c f g r, G c f g r = G c g f r).
  { intros c f g r. unfold G. destruct (mcur m); [now apply C2|]. unfold ghost_temp.
    destruct (_ || _); [apply exq_ext; intros q; apply andb_comm|now apply C2]. }
  assert (Ln : live m OP_NAND) by (right; right; reflexivity).
  assert (Use : forall c, usable m c t -> c = op \/ c = qop ->
     forall f g, bext f -> bext g -> forall rho, G c f g rho = ex (amap (current m)) (ord (mo m)) (fun r => f r && g r) rho).
  { intros c U Hc f g Bf Bg rho. unfold G. unfold usable in U. destruct (mcur m) as [j|] eqn:Mc.
    - destruct (current_perm m hs lk D j I Mc) as [Ic Ej]. rewrite <- Ej in U.
      apply sem_quant_ex; auto. destruct U as [-> | ->]; [now apply C4|now apply C5].
    - unfold ghost_temp. destruct Hc as [-> | ->]; rewrite N.eqb_refl, ?orb_true_r; reflexivity. }
  assert (Lu : forall c, usable m c t -> live (set_mtop m t) c).
  { intros c U. unfold usable in U. destruct (mcur m) as [j|] eqn:Mc.
    - destruct (current_perm m hs lk D j I Mc) as [Ic Ej]. left. exists (current m). split; [exact Ic|]. rewrite Ej. tauto.
    - right; left. simpl. lia. }
  assert (Ll : forall c, Lv c -> live (set_mtop m t) c).
  { intros c [H|[->| ->]]; [|now apply Lu|now apply Lu]. destruct H as [H|[H|H]]; [left; exact H|right; left; simpl; lia|right; right; exact H]. }
  exists G, Lv. split; [exact Gx|]. split; [exact Gs|].
  split; [intros f g rho; rewrite Old by exact Ln; apply C7|]. split; [now left|].
  split. { intros k e H. destruct (C3 k e H) as (E0 & E1 & E2 & E3 & E4 & E5). do 4 (split; [assumption|]). split; [now left|].
           intros rho. rewrite E5. now rewrite Old by exact E4. }
  split; [right; now left|]. split; [right; now right|]. split; [apply Use; auto|]. split; [apply Use; auto|].
  intros D' s c Q X Cv.
  destruct (MInv_step m hs lk D (set_st (me m) s) D' I Q X) as [I2 X2].
  pose proof I2 as [B1 B2 B3 B4 B5 B6 B7 B8 B9 B10 B11].
  pose proof (CInv_sext G0 m D (set_st (me m) s) D' (MI_swf _ _ _ _ I) (MI_dok _ _ _ _ I) (mi_wfo _ _ _ _ I)) as C'.
  specialize (C' (fun a Ia => mi_as _ _ _ _ I a (or_intror Ia)) X C0). destruct C' as [D1 D2 D3 D4 D5 D6 D7].
  assert (La : forall a, In a (massoc m) -> forall k, (k = 16384 + aid a \/ k = 20480 + aid a \/ k = 32768 + aid a) -> live m k).
  { intros a Ia k Hk. left. exists a. auto. }
  split.
  - constructor; auto.
    + destruct B9 as [B9 _]. split; [exact B9|]. simpl. lia.
    + exists G. constructor; auto.
      * intros k e H. destruct (Cv k e H) as (E0 & E1 & E2 & E3 & E4 & E5). do 4 (split; [assumption|]). split; [|exact E5].
        exact (Ll _ E4).
      * intros a Ia f g Bf Bg rho. rewrite Old by (eapply La; eauto). now apply (D4 a Ia).
      * intros a Ia f g Bf Bg rho. rewrite Old by (eapply La; eauto). now apply (D5 a Ia).
      * intros a Ia f g Bf Bg rho. rewrite Old by (eapply La; eauto). now apply (D6 a Ia).
      * intros f g rho. rewrite Old by exact Ln. apply D7.
  - destruct X2 as [A1 A2 A3 A4 A5 A6 A7]. constructor; auto.
Qed.

Lemma preproc_top d m l ok m' : preproc d m l = Ok (ok, m') -> mtop m' = mtop m.
Proof.
  unfold preproc. destruct (existsb _ _); [discriminate|]. destruct (existsb _ _); intros [= <- <-]; [reflexivity|].
  unfold postproc. destruct (d_chk d); [reflexivity|]. destruct (_ <? _); [|reflexivity].
  destruct (_ && _); cbn; unfold gc; destruct (gc_store (mo m) (st (me m))); reflexivity.
Qed.

(** Enough operation codes left for the temporary association. *)
Definition room (m : mgr) : Prop := mcur m = None -> 36866 <= mtop m.

Section Api.
Variable enum : memory -> list N -> list N.
Hypothesis enum_perm : forall m l, Permutation (enum m l) l.
Variable slot : N -> edge -> edge -> N.

Lemma quantify_spec neg d1 d2 m hs lk D f : MInv m hs lk D -> In f hs -> room m ->
  exists h m', quantify enum slot neg d1 d2 m f = Ok (h, m') /\
    result m hs lk D (fun rho => xorb neg (ex (amap (current m)) (ord (mo m)) (fun r => xorb neg (hv m D f r)) rho)) h m'.
Proof.
  intros I If Rm. unfold quantify.
  destruct (preproc_live d1 m hs lk D [f] I) as (m1 & D1 & P & I1 & X1). { now intros h [<-|[]]. }
  pose proof (preproc_top _ _ _ _ _ P) as Tp. rewrite P. cbn [obind negb].
  assert (Rm1 : mcur m1 = None -> 36866 <= mtop m1). { rewrite Tp, (mx_cur _ _ _ _ _ X1). exact Rm. }
  set (op := match mcur m1 with None => mtop m1 | Some j => OP_QUANT + j end).
  set (t := match mcur m1 with None => pred16 (mtop m1) | Some j => mtop m1 end).
  assert (Em : match mcur m1 with None => (mtop m1, set_mtop m1 (pred16 (mtop m1))) | Some j => (OP_QUANT + j, m1) end = (op, set_mtop m1 t)).
  { unfold op, t. destruct (mcur m1); auto. now rewrite set_mtop_id. }
  rewrite Em. destruct (mi_rc _ _ _ _ I1) as [_ T0].
  assert (T1 : 36864 <= t /\ t <= mtop m1).
  { unfold t, pred16. destruct (mcur m1) eqn:Mc; [lia|]. specialize (Rm1 eq_refl). destruct (N.eqb_spec (mtop m1) 0); lia. }
  assert (Us : usable m1 op t).
  { unfold usable, op, t, pred16. destruct (mcur m1) eqn:Mc; [now left|]. specialize (Rm1 eq_refl). destruct (N.eqb_spec (mtop m1) 0); lia. }
  destruct (codes m1 hs lk D1 op op t I1 Us Us (proj1 T1) (proj2 T1)) as (G & Lv & Gx & Gs & Gn & Ln & Cv & Lo & _ & Go & _ & Fin).
  change (mo (set_mtop m1 t)) with (mo m1). change (me (set_mtop m1 t)) with (me m1). change (mca (set_mtop m1 t)) with (mca m1).
  change (mmem (set_mtop m1 t)) with (mmem m1).
  destruct (current_facts m1 hs lk D1 I1) as (F1 & F2 & F3).
  pose proof (MI_int _ _ _ _ f I1 If) as Vf.
  set (e := uint (mmem m1) f) in *.
  assert (Ve : vedge (nodeR (st (me m1))) (ephase e neg)) by now apply vedge_ephase.
  assert (SQ1 : SQ (mo m1) (xr m1 hs lk) (me m1) G Lv D1 (st (me m1)) (mca m1)).
  { split; [|exact Cv]. pose proof (mi_q _ _ _ _ I1) as Q. destruct (me m1); exact Q. }
  set (q := if LARGE <? nn (st (me m1)) then _ else _).
  assert (Hq : dpost (mo m1) (xr m1 hs lk) (me m1) G Lv D1 (st (me m1)) (ex (amap (current m1)) (ord (mo m1)) (dv D1 (ephase e neg))) q).
  { unfold q. destruct (LARGE <? nn (st (me m1))).
    - exact (exists_bf_spec enum enum_perm slot (mo m1) (mi_wfo _ _ _ _ I1) (xr m1 hs lk) (me m1) G Lv Gx Gs
        (amap (current m1)) (alast (current m1)) F1 F2 F3 op Lo Go D1 (st (me m1)) (mca m1) (ephase e neg) SQ1 Ve).
    - change (depth (mo m1)) with (S (length (ord (mo m1)))).
      apply (exists_df_spec slot (mo m1) (mi_wfo _ _ _ _ I1) (xr m1 hs lk) (me m1) G Lv Gx Gs Gn Ln
        (amap (current m1)) (alast (current m1)) F1 F2 F3 op Lo Go (length (ord (mo m1))) D1 (st (me m1)) (mca m1) (ephase e neg) SQ1 Ve). lia. }
  destruct Hq as (r & s' & c' & D' & Eq & [Q' Cv'] & Xs & Vr & Er). rewrite Eq.
  destruct (Fin D' s' c' Q' Xs Cv') as [I2 X2]. fold (after m1 t s' c').
  destruct (finish d2 (after m1 t s' c') (ephase r neg)) as [h m'] eqn:Fi. exists h, m'. split; [reflexivity|].
  eapply result_pre; [eapply mext_trans; [exact X1|exact X2]|].
  eapply result_f; [|eapply finish_spec; [exact I2| |exact Fi]].
  - intros rho. rewrite dv_ephase, Er. f_equal.
    assert (Bf : bext (fun r => xorb neg (hv m D f r))).
    { intros r1 r2 E. f_equal. refine (dv_bext _ _ _ _ (mi_wfo _ _ _ _ I) (MI_swf _ _ _ _ I) (MI_dok _ _ _ _ I) (MI_int _ _ _ _ f I If) r1 r2 E). }
    rewrite (ex_ext _ _ (dv D1 (ephase e neg)) (fun r => xorb neg (hv m D f r))).
    2:{ intros r0. rewrite dv_ephase. f_equal. unfold e. now rewrite (mx_h _ _ _ _ _ X1) by auto. }
    apply ex_same; auto.
    + exact (proj1 (current_facts m hs lk D I)).
    + destruct (current_arel hs m D m1 D1 X1) as (_ & _ & Ha). intros i. specialize (Ha i).
      destruct (amap (current m) i), (amap (current m1) i); split; intros; try discriminate; auto; contradiction.
  - now apply vedge_ephase.
Qed.

Lemma quantify_null neg d1 d2 m hs lk D f : MInv m hs lk D -> uisnull f = true -> quantify enum slot neg d1 d2 m f = Ok (unull, m).
Proof.
  intros I Hn. unfold quantify. rewrite (preproc_null d1 m hs lk D [f] I); auto.
  - intros h [<-|[]]. now left.
  - exists f. simpl. auto.
Qed.

Lemma relprod_spec d1 d2 m hs lk D f g : MInv m hs lk D -> In f hs -> In g hs -> room m ->
  exists h m', cal_relprod enum slot d1 d2 m f g = Ok (h, m') /\
    result m hs lk D (ex (amap (current m)) (ord (mo m)) (fun r => hv m D f r && hv m D g r)) h m'.
Proof.
  intros I If Ig Rm. unfold cal_relprod.
  destruct (preproc_live d1 m hs lk D [f; g] I) as (m1 & D1 & P & I1 & X1). { now intros h [<-|[<-|[]]]. }
  pose proof (preproc_top _ _ _ _ _ P) as Tp. rewrite P. cbn [obind negb].
  assert (Rm1 : mcur m1 = None -> 36866 <= mtop m1). { rewrite Tp, (mx_cur _ _ _ _ _ X1). exact Rm. }
  set (op := match mcur m1 with None => mtop m1 | Some j => OP_REL_PROD + j end).
  set (qop := match mcur m1 with None => pred16 (mtop m1) | Some j => OP_QUANT + j end).
  set (t := match mcur m1 with None => pred16 (pred16 (mtop m1)) | Some j => mtop m1 end).
  assert (Em : match mcur m1 with None => (mtop m1, pred16 (mtop m1), set_mtop m1 (pred16 (pred16 (mtop m1))))
                             | Some j => (OP_REL_PROD + j, OP_QUANT + j, m1) end = (op, qop, set_mtop m1 t)).
  { unfold op, qop, t. destruct (mcur m1); auto. now rewrite set_mtop_id. }
  rewrite Em. destruct (mi_rc _ _ _ _ I1) as [_ T0].
  assert (T1 : 36864 <= t /\ t <= mtop m1 /\ usable m1 op t /\ usable m1 qop t).
  { unfold usable, op, qop, t, pred16. destruct (mcur m1) eqn:Mc; [repeat split; auto; lia|]. specialize (Rm1 eq_refl).
    destruct (N.eqb_spec (mtop m1) 0); [lia|]. destruct (N.eqb_spec (mtop m1 - 1) 0); lia. }
  destruct T1 as (T1 & T2 & Uo & Uq).
  destruct (codes m1 hs lk D1 op qop t I1 Uo Uq T1 T2) as (G & Lv & Gx & Gs & Gn & Ln & Cv & Lo & Lq & Go & Gq & Fin).
  change (mo (set_mtop m1 t)) with (mo m1). change (me (set_mtop m1 t)) with (me m1). change (mca (set_mtop m1 t)) with (mca m1).
  change (mmem (set_mtop m1 t)) with (mmem m1).
  destruct (current_facts m1 hs lk D1 I1) as (F1 & F2 & F3).
  pose proof (MI_int _ _ _ _ f I1 If) as Vf. pose proof (MI_int _ _ _ _ g I1 Ig) as Vg.
  set (e := uint (mmem m1) f) in *. set (e' := uint (mmem m1) g) in *.
  assert (SQ1 : SQ (mo m1) (xr m1 hs lk) (me m1) G Lv D1 (st (me m1)) (mca m1)).
  { split; [|exact Cv]. pose proof (mi_q _ _ _ _ I1) as Q. destruct (me m1); exact Q. }
  set (q := if LARGE <? nn (st (me m1)) then _ else _).
  assert (Hq : dpost (mo m1) (xr m1 hs lk) (me m1) G Lv D1 (st (me m1)) (ex (amap (current m1)) (ord (mo m1)) (andf (dv D1 e) (dv D1 e'))) q).
  { unfold q. destruct (LARGE <? nn (st (me m1))).
    - exact (relprod_bf_spec enum enum_perm slot (mo m1) (mi_wfo _ _ _ _ I1) (xr m1 hs lk) (me m1) G Lv Gx Gs
        (amap (current m1)) (alast (current m1)) F1 F2 F3 op Lo Go D1 (st (me m1)) (mca m1) e e' SQ1 Vf Vg).
    - change (depth (mo m1)) with (S (length (ord (mo m1)))).
      apply (relprod_df_spec slot (mo m1) (mi_wfo _ _ _ _ I1) (xr m1 hs lk) (me m1) G Lv Gx Gs Gn Ln
        (amap (current m1)) (alast (current m1)) F1 F2 F3 op qop Lo Go Lq Gq (length (ord (mo m1))) D1 (st (me m1)) (mca m1) e e' SQ1 Vf Vg); lia. }
  destruct Hq as (r & s' & c' & D' & Eq & [Q' Cv'] & Xs & Vr & Er). rewrite Eq.
  destruct (Fin D' s' c' Q' Xs Cv') as [I2 X2]. fold (after m1 t s' c').
  destruct (finish d2 (after m1 t s' c') r) as [h m'] eqn:Fi. exists h, m'. split; [reflexivity|].
  eapply result_pre; [eapply mext_trans; [exact X1|exact X2]|].
  eapply result_f; [|eapply finish_spec; [exact I2|exact Vr|exact Fi]].
  intros rho. rewrite Er.
  assert (Bf : forall k, In k hs -> bext (hv m D k)).
  { intros k Ik. exact (dv_bext _ _ _ _ (mi_wfo _ _ _ _ I) (MI_swf _ _ _ _ I) (MI_dok _ _ _ _ I) (MI_int _ _ _ _ k I Ik)). }
  rewrite (ex_ext _ _ _ (fun r => hv m D f r && hv m D g r)).
  2:{ intros r0. unfold andf, e, e'. now rewrite !(mx_h _ _ _ _ _ X1) by auto. }
  apply ex_same; auto.
  - exact (proj1 (current_facts m hs lk D I)).
  - destruct (current_arel hs m D m1 D1 X1) as (_ & _ & Ha). intros i. specialize (Ha i).
    destruct (amap (current m) i), (amap (current m1) i); split; intros; try discriminate; auto; contradiction.
  - apply (andf_bext (hv m D f) (hv m D g)); auto.
Qed.

Lemma relprod_null d1 d2 m hs lk D f g : MInv m hs lk D ->
  uisnull f = true \/ In f hs -> uisnull g = true \/ In g hs -> uisnull f = true \/ uisnull g = true ->
  cal_relprod enum slot d1 d2 m f g = Ok (unull, m).
Proof.
  intros I Hf Hg Hn. unfold cal_relprod. rewrite (preproc_null d1 m hs lk D [f; g] I); auto.
  - now intros h [<-|[<-|[]]].
  - destruct Hn; [exists f|exists g]; simpl; auto.
Qed.

End Api.
