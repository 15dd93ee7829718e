(** * Correctness of the interface calls. *)
From Coq Require Import Permutation Sorted.
From Verif Require Import Base BFModel ITEModel MgrModel ApiModel StoreInv Own EngInv ApplyProof BinopProof ReduceProof
  EngineProof OpProof MultiProof ITEProof QProof GCProof VarProof MInv.

(** ** Garbage collection *)

Lemma xr_hs m hs lk h : In h hs -> xr m hs lk (uptr h) <> 0.
Proof. intros H. unfold xr. pose proof (hcnt_in hs h H). lia. Qed.
Lemma xr_one m hs lk : MAXREF <= xr m hs lk (muone m).
Proof. unfold xr. rewrite (perm_in m (muone m)) by (now left). lia. Qed.
Lemma xr_var m hs lk i : In i (ord (mo m)) -> MAXREF <= xr m hs lk (eptr (mvb m i)).
Proof.
  intros H. unfold xr. rewrite (perm_in m (eptr (mvb m i))); [lia|]. right.
  apply (in_map (fun i => eptr (mvb m i)) _ _ H).
Qed.
Lemma xr_as m hs lk a i e : In a (mtemp m :: massoc m) -> In i (ord (mo m)) -> amap a i = Some e ->
  xr m hs lk (eptr e) <> 0.
Proof.
  intros Ha Hi He. unfold xr. pose proof (acnt_in _ _ _ _ Hi He).
  pose proof (asum_in (ord (mo m)) _ a (eptr e) Ha). lia.
Qed.

Lemma gc_MInv m hs lk D : MInv m hs lk D -> MInv (gc m) hs lk D /\ mext hs m D (gc m) D.
Proof.
  intros I. pose proof I as [B1 B2 B3 B4 B5 B6 B7 B8 B9 B10 [G [C1 C2 C3 C4 C5 C6 C7]]].
  unfold gc. destruct (gc_store (mo m) (st (me m))) as [s' fr] eqn:GS.
  destruct (gc_store_spec _ _ _ _ _ _ B1 B3 GS) as [[G1 G2 G3 G4 G5] NZ].
  assert (Kp : forall i b, In b (ut (st (me m)) i) -> xr m hs lk b <> 0 -> In b (ut s' i)).
  { intros i b Ib Hx. apply G3. split; auto. intros Hf. destruct (G4 b Hf). auto. }
  assert (Kv : forall e, vedge (nodeR (st (me m))) e -> ~ In (eptr e) fr -> vedge (nodeR s') e).
  { intros e [H|[N0 R]] F; [left; auto|right; split; auto]. apply G3. split; auto. }
  assert (Mx : MAXREF <> 0) by discriminate.
  split.
  - constructor; auto.
    + simpl. destruct B4 as [I1 E1]. split.
      * apply Kp; auto. pose proof (xr_one m hs lk). lia.
      * destruct (G2 (muone m)) as [-> _]. auto.
    + simpl. intros i Ii. destruct (B5 i Ii) as (V1 & V2 & V3 & V4). split; auto. split.
      * apply Kp; auto. pose proof (xr_var m hs lk i Ii). lia.
      * destruct (G2 (eptr (mvb m i))) as [-> ->]. auto.
    + simpl. intros h Ih. apply Kp; [apply B6; auto|]. apply xr_hs; auto.
    + simpl. intros a Ia. destruct (B7 a Ia) as [A1 A2 A3]. constructor; auto.
      intros i e E. destruct (A1 i e E) as [Ii V]. split; auto. apply Kv; auto.
      intros Hf. destruct (G4 _ Hf) as [X0 _]. apply (xr_as m hs lk a i e Ia Ii E). auto.
    + exists G. constructor; auto. simpl. intros k e H. unfold cache_gc in H.
      destruct (mca m k) as [e'|] eqn:Ec; [|discriminate].
      destruct (mentions fr (cf e') || mentions fr (cg e') || mentions fr (cres e')) eqn:Mn; [discriminate|].
      injection H as ->. apply orb_false_iff in Mn as [Mn M3]. apply orb_false_iff in Mn as [M1 M2].
      destruct (C3 k e Ec) as (E0 & E1 & E2 & E3 & E4 & E5).
      assert (NM : forall z, mentions fr z = false -> ~ In (eptr z) fr).
      { intros z Hz Hi. unfold mentions in Hz. apply not_true_iff_false in Hz. apply Hz.
        apply existsb_exists. exists (eptr z). split; auto. apply N.eqb_refl. }
      split; [auto|]. do 3 (split; [apply Kv; auto|]). split; auto.
  - constructor; auto.
    + intros h Ih rho. simpl. unfold uint. destruct (G2 (uptr h)) as [-> _]. auto.
    + apply Forall2_refl'; intros; apply arel_refl.
    + apply arel_refl.
    + simpl. lia.
Qed.

(** Nothing unreferenced survives. *)
Lemma gc_complete m hs lk D : MInv m hs lk D ->
  forall b, isnode (st (me (gc m))) b -> held (st (me (gc m))) (xr m hs lk) b.
Proof.
  intros I. pose proof I as [B1 B2 B3 B4 B5 B6 B7 B8 B9 B10 B11].
  unfold gc. destruct (gc_store (mo m) (st (me m))) as [s' fr] eqn:GS.
  destruct (gc_store_spec _ _ _ _ _ _ B1 B3 GS) as [[G1 G2 G3 G4 G5] NZ]. simpl.
  intros b Ib. apply (all_held (mo m) D (set_st (me m) s') (xr m hs lk)); auto.
Qed.

Lemma set_gclimit_MInv m hs lk D : MInv m hs lk D -> MInv (set_gclimit m) hs lk D /\ mext hs m D (set_gclimit m) D.
Proof. intros I. apply (MInv_limits m hs lk D _ (mnl m) (mov m) I). Qed.

(** The overflow flag is set and there is a node limit. *)
Definition ovf (m : mgr) : Prop := mov m = true /\ mnl m <> 0.

Lemma postproc_MInv d m hs lk D ov m' : MInv m hs lk D -> postproc d m = (ov, m') ->
  exists D', MInv m' hs lk D' /\ mext hs m D m' D' /\ (ov = true -> ovf m').
Proof.
  intros I. unfold postproc. destruct (d_chk d).
  { intros H; injection H as <- <-. exists D. split; auto. split; [apply mext_refl|discriminate]. }
  destruct (mlim m <? nn (st (me m))).
  2:{ intros H; injection H as <- <-. exists D. split; auto. split; [apply mext_refl|discriminate]. }
  destruct (gc_MInv m hs lk D I) as [I1 X1].
  destruct (set_gclimit_MInv _ hs lk D I1) as [I2 X2].
  set (m1 := set_gclimit (gc m)) in *.
  destruct (negb (mnl m1 =? 0) && (mnl m1 <? nn (st (me m1)))) eqn:O.
  - intros H; injection H as <- <-. destruct (MInv_limits m1 hs lk D (mlim m1) (mnl m1) true I2) as [I3 X3].
    exists D. split; auto. split; [eapply mext_trans; [exact X1|]; eapply mext_trans; eauto|].
    intros _. split; auto. apply andb_prop in O as [O _]. apply negb_true_iff, N.eqb_neq in O. exact O.
  - intros H; injection H as <- <-.
    destruct (MInv_cache m1 hs lk D (cache_rehash (d_rehash d) (mca m1))) as [I3 X3]; auto.
    { intros k e. unfold cache_rehash. destruct (d_rehash d k) as [j|]; [|discriminate]. eauto. }
    exists D. split; auto. split; [|discriminate]. eapply mext_trans; [exact X1|]. eapply mext_trans; eauto.
Qed.

(** The count of the node behind a live handle is not zero. *)
Lemma zero_ref_false m hs lk D h : MInv m hs lk D -> uisnull h = true \/ In h hs -> zero_ref m h = false.
Proof.
  intros I [Hn|Ih]; unfold zero_ref; [now rewrite Hn|].
  destruct (uisnull h); auto. simpl. apply N.eqb_neq.
  pose proof (mi_hs _ _ _ _ I h Ih) as U. apply (QS_child_nz _ _ _ _ 0 (uptr h) (mi_q _ _ _ _ I) U).
Qed.

Lemma uok_notnull m hs lk D h : MInv m hs lk D -> In h hs -> uisnull h = false.
Proof.
  intros I Ih. pose proof (mi_hs _ _ _ _ I h Ih) as U.
  pose proof (swf_addr _ _ (MI_swf _ _ _ _ I) 0 _ U). unfold uisnull.
  destruct (N.eqb_spec (uptr h) 0); auto. lia.
Qed.

(** Pre-processing of arguments that are null or live. *)
Lemma preproc_spec d m hs lk D args : MInv m hs lk D ->
  (forall h, In h args -> uisnull h = true \/ In h hs) ->
  exists ok m1 D1, preproc d m args = Ok (ok, m1) /\ MInv m1 hs lk D1 /\ mext hs m D m1 D1 /\
    (ok = false <-> exists h, In h args /\ uisnull h = true).
Proof.
  intros I Ha. unfold preproc.
  destruct (existsb (zero_ref m) args) eqn:Z.
  { exfalso. apply existsb_exists in Z as (h & Ih & Zh). rewrite (zero_ref_false m hs lk D h I) in Zh; auto. discriminate. }
  destruct (existsb uisnull args) eqn:Nl.
  - exists false, m, D. split; auto. split; auto. split; [apply mext_refl|]. split; auto. intros _.
    apply existsb_exists in Nl. auto.
  - destruct (postproc d m) as [ov m'] eqn:P. destruct (postproc_MInv d m hs lk D ov m' I P) as (D1 & I1 & X1 & _).
    exists true, m', D1. split; auto. split; auto. split; auto. split; [discriminate|].
    intros H. apply existsb_exists in H. congruence.
Qed.

(** All arguments live. *)
Lemma preproc_live d m hs lk D args : MInv m hs lk D -> (forall h, In h args -> In h hs) ->
  exists m1 D1, preproc d m args = Ok (true, m1) /\ MInv m1 hs lk D1 /\ mext hs m D m1 D1.
Proof.
  intros I Ha. destruct (preproc_spec d m hs lk D args I) as (ok & m1 & D1 & E & I1 & X1 & N1); [auto|].
  destruct ok; [eauto|]. exfalso. destruct (proj1 N1 eq_refl) as (h & Ih & Hn).
  rewrite (uok_notnull m hs lk D h I) in Hn by auto. discriminate.
Qed.
(** Some argument null. *)
Lemma preproc_null d m hs lk D args : MInv m hs lk D -> (forall h, In h args -> uisnull h = true \/ In h hs) ->
  (exists h, In h args /\ uisnull h = true) -> preproc d m args = Ok (false, m).
Proof.
  intros I Ha [h [Ih Hn]]. unfold preproc.
  destruct (existsb (zero_ref m) args) eqn:Z.
  { exfalso. apply existsb_exists in Z as (h' & Ih' & Zh). rewrite (zero_ref_false m hs lk D h' I) in Zh; auto. discriminate. }
  assert (E : existsb uisnull args = true) by (apply existsb_exists; eauto). now rewrite E.
Qed.

(** ** Counting handles *)

Lemma uinc_spec' m hs lk D h k : MInv m hs lk D -> uok (st (me m)) h -> uptr k = uptr h ->
  MInv (uinc m h) (k :: hs) lk D /\ mext hs m D (uinc m h) D.
Proof.
  intros I U Ek.
  assert (X : sext (st (me m)) D (icr (st (me m)) (E 0 (uptr h) false)) D) by apply sext_icr.
  split; [|apply (mext_gen m hs lk D (set_st (me m) (icr (st (me m)) (E 0 (uptr h) false)))); auto].
  unfold uinc, set_mst. eapply MInv_gen; [exact I| |exact X|].
  - eapply QS_x_ext; [|apply QS_icr; [right; exists 0; exact U|exact (mi_q _ _ _ _ I)]].
    intros b. unfold xr, xadd. simpl hcnt. rewrite Ek. simpl eptr. unfold b2n. destruct (uptr h =? b); lia.
  - intros h' [<-|Ih']; unfold uok; simpl; [rewrite Ek; exact U|apply (mi_hs _ _ _ _ I h' Ih')].
Qed.

Lemma uinc_spec m hs lk D h k : MInv m hs lk D -> In h hs -> uptr k = uptr h ->
  MInv (uinc m h) (k :: hs) lk D /\ mext hs m D (uinc m h) D.
Proof. intros I Ih. apply uinc_spec'; auto. exact (mi_hs _ _ _ _ I h Ih). Qed.

Lemma udec_spec m hs lk D h : MInv m (h :: hs) lk D ->
  MInv (udec m h) hs lk D /\ mext hs m D (udec m h) D.
Proof.
  intros I. assert (X : sext (st (me m)) D (dcr (st (me m)) (E 0 (uptr h) false)) D) by apply sext_dcr.
  split.
  - unfold udec, set_mst. eapply MInv_gen; [exact I| |exact X|].
    + eapply QS_x_ext; [|apply (QS_dcr _ _ _ (xr m (h :: hs) lk) (E 0 (uptr h) false)); [|exact (mi_q _ _ _ _ I)]].
      * intros b. unfold xr, xsub. simpl hcnt. simpl eptr. unfold b2n. destruct (uptr h =? b); lia.
      * unfold xr. simpl. rewrite N.eqb_refl. simpl. lia.
    + intros h' Ih'. apply (mi_hs _ _ _ _ I h'). now right.
  - eapply mext_sub; [|apply (mext_gen m (h :: hs) lk D (set_st (me m) (dcr (st (me m)) (E 0 (uptr h) false)))); auto].
    intros; now right.
Qed.

(** Freed and taken back at once. *)
Lemma refree_spec m hs lk D h : MInv m (h :: hs) lk D -> MInv (uinc (udec m h) h) (h :: hs) lk D /\ mext (h :: hs) m D (uinc (udec m h) h) D.
Proof.
  intros I. destruct (udec_spec m hs lk D h I) as [I1 X1].
  assert (U : uok (st (me (udec m h))) h) by exact (mi_hs _ _ _ _ I h (or_introl eq_refl)).
  destruct (uinc_spec' (udec m h) hs lk D h h I1 U eq_refl) as [I2 X2]. split; auto.
  apply (mext_gen m (h :: hs) lk D (set_st (me m) (icr (dcr (st (me m)) (E 0 (uptr h) false)) (E 0 (uptr h) false)))); auto.
  eapply sext_trans; [apply sext_dcr|apply sext_icr].
Qed.

(** A constant handle needs no count. *)
Lemma MInv_const m hs lk D b : MInv m hs lk D -> MInv m (U (muone m) b :: hs) lk D.
Proof.
  intros [B1 B2 B3 B4 B5 B6 B7 B8 B9 B10 B11]. constructor; auto.
  - eapply QS_x_sat; [|exact B3]. intros a. destruct (N.eq_dec a (muone m)) as [->|Na].
    + right. split; [exists 0; apply B4|]. eapply QS_sat; [exact B3|exists 0; apply B4|apply xr_one].
    + left. unfold xr. simpl. destruct (N.eqb_spec (muone m) a); [congruence|]. simpl. lia.
  - intros h [<-|Ih]; auto. apply B4.
Qed.

(** ** Wrapping *)

Lemma ret_spec m hs lk D r h m' : MInv m hs lk D -> vedge (nodeR (st (me m))) r -> ret m r = (h, m') ->
  exists D', MInv m' (h :: hs) lk D' /\ mext hs m D m' D' /\ sext (st (me m)) D (st (me m')) D' /\
    uint (mmem m') h = r /\ forall rho, dv D' (uint (mmem m') h) rho = dv D r rho.
Proof.
  intros I V H. unfold ret in H. destruct (getext (st (me m)) r) as [h0 s] eqn:Ge. injection H as <- <-.
  destruct (getext_spec _ _ _ _ _ _ _ (mi_q _ _ _ _ I) V Ge) as (D' & Q & X & Uo & Ei).
  exists D'. split.
  - unfold set_mst. eapply MInv_gen; [exact I| |exact X|].
    + eapply QS_x_ext; [|exact Q]. intros b. unfold xr, xadd. simpl. unfold b2n. destruct (uptr h0 =? b); lia.
    + intros h' [<-|Ih']; auto. eapply sext_uok; [exact X|]. apply (mi_hs _ _ _ _ I h' Ih').
  - split; [apply (mext_gen m hs lk D (set_st (me m) s)); auto|]. split; [exact X|]. simpl. split; auto.
    intros rho. rewrite Ei. eapply sext_dv; eauto.
Qed.

(** The result of an operation: a handle with the given function, or null after an overflow. *)
Definition result (m : mgr) (hs : list ubdd) (lk : N -> N) (D : den) (f : bf) (h : ubdd) (m' : mgr) : Prop :=
  exists D', mext hs m D m' D' /\
    ((h = unull /\ ovf m' /\ MInv m' hs lk D') \/
     (MInv m' (h :: hs) lk D' /\ forall rho, dv D' (uint (mmem m') h) rho = f rho)).
(** The same for calls that cannot overflow. *)
Definition result' (m : mgr) (hs : list ubdd) (lk : N -> N) (D : den) (f : bf) (h : ubdd) (m' : mgr) : Prop :=
  exists D', mext hs m D m' D' /\ MInv m' (h :: hs) lk D' /\ forall rho, dv D' (uint (mmem m') h) rho = f rho.

Lemma result_pre m hs lk D m1 D1 f h m' : mext hs m D m1 D1 ->
  result m1 hs lk D1 f h m' -> result m hs lk D f h m'.
Proof. intros X (D' & X' & H). exists D'. split; auto. eapply mext_trans; eauto. Qed.
Lemma result_pre' m hs lk D m1 D1 f h m' : mext hs m D m1 D1 ->
  result' m1 hs lk D1 f h m' -> result' m hs lk D f h m'.
Proof. intros X (D' & X' & H). exists D'. split; auto. eapply mext_trans; eauto. Qed.
Lemma result_f m hs lk D f g h m' : (forall rho, f rho = g rho) -> result m hs lk D f h m' -> result m hs lk D g h m'.
Proof.
  intros E (D' & X & [H|[I H]]); exists D'; split; auto. right. split; auto. intros rho. now rewrite H.
Qed.
Lemma result_f' m hs lk D f g h m' : (forall rho, f rho = g rho) -> result' m hs lk D f h m' -> result' m hs lk D g h m'.
Proof. intros E (D' & X & I & H); exists D'; split; auto. split; auto. intros rho. now rewrite H. Qed.

Lemma ret_result m hs lk D r h m' : MInv m hs lk D -> vedge (nodeR (st (me m))) r -> ret m r = (h, m') ->
  result' m hs lk D (dv D r) h m'.
Proof.
  intros I V H. destruct (ret_spec m hs lk D r h m' I V H) as (D' & I' & X & _ & _ & E). exists D'. auto.
Qed.

Lemma gc_mov m : mov (gc m) = mov m.
Proof. unfold gc. now destruct (gc_store (mo m) (st (me m))). Qed.
Lemma gc_ovf m : ovf m -> ovf (gc m).
Proof. unfold ovf, gc. now destruct (gc_store (mo m) (st (me m))). Qed.

Lemma finish_spec d m hs lk D r h m' : MInv m hs lk D -> vedge (nodeR (st (me m))) r -> finish d m r = (h, m') ->
  result m hs lk D (dv D r) h m'.
Proof.
  intros I V H. unfold finish in H. destruct (ret m r) as [h1 m1] eqn:Rt.
  destruct (ret_spec m hs lk D r h1 m1 I V Rt) as (D1 & I1 & X1 & _ & _ & E1).
  destruct (postproc d m1) as [ov m2] eqn:P.
  destruct (postproc_MInv d m1 (h1 :: hs) lk D1 ov m2 I1 P) as (D2 & I2 & X2 & O2).
  assert (X2' : mext hs m1 D1 m2 D2) by (eapply mext_sub; [|exact X2]; intros; now right).
  destruct ov; injection H as <- <-.
  - destruct (udec_spec m2 hs lk D2 h1 I2) as [I3 X3]. destruct (gc_MInv _ hs lk D2 I3) as [I4 X4].
    exists D2. split.
    + eapply mext_trans; [exact X1|]. eapply mext_trans; [exact X2'|]. eapply mext_trans; eauto.
    + left. split; auto. split; auto. apply gc_ovf. exact (O2 eq_refl).
  - exists D2. split; [eapply mext_trans; eauto|]. right. split; auto.
    intros rho. rewrite (mx_h _ _ _ _ _ X2 h1) by (now left). apply E1.
Qed.

(** ** Engine operations, in terms of stores at rest *)

Section Ops.
Variable enum : memory -> list N -> list N.
Hypothesis enum_perm : forall m l, Permutation (enum m l) l.

Lemma opBF_QS o op D en x F G r en' : wfo o -> binop_ok op -> QS o D en x ->
  vedge (nodeR (st en)) F -> vedge (nodeR (st en)) G -> opBF enum o op en F G = (r, en') ->
  exists D', QS o D' en' x /\ sext (st en) D (st en') D' /\ vedge (nodeR (st en')) r /\
    forall rho, dv D' r rho = bsem op (dv D F rho) (dv D G rho).
Proof using enum_perm.
  intros Wo Ho (own & L & I & R) VF VG H.
  destruct (opBF_spec o Wo enum enum_perm op Ho own D en L x F G r en' I R VF VG H) as (own' & D' & I' & (L' & R') & X & V & E).
  exists D'. split; [exists own', L'; auto|]. split; [|auto].
  apply (nk_sext own D en own' D' en'); [apply I|apply I'|]. eapply oext_nk; eauto.
Qed.

Lemma opITEBF_QS o D en x F G H r en' : wfo o -> QS o D en x ->
  vedge (nodeR (st en)) F -> vedge (nodeR (st en)) G -> vedge (nodeR (st en)) H ->
  opITEBF enum o en F G H = (r, en') ->
  exists D', QS o D' en' x /\ sext (st en) D (st en') D' /\ vedge (nodeR (st en')) r /\
    forall rho, dv D' r rho = if dv D F rho then dv D G rho else dv D H rho.
Proof using enum_perm.
  intros Wo (own & L & I & R) VF VG VH Hr.
  destruct (opITEBF_spec o Wo enum enum_perm own D en L x F G H r en' I R VF VG VH Hr) as (own' & D' & I' & (L' & R') & X & V & E).
  exists D'. split; [exists own', L'; auto|]. split; [|auto].
  apply (nk_sext own D en own' D' en'); [apply I|apply I'|]. eapply oext_nk; eauto.
Qed.


(** The index used by [arrayOpBF]: the top index of the last non-terminal pair. *)
Fixpoint array_mi (o : order) (op : binop) (mi : N) (ps : list (edge * edge)) : N :=
  match ps with
  | [] => mi
  | (F, G) :: ps => match tcase op F G with
                    | Some _ => array_mi o op mi ps
                    | None => array_mi o op (minindex2 o F G) ps
                    end
  end.
Lemma array_insert_mi o op ps : forall en mi rs mi' en', array_insert o op en mi ps = (rs, mi', en') ->
  mi' = array_mi o op mi ps.
Proof.
  induction ps as [|[F G] ps IH]; simpl; intros en mi rs mi' en' H.
  - now injection H.
  - destruct (tcase op F G).
    + destruct (array_insert o op en mi ps) as [[rs1 mi1] en1] eqn:A. injection H as _ <- _. eapply IH; eauto.
    + destruct (request en 0 (minid2 o F G) F G) as [r en1].
      destruct (array_insert o op en1 (minindex2 o F G) ps) as [[rs1 mi1] en2] eqn:A. injection H as _ <- _. eapply IH; eauto.
Qed.

Definition last_is_top (o : order) (op : binop) (ps : list (edge * edge)) : Prop :=
  forall p, In p ps -> tcase op (fst p) (snd p) = None -> array_mi o op 0 ps <= minindex2 o (fst p) (snd p).

Lemma arrayOpBF_QS o op D en x ps rs en' : wfo o -> binop_ok op -> QS o D en x ->
  (forall p, In p ps -> vedge (nodeR (st en)) (fst p) /\ vedge (nodeR (st en)) (snd p)) ->
  last_is_top o op ps -> arrayOpBF enum o op en ps = (rs, en') ->
  exists D', QS o D' en' x /\ sext (st en) D (st en') D' /\
    Forall2 (fun p r => vedge (nodeR (st en')) r /\
       forall rho, dv D' r rho = bsem op (dv D (fst p) rho) (dv D (snd p) rho)) ps rs.
Proof using enum_perm.
  intros Wo Ho (own & L & I & R) V Hl H.
  destruct (arrayOpBF_spec o Wo enum enum_perm op Ho own D en L x ps rs en' I R V) as (own' & D' & I' & (L' & R') & X & F); auto.
  { intros rs1 mi en1 A p Ip T. apply array_insert_mi in A. subst mi. apply Hl; auto. }
  exists D'. split; [exists own', L'; auto|]. split; [|exact F].
  apply (nk_sext own D en own' D' en'); [apply I|apply I'|]. eapply oext_nk; eauto.
Qed.

Lemma multiwayOp_QS o op u D en x es : wfo o -> binop_ok op ->
  (forall b, bsem op u b = b) -> (forall a b c, bsem op a (bsem op b c) = bsem op (bsem op a b) c) -> QS o D en x ->
  (forall e, In e es -> vedge (nodeR (st en)) e) -> (2 <= length es)%nat -> N.of_nat (length es) <= 1024 ->
  exists r en' D', multiwayOp enum o op en es = Ok (r, en') /\ QS o D' en' x /\ sext (st en) D (st en') D' /\
    vedge (nodeR (st en')) r /\
    forall rho, dv D' r rho = fold_right (fun e b => bsem op (dv D e rho) b) u es.
Proof using enum_perm.
  intros Wo Ho Hu Ha (own & L & I & R) V L2 L1.
  destruct (multiwayOp_spec o Wo enum enum_perm op Ho u Hu Ha own D en L x es I R V L2 L1)
    as (r & en' & own' & D' & E & I' & (L' & R') & X & Vr & Ed).
  exists r, en', D'. split; [exact E|]. split; [exists own', L'; auto|]. split; [|auto].
  apply (nk_sext own D en own' D' en'); [apply I|apply I'|exact X].
Qed.
End Ops.
