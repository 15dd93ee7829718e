(** * Store facts between operations: counts, node creation, external references. *)
From Coq Require Import Permutation.
From Verif Require Import Base BFModel MgrModel StoreInv Own EngInv ApplyProof BinopProof ReduceProof EngineProof
  OpProof MultiProof.

(** The engine at rest: [x] counts the references from outside the node tables. *)
Definition QS (o : order) (D : den) (en : eng) (x : N -> N) : Prop :=
  exists own L, EInv o own D en /\ RC own [] idn (mem (st en)) L x.

(** What every operation but garbage collection and reordering guarantees. *)
Record sext (s : store) (D : den) (s' : store) (D' : den) : Prop := {
  se_node : forall i a, In a (ut s i) -> In a (ut s' i) /\ sameTE (mem s) (mem s') a;
  se_D : forall a rho, a = ONE \/ (exists i, In a (ut s i)) -> D' a rho = D a rho
}.

Lemma sext_refl s D : sext s D s D.
Proof. constructor; auto. intros; split; auto; split; auto. Qed.
Lemma sext_trans s D s1 D1 s2 D2 : sext s D s1 D1 -> sext s1 D1 s2 D2 -> sext s D s2 D2.
Proof.
  intros [A1 A2] [B1 B2]. constructor.
  - intros i a I. destruct (A1 i a I) as [I1 [T1 E1]]. destruct (B1 i a I1) as [I2 [T2 E2]].
    split; auto. split; congruence.
  - intros a rho H. rewrite B2, A2; auto. destruct H as [H|[i H]]; auto. right. exists i. now apply A1.
Qed.

Lemma sext_vedge s D s' D' e : sext s D s' D' -> vedge (nodeR s) e -> vedge (nodeR s') e.
Proof. intros X. apply vedge_mono. intros i a _ I. now apply (se_node _ _ _ _ X). Qed.
Lemma sext_dv s D s' D' e rho : sext s D s' D' -> vedge (nodeR s) e -> dv D' e rho = dv D e rho.
Proof. intros X V. unfold dv. f_equal. apply (se_D _ _ _ _ X). destruct V as [[_ P]|[_ P]]; eauto. Qed.

Lemma nk_sext own D en own' D' en' :
  EAcc own en -> EAcc own' en' -> nodes_kept own D en own' D' en' -> sext (st en) D (st en') D'.
Proof.
  intros A A' X. constructor.
  - intros i a I. apply (acc_node _ _ _ _ A) in I. destruct (nk_node _ _ _ _ _ _ X i a I) as [I' S'].
    split; auto. now apply (acc_node _ _ _ _ A').
  - intros a rho H. apply (nk_D _ _ _ _ _ _ X). destruct H as [H|[i H]]; auto. right. exists i.
    now apply (acc_node _ _ _ _ A).
Qed.

Lemma QS_swf o D en x : QS o D en x -> SWF o (st en).
Proof. intros (own & L & I & _). apply I. Qed.
Lemma QS_dok o D en x : QS o D en x -> Dok D (st en).
Proof. intros (own & L & I & _). apply I. Qed.

(** Pointers that carry a count. *)
Definition isnode (s : store) (p : N) : Prop := exists i, In p (ut s i).
Lemma vedge_ptr_node s e : vedge (nodeR s) e -> eptr e = ONE \/ isnode s (eptr e).
Proof. intros [[_ P]|[_ P]]; [left|right; eexists]; eauto. Qed.

Lemma node_tgt own en p : EAcc own en -> p = ONE \/ isnode (st en) p -> tgt own p.
Proof.
  intros A [->|[i H]]; [left; auto|right; left; left]. exists i. now apply (acc_node _ _ _ _ A).
Qed.

Lemma QS_x_ext o D en x x' : (forall b, x' b = x b) -> QS o D en x -> QS o D en x'.
Proof. intros E (own & L & I & R). exists own, L. split; auto. eapply RC_x_ext; eauto. Qed.

Lemma QS_x_one o D en x x' : (forall b, b <> ONE -> x' b = x b) -> QS o D en x -> QS o D en x'.
Proof.
  intros E (own & L & I & [B1 B2 B3 B4 B5 B6]). exists own, L. split; auto.
  pose proof (ei_acc _ _ _ _ I) as A. pose proof (acc_one_none _ _ A) as O1.
  constructor; auto.
  - intros b Cb. rewrite E; auto. intros ->. destruct Cb as [(i & H)|(d & i & H)]; congruence.
  - intros b Lb Fb. rewrite E; auto. intros ->. unfold ONE in Lb. lia.
Qed.

(** Stores that agree on everything but the order of the representation. *)
Record seqv (s s' : store) : Prop := {
  sv_mem : forall a, mem s' a = mem s a;
  sv_ut : forall i, ut s' i = ut s i;
  sv_fl : forall i, fl s' i = fl s i;
  sv_nx : nx s' = nx s
}.
Lemma seqv_refl s : seqv s s.
Proof. constructor; auto. Qed.
Lemma seqv_trans s s1 s2 : seqv s s1 -> seqv s1 s2 -> seqv s s2.
Proof. intros [A1 A2 A3 A4] [B1 B2 B3 B4]. constructor; congruence. Qed.

Lemma EInv_seqv o own D en s' : seqv (st en) s' -> EInv o own D en -> EInv o own D (set_st en s').
Proof.
  intros [E1 E2 E3 E4] [A W K Q DN NI]. constructor; auto.
  - unfold EAcc in *. simpl. rewrite E4. eapply acc_ext; [|exact A]. intros t _. destruct t; simpl; auto.
  - simpl. eapply (SWF_frame o (st en)); auto.
    + intros i a _. unfold sameTE. now rewrite E1.
    + unfold sameTE. now rewrite E1.
    + now rewrite E1.
  - simpl. eapply (Dok_frame o D D (st en)); auto. intros i a _. unfold sameTE. now rewrite E1.
Qed.

Lemma QS_seqv o D en s' x : seqv (st en) s' -> QS o D en x -> QS o D (set_st en s') x.
Proof.
  intros Ev (own & L & I & R). exists own, L. split; [now apply EInv_seqv|].
  simpl. apply (RC_frame own [] idn (mem (st en))); auto.
  - intros a _. unfold sameTE. now rewrite (sv_mem _ _ Ev).
  - intros b _. now rewrite (sv_mem _ _ Ev).
Qed.

Lemma seqv_sext s s' D : seqv s s' -> sext s D s' D.
Proof.
  intros [E1 E2 _ _]. constructor; auto. intros i a I. rewrite E2. split; auto.
  unfold sameTE. rewrite E1. auto.
Qed.

(** Changes that touch reference counts only. *)
Lemma EInv_counts o own D en s' :
  (forall a, sameTE (mem (st en)) (mem s') a) -> cr (mem s' ONE) = MAXREF ->
  (forall i, ut s' i = ut (st en) i) -> (forall i, fl s' i = fl (st en) i) -> nx s' = nx (st en) ->
  EInv o own D en -> EInv o own D (set_st en s').
Proof.
  intros T C1 E2 E3 E4 [A W K Q DN NI]. constructor; auto.
  - unfold EAcc in *. simpl. rewrite E4. eapply acc_ext; [|exact A]. intros t _. destruct t; simpl; auto.
  - simpl. eapply (SWF_frame o (st en)); auto.
  - simpl. eapply (Dok_frame o D D (st en)); auto.
Qed.

Lemma rc_icr_max : rc_icr MAXREF = MAXREF. Proof. reflexivity. Qed.
Lemma rc_dcr_max : rc_dcr MAXREF = MAXREF. Proof. reflexivity. Qed.

Lemma sameTE_dcr s r a : sameTE (mem s) (mem (dcr s r)) a.
Proof. unfold sameTE, dcr, put; simpl. unfold upd. destruct (N.eqb_spec a (eptr r)); subst; auto. Qed.
Lemma cr_dcr s r a : cr (mem (dcr s r) a) = if a =? eptr r then rc_dcr (cr (mem s a)) else cr (mem s a).
Proof. unfold dcr, put; simpl. unfold upd. destruct (N.eqb_spec a (eptr r)); subst; auto. Qed.

Lemma QS_icr o D en x e :
  eptr e = ONE \/ isnode (st en) (eptr e) -> QS o D en x ->
  QS o D (set_st en (icr (st en) e)) (xadd x (eptr e)).
Proof.
  intros V (own & L & I & R). exists own, L.
  pose proof (ei_acc _ _ _ _ I) as A. split.
  - apply EInv_counts; auto.
    + intros a. apply sameTE_icr.
    + rewrite cr_icr, (swf_onerc _ _ (ei_swf _ _ _ _ I)). now destruct (ONE =? eptr e).
  - simpl. apply RC_icr; auto. apply (node_tgt own en); auto.
Qed.

Definition xsub (x : N -> N) (p : N) : N -> N := fun b => x b - b2n (p =? b).

Lemma RC_dcr own S rs s L x r :
  1 <= x (eptr r) -> RC own S rs (mem s) L x -> RC own S rs (mem (dcr s r)) L (xsub x (eptr r)).
Proof.
  intros Hx [B1 B2 B3 B4 B5 B6]. constructor; auto.
  - intros a Ia. destruct (sameTE_dcr s r a) as [-> ->]. auto.
  - intros b Cb. rewrite cr_dcr. rewrite (occ_frame rs (mem s)) by (intros; apply sameTE_dcr).
    unfold xsub. rewrite (N.eqb_sym (eptr r) b). destruct (N.eqb_spec b (eptr r)) as [->|]; simpl.
    + unfold rc_dcr. destruct (B4 _ Cb) as [E|E]; rewrite E.
      * simpl. auto.
      * destruct (N.eqb_spec (occ rs (mem s) L (eptr r) + x (eptr r)) 0); [lia|].
        destruct (N.eqb_spec (occ rs (mem s) L (eptr r) + x (eptr r)) MAXREF); [left; auto|right; lia].
    + rewrite N.sub_0_r. auto.
  - intros b Cb. rewrite cr_dcr. specialize (B5 b Cb). destruct (b =? eptr r); auto.
    unfold rc_dcr. destruct (cr (mem s b) =? 0); [lia|]. destruct (cr (mem s b) =? MAXREF); lia.
  - intros b Lb Fb. unfold xsub. rewrite B6 by auto. lia.
Qed.

Lemma QS_dcr o D en x e : 1 <= x (eptr e) -> QS o D en x ->
  QS o D (set_st en (dcr (st en) e)) (xsub x (eptr e)).
Proof.
  intros Hx (own & L & I & R). exists own, L. split; [|simpl; apply RC_dcr; auto].
  apply EInv_counts; auto.
  - intros a. apply sameTE_dcr.
  - rewrite cr_dcr, (swf_onerc _ _ (ei_swf _ _ _ _ I)). now destruct (ONE =? eptr e).
Qed.

Lemma sext_icr s D e : sext s D (icr s e) D.
Proof. constructor; auto. intros i a I. split; auto. apply sameTE_icr. Qed.
Lemma sext_dcr s D e : sext s D (dcr s e) D.
Proof. constructor; auto. intros i a I. split; auto. apply sameTE_dcr. Qed.

(** ** Adding a node *)

Lemma SWF_add0 o s s' b t :
  SWF o s -> 2 < b -> (forall j, ~ In b (ut s j)) -> vedge (nodeR s) t -> eneg t = false ->
  tfind (mem s) (ut s 0) t one = None ->
  (forall j, ut s' j = if j =? 0 then b :: ut s 0 else ut s j) ->
  ct (mem s' b) = t -> ce (mem s' b) = one ->
  (forall j c, In c (ut s j) -> sameTE (mem s) (mem s') c) ->
  sameTE (mem s) (mem s') ONE -> cr (mem s' ONE) = MAXREF ->
  SWF o s'.
Proof.
  intros W Lb Nb Vt Ps Tf U Mt Me Ms S1 Rc.
  assert (Inc : forall j c, In c (ut s j) -> In c (ut s' j)).
  { intros j c Ic. rewrite U. destruct (N.eqb_spec j 0); subst; auto. now right. }
  assert (Inv : forall j c, In c (ut s' j) -> In c (ut s j) \/ (c = b /\ j = 0)).
  { intros j c Ic. rewrite U in Ic. destruct (N.eqb_spec j 0); subst; auto. destruct Ic; auto. }
  assert (V : forall z, vedge (nodeR s) z -> vedge (nodeR s') z).
  { intros z. apply vedge_mono. intros j c _. apply Inc. }
  constructor.
  - intros j c Nj Ic. destruct (Inv _ _ Ic) as [Hc|[-> ->]]; [|congruence].
    destruct (Ms _ _ Hc) as [E1 E2]. destruct (swf_node o s W j c Nj Hc) as [B1 B2 B3 B4 B5 B6 B7].
    constructor; rewrite ?E1, ?E2; auto.
  - intros c Ic. destruct (Inv _ _ Ic) as [Hc|[-> E]].
    + destruct (Ms _ _ Hc) as [-> ->]. destruct (swf_user o s W c Hc) as (V1 & V2 & V3). auto.
    + rewrite Mt, Me. auto.
  - intros j c c' Ic Ic' E1 E2.
    assert (Fd : forall c, In c (ut s 0) -> eeq t (ct (mem s c)) = true -> eeq one (ce (mem s c)) = true -> False).
    { intros k Hk K1 K2. unfold tfind in Tf. pose proof (find_none _ _ Tf k Hk) as F. simpl in F.
      rewrite K1, K2 in F. discriminate. }
    destruct (Inv _ _ Ic) as [Hc|[-> ->]], (Inv _ _ Ic') as [Hc'|[-> E]]; auto.
    + destruct (Ms _ _ Hc) as [A1 A2], (Ms _ _ Hc') as [A3 A4]. rewrite A1, A3 in E1. rewrite A2, A4 in E2.
      eapply (swf_uniq o s W); eauto.
    + subst j. exfalso. destruct (Ms _ _ Hc) as [A1 A2]. rewrite A1, Mt, eeq_sym in E1. rewrite A2, Me, eeq_sym in E2. eauto.
    + exfalso. destruct (Ms _ _ Hc') as [A1 A2]. rewrite A1, Mt in E1. rewrite A2, Me in E2. eauto.
  - intros j k c Ic Ic'. destruct (Inv _ _ Ic) as [Hc|[-> ->]], (Inv _ _ Ic') as [Hc'|[E ->]]; subst; auto.
    + eapply (swf_disj o s W); eauto.
    + destruct (Nb _ Hc).
    + destruct (Nb _ Hc').
  - intros j c Ic. destruct (Inv _ _ Ic) as [Hc|[-> _]]; auto. eapply (swf_addr o s W); eauto.
  - destruct S1 as [_ ->]. apply (swf_one o s W).
  - auto.
Qed.

(** The table a new node goes into. *)
Definition addok (o : order) (i : N) (t e : edge) : Prop :=
  (i = 0 /\ e = one) \/
  (i <> 0 /\ In i (ord o) /\ gt_idx o i t /\ gt_idx o i e /\ eeq t e = false).

Lemma EInv_add o own D en L x i t e a s1 s' n :
  EInv o own D en -> RC own [] idn (mem (st en)) L x -> addok o i t e -> vedge (nodeR (st en)) t -> vedge (nodeR (st en)) e -> eneg t = false ->
  tfind (mem (st en)) (ut (st en) i) t e = None -> alloc (st en) i = (a, s1) ->
  (forall j, ut s' j = if j =? i then a :: ut (st en) i else ut (st en) j) ->
  (forall j, fl s' j = fl s1 j) -> nx s' = nx s1 ->
  mem s' a = C t e n -> n <= MAXREF -> (n = 0 \/ n = MAXREF) ->
  (forall b, b <> a -> mem s' b = mem (icr (icr (st en) t) e) b) ->
  let D' := upd D a (fun rho => if rho i then dv D t rho else dv D e rho) in
  let own' := upd own a (ONode i) in
  (EInv o own' D' (set_st en s') /\ RC own' [] idn (mem s') (a :: L) x) /\
  sext (st en) D s' D' /\ 2 < a /\ ~ isnode (st en) a /\ x a = 0 /\ freeish (own a) /\
  (forall b, b <> a -> sameTE (mem (st en)) (mem s') b).
Proof.
  intros I R Ok Vt Ve Pt Tf Al U F NX Ma Ln Hn Mb D' own'.
  pose proof (ei_acc _ _ _ _ I) as A. pose proof (ei_swf _ _ _ _ I) as W. pose proof (ei_dok _ _ _ _ I) as K.
  destruct (alloc_spec own (st en) _ _ i a s1 A Al) as (Fa & Ra & Rx & A1 & Em & Eu & En).
  assert (Na : forall j, ~ In a (ut (st en) j)).
  { intros j Ij. apply (acc_node _ _ _ _ A) in Ij. rewrite Ij in Fa. destruct (nf_node _ Fa). }
  assert (Ne : forall j b, In b (ut (st en) j) -> b <> a) by (intros j b Ib ->; exact (Na _ Ib)).
  assert (N1 : a <> ONE) by (unfold ONE; lia).
  assert (Tn : forall z, vedge (nodeR (st en)) z -> eptr z <> a).
  { intros z Vz E. destruct (vedge_ptr_node _ _ Vz) as [E1|[j Ij]]; [congruence|]. rewrite E in Ij. exact (Na _ Ij). }
  assert (S1 : forall b, b <> a -> sameTE (mem (st en)) (mem s') b).
  { intros b Nb. unfold sameTE. rewrite Mb by auto.
    destruct (sameTE_icr (icr (st en) t) e b) as [-> ->]. apply sameTE_icr. }
  assert (C1 : cr (mem s' ONE) = MAXREF).
  { rewrite Mb by auto. rewrite !cr_icr, (swf_onerc _ _ W). now destruct (ONE =? eptr e), (ONE =? eptr t). }
  assert (Xa : x a = 0) by (apply (rc_x _ _ _ _ _ _ R); auto; lia).
  assert (A' : EAcc own' (set_st en s')).
  { unfold EAcc. simpl. rewrite NX.
    assert (G : Acc (upd (upd own a OX) a (ONode i)) (kont s' (que en) (don en)) (nx s1)).
    { apply (acc_give (upd own a OX) (kont s1 (que en) (don en)) _ _ (ONode i) a A1); auto.
      - apply upd_same.
      - simpl. rewrite U, N.eqb_refl, Eu. apply Permutation_refl.
      - intros tg _ Nt. destruct tg; simpl; auto. rewrite U, Eu. destruct (N.eqb_spec i0 i); congruence. }
    constructor; [|exact (acc_nd _ _ _ G)| |exact (acc_lim _ _ _ G)].
    - intros tg b Ht. rewrite (acc_in _ _ _ G) by auto. unfold own', upd. destruct (b =? a); tauto.
    - intros b Hb. apply (acc_rng _ _ _ G). revert Hb. unfold own', upd. destruct (b =? a); auto. }
  assert (Xt : sext (st en) D s' D').
  { constructor.
    - intros j b Ij. split; [|apply S1; eauto]. rewrite U. destruct (N.eqb_spec j i); subst; auto. now right.
    - intros b rho Hb. unfold D'. rewrite upd_other; auto. destruct Hb as [->|[j Ij]]; auto. exact (Ne _ _ Ij). }
  split; [|split; [exact Xt|split; [lia|split; [|split; [exact Xa|split; [exact Fa|exact S1]]]]]].
  2:{ intros [j Ij]. exact (Na _ Ij). }
  split.
  - constructor; [exact A'| | |exact (ei_que _ _ _ _ I)|exact (ei_don _ _ _ _ I)|]; simpl.
    + destruct Ok as [[-> ->]|(N0 & Ii & Gt & Ge & Rd)].
      * eapply (SWF_add0 o (st en) s' a t); auto; try (rewrite Ma; auto); try lia; try (apply S1; auto; fail);
          try (intros j c Ic; apply S1; eauto; fail).
      * eapply (SWF_add o (st en) s' i a t e); auto; try (rewrite Ma; auto); try lia; try (apply S1; auto; fail);
          try (intros j c Ic; apply S1; eauto; fail).
    + eapply (Dok_add o D D' (st en) s' i a); auto.
      * intros j c Ic. apply S1. eauto.
      * intros c rho Nc. unfold D'. now rewrite upd_other.
      * intros rho. unfold D' at 1. rewrite upd_same, Ma. simpl.
        rewrite !(sext_dv _ _ _ _ _ _ Xt) by auto. auto.
    + intros p b. unfold own', upd. destruct (p =? a); [discriminate|]. apply (ei_ind _ _ _ _ I).
  - simpl. pose proof (RC_icr own [] idn (st en) L x t (node_tgt _ _ _ A (vedge_ptr_node _ _ Vt)) R) as R1.
    pose proof (RC_icr own [] idn (icr (st en) t) L _ e (node_tgt _ _ _ A (vedge_ptr_node _ _ Ve)) R1) as R2.
    set (m2 := mem (icr (icr (st en) t) e)) in *. destruct R2 as [B1 B2 B3 B4 B5 B6].
    assert (LL : forall b, In b L -> exists j, own b = ONode j).
    { intros b Ib. apply B2 in Ib as [Hb|(d & j & _ & [] & _)]; auto. }
    assert (NaL : forall b, In b L -> b <> a).
    { intros b Ib ->. destruct (LL _ Ib) as [j E]. rewrite E in Fa. destruct (nf_node _ Fa). }
    assert (Ob : forall b, b <> a -> own' b = own b) by (intros b Nb; unfold own'; now rewrite upd_other).
    assert (Oa : own' a = ONode i) by (unfold own'; apply upd_same).
    assert (Tt : forall p, tgt own p -> tgt own' p).
    { intros p Tp. destruct (N.eq_dec p a) as [->|Np]; [right; left; left; eauto|].
      unfold tgt, counted in *. rewrite Ob by auto. exact Tp. }
    assert (Tna : forall p, tgt own p -> p <> a).
    { intros p Tp ->. apply tgt_nf in Tp as [E|E]; [unfold NUL in E; lia|auto]. }
    assert (Mb2 : forall b, In b L -> mem s' b = m2 b) by (intros b Ib; apply Mb; auto).
    assert (Oc : forall b, occ idn (mem s') L b = occ idn m2 L b).
    { intros b. apply occ_frame. intros c Ic. unfold sameTE. rewrite Mb2; auto. }
    constructor.
    + constructor; auto. intros Ia. exact (NaL _ Ia eq_refl).
    + intros b. destruct (N.eq_dec b a) as [->|Nb].
      * split; [|now left]. left; eauto.
      * rewrite Ob by auto. rewrite <- B2. simpl. split; [intros [?|?]; [congruence|auto]|auto].
    + intros b [<-|Ib].
      * rewrite Ma. simpl. split; apply Tt; apply (node_tgt _ en); auto; apply vedge_ptr_node; auto.
      * rewrite (Mb2 b Ib). destruct (B3 b Ib). auto.
    + intros b Cb. cbn [occ]. rewrite Oc. unfold wt, idn at 1 2. rewrite Ma. cbn [ct ce].
      destruct (N.eq_dec b a) as [->|Nb].
      * rewrite Ma. cbn [cr]. destruct Hn as [->| ->]; [right|left; auto].
        rewrite occ_zero, Xa.
        2:{ intros c Ic. destruct (B3 c Ic) as [T1 T2]. unfold idn. split; apply Tna; auto. }
        destruct (N.eqb_spec (eptr t) a) as [E|E]; [destruct (Tn _ Vt E)|].
        destruct (N.eqb_spec (eptr e) a) as [E'|E']; [destruct (Tn _ Ve E')|]. reflexivity.
      * rewrite Mb by auto. fold m2. assert (Cb' : counted own b) by (unfold counted in *; rewrite Ob in Cb; auto).
        destruct (B4 b Cb') as [E|E]; auto. right. rewrite E. unfold xadd. lia.
    + intros b Cb. destruct (N.eq_dec b a) as [->|Nb]; [rewrite Ma; auto|].
      rewrite Mb by auto. apply B5. unfold counted in *; rewrite Ob in Cb; auto.
    + intros b Lb Fb. destruct (N.eq_dec b a) as [->|Nb]; auto. rewrite Ob in Fb by auto.
      apply (rc_x _ _ _ _ _ _ R); auto.
Qed.

Lemma QS_add o D en x i t e a s1 s' n :
  QS o D en x -> addok o i t e -> vedge (nodeR (st en)) t -> vedge (nodeR (st en)) e -> eneg t = false ->
  tfind (mem (st en)) (ut (st en) i) t e = None -> alloc (st en) i = (a, s1) ->
  (forall j, ut s' j = if j =? i then a :: ut (st en) i else ut (st en) j) ->
  (forall j, fl s' j = fl s1 j) -> nx s' = nx s1 ->
  mem s' a = C t e n -> n <= MAXREF -> (n = 0 \/ n = MAXREF) ->
  (forall b, b <> a -> mem s' b = mem (icr (icr (st en) t) e) b) ->
  let D' := upd D a (fun rho => if rho i then dv D t rho else dv D e rho) in
  QS o D' (set_st en s') x /\ sext (st en) D s' D' /\ 2 < a /\ ~ isnode (st en) a /\ x a = 0.
Proof.
  intros (own & L & I & R) Ok Vt Ve Pt Tf Al U F NX Ma Ln Hn Mb D'.
  destruct (EInv_add o own D en L x i t e a s1 s' n I R Ok Vt Ve Pt Tf Al U F NX Ma Ln Hn Mb) as ((I' & R') & X & La & Na & Xa & _ & _).
  split; [exists (upd own a (ONode i)), (a :: L); auto|auto].
Qed.

(** ** Find or add *)

Lemma tfind_In m l t e a : tfind m l t e = Some a ->
  In a l /\ eeq t (ct (m a)) = true /\ eeq e (ce (m a)) = true.
Proof.
  unfold tfind. intros H. apply find_some in H as [H1 H2]. apply andb_true_iff in H2 as [H2 H3]. auto.
Qed.

Lemma icr_enot s e : icr s (enot e) = icr s e.
Proof. reflexivity. Qed.

Lemma E_seqv o own D en L x s2 : seqv (st en) s2 -> EInv o own D en -> RC own [] idn (mem (st en)) L x ->
  EInv o own D (set_st en s2) /\ RC own [] idn (mem s2) L x /\ oext own D en own D (set_st en s2).
Proof.
  intros Sv I R. split; [now apply EInv_seqv|]. split.
  - apply (RC_frame own [] idn (mem (st en))); auto.
    + intros a _. unfold sameTE. now rewrite (sv_mem _ _ Sv).
    + intros b _. now rewrite (sv_mem _ _ Sv).
  - constructor; simpl.
    + intros i a Oa. split; auto. unfold sameTE. now rewrite (sv_mem _ _ Sv).
    + intros a Oa. split; auto. now rewrite (sv_mem _ _ Sv).
    + auto.
    + auto.
    + now rewrite (sv_ut _ _ Sv).
    + intros a _. unfold sameTE. now rewrite (sv_mem _ _ Sv).
Qed.

Lemma uniq_add_E o own D en L x i t e r found s1 s2 :
  EInv o own D en -> RC own [] idn (mem (st en)) L x -> i <> 0 -> In i (ord o) -> vedge (nodeR (st en)) t -> vedge (nodeR (st en)) e ->
  gt_idx o i t -> gt_idx o i e -> eneg t = false -> eeq t e = false ->
  uniq_add (st en) i t e = (r, found, s1) ->
  (found = true -> seqv s1 s2) -> (found = false -> seqv (icr (icr s1 t) e) s2) ->
  exists own' D' L', (EInv o own' D' (set_st en s2) /\ RC own' [] idn (mem s2) L' x /\ oext own D en own' D' (set_st en s2)) /\ sext (st en) D s2 D' /\ vedge (nodeR s2) r /\ eid r = i /\
    forall rho, dv D' r rho = if rho i then dv D t rho else dv D e rho.
Proof.
  intros I R N0 Ii Vt Ve Gt Ge Pt Rd H Ht Hf. unfold uniq_add, tfindadd in H.
  pose proof (ei_swf _ _ _ _ I) as W. pose proof (ei_dok _ _ _ _ I) as K.
  destruct (tfind (mem (st en)) (ut (st en) i) t e) as [a|] eqn:Tf.
  - injection H as <- <- <-. specialize (Ht eq_refl).
    apply tfind_In in Tf as (Ia & E1 & E2). pose proof (swf_node o _ W i a N0 Ia) as NO.
    apply (eeq_valid o (st en)) in E1; auto; [|apply NO]. apply (eeq_valid o (st en)) in E2; auto; [|apply NO].
    assert (Sv : seqv (st en) s2).
    { eapply seqv_trans; [|exact Ht]. constructor; auto. intros j. simpl. unfold upd. destruct (N.eqb_spec j i); congruence. }
    exists own, D, L. split; [now apply E_seqv|]. split; [now apply seqv_sext|].
    split; [right; split; auto; red; simpl; rewrite (sv_ut _ _ Sv); auto|]. split; auto.
    intros rho. unfold dv at 1. simpl. rewrite (dok_node D _ K i a rho N0 Ia), <- E1, <- E2.
    now destruct (rho i), (dv D t rho), (dv D e rho).
  - destruct (alloc (st en) i) as [a s0] eqn:Al. injection H as <- <- <-. specialize (Hf eq_refl). simpl in Hf.
    destruct (alloc_spec own (st en) _ _ i a s0 (ei_acc _ _ _ _ I) Al) as (Fa & Ra & Rx & A1 & Em & Eu & En).
    pose proof (ei_acc _ _ _ _ I) as AC.
    assert (Tn : forall z, vedge (nodeR (st en)) z -> eptr z <> a).
    { intros z Vz E. destruct (vedge_ptr_node _ _ Vz) as [E1|[j Ij]]; [unfold ONE in E1; lia|].
      rewrite E in Ij. apply (acc_node _ _ _ _ AC) in Ij. rewrite Ij in Fa. destruct (nf_node _ Fa). }
    destruct (EInv_add o own D en L x i t e a s0 s2 0) as ((I' & R') & X & La & Na & Xa & Ff & Sb); auto.
    + right. auto 6.
    + intros j. rewrite (sv_ut _ _ Hf). simpl. unfold upd. rewrite Eu. now destruct (j =? i).
    + intros j. rewrite (sv_fl _ _ Hf). reflexivity.
    + rewrite (sv_nx _ _ Hf). reflexivity.
    + rewrite (sv_mem _ _ Hf). simpl. rewrite upd_other by (intros E; symmetry in E; exact (Tn _ Ve E)).
      rewrite upd_other by (intros E; symmetry in E; exact (Tn _ Vt E)). rewrite upd_same. auto.
    + unfold MAXREF; lia.
    + intros b Nb. rewrite (sv_mem _ _ Hf). simpl. unfold upd. rewrite Em. unfold upd.
      pose proof (Tn _ Vt). pose proof (Tn _ Ve).
      destruct (N.eqb_spec b (eptr e)), (N.eqb_spec (eptr e) (eptr t)), (N.eqb_spec b (eptr t)),
        (N.eqb_spec (eptr t) a), (N.eqb_spec (eptr e) a), (N.eqb_spec b a); try congruence.
    + exists (upd own a (ONode i)), (upd D a (fun rho => if rho i then dv D t rho else dv D e rho)), (a :: L).
      split; [split; [exact I'|split; [exact R'|]]|split; [exact X|]].
      { constructor.
        - intros j c Oc. assert (Nc : c <> a) by (intros ->; rewrite Oc in Ff; exact (nf_node _ Ff)). rewrite upd_other by auto. split; auto.
        - intros c Oc. assert (Nc : c <> a) by (intros ->; rewrite Oc in Ff; exact (nf_ox Ff)). rewrite upd_other by auto. split; auto.
          assert (Tz : forall z, vedge (nodeR (st en)) z -> eptr z <> c).
          { intros z Vz E. destruct (vedge_ptr_node _ _ Vz) as [E1|[j Ij]]; rewrite E in *.
            - rewrite E1 in Oc. rewrite (acc_one_none _ _ AC) in Oc. discriminate.
            - apply (acc_node _ _ _ _ AC) in Ij. congruence. }
          cbn [st set_st]. rewrite (sv_mem _ _ Hf). simpl.
          rewrite upd_other by (intros E; symmetry in E; exact (Tz _ Ve E)).
          rewrite upd_other by (intros E; symmetry in E; exact (Tz _ Vt E)). rewrite upd_other by auto. rewrite Em. now rewrite upd_other.
        - intros c rho Hc. apply (se_D _ _ _ _ X). destruct Hc as [->|[j Oc]]; auto. right. exists j. now apply (acc_node _ _ _ _ AC).
        - intros c Oc. destruct (N.eq_dec c a) as [->|Nc]; [rewrite upd_same in Oc; congruence|]. now rewrite upd_other in Oc.
        - simpl. rewrite (sv_ut _ _ Hf). simpl. rewrite upd_other by auto. now rewrite Eu.
        - intros c Lc. apply Sb. lia. }
      split.
      * right. simpl. split; auto. red. rewrite (sv_ut _ _ Hf). simpl. rewrite upd_same. now left.
      * split; auto. intros rho. unfold dv at 1. simpl. rewrite upd_same. now destruct (rho i), (dv D t rho), (dv D e rho).
Qed.

Lemma mk_E o own D en L x i t e r found s1 s2 :
  wfo o -> EInv o own D en -> RC own [] idn (mem (st en)) L x -> In i (ord o) -> vedge (nodeR (st en)) t -> vedge (nodeR (st en)) e ->
  gt_idx o i t -> gt_idx o i e ->
  find_or_add (st en) i t e = (r, found, s1) ->
  (found = true -> seqv s1 s2) -> (found = false -> seqv (icr (icr s1 t) e) s2) ->
  exists own' D' L', (EInv o own' D' (set_st en s2) /\ RC own' [] idn (mem s2) L' x /\ oext own D en own' D' (set_st en s2)) /\ sext (st en) D s2 D' /\ vedge (nodeR s2) r /\
    idx o i <= idx o (eid r) /\
    forall rho, dv D' r rho = if rho i then dv D t rho else dv D e rho.
Proof.
  intros Wo I R Ii Vt Ve Gt Ge H Ht Hf. destruct (wfo_in o i Wo Ii) as [N0 _]. unfold find_or_add in H.
  pose proof (ei_swf _ _ _ _ I) as W.
  destruct (eeq t e) eqn:Rd.
  - injection H as <- <- <-. specialize (Ht eq_refl). apply (eeq_valid o (st en)) in Rd; auto. subst e.
    exists own, D, L. split; [now apply E_seqv|]. split; [now apply seqv_sext|].
    split; [apply (sext_vedge (st en) D s2 D); [now apply seqv_sext|auto]|].
    split; [unfold gt_idx in Gt; lia|]. intros rho. now destruct (rho i).
  - destruct (eneg t) eqn:Pt.
    + destruct (uniq_add (st en) i (enot t) (enot e)) as [[r0 f0] s0] eqn:UA. injection H as <- <- <-.
      destruct (uniq_add_E o own D en L x i (enot t) (enot e) r0 f0 s0 s2) as (own' & D' & L' & Q' & X & V & Ei & Ed); auto.
      * simpl. now rewrite Pt.
      * revert Rd. unfold eeq; simpl. now destruct (eptr t =? eptr e), (eneg t), (eneg e).
      * exists own', D', L'. split; auto. split; auto. split; [now apply vedge_enot|]. simpl. rewrite Ei. split; [lia|].
        intros rho. rewrite dv_enot, Ed, !dv_enot. now destruct (rho i), (dv D t rho), (dv D e rho).
    + destruct (uniq_add_E o own D en L x i t e r found s1 s2) as (own' & D' & L' & Q' & X & V & Ei & Ed); auto.
      exists own', D', L'. rewrite Ei. split; [exact Q'|]. split; [exact X|]. split; [exact V|]. split; [lia|exact Ed].
Qed.

Lemma uniq_add_spec o D en x i t e r found s1 s2 :
  QS o D en x -> i <> 0 -> In i (ord o) -> vedge (nodeR (st en)) t -> vedge (nodeR (st en)) e ->
  gt_idx o i t -> gt_idx o i e -> eneg t = false -> eeq t e = false ->
  uniq_add (st en) i t e = (r, found, s1) ->
  (found = true -> seqv s1 s2) -> (found = false -> seqv (icr (icr s1 t) e) s2) ->
  exists D', QS o D' (set_st en s2) x /\ sext (st en) D s2 D' /\ vedge (nodeR s2) r /\ eid r = i /\
    forall rho, dv D' r rho = if rho i then dv D t rho else dv D e rho.
Proof.
  intros (own & L & I & R) N0 Ii Vt Ve Gt Ge Pt Rd H Ht Hf.
  destruct (uniq_add_E o own D en L x i t e r found s1 s2 I R N0 Ii Vt Ve Gt Ge Pt Rd H Ht Hf) as (own' & D' & L' & (I' & R' & _) & X).
  exists D'. split; auto. exists own', L'. auto.
Qed.

Lemma mk_spec o D en x i t e r found s1 s2 :
  wfo o -> QS o D en x -> In i (ord o) -> vedge (nodeR (st en)) t -> vedge (nodeR (st en)) e ->
  gt_idx o i t -> gt_idx o i e ->
  find_or_add (st en) i t e = (r, found, s1) ->
  (found = true -> seqv s1 s2) -> (found = false -> seqv (icr (icr s1 t) e) s2) ->
  exists D', QS o D' (set_st en s2) x /\ sext (st en) D s2 D' /\ vedge (nodeR s2) r /\
    idx o i <= idx o (eid r) /\
    forall rho, dv D' r rho = if rho i then dv D t rho else dv D e rho.
Proof.
  intros Wo (own & L & I & R) Ii Vt Ve Gt Ge H Ht Hf.
  destruct (mk_E o own D en L x i t e r found s1 s2 Wo I R Ii Vt Ve Gt Ge H Ht Hf) as (own' & D' & L' & (I' & R' & _) & X).
  exists D'. split; auto. exists own', L'. auto.
Qed.

(** ** Handles *)

(** A handle points to a user node. *)
Definition uok (s : store) (h : ubdd) : Prop := In (uptr h) (ut s 0).

Lemma uok_int o s h : SWF o s -> uok s h -> vedge (nodeR s) (uint (mem s) h).
Proof. intros W H. apply vedge_ephase. apply (swf_user o s W _ H). Qed.

Lemma sext_uok s D s' D' h : sext s D s' D' -> uok s h -> uok s' h /\ uint (mem s') h = uint (mem s) h.
Proof.
  intros X H. destruct (se_node _ _ _ _ X 0 _ H) as [H' [T _]]. split; auto. unfold uint. now rewrite T.
Qed.

Lemma getext_spec o D en x e h s' :
  QS o D en x -> vedge (nodeR (st en)) e -> getext (st en) e = (h, s') ->
  exists D', QS o D' (set_st en s') (xadd x (uptr h)) /\ sext (st en) D s' D' /\
    uok s' h /\ uint (mem s') h = e.
Proof.
  intros Q V H. unfold getext in H. set (t := if eneg e then enot e else e) in *.
  pose proof (QS_swf _ _ _ _ Q) as W.
  assert (Vt : vedge (nodeR (st en)) t) by (unfold t; destruct (eneg e); auto; now apply vedge_enot).
  assert (Pt : eneg t = false) by (unfold t; destruct (eneg e) eqn:En; simpl; rewrite ?En; auto).
  assert (Te : ephase t (eneg e) = e).
  { unfold t, ephase. destruct e as [i p []]; simpl; auto. }
  assert (Et : eptr t = eptr e) by (unfold t; destruct (eneg e); auto).
  unfold tfindadd in H. destruct (tfind (mem (st en)) (ut (st en) 0) t one) as [a|] eqn:Tf.
  - injection H as <- <-. simpl. apply tfind_In in Tf as (Ia & E1 & E2).
    destruct (swf_user o _ W a Ia) as (U1 & U2 & U3).
    apply (eeq_valid o (st en)) in E1; auto.
    assert (Sv : seqv (icr (st en) (E 0 a false))
       (icr (set_ut (st en) (upd (ut (st en)) 0 (ut (st en) 0))) (E 0 a false))).
    { constructor; auto. intros j. simpl. unfold upd. destruct (N.eqb_spec j 0); congruence. }
    exists D. split; [|split; [|split]].
    + apply (QS_seqv o D (set_st en (icr (st en) (E 0 a false)))); [exact Sv|].
      apply (QS_icr o D en x (E 0 a false)); auto. right. exists 0. exact Ia.
    + eapply sext_trans; [apply (sext_icr (st en) D (E 0 a false))|apply seqv_sext; exact Sv].
    + red. simpl. rewrite upd_same. exact Ia.
    + unfold uint. simpl. rewrite upd_same. simpl. rewrite <- E1. exact Te.
  - destruct (alloc (st en) 0) as [a s0] eqn:Al. injection H as <- <-. simpl.
    pose proof Q as (own & L & I & R). pose proof (ei_acc _ _ _ _ I) as AC.
    destruct (alloc_spec own (st en) _ _ 0 a s0 AC Al) as (Fa & Ra & Rx & A1 & Em & Eu & En).
    assert (Tn : forall z, vedge (nodeR (st en)) z -> eptr z <> a).
    { intros z Vz E. destruct (vedge_ptr_node _ _ Vz) as [E1|[j Ij]]; [unfold ONE in E1; lia|].
      rewrite E in Ij. apply (acc_node _ _ _ _ AC) in Ij. rewrite Ij in Fa. destruct (nf_node _ Fa). }
    set (s2 := icr (set_ut (put s0 a (C t one 0)) (upd (ut (put s0 a (C t one 0))) 0 (a :: ut (st en) 0))) e).
    assert (C1 : cr (mem (st en) ONE) = MAXREF) by apply W.
    assert (Na1 : a <> ONE) by (unfold ONE; lia).
    assert (Ma : mem s2 a = C t one 0).
    { unfold s2; simpl. rewrite upd_other by (intros E; symmetry in E; exact (Tn _ V E)). apply upd_same. }
    destruct (QS_add o D en x 0 t one a s0 s2 0) as (Q' & X & La & Na & Xa); auto.
    + left; auto.
    + apply vedge_one.
    + intros j. unfold s2; simpl. unfold upd. rewrite Eu. now destruct (j =? 0).
    + unfold MAXREF; lia.
    + intros b Nb. unfold s2; simpl. rewrite Et. unfold upd. rewrite Em. unfold upd.
      pose proof (Tn _ V).
      assert (F1 : set_cr (mem (st en) ONE) (rc_icr (cr (mem (st en) ONE))) = mem (st en) ONE).
      { unfold set_cr. rewrite C1, rc_icr_max. destruct (mem (st en) ONE) as [u v w]. simpl in C1. now subst w. }
      change (eptr one) with ONE.
      destruct (N.eqb_spec (eptr e) a) as [|_]; [congruence|]. destruct (N.eqb_spec b a) as [|_]; [congruence|].
      destruct (N.eqb_spec b ONE) as [->|N1].
      * destruct (N.eqb_spec ONE (eptr e)) as [E1|E1].
        -- rewrite <- E1. rewrite F1. symmetry. exact F1.
        -- symmetry. exact F1.
      * reflexivity.
    + set (D' := upd D a (fun rho => if rho 0 then dv D t rho else dv D one rho)) in *.
      assert (Iu : In a (ut s2 0)) by exact (or_introl eq_refl).
      exists D'. split; [|split; [|split]].
      * apply (QS_icr o D' (set_st en s2) x (E 0 a false)); auto. right. exists 0. exact Iu.
      * eapply sext_trans; [exact X|]. apply (sext_icr s2 D' (E 0 a false)).
      * exact Iu.
      * destruct (sameTE_icr s2 (E 0 a false) a) as [E1 _].
        transitivity (ephase (ct (mem (icr s2 (E 0 a false)) a)) (eneg e)); [reflexivity|].
        rewrite E1, Ma. exact Te.
Qed.
