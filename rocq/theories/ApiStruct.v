(** * Correctness of the interface calls: structure, intersection, variables, equality. *)
From Coq Require Import Permutation Sorted.
From Verif Require Import Base BFModel ITEModel MgrModel ApiModel StoreInv Own EngInv ApplyProof BinopProof ReduceProof
  EngineProof OpProof MultiProof ITEProof QProof GCProof VarProof MInv ApiProof ApiOps.

(** ** Nodes *)

Lemma node_facts o s e : SWF o s -> vedge (nodeR s) e -> eid e <> 0 ->
  In (eid e) (ord o) /\ In (eptr e) (ut s (eid e)) /\
  vedge (nodeR s) (thenof (mem s) e) /\ vedge (nodeR s) (elseof (mem s) e) /\
  gt_idx o (eid e) (thenof (mem s) e) /\ gt_idx o (eid e) (elseof (mem s) e).
Proof.
  intros W [[E _]|[N0 R]] Ne; [congruence|]. pose proof (swf_node o s W _ _ N0 R) as [B1 B2 B3 B4 B5 B6 B7].
  split; [exact B1|]. split; [exact R|]. split; [now apply vedge_ephase|]. split; [now apply vedge_ephase|]. split; assumption.
Qed.

Lemma flip_eq rho i b j : flip rho i b j = if j =? i then b else rho j.
Proof. reflexivity. Qed.

(** The branches of a node are its cofactors. *)
Lemma dv_flip o D s e i rho b : wfo o -> SWF o s -> Dok D s -> vedge (nodeR s) e -> In i (ord o) ->
  gt_idx o i e -> dv D e (flip rho i b) = dv D e rho.
Proof.
  intros Wo W K V Ii G. apply (dv_agree o D s Wo W K e V). intros j Ij Hj. rewrite flip_eq.
  destruct (N.eqb_spec j i); auto. subst. unfold gt_idx in G. lia.
Qed.
Lemma dv_then o D s e rho : wfo o -> SWF o s -> Dok D s -> vedge (nodeR s) e -> eid e <> 0 ->
  dv D (thenof (mem s) e) rho = dv D e (flip rho (eid e) true).
Proof.
  intros Wo W K V N0. destruct (node_facts o s e W V N0) as (I1 & I2 & V1 & V2 & G1 & G2).
  rewrite (dv_node D s e _ K N0 I2). rewrite flip_eq, N.eqb_refl. symmetry. eapply dv_flip; eauto.
Qed.
Lemma dv_else o D s e rho : wfo o -> SWF o s -> Dok D s -> vedge (nodeR s) e -> eid e <> 0 ->
  dv D (elseof (mem s) e) rho = dv D e (flip rho (eid e) false).
Proof.
  intros Wo W K V N0. destruct (node_facts o s e W V N0) as (I1 & I2 & V1 & V2 & G1 & G2).
  rewrite (dv_node D s e _ K N0 I2). rewrite flip_eq, N.eqb_refl. symmetry. eapply dv_flip; eauto.
Qed.

Lemma vedge_idx o s e : wfo o -> SWF o s -> vedge (nodeR s) e ->
  (eid e = 0 /\ idx o (eid e) = CONST_INDEX) \/
  (eid e <> 0 /\ In (eid e) (ord o) /\ idx o (eid e) < N.of_nat (length (ord o))).
Proof.
  intros Wo W V. destruct V as [[E P]|[N0 R]].
  - left. split; auto. rewrite E. apply Wo.
  - right. pose proof (no_id _ _ _ _ (swf_node o s W _ _ N0 R)) as Ii. split; auto. split; auto. apply wfo_in; auto.
Qed.

Lemma cofac_spec o D s f i f1 f2 : wfo o -> SWF o s -> Dok D s -> vedge (nodeR s) f -> In i (ord o) ->
  idx o i <= idx o (eid f) -> cofac (mem s) f i = (f1, f2) ->
  vedge (nodeR s) f1 /\ vedge (nodeR s) f2 /\ gt_idx o i f1 /\ gt_idx o i f2 /\
  forall rho, dv D f rho = if rho i then dv D f1 rho else dv D f2 rho.
Proof.
  intros Wo W K V Ii Le H. unfold cofac in H. destruct (N.eqb_spec (eid f) i) as [E|Ne].
  - injection H as <- <-. destruct (wfo_in o i Wo Ii) as [N0 _]. rewrite <- E in N0.
    destruct (node_facts o s f W V N0) as (I1 & I2 & V1 & V2 & G1 & G2). rewrite E in G1, G2.
    split; auto. split; auto. split; auto. split; auto. intros rho. rewrite <- E. apply dv_node; auto.
  - injection H as <- <-. assert (G : gt_idx o i f).
    { unfold gt_idx. destruct (vedge_idx o s f Wo W V) as [[E1 E2]|(N0 & I1 & L1)].
      - rewrite E2. apply wfo_lt_const; auto.
      - assert (idx o i <> idx o (eid f)); [|lia]. intros E. apply Ne. symmetry. apply (wfo_inj o); auto. }
    split; auto. split; auto. split; auto. split; auto. intros rho. now destruct (rho i).
Qed.

(** ** Intersection *)

Lemma iszero_true o s e : SWF o s -> vedge (nodeR s) e -> iszero e = true -> e = zero.
Proof. intros W V H. apply (eeq_valid o s); auto. apply vedge_zero. Qed.
Lemma isone_true o s e : SWF o s -> vedge (nodeR s) e -> isone e = true -> e = one.
Proof. intros W V H. apply (eeq_valid o s); auto. apply vedge_one. Qed.
Lemma const_cases R e : vedge R e -> isconst e = true -> e = one \/ e = zero.
Proof.
  unfold isconst. intros V H. apply N.eqb_eq in H. destruct V as [[E P]|[N0 _]]; [|congruence].
  destruct e as [i p []]; simpl in *; subst; auto.
Qed.

Lemma minid2_spec o s f g : wfo o -> SWF o s -> vedge (nodeR s) f -> vedge (nodeR s) g ->
  isconst f = false -> isconst g = false ->
  In (minid2 o f g) (ord o) /\ idx o (minid2 o f g) <= idx o (eid f) /\ idx o (minid2 o f g) <= idx o (eid g) /\
  (idx o (minid2 o f g) = idx o (eid f) \/ idx o (minid2 o f g) = idx o (eid g)).
Proof.
  unfold isconst. intros Wo W Vf Vg Cf Cg. apply N.eqb_neq in Cf. apply N.eqb_neq in Cg.
  destruct (node_facts o s f W Vf Cf) as (If & _). destruct (node_facts o s g W Vg Cg) as (Ig & _).
  unfold minid2, eidx. destruct (N.ltb_spec (idx o (eid f)) (idx o (eid g))); (split; [auto|]; split; [lia|]; split; [lia|auto]).
Qed.

Lemma find_or_add_one o D en x i t e r found s1 : QS o D en x -> find_or_add (st en) i t e = (r, found, s1) ->
  cr (mem s1 ONE) = MAXREF.
Proof.
  intros Q H. pose proof (QS_swf _ _ _ _ Q) as W.
  assert (UA : forall t e r found s1, uniq_add (st en) i t e = (r, found, s1) -> cr (mem s1 ONE) = MAXREF).
  { clear t e r found s1 H. intros t e r found s1 H. unfold uniq_add, tfindadd in H.
    destruct (tfind (mem (st en)) (ut (st en) i) t e).
    - injection H as _ _ <-. simpl. apply W.
    - destruct (alloc (st en) i) as [a s0] eqn:Al. injection H as _ _ <-. simpl.
      destruct Q as (own & L & I & R).
      destruct (alloc_spec own (st en) _ _ i a s0 (ei_acc _ _ _ _ I) Al) as (Fa & Ra & Rx & A1 & Em & Eu & En).
      assert (a <> ONE) by (unfold ONE; lia). rewrite upd_other, Em, upd_other by auto. apply W. }
  unfold find_or_add in H. destruct (eeq t e); [injection H as _ _ <-; apply W|].
  destruct (eneg t).
  - destruct (uniq_add (st en) i (enot t) (enot e)) as [[r0 f0] s0] eqn:E. injection H as _ _ <-. eapply UA; eauto.
  - eapply UA; eauto.
Qed.

Lemma seqv_icr_c1 s c t : eptr c = ONE -> cr (mem s ONE) = MAXREF -> seqv (icr (icr s c) t) (icr s t).
Proof.
  intros Ec C1.
  assert (S1 : forall b, mem (icr s c) b = mem s b) by (intros b; apply icr_sat; rewrite Ec; auto).
  constructor; auto. intros a.
  change (mem (icr (icr s c) t) a) with (if a =? eptr t then set_cr (mem (icr s c) (eptr t)) (rc_icr (cr (mem (icr s c) (eptr t)))) else mem (icr s c) a).
  rewrite !S1. reflexivity.
Qed.
Lemma seqv_icr_c2 s c t : eptr c = ONE -> cr (mem s ONE) = MAXREF -> seqv (icr (icr s t) c) (icr s t).
Proof.
  intros Ec C1. constructor; auto. intros a. symmetry. apply icr_sat. rewrite Ec, cr_icr.
  destruct (ONE =? eptr t); rewrite C1; auto.
Qed.

(** A node over a non-zero branch is not zero. *)
Lemma branch_zero o D s i t (b : bool) : wfo o -> SWF o s -> Dok D s -> vedge (nodeR s) t -> In i (ord o) -> gt_idx o i t ->
  (forall rho, rho i = b -> dv D t rho = false) -> t = zero.
Proof.
  intros Wo W K V Ii G H. apply (canon_dv o D s); auto; [apply vedge_zero|].
  intros rho. rewrite (dv_zero D s) by auto. rewrite <- (dv_flip o D s t i rho b Wo W K V Ii G).
  apply H. rewrite flip_eq. now rewrite N.eqb_refl.
Qed.

Definition isect_post (o : order) (x : N -> N) (D : den) (en : eng) (f g : edge) (q : option (edge * store)) : Prop :=
  exists r s' D', q = Some (r, s') /\ QS o D' (set_st en s') x /\ sext (st en) D s' D' /\
    vedge (nodeR s') r /\ (idx o (eid f) <= idx o (eid r) \/ idx o (eid g) <= idx o (eid r)) /\
    (forall rho, dv D' r rho = true -> dv D f rho = true /\ dv D g rho = true) /\
    (iszero r = true -> forall rho, dv D f rho && dv D g rho = false).

Lemma isect_spec o x : wfo o -> forall fuel D en f g, QS o D en x ->
  vedge (nodeR (st en)) f -> vedge (nodeR (st en)) g ->
  N.of_nat (length (ord o)) < N.of_nat fuel + 1 + idx o (eid f) ->
  N.of_nat (length (ord o)) < N.of_nat fuel + 1 + idx o (eid g) ->
  isect_post o x D en f g (isect o (S fuel) (st en) f g).
Proof.
  intros Wo. induction fuel as [|fuel IH]; intros D en f g Q Vf Vg Hf Hg.
  all: pose proof (QS_swf _ _ _ _ Q) as W; pose proof (QS_dok _ _ _ _ Q) as K.
  all: assert (Triv : forall r, vedge (nodeR (st en)) r ->
         (idx o (eid f) <= idx o (eid r) \/ idx o (eid g) <= idx o (eid r)) ->
         (forall rho, dv D r rho = true -> dv D f rho = true /\ dv D g rho = true) ->
         (iszero r = true -> forall rho, dv D f rho && dv D g rho = false) ->
         isect_post o x D en f g (Some (r, st en)))
    by (intros r Vr Lr P Z; exists r, (st en), D; split; [auto|]; split; [rewrite set_st_id; auto|];
        split; [apply sext_refl|]; auto).
  all: assert (Lc : forall e, vedge (nodeR (st en)) e -> idx o (eid e) <= CONST_INDEX)
    by (intros e Ve; destruct (vedge_idx o (st en) e Wo W Ve) as [[_ ->]|(_ & Ie & _)]; [lia|];
        pose proof (wfo_lt_const o _ Wo Ie); lia).
  all: cbn [isect].
  all: destruct (isconst f) eqn:Cf;
    [apply Triv;
     [destruct (iszero f); auto
     |destruct (const_cases _ f Vf Cf) as [-> | ->]; cbv [iszero eeq eptr eneg one zero ONE]; simpl; first [left; lia|right; lia]
     |destruct (const_cases _ f Vf Cf) as [-> | ->]; simpl; intros rho H;
      [split; [eapply dv_one; eauto|auto]|rewrite (dv_zero D (st en)) in H by auto; discriminate]
     |destruct (const_cases _ f Vf Cf) as [-> | ->]; simpl; intros H rho;
      [rewrite (iszero_true o (st en) g W Vg H), (dv_zero D (st en)) by auto; apply andb_false_r
      |now rewrite (dv_zero D (st en)) by auto]]|].
  all: destruct (isconst g) eqn:Cg;
    [apply Triv;
     [destruct (iszero g); auto
     |destruct (const_cases _ g Vg Cg) as [-> | ->]; cbv [iszero eeq eptr eneg one zero ONE]; simpl; first [left; lia|right; lia]
     |destruct (const_cases _ g Vg Cg) as [-> | ->]; simpl; intros rho H;
      [split; [auto|eapply dv_one; eauto]|rewrite (dv_zero D (st en)) in H by auto; discriminate]
     |destruct (const_cases _ g Vg Cg) as [-> | ->]; simpl; intros H rho;
      [rewrite (iszero_true o (st en) f W Vf H), (dv_zero D (st en)) by auto; auto
      |rewrite (dv_zero D (st en)) by auto; apply andb_false_r]]|].
  1:{ exfalso. unfold isconst in Cf. apply N.eqb_neq in Cf.
      destruct (vedge_idx o (st en) f Wo W Vf) as [[E _]|(_ & _ & L)]; [congruence|]. simpl in Hf. lia. }
  destruct (sameptr f g) eqn:Sp.
  { unfold sameptr in Sp. apply N.eqb_eq in Sp. destruct (eeq f g) eqn:Eq.
    - apply (eeq_valid o (st en)) in Eq; auto. subst g. apply Triv; auto.
      + left; lia.
      + intros Z rho. rewrite (iszero_true o (st en) f W Vf Z), (dv_zero D (st en)) by auto. auto.
    - apply Triv; [apply vedge_zero| | |].
      + left. change (eid zero) with 0. rewrite (wfo_const o Wo). apply Lc; auto.
      + intros rho H. rewrite (dv_zero D (st en)) in H by auto. discriminate.
      + intros _ rho. unfold dv. rewrite Sp. unfold eeq in Eq. rewrite Sp, N.eqb_refl in Eq. simpl in Eq.
        destruct (eneg f), (eneg g), (D (eptr g) rho); simpl in *; auto; discriminate. }
  assert (Main : forall f g, vedge (nodeR (st en)) f -> vedge (nodeR (st en)) g ->
     N.of_nat (length (ord o)) < N.of_nat (S fuel) + 1 + idx o (eid f) ->
     N.of_nat (length (ord o)) < N.of_nat (S fuel) + 1 + idx o (eid g) ->
     isconst f = false -> isconst g = false ->
     isect_post o x D en f g
       (let i := minid2 o f g in
        let '(f1, f2) := cofac (mem (st en)) f i in
        let '(g1, g2) := cofac (mem (st en)) g i in
        match isect o (S fuel) (st en) f1 g1 with
        | None => None
        | Some (t, s1) =>
            if iszero t then
              match isect o (S fuel) s1 f2 g2 with
              | None => None
              | Some (t, s2) =>
                  if iszero t then Some (zero, s2)
                  else let '(r, found, s3) := find_or_add s2 i zero t in
                       Some (r, if found then s3 else icr s3 t)
              end
            else let '(r, found, s3) := find_or_add s1 i t zero in
                 Some (r, if found then s3 else icr s3 t)
        end)).
  { clear f g Vf Vg Hf Hg Triv Cf Cg Sp. intros f g Vf Vg Hf Hg Cf Cg.
    destruct (minid2_spec o (st en) f g Wo W Vf Vg Cf Cg) as (Ii & L1 & L2 & L3).
    set (i := minid2 o f g) in *. cbv zeta.
    destruct (cofac (mem (st en)) f i) as [f1 f2] eqn:F. destruct (cofac (mem (st en)) g i) as [g1 g2] eqn:G.
    destruct (cofac_spec o D (st en) f i f1 f2 Wo W K Vf Ii L1 F) as (Vf1 & Vf2 & Gf1 & Gf2 & Ef).
    destruct (cofac_spec o D (st en) g i g1 g2 Wo W K Vg Ii L2 G) as (Vg1 & Vg2 & Gg1 & Gg2 & Eg).
    assert (Li : N.of_nat (length (ord o)) < N.of_nat fuel + 1 + (idx o i + 1)).
    { rewrite Nat2N.inj_succ in Hf, Hg. destruct L3 as [E|E]; rewrite E; lia. }
    unfold gt_idx in *.
    destruct (IH D en f1 g1 Q Vf1 Vg1) as (t & s1 & D1 & -> & Q1 & X1 & Vt & It & Pt & Zt); [lia|lia|].
    assert (K1 : Dok D1 s1) by exact (QS_dok _ _ _ _ Q1).
    assert (W1 : SWF o s1) by exact (QS_swf _ _ _ _ Q1).
    assert (Lit : idx o i < idx o (eid t)) by (destruct It; lia).
    assert (Lz : idx o i < idx o (eid zero)).
    { change (eid zero) with 0. rewrite (wfo_const o Wo). apply wfo_lt_const; auto. }
    destruct (iszero t) eqn:It0.
    - specialize (Zt eq_refl).
      destruct (IH D1 (set_st en s1) f2 g2 Q1) as (t2 & s2 & D2 & E2 & Q2 & X2 & Vt2 & It2 & Pt2 & Zt2);
        [eapply sext_vedge; eauto|eapply sext_vedge; eauto|lia|lia|].
      cbn [st set_st] in E2, X2, Q2. rewrite E2.
      assert (Ef2 : forall rho, dv D1 f2 rho = dv D f2 rho) by (intros; eapply sext_dv; eauto).
      assert (Eg2 : forall rho, dv D1 g2 rho = dv D g2 rho) by (intros; eapply sext_dv; eauto).
      destruct (iszero t2) eqn:I20.
      + exists zero, s2, D2. split; auto. split; [exact Q2|]. split; [eapply sext_trans; eauto|].
        split; [apply vedge_zero|]. split; [destruct L3 as [E|E]; rewrite E in Lz; [left|right]; lia|].
        split; [intros rho H; rewrite (dv_zero D2 s2) in H by exact (QS_dok _ _ _ _ Q2); discriminate|].
        intros _ rho. specialize (Zt rho). specialize (Zt2 eq_refl rho). rewrite Ef2, Eg2 in Zt2.
        rewrite Ef, Eg. now destruct (rho i).
      + destruct (find_or_add s2 i zero t2) as [[r found] s3] eqn:FA.
        assert (Lit2 : idx o i < idx o (eid t2)) by (destruct It2; lia).
        destruct (mk_spec o D2 (set_st en s2) x i zero t2 r found s3 (if found then s3 else icr s3 t2) Wo Q2 Ii)
          as (D3 & Q3 & X3 & V3 & I3 & E3); auto.
        * apply vedge_zero.
        * intros ->. apply seqv_refl.
        * intros ->. apply seqv_icr_c1; auto. apply (find_or_add_one o D2 (set_st en s2) x i zero t2 r false s3 Q2 FA).
        * cbn [st set_st] in X3. eexists _, _, D3. split; [reflexivity|]. split; [exact Q3|].
          split; [eapply sext_trans; [exact X1|]; eapply sext_trans; eauto|]. split; [exact V3|].
          split; [destruct L3 as [E|E]; rewrite E in I3; auto|].
          split.
          -- intros rho. rewrite E3. destruct (rho i) eqn:Ri.
             ++ rewrite (dv_zero D2 s2) by exact (QS_dok _ _ _ _ Q2). discriminate.
             ++ intros H. apply Pt2 in H. rewrite Ef2, Eg2 in H. now rewrite Ef, Eg, Ri.
          -- intros Z. exfalso.
             apply (iszero_true o _ r (QS_swf _ _ _ _ Q3)) in Z; auto.
             assert (T0 : t2 = zero).
             { apply (branch_zero o D2 s2 i t2 false); auto;
                 [exact (QS_swf _ _ _ _ Q2)|exact (QS_dok _ _ _ _ Q2)|].
               intros rho Ri. specialize (E3 rho). rewrite Ri in E3. rewrite <- E3, Z. eapply dv_zero. exact (QS_dok _ _ _ _ Q3). }
             subst t2. discriminate.
    - destruct (find_or_add s1 i t zero) as [[r found] s3] eqn:FA.
      destruct (mk_spec o D1 (set_st en s1) x i t zero r found s3 (if found then s3 else icr s3 t) Wo Q1 Ii)
        as (D3 & Q3 & X3 & V3 & I3 & E3); auto.
      + apply vedge_zero.
      + intros ->. apply seqv_refl.
      + intros ->. apply seqv_icr_c2; auto. apply (find_or_add_one o D1 (set_st en s1) x i t zero r false s3 Q1 FA).
      + cbn [st set_st] in X3. eexists _, _, D3. split; [reflexivity|]. split; [exact Q3|].
        split; [eapply sext_trans; eauto|]. split; [exact V3|].
        split; [destruct L3 as [E|E]; rewrite E in I3; auto|].
        split.
        * intros rho. rewrite E3. destruct (rho i) eqn:Ri.
          -- intros H. apply Pt in H. now rewrite Ef, Eg, Ri.
          -- rewrite (dv_zero D1 s1) by exact (QS_dok _ _ _ _ Q1). discriminate.
        * intros Z. exfalso. apply (iszero_true o _ r (QS_swf _ _ _ _ Q3)) in Z; auto.
          assert (T0 : t = zero).
          { apply (branch_zero o D1 s1 i t true); auto.
            intros rho Ri. specialize (E3 rho). rewrite Ri in E3. rewrite <- E3, Z. eapply dv_zero. exact (QS_dok _ _ _ _ Q3). }
          subst t. discriminate. }
  destruct (out_of_order f g).
  - destruct (Main g f Vg Vf Hg Hf Cg Cf) as (r & s' & D' & E & B1 & B2 & B3 & B4 & B5 & B6).
    exists r, s', D'. split; [exact E|]. split; [auto|]. split; [auto|]. split; [auto|]. split; [tauto|].
    split; [intros rho H; apply B5 in H; tauto|]. intros Z rho. rewrite andb_comm. auto.
  - apply (Main f g Vf Vg Hf Hg Cf Cg).
Qed.

(** Intersection at the interface: the result implies both operands and is zero only if they
    are disjoint. *)
Lemma intersects_spec neg d m hs lk D f g : MInv m hs lk D -> In f hs -> In g hs ->
  exists h m' D', intersects neg d m f g = Ok (h, m') /\ mext hs m D m' D' /\ MInv m' (h :: hs) lk D' /\
    (forall rho, hv m' D' h rho = true -> hv m D f rho = true /\ xorb neg (hv m D g rho) = true) /\
    ((forall rho, hv m' D' h rho = false) <-> forall rho, hv m D f rho && xorb neg (hv m D g rho) = false).
Proof.
  intros I If Ig.
  destruct (preproc_live d m hs lk D [f; g] I) as (m1 & D1 & P & I1 & X1). { now intros h [<-|[<-|[]]]. }
  unfold intersects. rewrite P. cbn [obind negb]. unfold isect_top.
  pose proof (mi_wfo _ _ _ _ I1) as Wo.
  destruct (isect_spec (mo m1) _ Wo (S (length (ord (mo m1)))) D1 (me m1) (uint (mmem m1) f) (ephase (uint (mmem m1) g) neg) (mi_q _ _ _ _ I1))
    as (r & s' & D2 & -> & Q2 & S2 & V2 & _ & P2 & Z2).
  { eapply MI_int; eauto. } { apply vedge_ephase. eapply MI_int; eauto. } { lia. } { lia. }
  destruct (MInv_step m1 hs lk D1 (set_st (me m1) s') D2 I1 Q2 S2) as [I2 X2].
  fold (set_mst m1 s') in I2, X2.
  destruct (ret (set_mst m1 s') r) as [h m'] eqn:Rt.
  destruct (ret_spec _ hs lk D2 r h m' I2 V2 Rt) as (D3 & I3 & X3 & _ & _ & E3).
  assert (Ef : forall rho, hv m1 D1 f rho = hv m D f rho) by (intros; now apply (mx_h _ _ _ _ _ X1)).
  assert (Eg : forall rho, hv m1 D1 g rho = hv m D g rho) by (intros; now apply (mx_h _ _ _ _ _ X1)).
  assert (P3 : forall rho, hv m' D3 h rho = true -> hv m D f rho = true /\ xorb neg (hv m D g rho) = true).
  { intros rho H. rewrite E3 in H. apply P2 in H. now rewrite dv_ephase, Ef, Eg in H. }
  exists h, m', D3. split; auto. split; [eapply mext_trans; [exact X1|]; eapply mext_trans; eauto|]. split; auto.
  split; auto. split.
  - intros Z rho. rewrite <- Ef, <- Eg, <- dv_ephase. apply Z2.
    assert (r = zero); [|subst; reflexivity].
    apply (canon_dv (mo m1) D2 s'); auto; [exact (QS_swf _ _ _ _ Q2)|exact (QS_dok _ _ _ _ Q2)|apply vedge_zero|].
    intros rho'. rewrite (dv_zero D2 s') by exact (QS_dok _ _ _ _ Q2). rewrite <- E3. auto.
  - intros Z rho. destruct (hv m' D3 h rho) eqn:E; auto. destruct (P3 rho E) as [A B]. specialize (Z rho).
    rewrite A, B in Z. discriminate.
Qed.

(** ** If, Then, Else *)

(** The handles of a canonical store: tests on handles are tests on functions. *)
Lemma handle_eq m hs lk D f g : MInv m hs lk D -> In f hs -> In g hs ->
  (ueq f g = true <-> forall rho, hv m D f rho = hv m D g rho).
Proof.
  intros I If Ig. pose proof (MI_swf _ _ _ _ I) as W. split.
  - unfold ueq. intros H. apply andb_true_iff in H as [H1 H2]. apply N.eqb_eq in H1. apply Bool.eqb_prop in H2.
    intros rho. unfold uint. now rewrite H1, H2.
  - intros H.
    assert (E : uint (mmem m) f = uint (mmem m) g).
    { apply (canon_dv (mo m) D (st (me m))); auto; try (eapply MI_int; eauto); [apply I|eapply MI_dok; eauto]. }
    pose proof (mi_hs _ _ _ _ I f If) as Uf. pose proof (mi_hs _ _ _ _ I g Ig) as Ug. unfold uok in *.
    destruct (swf_user _ _ W _ Uf) as (_ & F2 & F3). destruct (swf_user _ _ W _ Ug) as (_ & G2 & G3).
    unfold uint, ephase in E.
    assert (E1 := f_equal eid E). assert (E2 := f_equal eptr E). assert (E3 := f_equal eneg E).
    destruct f as [pf nf], g as [pg ng]. unfold mmem in *. cbn [uptr uneg] in *.
    assert (nf = ng) by (destruct nf, ng; cbn in E3; rewrite ?F3, ?G3 in E3; auto; discriminate). subst ng.
    assert (A1 : eptr (ct (mem (st (me m)) pf)) = eptr (ct (mem (st (me m)) pg))) by (destruct nf; exact E2).
    assert (Ep : pf = pg).
    { apply (swf_uniq _ _ W 0); auto.
      - apply eeq_true. split; auto. now transitivity false.
      - transitivity (eeq one one); [f_equal; [exact F2|exact G2]|reflexivity]. }
    unfold ueq. cbn. rewrite Ep, N.eqb_refl. now destruct nf.
Qed.

Lemma hv_one m hs lk D b rho : MInv m hs lk D -> hv m D (U (muone m) b) rho = negb b.
Proof.
  intros I. unfold uint. simpl. rewrite (proj2 (mi_one _ _ _ _ I)). rewrite dv_ephase.
  rewrite (dv_one D (st (me m))) by (eapply MI_dok; eauto). now destruct b.
Qed.

Lemma isone_spec m hs lk D f : MInv m hs lk D -> In f hs -> (cal_isone m f = true <-> forall rho, hv m D f rho = true).
Proof.
  intros I If. unfold cal_isone, cal_one.
  rewrite (handle_eq m (U (muone m) false :: hs) lk D f (U (muone m) false)); [|now apply MInv_const|now right|now left].
  split; intros H rho; specialize (H rho); rewrite ?(hv_one m hs lk D false) in * by auto; auto.
Qed.
Lemma iszero_spec m hs lk D f : MInv m hs lk D -> In f hs -> (cal_iszero m f = true <-> forall rho, hv m D f rho = false).
Proof.
  intros I If. unfold cal_iszero, cal_zero.
  rewrite (handle_eq m (U (muone m) true :: hs) lk D f (U (muone m) true)); [|now apply MInv_const|now right|now left].
  split; intros H rho; specialize (H rho); rewrite ?(hv_one m hs lk D true) in * by auto; auto.
Qed.

Lemma isconst_int m hs lk D f : MInv m hs lk D -> In f hs -> isconst (uint (mmem m) f) = cal_isconst m f.
Proof.
  intros I If. apply Bool.eq_iff_eq_true. unfold cal_isconst. rewrite orb_true_iff.
  rewrite (isone_spec m hs lk D f I If), (iszero_spec m hs lk D f I If). split.
  - intros C. destruct (const_cases _ _ (MI_int _ _ _ _ f I If) C) as [-> | ->]; [left|right]; intros rho.
    + eapply dv_one; eapply MI_dok; eauto.
    + eapply dv_zero; eapply MI_dok; eauto.
  - assert (G : forall c, vedge (nodeR (st (me m))) c -> isconst c = true -> (forall rho, hv m D f rho = dv D c rho) -> isconst (uint (mmem m) f) = true).
    { intros c Vc Cc H. replace (uint (mmem m) f) with c; auto. symmetry.
      apply (canon_dv (mo m) D (st (me m))); auto; [apply I|eapply MI_swf; eauto|eapply MI_dok; eauto|eapply MI_int; eauto]. }
    intros [H|H].
    + apply (G one); auto. { apply vedge_one. } intros rho. rewrite H. symmetry. eapply dv_one; eapply MI_dok; eauto.
    + apply (G zero); auto. { apply vedge_zero. } intros rho. rewrite H. symmetry. eapply dv_zero; eapply MI_dok; eauto.
Qed.

Lemma var_dv m hs lk D i rho : MInv m hs lk D -> In i (ord (mo m)) ->
  vedge (nodeR (st (me m))) (mvb m i) /\ dv D (mvb m i) rho = rho i.
Proof.
  intros I Ii. destruct (mi_var _ _ _ _ I i Ii) as (E & V & T & Z).
  destruct (wfo_in _ i (mi_wfo _ _ _ _ I) Ii) as [N0 _]. rewrite E. split.
  - right. simpl. split; auto.
  - unfold dv. simpl. rewrite (dok_node D _ (MI_dok _ _ _ _ I) i _ rho N0 V), T, Z.
    rewrite (dv_one D (st (me m))), (dv_zero D (st (me m))) by (eapply MI_dok; eauto). now destruct (rho i).
Qed.

(** Distinct edges differ on some assignment; it is found by trying all of them. *)
Fixpoint assigns (ids : list N) : list (N -> bool) :=
  match ids with [] => [fun _ => false] | i :: r => flat_map (fun rho => [flip rho i true; flip rho i false]) (assigns r) end.
Lemma assigns_all ids rho : exists rho', In rho' (assigns ids) /\ forall i, In i ids -> rho' i = rho i.
Proof.
  induction ids as [|i r (rho' & I & A)]; simpl.
  - exists (fun _ => false). split; [now left|intros ? []].
  - exists (flip rho' i (rho i)). split.
    + apply in_flat_map. exists rho'. split; auto. simpl. destruct (rho i); auto.
    + intros j [<-|J]; [now rewrite flip_same|]. unfold flip. destruct (N.eqb_spec j i) as [-> |]; auto.
Qed.
Lemma differ o D s e1 e2 : wfo o -> SWF o s -> Dok D s -> vedge (nodeR s) e1 -> vedge (nodeR s) e2 -> e1 <> e2 ->
  exists rho, dv D e1 rho <> dv D e2 rho.
Proof.
  intros Wo W K V1 V2 Ne.
  destruct (existsb (fun rho => negb (Bool.eqb (dv D e1 rho) (dv D e2 rho))) (assigns (ord o))) eqn:X.
  - apply existsb_exists in X as (rho & _ & H). exists rho. apply negb_true_iff in H. now apply eqb_false_iff in H.
  - exfalso. apply Ne. apply (canon_dv o D s); auto. intros rho. destruct (assigns_all (ord o) rho) as (rho' & I & A).
    destruct (bool_dec (dv D e1 rho') (dv D e2 rho')) as [E|E].
    + rewrite (dv_agree o D s Wo W K e1 V1 rho rho'), (dv_agree o D s Wo W K e2 V2 rho rho'); auto;
        intros i Hi _; symmetry; auto.
    + exfalso. assert (T : existsb (fun rho => negb (Bool.eqb (dv D e1 rho) (dv D e2 rho))) (assigns (ord o)) = true).
      { apply existsb_exists. exists rho'. split; auto. apply negb_true_iff. now apply eqb_false_iff. }
      rewrite X in T. discriminate.
Qed.

(** The top variable of a non-constant handle is the first variable in the order on which the
    function depends. *)
Lemma top_depends m hs lk D f : MInv m hs lk D -> In f hs -> isconst (uint (mmem m) f) = false ->
  let i := eid (uint (mmem m) f) in
  In i (ord (mo m)) /\
  (exists rho, hv m D f (flip rho i true) <> hv m D f (flip rho i false)) /\
  (forall j, In j (ord (mo m)) -> idx (mo m) j < idx (mo m) i -> forall rho b, hv m D f (flip rho j b) = hv m D f rho).
Proof.
  intros I If C i. unfold isconst in C. apply N.eqb_neq in C. fold i in C.
  pose proof (MI_swf _ _ _ _ I) as W. pose proof (MI_dok _ _ _ _ I) as K. pose proof (mi_wfo _ _ _ _ I) as Wo.
  pose proof (MI_int _ _ _ _ f I If) as V.
  destruct (node_facts _ _ _ W V C) as (Ii & Ir & V1 & V2 & G1 & G2). fold i in Ii, Ir, G1, G2.
  split; auto. split.
  - (* otherwise the children would be equal *)
    destruct (swf_node _ _ W _ _ C Ir) as [N1 N2 N3 N4 N5 N6 N7].
    set (e := uint (mmem m) f) in *. set (t := ct (mmem m (eptr e))) in *. set (u := ce (mmem m (eptr e))) in *.
    assert (Dec : (exists rho, dv D t rho <> dv D u rho)).
    { apply (differ (mo m) D (st (me m))); [exact Wo|exact W|exact K|exact N2|exact N3|].
      intros E. change (eeq t u = false) in N7. rewrite E, eeq_refl in N7. discriminate. }
    destruct Dec as [rho Hr]. exists rho. change (dv D e (flip rho (eid e) true) <> dv D e (flip rho (eid e) false)). rewrite <- (dv_then _ _ _ e rho Wo W K V C), <- (dv_else _ _ _ e rho Wo W K V C).
    unfold thenof, elseof. rewrite !dv_ephase. fold t u. destruct (eneg e), (dv D t rho), (dv D u rho); simpl in *; congruence.
  - intros j Ij Hj rho b. apply (dv_flip _ _ _ _ _ _ _ Wo W K V Ij). exact Hj.
Qed.

Section Struct.
Variables (d : dec) (m : mgr) (hs : list ubdd) (lk : N -> N) (D : den) (f : ubdd).
Hypothesis I : MInv m hs lk D.
Hypothesis If : In f hs.

(** Preprocessing leaves operands and order alone. *)
Lemma pre1 : exists m1 D1, preproc d m [f] = Ok (true, m1) /\ MInv m1 hs lk D1 /\ mext hs m D m1 D1.
Proof. apply (preproc_live d m hs lk D [f] I). now intros h [<-|[]]. Qed.

Lemma ifid_spec : exists r m' D', cal_ifid d m f = Ok (r, m') /\ MInv m' hs lk D' /\ mext hs m D m' D' /\
  (cal_isconst m f = true -> r = 0) /\
  (cal_isconst m f = false ->
     In r (ord (mo m')) /\ (exists rho, hv m D f (flip rho r true) <> hv m D f (flip rho r false)) /\
     (forall j, In j (ord (mo m')) -> idx (mo m') j < idx (mo m') r -> forall rho b, hv m D f (flip rho j b) = hv m D f rho)).
Proof.
  destruct pre1 as (m1 & D1 & P & I1 & X1). unfold cal_ifid. rewrite P. cbn [obind negb].
  rewrite (isconst_int m1 hs lk D1 f I1 If).
  assert (Ec : cal_isconst m1 f = cal_isconst m f).
  { unfold cal_isconst, cal_isone, cal_iszero, cal_one, cal_zero. now rewrite (mx_one _ _ _ _ _ X1). }
  rewrite Ec. destruct (cal_isconst m f) eqn:C.
  - eexists _, _, _. split; [reflexivity|]. do 2 (split; [eassumption|]). split; auto. discriminate.
  - eexists _, _, _. split; [reflexivity|]. do 2 (split; [eassumption|]). split; [discriminate|]. intros _.
    destruct (top_depends m1 hs lk D1 f I1 If) as (T1 & (rho & T2) & T3).
    { rewrite (isconst_int m1 hs lk D1 f I1 If). congruence. }
    split; auto. split.
    + exists rho. now rewrite <- !(mx_h _ _ _ _ _ X1 f If).
    + intros j Ij Hj rho' b. rewrite <- !(mx_h _ _ _ _ _ X1 f If). now apply T3.
Qed.
Lemma ifindex_spec : exists r m' D', cal_ifindex d m f = Ok (r, m') /\ MInv m' hs lk D' /\ mext hs m D m' D' /\
  (cal_isconst m f = true -> r = 65535) /\
  (cal_isconst m f = false -> exists i, cal_ifid d m f = Ok (i, m') /\ nth_error (ord (mo m')) (N.to_nat r) = Some i).
Proof.
  destruct pre1 as (m1 & D1 & P & I1 & X1). unfold cal_ifindex, cal_ifid. rewrite P. cbn [obind negb].
  rewrite (isconst_int m1 hs lk D1 f I1 If).
  assert (Ec : cal_isconst m1 f = cal_isconst m f).
  { unfold cal_isconst, cal_isone, cal_iszero, cal_one, cal_zero. now rewrite (mx_one _ _ _ _ _ X1). }
  rewrite Ec. destruct (cal_isconst m f) eqn:C.
  - eexists _, _, _. split; [reflexivity|]. do 2 (split; [eassumption|]). split; auto. discriminate.
  - eexists _, _, _. split; [reflexivity|]. do 2 (split; [eassumption|]). split; [discriminate|]. intros _.
    eexists. split; [reflexivity|]. apply wfo_nth; [apply I1|].
    apply (top_depends m1 hs lk D1 f I1 If). rewrite (isconst_int m1 hs lk D1 f I1 If). congruence.
Qed.

(** The three parts of a non-constant function. *)
Lemma parts : cal_isconst m f = false -> exists i,
  (exists h m' D', cal_if d m f = Ok (h, m') /\ mext hs m D m' D' /\ MInv m' (h :: hs) lk D' /\
     forall rho, hv m' D' h rho = rho i) /\
  (exists h m' D', cal_then d m f = Ok (h, m') /\ mext hs m D m' D' /\ MInv m' (h :: hs) lk D' /\
     forall rho, hv m' D' h rho = hv m D f (flip rho i true)) /\
  (exists h m' D', cal_else d m f = Ok (h, m') /\ mext hs m D m' D' /\ MInv m' (h :: hs) lk D' /\
     forall rho, hv m' D' h rho = hv m D f (flip rho i false)) /\
  (exists m', cal_ifid d m f = Ok (i, m')).
Proof.
  intros C. destruct pre1 as (m1 & D1 & P & I1 & X1).
  assert (Ec : cal_isconst m1 f = cal_isconst m f).
  { unfold cal_isconst, cal_isone, cal_iszero, cal_one, cal_zero. now rewrite (mx_one _ _ _ _ _ X1). }
  assert (Ci : isconst (uint (mmem m1) f) = false) by (rewrite (isconst_int m1 hs lk D1 f I1 If); congruence).
  destruct (top_depends m1 hs lk D1 f I1 If Ci) as (T1 & _ & _).
  unfold cal_if, cal_then, cal_else, cal_ifid. rewrite P. cbn [obind negb]. rewrite Ci.
  set (F := uint (mmem m1) f) in *. exists (eid F).
  assert (N0 : eid F <> 0) by (unfold isconst in Ci; now apply N.eqb_neq).
  pose proof (MI_swf _ _ _ _ I1) as W. pose proof (MI_dok _ _ _ _ I1) as K. pose proof (mi_wfo _ _ _ _ I1) as Wo.
  pose proof (MI_int _ _ _ _ f I1 If) as V.
  destruct (node_facts _ _ _ W V N0) as (_ & Ir & V1 & V2 & _ & _).
  assert (Ret : forall e, vedge (nodeR (st (me m1))) e -> exists h m' D', Ok (ret m1 e) = Ok (h, m') /\ mext hs m D m' D' /\
             MInv m' (h :: hs) lk D' /\ forall rho, hv m' D' h rho = dv D1 e rho).
  { intros e Ve. destruct (ret m1 e) as [h m'] eqn:Rt.
    destruct (ret_spec _ hs lk D1 e h m' I1 Ve Rt) as (D3 & I3 & X3 & _ & _ & E3).
    exists h, m', D3. split; auto. split; [eapply mext_trans; eauto|]. split; auto. }
  split; [|split; [|split]].
  - destruct (Ret (mvb m1 (eid F))) as (h & m' & D' & E1 & E2 & E3 & E4); [apply (var_dv m1 hs lk D1 (eid F) (fun _ => true) I1 T1)|].
    exists h, m', D'. do 3 (split; [auto|]). intros rho. rewrite E4. apply (var_dv m1 hs lk D1 (eid F) rho I1 T1).
  - destruct (Ret (thenof (mmem m1) F) V1) as (h & m' & D' & E1 & E2 & E3 & E4).
    exists h, m', D'. do 3 (split; [auto|]). intros rho. rewrite E4, (dv_then _ _ _ F rho Wo W K V N0).
    apply (mx_h _ _ _ _ _ X1 f If).
  - destruct (Ret (elseof (mmem m1) F) V2) as (h & m' & D' & E1 & E2 & E3 & E4).
    exists h, m', D'. do 3 (split; [auto|]). intros rho. rewrite E4, (dv_else _ _ _ F rho Wo W K V N0).
    apply (mx_h _ _ _ _ _ X1 f If).
  - eauto.
Qed.
(** On a constant these calls follow uninitialised fields. *)
Lemma const_undefined : cal_isconst m f = true ->
  cal_if d m f = Undefined /\ cal_then d m f = Undefined /\ cal_else d m f = Undefined.
Proof.
  intros C. destruct pre1 as (m1 & D1 & P & I1 & X1).
  assert (Ec : cal_isconst m1 f = cal_isconst m f).
  { unfold cal_isconst, cal_isone, cal_iszero, cal_one, cal_zero. now rewrite (mx_one _ _ _ _ _ X1). }
  assert (Ci : isconst (uint (mmem m1) f) = true) by (rewrite (isconst_int m1 hs lk D1 f I1 If); congruence).
  unfold cal_if, cal_then, cal_else. rewrite P. cbn [obind negb]. rewrite Ci. auto.
Qed.
End Struct.

(** ** Variables *)

Lemma acnt_dom ids mp b : (forall i, In i ids -> mp i = None) -> acnt ids mp b = 0.
Proof.
  induction ids as [|i r IH]; simpl; intros H; auto. rewrite (H i) by now left. rewrite IH; auto.
Qed.
Lemma acnt_app l1 l2 mp b : acnt (l1 ++ l2) mp b = acnt l1 mp b + acnt l2 mp b.
Proof. induction l1; simpl; lia. Qed.
Lemma acnt_insert o id index mp b : mp id = None -> acnt (ord (order_insert o id index)) mp b = acnt (ord o) mp b.
Proof.
  intros H. unfold order_insert. simpl.
  rewrite <- (firstn_skipn (N.to_nat index) (ord o)) at 3. rewrite !acnt_app. simpl. rewrite H. lia.
Qed.
Lemma asum_insert o id index l b : (forall a, In a l -> amap a id = None) ->
  asum (ord (order_insert o id index)) (map (assoc_shift index) l) b = asum (ord o) l b.
Proof.
  induction l as [|a l IH]; cbn [asum map]; intros H; auto. change (amap (assoc_shift index a)) with (amap a).
  rewrite acnt_insert by (apply H; now left). rewrite IH by (intros; apply H; now right). reflexivity.
Qed.

Lemma assoc_shift_ok o s D s' D' a index : wfo o -> idsok o ->
  let n := N.of_nat (length (ord o)) in index <= n -> n + 1 < CONST_INDEX ->
  sext s D s' D' -> AOk o s a -> AOk (order_insert o (n + 1) index) s' (assoc_shift index a).
Proof.
  intros Wo Ids n Hi Hn X [B1 B2 B3].
  assert (Ix : forall i, In i (ord o) -> idx (order_insert o (n + 1) index) i = if index <=? idx o i then idx o i + 1 else idx o i).
  { intros i Ii. apply (ins_idx_old o index Wo Ids Hi Hn i Ii). }
  constructor; simpl.
  - intros i e E. destruct (B1 i e E). split; [|eapply sext_vedge; eauto].
    apply (ins_in o index). now right.
  - intros i e E. destruct (B1 i e E) as [Ii _]. specialize (B2 i e E). change (Z.of_N (idx (order_insert o (n + 1) index) i) <= if (Z.of_N index <=? alast a)%Z then alast a + 1 else alast a)%Z.
    rewrite Ix by auto.
    destruct (N.leb_spec index (idx o i)), (Z.leb_spec (Z.of_N index) (alast a)); lia.
  - destruct B3 as [E|(i & e & Ei & El)].
    + left. rewrite E. destruct (Z.leb_spec (Z.of_N index) (-1)); lia.
    + right. exists i, e. split; auto. change ((if (Z.of_N index <=? alast a)%Z then alast a + 1 else alast a) = Z.of_N (idx (order_insert o (n + 1) index) i))%Z.
      rewrite Ix by apply (B1 i e Ei). rewrite El.
      destruct (N.leb_spec index (idx o i)), (Z.leb_spec (Z.of_N index) (Z.of_N (idx o i))); lia.
Qed.
