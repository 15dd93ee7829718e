(** * Garbage collection frees exactly the nodes without references. *)
From Coq Require Import Permutation Sorted.
From Verif Require Import Base BFModel MgrModel StoreInv Own EngInv ApplyProof BinopProof ReduceProof EngineProof
  OpProof MultiProof QProof.

Lemma remove_perm (a : N) l : NoDup l -> In a l -> Permutation l (a :: remove N.eq_dec a l).
Proof.
  induction l as [|b l IH]; intros ND I; [destruct I|]. inversion ND as [|? ? Nb ND']; subst. simpl.
  destruct (N.eq_dec a b) as [->|Ne].
  - rewrite notin_remove by auto. reflexivity.
  - destruct I as [E|I]; [congruence|]. rewrite (IH ND' I) at 1. constructor.
Qed.

Lemma in_remove' (a b : N) l : In b (remove N.eq_dec a l) <-> In b l /\ b <> a.
Proof.
  split; [apply in_remove|]. intros [I Ne]. now apply in_in_remove.
Qed.

(** A node without references leaves the tables. *)
Lemma SWF_remove o s s' i a :
  SWF o s -> In a (ut s i) ->
  (forall j c, In c (ut s j) -> eptr (ct (mem s c)) <> a /\ eptr (ce (mem s c)) <> a) ->
  (forall j, ut s' j = if j =? i then remove N.eq_dec a (ut s i) else ut s j) ->
  (forall c, sameTE (mem s) (mem s') c) -> cr (mem s' ONE) = MAXREF ->
  SWF o s'.
Proof.
  intros W Ia Nr U T C1.
  assert (Inv : forall j c, In c (ut s' j) -> In c (ut s j)).
  { intros j c Ic. rewrite U in Ic. destruct (N.eqb_spec j i); subst; auto. now apply in_remove' in Ic. }
  assert (Inc : forall j c, In c (ut s j) -> c <> a -> In c (ut s' j)).
  { intros j c Ic Nc. rewrite U. destruct (N.eqb_spec j i); subst; auto. now apply in_remove'. }
  assert (V : forall z, vedge (nodeR s) z -> eptr z <> a -> vedge (nodeR s') z).
  { intros z [H|[H R]] Nz; [left|right]; auto. split; auto. now apply Inc. }
  constructor.
  - intros j c Nj Ic. apply Inv in Ic. destruct (T c) as [E1 E2].
    destruct (swf_node o s W j c Nj Ic) as [B1 B2 B3 B4 B5 B6 B7]. destruct (Nr _ _ Ic) as [N1 N2].
    constructor; rewrite ?E1, ?E2; auto.
  - intros c Ic. apply Inv in Ic. destruct (T c) as [-> ->]. destruct (Nr _ _ Ic) as [N1 N2].
    destruct (swf_user o s W c Ic) as (V1 & V2 & V3). auto.
  - intros j c c' Ic Ic'. destruct (T c) as [-> ->], (T c') as [-> ->]. apply (swf_uniq o s W j); auto.
  - intros j k c Ic Ic'. eapply (swf_disj o s W); eauto.
  - intros j c Ic. eapply (swf_addr o s W); eauto.
  - destruct (T ONE) as [_ ->]. apply W.
  - auto.
Qed.

Lemma occ_In rs m L b c : In c L -> occ rs m L b = 0 ->
  rs (eptr (ct (m c))) <> b /\ rs (eptr (ce (m c))) <> b.
Proof.
  induction L as [|d L IH]; simpl; intros I H; [destruct I|].
  destruct I as [->|I]; [|apply IH; auto; lia].
  unfold wt in H. destruct (N.eqb_spec (rs (eptr (ct (m c)))) b), (N.eqb_spec (rs (eptr (ce (m c)))) b);
    simpl in H; try lia; auto.
Qed.

Definition gcd (s : store) (i a : N) : store :=
  let s1 := dcr (dcr s (ct (mem s a))) (ce (mem s a)) in
  let s2 := set_ut s1 (upd (ut s1) i (remove N.eq_dec a (ut s1 i))) in
  let s3 := free_node s2 i a in
  set_nn s3 (if i =? 0 then nn s3 else nn s3 - 1).

Lemma gcd_mem s i a : mem (gcd s i a) = mem (dcr (dcr s (ct (mem s a))) (ce (mem s a))).
Proof. reflexivity. Qed.

Lemma gcd_te s i a c : sameTE (mem s) (mem (gcd s i a)) c.
Proof.
  rewrite gcd_mem. destruct (sameTE_dcr (dcr s (ct (mem s a))) (ce (mem s a)) c) as [E1 E2].
  destruct (sameTE_dcr s (ct (mem s a)) c) as [E3 E4]. split; congruence.
Qed.

Lemma gcd_ut s i a j : ut (gcd s i a) j = if j =? i then remove N.eq_dec a (ut s i) else ut s j.
Proof. unfold gcd; simpl. unfold upd. now destruct (j =? i). Qed.

Lemma gcd_cr s i a c : c <> eptr (ct (mem s a)) -> c <> eptr (ce (mem s a)) -> cr (mem (gcd s i a) c) = cr (mem s c).
Proof.
  intros H1 H2. rewrite gcd_mem, !cr_dcr.
  destruct (N.eqb_spec c (eptr (ct (mem s a)))), (N.eqb_spec c (eptr (ce (mem s a)))); congruence.
Qed.

Lemma gcd_max s i a c : cr (mem s c) = MAXREF -> cr (mem (gcd s i a) c) = MAXREF.
Proof.
  intros H. rewrite gcd_mem, !cr_dcr, H. now destruct (c =? eptr (ct (mem s a))), (c =? eptr (ce (mem s a))).
Qed.

Lemma gcd_spec o D en x i a :
  QS o D en x -> In a (ut (st en) i) -> cr (mem (st en) a) = 0 ->
  QS o D (set_st en (gcd (st en) i a)) x /\ x a = 0 /\
  (forall j c, In c (ut (st en) j) -> eptr (ct (mem (st en) c)) <> a /\ eptr (ce (mem (st en) c)) <> a).
Proof.
  intros (own & L & I & R) Ia Z.
  pose proof (ei_acc _ _ _ _ I) as A. pose proof (ei_swf _ _ _ _ I) as W. pose proof (ei_dok _ _ _ _ I) as K.
  assert (Oa : own a = ONode i) by now apply (acc_node _ _ _ _ A).
  assert (Ca : counted own a) by (left; eauto).
  assert (Hz : occ idn (mem (st en)) L a = 0 /\ x a = 0).
  { destruct (rc_cnt _ _ _ _ _ _ R a Ca) as [E|E]; rewrite Z in E; [discriminate|lia]. }
  destruct Hz as [Oz Xz].
  assert (LL : forall b, In b L <-> exists j, own b = ONode j).
  { intros b. rewrite (rc_L _ _ _ _ _ _ R). split; [intros [H|(d & j & _ & [] & _)]; auto|auto]. }
  assert (Nr : forall j c, In c (ut (st en) j) -> eptr (ct (mem (st en) c)) <> a /\ eptr (ce (mem (st en) c)) <> a).
  { intros j c Ic. apply (occ_In idn (mem (st en)) L a c); auto. apply LL. exists j. now apply (acc_node _ _ _ _ A). }
  split; [|auto].
  assert (a <> ONE) as N1.
  { intros E. rewrite E, (acc_one_none _ _ A) in Oa. discriminate. }
  set (t := ct (mem (st en) a)). set (e := ce (mem (st en) a)).
  set (own' := upd own a (OFree i)). set (L' := remove N.eq_dec a L).
  assert (PL : Permutation L (a :: L')).
  { apply remove_perm; [apply R|]. apply LL; eauto. }
  assert (Ob : forall b, b <> a -> own' b = own b) by (intros b Nb; unfold own'; now rewrite upd_other).
  assert (C1 : cr (mem (gcd (st en) i a) ONE) = MAXREF).
  { apply gcd_max. apply W. }
  exists own', L'. split.
  - constructor.
    + unfold EAcc. simpl.
      set (s1 := dcr (dcr (st en) t) e).
      set (K1 := kont (set_ut s1 (upd (ut s1) i (remove N.eq_dec a (ut s1 i)))) (que en) (don en)).
      assert (A1 : Acc (upd own a OX) K1 (nx (st en))).
      { apply (acc_take own (kont (st en) (que en) (don en)) K1 _ (ONode i) a (remove N.eq_dec a (ut (st en) i)) A eq_refl).
        - simpl. apply remove_perm; auto. apply (acc_nd _ _ _ A (ONode i)); auto.
        - simpl. now rewrite upd_same.
        - intros tg _ Nt. destruct tg; simpl; auto. rewrite upd_other; auto. congruence. }
      assert (A2 : Acc (upd (upd own a OX) a (OFree i)) (kont (gcd (st en) i a) (que en) (don en)) (nx (st en))).
      { eapply (acc_give (upd own a OX) K1 _ _ (OFree i) a A1); auto.
        - apply upd_same.
        - simpl. rewrite upd_same. apply Permutation_refl.
        - intros tg _ Nt. destruct tg; simpl; auto. rewrite upd_other; auto. congruence. }
      constructor; [|exact (acc_nd _ _ _ A2)| |exact (acc_lim _ _ _ A2)].
      * intros tg b Ht. rewrite (acc_in _ _ _ A2) by auto. unfold own', upd. destruct (b =? a); tauto.
      * intros b Hb. apply (acc_rng _ _ _ A2). revert Hb. unfold own', upd. destruct (b =? a); auto.
    + exact (SWF_remove o (st en) _ i a W Ia Nr (gcd_ut _ _ _) (gcd_te _ _ _) C1).
    + constructor; [apply K|]. intros j b rho Nj Ib. cbn [st set_st] in *. rewrite gcd_ut in Ib.
      assert (Ib' : In b (ut (st en) j)) by (destruct (N.eqb_spec j i); subst; auto; now apply in_remove' in Ib).
      destruct (gcd_te (st en) i a b) as [-> ->]. now apply (dok_node D _ K).
    + exact (ei_que _ _ _ _ I).
    + exact (ei_don _ _ _ _ I).
    + intros p b. unfold own', upd. destruct (p =? a); [discriminate|]. apply I.
  - assert (R1 : RC own' [] idn (mem (st en)) L' (xadd (xadd x (eptr t)) (eptr e))).
    { destruct R as [B1 B2 B3 B4 B5 B6].
      assert (InL : forall b, In b L' <-> In b L /\ b <> a) by (intros b; apply in_remove').
      destruct (Nr i a Ia) as [Nt Ne]. fold t in Nt. fold e in Ne.
      assert (Cc : forall b, counted own' b -> b <> a /\ counted own b).
      { intros b Cb. destruct (N.eq_dec b a) as [->|Nb].
        - unfold own' in Cb. unfold counted in Cb. rewrite upd_same in Cb.
          destruct Cb as [(j & H)|(d & j & H)]; discriminate.
        - unfold counted in *. rewrite Ob in Cb; auto. }
      constructor.
      - assert (NoDup (a :: L')) as ND by (eapply Permutation_NoDup; eauto). now inversion ND.
      - intros b. rewrite InL, B2. destruct (N.eq_dec b a) as [->|Nb].
        + unfold own'. rewrite upd_same. split; [tauto|]. intros [(j & H)|(d & j & H & _)]; discriminate.
        + rewrite Ob by auto. tauto.
      - intros b Ib. apply InL in Ib as [Ib Nb]. destruct (B3 b Ib) as [T1 T2].
        assert (Tt : forall p, tgt own p -> p <> a -> tgt own' p).
        { intros p Tp Np. unfold tgt, counted in *. rewrite Ob by auto. exact Tp. }
        destruct (occ_In _ _ _ _ _ Ib Oz) as [H1 H2]. unfold idn in H1, H2. auto.
      - intros b Cb. destruct (Cc b Cb) as [Nb Cb']. destruct (B4 b Cb') as [E|E]; auto. right. rewrite E.
        rewrite (occ_perm _ _ _ _ _ PL). cbn [occ]. unfold wt, idn, xadd. fold t e. lia.
      - intros b Cb. apply B5. now apply Cc.
      - intros b Lb Fb. unfold xadd.
        assert (Tz : forall p, tgt own p -> p <> a -> b <> p).
        { intros p Tp Np ->. apply tgt_nf in Tp as [E|E]; [unfold NUL in E; lia|]. rewrite Ob in Fb by auto. tauto. }
        destruct (B3 a) as [T1 T2]; [apply LL; eauto|]. fold t in T1. fold e in T2.
        destruct (N.eqb_spec (eptr t) b) as [E1|E1]; [destruct (Tz _ T1 Nt); auto|].
        destruct (N.eqb_spec (eptr e) b) as [E2|E2]; [destruct (Tz _ T2 Ne); auto|].
        simpl. rewrite !N.add_0_r. destruct (N.eq_dec b a) as [->|Nb]; auto. rewrite Ob in Fb by auto. auto. }
    assert (X1 : 1 <= xadd (xadd x (eptr t)) (eptr e) (eptr t)).
    { unfold xadd. rewrite N.eqb_refl. simpl. lia. }
    pose proof (RC_dcr own' [] idn (st en) L' _ t X1 R1) as R2.
    assert (X2 : 1 <= xsub (xadd (xadd x (eptr t)) (eptr e)) (eptr t) (eptr e)).
    { unfold xsub, xadd. rewrite N.eqb_refl. destruct (eptr t =? eptr e); simpl; lia. }
    pose proof (RC_dcr own' [] idn (dcr (st en) t) L' _ e X2 R2) as R3.
    eapply RC_x_ext; [|exact R3]. intros b. unfold xsub, xadd. lia.
Qed.

(** ** The whole collection *)

Definition rank (o : order) (i : N) : N := if i =? 0 then 0 else idx o i + 1.

(** Invariant of the loops: [s0] is the store at the start, [done] the finished tables. *)
Record GI (o : order) (D : den) (x : N -> N) (en : eng) (s : store) (fr : list N) : Prop := {
  gi_q : QS o D (set_st en s) x;
  gi_te : forall c, sameTE (mem (st en)) (mem s) c;
  gi_ut : forall i b, In b (ut s i) <-> In b (ut (st en) i) /\ ~ In b fr;
  gi_fr : forall b, In b fr -> x b = 0 /\ isnode (st en) b;
  gi_max : forall b, cr (mem (st en) b) = MAXREF -> cr (mem s b) = MAXREF /\ ~ In b fr
}.

Lemma set_st_set en s s' : set_st (set_st en s) s' = set_st en s'.
Proof. reflexivity. Qed.

Lemma gc1_inv o D x en i s fr a s' fr' :
  GI o D x en s fr -> In a (ut s i) -> gc1 i (s, fr) a = (s', fr') ->
  GI o D x en s' fr' /\
  (cr (mem s a) <> 0 /\ s' = s /\ fr' = fr \/
   cr (mem s a) = 0 /\ s' = gcd s i a /\ fr' = a :: fr).
Proof.
  intros G Ia H. unfold gc1 in H. destruct (N.eqb_spec (cr (mem s a)) 0) as [Z|Z].
  2:{ injection H as <- <-. split; auto. }
  change ((gcd s i a, a :: fr) = (s', fr')) in H. injection H as <- <-.
  split; [|right; auto].
  destruct (gcd_spec o D (set_st en s) x i a (gi_q _ _ _ _ _ _ G) Ia Z) as (Q & Xz & Nr). simpl in *.
  rewrite set_st_set in Q. destruct G as [B1 B2 B3 B4 B5]. constructor; auto.
  - intros c. destruct (gcd_te s i a c) as [E1 E2], (B2 c) as [E3 E4]. split; congruence.
  - intros j b. rewrite gcd_ut. simpl. destruct (N.eqb_spec j i) as [->|Nj].
    + rewrite in_remove', B3. split; [intros [[? ?] ?]; split; auto; intros [?|?]; auto|
       intros [? Hn]; split; [split; auto|]; intros ->; auto].
    + rewrite B3. split; [intros [? ?]; split; auto; intros [E|?]; auto|intros [? ?]; auto].
      subst b. apply Nj. pose proof (QS_swf _ _ _ _ B1) as W. simpl in W.
      apply (swf_disj o s W j i a); auto. apply B3; auto.
  - intros b [<-|Ib]; auto. split; auto. exists i. apply B3 in Ia. tauto.
  - intros b Hb. destruct (B5 b Hb) as [E Nb]. split; [now apply gcd_max|]. intros [<-|?]; auto.
    rewrite Z in E. discriminate.
Qed.

Definition NZ (s : store) (i : N) : Prop := forall b, In b (ut s i) -> cr (mem s b) <> 0.

(** Collecting in table [i] leaves the counts of tables above it alone. *)
Lemma gcd_above o D en x s i a j b :
  wfo o -> QS o D (set_st en s) x -> In a (ut s i) -> In b (ut s j) -> rank o j <= rank o i ->
  cr (mem (gcd s i a) b) = cr (mem s b).
Proof.
  intros Wo Q Ia Ib Hr. pose proof (QS_swf _ _ _ _ Q) as W. simpl in W.
  assert (Ch : forall z, vedge (nodeR s) z -> (i <> 0 -> gt_idx o i z) -> b <> eptr z).
  { intros z Vz Gz E. destruct Vz as [[_ P]|[Nz R]].
    - rewrite P in E. subst b. pose proof (swf_addr o s W _ _ Ib). unfold ONE in *. lia.
    - red in R. rewrite <- E in R. assert (j = eid z) by (eapply (swf_disj o s W); eauto). subst j.
      unfold rank in Hr. destruct (N.eqb_spec (eid z) 0); [congruence|].
      destruct (N.eqb_spec i 0); [lia|]. specialize (Gz n0). unfold gt_idx in Gz. lia. }
  apply gcd_cr; apply Ch.
  - destruct (N.eq_dec i 0) as [->|Ni]; [apply (swf_user o s W a Ia)|apply (swf_node o s W i a Ni Ia)].
  - intros Ni. apply (swf_node o s W i a Ni Ia).
  - destruct (N.eq_dec i 0) as [->|Ni].
    + destruct (swf_user o s W a Ia) as (_ & -> & _). apply vedge_one.
    + apply (swf_node o s W i a Ni Ia).
  - intros Ni. apply (swf_node o s W i a Ni Ia).
Qed.

Lemma gc_fold o D x en i : wfo o -> forall l s fr s' fr',
  GI o D x en s fr -> NoDup l -> (forall b, In b l -> In b (ut s i)) ->
  (forall b, In b (ut s i) -> ~ In b l -> cr (mem s b) <> 0) ->
  fold_left (gc1 i) l (s, fr) = (s', fr') ->
  GI o D x en s' fr' /\ NZ s' i /\
  (forall j, j <> i -> rank o j <= rank o i -> NZ s j -> NZ s' j).
Proof.
  intros Wo l. induction l as [|a l IH]; intros s fr s' fr' G ND Hl Hz H.
  - simpl in H. injection H as <- <-. split; auto. split; auto. intros b Ib. apply Hz; auto.
  - cbn [fold_left] in H. destruct (gc1 i (s, fr) a) as [s1 fr1] eqn:G1.
    assert (Ia : In a (ut s i)) by (apply Hl; now left).
    destruct (gc1_inv _ _ _ _ _ _ _ _ _ _ G Ia G1) as [G' Hc]. inversion ND as [|? ? Na ND']; subst.
    pose proof (gi_q _ _ _ _ _ _ G) as Q.
    destruct (IH s1 fr1 s' fr' G' ND') as (G2 & Z2 & P2); auto.
    + intros b Ib. destruct Hc as [(Z & -> & ->)|(Z & -> & ->)]; [apply Hl; now right|].
      rewrite gcd_ut, N.eqb_refl. apply in_remove'. split; [apply Hl; now right|]. intros ->; auto.
    + intros b Ib Nb. destruct Hc as [(Z & -> & ->)|(Z & -> & ->)].
      * destruct (N.eq_dec b a) as [->|Ne]; auto. apply Hz; auto. intros [?|?]; auto.
      * rewrite gcd_ut, N.eqb_refl in Ib. apply in_remove' in Ib as [Ib Ne].
        rewrite (gcd_above o D en x s i a i b) by (auto; lia). apply Hz; auto. intros [?|?]; auto.
    + split; auto. split; auto. intros j Nj Hr Zj. apply P2; auto.
      destruct Hc as [(Z & -> & ->)|(Z & -> & ->)]; auto.
      intros b Ib. rewrite gcd_ut in Ib. destruct (N.eqb_spec j i); [congruence|].
      rewrite (gcd_above o D en x s i a j b) by auto. auto.
Qed.

Lemma gc_tables o D x en : wfo o -> forall ids s fr s' fr' dn,
  GI o D x en s fr -> (forall j, In j dn -> NZ s j) ->
  (forall i j, In i ids -> In j dn -> rank o j < rank o i) ->
  StronglySorted (fun i j => rank o i < rank o j) ids ->
  fold_left gc_table ids (s, fr) = (s', fr') ->
  GI o D x en s' fr' /\ forall j, In j dn \/ In j ids -> NZ s' j.
Proof.
  intros Wo ids. induction ids as [|i ids IH]; intros s fr s' fr' dn G Hd Hr Ss H.
  - simpl in H. injection H as <- <-. split; auto. intros j [?|[]]; auto.
  - cbn [fold_left] in H. destruct (gc_table (s, fr) i) as [s1 fr1] eqn:G1. unfold gc_table in G1. simpl in G1.
    pose proof (gi_q _ _ _ _ _ _ G) as (own & L & I & R).
    assert (ND : NoDup (ut s i)) by (apply (acc_nd _ _ _ (ei_acc _ _ _ _ I) (ONode i)); auto).
    destruct (gc_fold o D x en i Wo (ut s i) s fr s1 fr1 G ND) as (G' & Z' & P').
    { auto. }
    { intros b Ib Nb. destruct (Nb Ib). }
    { exact G1. }
    inversion Ss as [|? ? Ss' Fa]; subst.
    destruct (IH s1 fr1 s' fr' (i :: dn) G') as [G2 Z2]; auto.
    + intros j [<-|Ij]; auto. apply P'; auto.
      * intros ->. specialize (Hr i i (or_introl eq_refl) Ij). lia.
      * specialize (Hr i j (or_introl eq_refl) Ij). lia.
    + intros k j Ik [<-|Ij]; [|apply Hr; auto; now right].
      rewrite Forall_forall in Fa. auto.
    + split; auto. intros j [Ij|[<-|Ij]]; apply Z2; [left; now right|left; now left|now right].
Qed.

Lemma ord_sorted o : wfo o -> StronglySorted (fun i j => rank o i < rank o j) (0 :: ord o).
Proof.
  intros Wo. constructor.
  2:{ apply Forall_forall. intros i Ii. destruct (wfo_in o i Wo Ii) as [Ni _]. unfold rank. simpl.
      destruct (N.eqb_spec i 0); [congruence|]. lia. }
  assert (G : forall l pre, ord o = pre ++ l -> StronglySorted (fun i j => rank o i < rank o j) l).
  { induction l as [|i l IH]; intros pre E; constructor.
    - apply (IH (pre ++ [i])). rewrite <- app_assoc. exact E.
    - apply Forall_forall. intros j Ij. apply In_nth_error in Ij as [k Hk].
      assert (Hi : nth_error (ord o) (length pre) = Some i).
      { rewrite E, nth_error_app2 by lia. now rewrite Nat.sub_diag. }
      assert (Hj : nth_error (ord o) (length pre + S k) = Some j).
      { rewrite E, nth_error_app2 by lia. replace (length pre + S k - length pre)%nat with (S k) by lia. exact Hk. }
      destruct (wfo_idx o Wo _ _ Hi) as [Ni Ei], (wfo_idx o Wo _ _ Hj) as [Nj Ej]. unfold rank.
      destruct (N.eqb_spec i 0), (N.eqb_spec j 0); try congruence. lia. }
  apply (G (ord o) []). reflexivity.
Qed.

Theorem gc_store_spec o D en x s' fr :
  wfo o -> QS o D en x -> gc_store o (st en) = (s', fr) ->
  GI o D x en s' fr /\ forall i, NZ s' i.
Proof.
  intros Wo Q H. unfold gc_store in H.
  assert (G0 : GI o D x en (st en) []).
  { constructor.
    - rewrite set_st_id. exact Q.
    - intros c. split; auto.
    - intros i b. simpl. tauto.
    - intros b [].
    - intros b Hb. split; auto. }
  destruct (gc_tables o D x en Wo (0 :: ord o) (st en) [] s' fr [] G0) as [G Z]; auto.
  - intros j [].
  - intros i j _ [].
  - now apply ord_sorted.
  - split; auto. intros i b Ib.
    destruct (N.eq_dec i 0) as [->|Ni]; [apply (Z 0); auto; right; now left|].
    apply (Z i); auto. right. right.
    pose proof (QS_swf _ _ _ _ (gi_q _ _ _ _ _ _ G)) as W. simpl in W. apply (swf_node o s' W i b Ni Ib).
Qed.

(** ** What survives *)

(** A node is held by the references [x], by a saturated count, or by a holding node. *)
Inductive held (s : store) (x : N -> N) : N -> Prop :=
| held_x b : isnode s b -> 0 < x b -> held s x b
| held_max b : isnode s b -> cr (mem s b) = MAXREF -> held s x b
| held_child a b : held s x a -> isnode s b -> b = eptr (ct (mem s a)) \/ b = eptr (ce (mem s a)) -> held s x b.

Lemma occ_pos rs m L b : occ rs m L b <> 0 -> exists c, In c L /\ (rs (eptr (ct (m c))) = b \/ rs (eptr (ce (m c))) = b).
Proof.
  induction L as [|c L IH]; simpl; intros H; [lia|].
  destruct (N.eq_dec (occ rs m L b) 0) as [E|E].
  - exists c. split; auto. unfold wt in H.
    destruct (N.eqb_spec (rs (eptr (ct (m c)))) b), (N.eqb_spec (rs (eptr (ce (m c)))) b); auto. simpl in H. lia.
  - destruct (IH E) as (d & Id & Hd). eauto.
Qed.

Lemma all_held o D en x : wfo o -> QS o D en x -> (forall i, NZ (st en) i) ->
  forall b, isnode (st en) b -> held (st en) x b.
Proof.
  intros Wo (own & L & I & R) Z.
  pose proof (ei_acc _ _ _ _ I) as A. pose proof (ei_swf _ _ _ _ I) as W.
  assert (G : forall n i b, rank o i < n -> In b (ut (st en) i) -> held (st en) x b).
  { intros n. induction n as [|n IH] using N.peano_ind; intros i b Hn Ib; [lia|].
    assert (Cb : counted own b) by (left; exists i; now apply (acc_node _ _ _ _ A)).
    destruct (rc_cnt _ _ _ _ _ _ R b Cb) as [E|E].
    - apply held_max; auto. now exists i.
    - destruct (N.eq_dec (x b) 0) as [Xz|Xz].
      + assert (Oc : occ idn (mem (st en)) L b <> 0).
        { intros Oz. apply (Z i b Ib). lia. }
        apply occ_pos in Oc as (c & Ic & Hc). unfold idn in Hc.
        apply (rc_L _ _ _ _ _ _ R) in Ic as [(j & Oc)|(d & j & _ & [] & _)].
        apply (acc_node _ _ _ _ A) in Oc.
        assert (Hr : forall z, vedge (nodeR (st en)) z -> (j <> 0 -> gt_idx o j z) -> eptr z = b -> rank o j < rank o i).
        { intros z [[_ P]|[Nz Rz]] Gz Ez.
          - rewrite Ez in P. subst b. pose proof (swf_addr o _ W _ _ Ib). unfold ONE in *. lia.
          - red in Rz. rewrite Ez in Rz. assert (i = eid z) by (eapply (swf_disj o _ W); eauto). subst i.
            unfold rank. destruct (N.eqb_spec (eid z) 0); [congruence|].
            destruct (N.eqb_spec j 0); [lia|]. specialize (Gz n1). unfold gt_idx in Gz. lia. }
        assert (Hlt : rank o j < rank o i).
        { destruct Hc as [Hc|Hc]; (eapply Hr; [| |exact Hc]);
          destruct (N.eq_dec j 0) as [->|Nj]; try (intros; congruence);
          try (apply (swf_node o _ W j c Nj Oc)); try (intros _; apply (swf_node o _ W j c Nj Oc)).
          - apply (swf_user o _ W c Oc).
          - destruct (swf_user o _ W c Oc) as (_ & -> & _). apply vedge_one. }
        apply (held_child _ _ c).
        * apply (IH j); auto. lia.
        * now exists i.
        * destruct Hc; auto.
      + apply held_x; [now exists i|lia]. }
  intros b [i Ib]. apply (G (rank o i + 1) i b); auto. lia.
Qed.
