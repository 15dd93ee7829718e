(** * The apply, reduce and clean-up sweeps put together. *)
From Coq Require Import Permutation.
From Verif Require Import Base BFModel StoreInv Own EngInv ApplyProof BinopProof ReduceProof.

Section Sweeps.
Variable o : order.
Hypothesis Wo : wfo o.
Variable enum : memory -> list N -> list N.
Hypothesis enum_perm : forall m l, Permutation (enum m l) l.
Variable k : kind.

(** Reduce-phase state with the counts. *)
Definition RState (x : N -> N) (S : list N) (own : N -> tag) (D : den) (en : eng) : Prop :=
  exists rs L, RInv o k own D en /\ RCq (kun k) own S rs (mem (st en)) L x /\ rs_ok own (mem (st en)) rs /\
    (forall b d j, own b = OQue d j -> In b S) /\
    (forall b d j, own b = OQue d j -> x b = 0) /\ (forall b d j, own b = ODon d j -> x b = 0).

(** The reduction of one table, all deeper levels being finished. *)
Definition rtable_okQ (Q : (N -> tag) -> den -> Prop) (rt : eng -> eng) (d : nat) (i : N) : Prop := forall x S own D en,
  RState x S own D en -> Q own D -> (forall d' j b, own b = OQue d' j -> idx o j <= idx o i) ->
  exists own' D', RState x S own' D' (rt en) /\ rext own D en own' D' (rt en) /\ (forall b, own' b <> OQue d i).
(** Without any condition on the nodes. *)
Definition anyQ (own : N -> tag) (D : den) : Prop := True.
Definition rtable_ok := rtable_okQ anyQ.

(** A table reduced request by request. *)
Section Requests.
Variables (d : nat) (i : N) (rstep : eng -> N -> eng).
Hypothesis rstep_que : forall en a l, rstep (set_que en d i l) a = set_que (rstep en a) d i l.
Hypothesis rstep_qq : forall en a, que (rstep en a) d i = que en d i.
Hypothesis rstep_ok : forall own D en rs S L x a l,
  RInv o k own D (set_que en d i (a :: l)) -> RCq (kun k) own S rs (mem (st en)) L x -> rs_ok own (mem (st en)) rs ->
  (forall b d j, own b = OQue d j -> In b S) -> (forall b d j, own b = OQue d j -> x b = 0) ->
  (forall d j b, own b = OQue d j -> idx o j <= idx o i) ->
  Post o k own D en S x d i a l (set_que (rstep en a) d i l).

Lemma reduce_fold x S : forall l own D en,
  RState x S own D (set_que en d i l) -> (forall d' j b, own b = OQue d' j -> idx o j <= idx o i) ->
  exists own' D', let en' := fold_left rstep l (set_que en d i []) in
    RState x S own' D' en' /\ rext own D (set_que en d i l) own' D' en'.
Proof using rstep_que rstep_ok.
  induction l as [|a l IH]; intros own D en RS Low.
  - exists own, D. simpl. split; auto. apply rext_refl.
  - destruct RS as (rs & L & I & R & RO & HS & Hx & Hd).
    destruct (rstep_ok own D en rs S L x a l I R RO HS Hx Low) as (own1 & D1 & rs1 & L1 & I1 & R1 & RO1 & X1 & _).
    destruct (IH own1 D1 (rstep en a)) as (own2 & D2 & RS2 & X2).
    + exists rs1, L1. split; auto. split; auto. split; auto. split; [|split].
      * intros b d' j Ob. apply (rx_que _ _ _ _ _ _ X1) in Ob as [Ob _]. eauto.
      * intros b d' j Ob. apply (rx_que _ _ _ _ _ _ X1) in Ob as [Ob _]. eauto.
      * intros b d' j Ob. apply (rx_donq _ _ _ _ _ _ X1) in Ob as [Ob|Ob]; eauto.
    + intros d' j b Ob. apply (rx_que _ _ _ _ _ _ X1) in Ob as [Ob _]. eauto.
    + exists own2, D2. simpl. rewrite rstep_que. split; auto. eapply rext_trans; eauto.
Qed.

Lemma requests_ok : rtable_ok (fun en => fold_left rstep (enum (mem (st en)) (que en d i)) (set_que en d i [])) d i.
Proof using enum_perm rstep_que rstep_qq rstep_ok.
  intros x S own D en RS _ Low. cbv beta. set (l := enum (mem (st en)) (que en d i)).
  assert (RS1 : RState x S own D (set_que en d i l)).
  { destruct RS as (rs & L & I & R & RO & HS & Hx & Hd). exists rs, L. split; [|auto].
    apply RInv_perm; auto. apply enum_perm. }
  destruct (reduce_fold x S l own D en RS1 Low) as (own' & D' & RS' & X').
  exists own', D'. split; auto. split.
  - eapply rext_trans; [|exact X']. constructor; auto; intros; split; auto; split; auto.
  - intros b Ob. destruct RS' as (rs & L & I & _).
    apply (acc_que _ _ _ _ _ (ri_acc _ _ _ _ _ I)) in Ob.
    assert (Q : forall l en, que (fold_left rstep l en) d i = que en d i).
    { clear - rstep_qq. induction l as [|a l IH]; intros en; simpl; auto. rewrite IH. apply rstep_qq. }
    rewrite Q in Ob. simpl in Ob. rewrite upd2_same in Ob. destruct Ob.
Qed.
End Requests.

Lemma reduce1_que d i en a l : reduce1 d i (set_que en d i l) a = set_que (reduce1 d i en a) d i l.
Proof.
  unfold reduce1; simpl. destruct (eeq _ _); auto. destruct (ulookup _ _ _ _); auto.
  destruct (eneg _); auto. destruct (alloc _ _); auto.
Qed.
Lemma reduce1_qq d i en a : que (reduce1 d i en a) = que en.
Proof.
  unfold reduce1. destruct (eeq _ _); auto. destruct (ulookup _ _ _ _); auto.
  destruct (eneg _); auto. destruct (alloc _ _); auto.
Qed.

(** The standard reduction, in engines without null children. *)
Lemma reduce_table_ok : knl k = false -> kix k = true ->
  forall d i, kun k d i = false -> (forall rho y z, kcb k d i rho y z = if rho i then y rho else z rho) ->
  rtable_ok (fun en => reduce_table enum en d i) d i.
Proof using Wo enum_perm.
  intros K1 K2 d i Ku K3. apply (requests_ok d i (reduce1 d i)).
  - intros. apply reduce1_que.
  - intros. now rewrite reduce1_qq.
  - intros own D en rs S L x a l I R RO HS Hx Low.
    assert (Oa : own a = OQue d i).
    { apply (acc_que _ _ _ _ _ (ri_acc _ _ _ _ _ I)). simpl. rewrite upd2_same. now left. }
    destruct (ri_que _ _ _ _ _ I _ _ _ Oa) as [_ Ap]. unfold RApplied in Ap. rewrite Ku in Ap. destruct Ap as [_ _ B3 B4 _].
    eapply (reduce1_spec o Wo k own D en rs S L x d i a l); eauto.
    + destruct B3 as [B|[B _]]; [exact B|congruence].
    + destruct B4 as [B|[B _]]; [exact B|congruence].
Qed.

Definition rall (rt : nat -> N -> eng -> eng) (depths : list nat) (ids : list N) (en : eng) : eng :=
  fold_left (fun en i => fold_left (fun en d => rt d i en) depths en) (rev ids) en.

Section Levels.
Variable rt : nat -> N -> eng -> eng.
Variable Q : (N -> tag) -> den -> Prop.
Hypothesis Q_rext : forall own D en own' D' en', rext own D en own' D' en' -> Q own D -> Q own' D'.
Variable c0 : nat.
Hypothesis rt_ok : forall d i, In i (ord o) -> N.of_nat c0 <= idx o i -> rtable_okQ Q (rt d i) d i.

Lemma reduce_level_spec x S i : In i (ord o) -> N.of_nat c0 <= idx o i -> forall ds own D en,
  RState x S own D en -> Q own D -> (forall d' j b, own b = OQue d' j -> idx o j <= idx o i) ->
  exists own' D', let en' := fold_left (fun en d => rt d i en) ds en in
    RState x S own' D' en' /\ rext own D en own' D' en' /\
    (forall b d', In d' ds -> own' b <> OQue d' i).
Proof using rt_ok Q_rext.
  intros Ii Ci. induction ds as [|d ds IH]; intros own D en RS HQ Low.
  - exists own, D. simpl. split; auto. split; [apply rext_refl|]. intros; tauto.
  - destruct (rt_ok d i Ii Ci x S own D en RS HQ Low) as (own1 & D1 & RS1 & X1 & N1).
    destruct (IH own1 D1 _ RS1 (Q_rext _ _ _ _ _ _ X1 HQ)) as (own2 & D2 & RS2 & X2 & N2).
    + intros d' j b Ob. apply (rx_que _ _ _ _ _ _ X1) in Ob as [Ob _]. eauto.
    + exists own2, D2. simpl. split; auto. split; [eapply rext_trans; eauto|].
      intros b d' [<-|Hd] Ob; [|exact (N2 b d' Hd Ob)].
      apply (rx_que _ _ _ _ _ _ X2) in Ob as [Ob _]. exact (N1 _ Ob).
Qed.

Lemma rall_spec x S n ds : (forall d, (d < n)%nat -> In d ds) ->
  forall ids c own D en, ids = skipn c (ord o) -> (c0 <= c)%nat ->
  RState x S own D en -> Q own D -> QB n own ->
  exists own' D', let en' := rall rt ds ids en in
    RState x S own' D' en' /\ rext own D en own' D' en' /\
    (forall d j b, own' b = OQue d j -> idx o j < N.of_nat c).
Proof using Wo rt_ok Q_rext.
  intros Hds. induction ids as [|i ids IH]; intros c own D en E Cc RS HQ Qb.
  - exists own, D. simpl. split; auto. split; [apply rext_refl|].
    intros d j b Ob. destruct RS as (rs & L & I & _). destruct (ri_que _ _ _ _ _ I _ _ _ Ob) as [Ij _].
    assert (length (skipn c (ord o)) = 0%nat) as Hl by (rewrite <- E; auto).
    rewrite skipn_length in Hl. pose proof (wfo_in o j Wo Ij). lia.
  - apply skipn_cons in E as [Hn E]. destruct (wfo_idx o Wo _ _ Hn) as [N0 Hi].
    assert (Ii : In i (ord o)) by (eapply nth_error_In; eauto).
    destruct (IH (Datatypes.S c) own D en E (le_S _ _ Cc) RS HQ Qb) as (own1 & D1 & RS1 & X1 & B1).
    unfold rall in *. cbn [rev]. rewrite fold_left_app. cbn [fold_left].
    set (en1 := fold_left _ (rev ids) en) in *.
    destruct (reduce_level_spec x S i Ii ltac:(rewrite Hi; lia) ds own1 D1 en1 RS1 (Q_rext _ _ _ _ _ _ X1 HQ)) as (own2 & D2 & RS2 & X2 & N2).
    + intros d j b Ob. apply B1 in Ob. lia.
    + exists own2, D2. split; auto. split; [eapply rext_trans; eauto|].
      intros d j b Ob. destruct (rx_que _ _ _ _ _ _ X2 _ _ _ Ob) as [Ob1 _].
      pose proof (B1 _ _ _ Ob1). destruct (N.eq_dec (idx o j) (N.of_nat c)) as [Ej|]; [|lia]. exfalso.
      assert (j = i).
      { eapply wfo_inj; eauto.
        - destruct RS1 as (rs & L & I & _). exact (proj1 (ri_que _ _ _ _ _ I _ _ _ Ob1)).
        - lia. }
      subst j. apply (N2 b d); auto. pose proof (rx_que _ _ _ _ _ _ X1 _ _ _ Ob1) as [Ob0 _].
      pose proof (Qb _ _ _ Ob0). auto.
Qed.
End Levels.

(** ** Clean-up *)

Definition unDon (own : N -> tag) (P : nat -> N -> bool) (a : N) : tag :=
  match own a with ODon d i => if P d i then OFree i else ODon d i | t => t end.

(** One table. *)
Lemma cleanup_acc own en d i :
  EAcc own en ->
  EAcc (unDon own (fun d' i' => Nat.eqb d' d && (i' =? i))) (cleanup en d i).
Proof.
  intros A. set (P := fun d' i' => Nat.eqb d' d && (i' =? i)).
  assert (HP : forall d' i', P d' i' = true <-> d' = d /\ i' = i).
  { intros. unfold P. rewrite andb_true_iff, Nat.eqb_eq, N.eqb_eq. tauto. }
  assert (Dd : forall t a, (forall e j, t <> ODon e j) -> (forall j, t <> OFree j) -> unDon own P a = t <-> own a = t).
  { intros t a H1 H2. unfold unDon. destruct (own a) eqn:Eo; try tauto.
    destruct (P d0 i0); split; intros Hc; exfalso; try (apply (H1 d0 i0); congruence); try (apply (H2 i0); congruence). }
  destruct A as [I ND R L]. constructor; auto.
  - intros t a Hl. destruct t as [| |j|j|e j|e j|q]; try discriminate Hl; simpl.
    + rewrite Dd by discriminate. apply (I (ONode j)); auto.
    + rewrite upd_spec. pose proof (I (OFree j) a eq_refl) as HF. simpl in HF.
      destruct (N.eqb_spec j i) as [->|Nj].
      * rewrite in_app_iff, HF. pose proof (I (ODon d i) a eq_refl) as HD. simpl in HD. rewrite HD.
        unfold unDon. split.
        -- intros [E|E]; rewrite E; auto. replace (P d i) with true by (symmetry; apply HP; auto). auto.
        -- destruct (own a) eqn:Eo; try (right; congruence); try discriminate.
           destruct (P d0 i0) eqn:Pd; [|discriminate]. apply HP in Pd as [-> ->]. auto.
      * rewrite HF. unfold unDon. split; [intros ->; auto|].
        destruct (own a) eqn:Eo; auto. destruct (P d0 i0) eqn:Pd; [|discriminate]. apply HP in Pd as [-> ->]. congruence.
    + rewrite Dd by discriminate. apply (I (OQue e j)); auto.
    + unfold upd2. pose proof (I (ODon e j) a eq_refl) as HD. simpl in HD.
      destruct (Nat.eqb e d && (j =? i)) eqn:Pd.
      * split; [intros []|]. unfold unDon. destruct (own a); try discriminate.
        destruct (P d0 i0) eqn:Pe; [discriminate|]. intros [= -> ->]. unfold P in Pe. congruence.
      * rewrite HD. unfold unDon. split.
        -- intros ->. unfold P. now rewrite Pd.
        -- destruct (own a); try discriminate. destruct (P d0 i0); [discriminate|auto].
  - intros t Hl. destruct t as [| |j|j|e j|e j|q]; try discriminate Hl; simpl.
    + apply (ND (ONode j)); auto.
    + rewrite upd_spec. destruct (N.eqb_spec j i) as [->|Nj]; [|apply (ND (OFree j)); auto].
      pose proof (ND (OFree i) eq_refl) as N1. pose proof (ND (ODon d i) eq_refl) as N2. simpl in N1, N2.
      assert (forall a, In a (don en d i) -> ~ In a (fl (st en) i)) as Dj.
      { intros a I1 I2. apply (I (ODon d i) a eq_refl) in I1. apply (I (OFree i) a eq_refl) in I2. congruence. }
      revert N2 Dj. generalize (don en d i). induction l as [|b l IHl]; simpl; intros Nl Dj; auto.
      inversion Nl; subst. constructor; auto. rewrite in_app_iff. intros [?|?]; auto. eapply Dj; eauto.
    + apply (ND (OQue e j)); auto.
    + unfold upd2. destruct (Nat.eqb e d && (j =? i)); [constructor|apply (ND (ODon e j)); auto].
  - intros a Ha. apply R. unfold unDon in Ha. intros E. rewrite E in Ha. auto.
Qed.

Definition inP (depths : list nat) (ids : list N) (d : nat) (i : N) : bool :=
  existsb (Nat.eqb d) depths && existsb (N.eqb i) ids.

Lemma unDon_ext own P Q a : (forall d i, P d i = Q d i) -> unDon own P a = unDon own Q a.
Proof. intros H. unfold unDon. destruct (own a); auto. now rewrite H. Qed.
Lemma unDon_comp own P Q a : unDon (unDon own P) Q a = unDon own (fun d i => P d i || Q d i) a.
Proof.
  unfold unDon. destruct (own a) as [| | | |?|d i|]; auto. destruct (P d i); simpl; auto.
Qed.

Lemma EAcc_ext own own' en : (forall a, own' a = own a) -> EAcc own en -> EAcc own' en.
Proof.
  intros H [I ND R L]. constructor; auto.
  - intros t a Hl. rewrite H. auto.
  - intros a. rewrite H. auto.
Qed.

Lemma cleanup_level_acc i : forall depths own en, EAcc own en ->
  EAcc (unDon own (fun d' i' => existsb (Nat.eqb d') depths && (i' =? i)))
       (fold_left (fun en d => cleanup en d i) depths en).
Proof.
  induction depths as [|d ds IH]; intros own en A; simpl.
  - eapply EAcc_ext; [|exact A]. intros a. unfold unDon. destruct (own a); auto.
  - eapply EAcc_ext; [|apply IH, cleanup_acc, A]. intros a. rewrite unDon_comp. apply unDon_ext.
    intros d' i'. destruct (Nat.eqb d' d), (i' =? i), (existsb (Nat.eqb d') ds); reflexivity.
Qed.

Lemma cleanup_all_acc depths : forall ids own en, EAcc own en ->
  EAcc (unDon own (inP depths ids)) (cleanup_all depths ids en).
Proof.
  unfold cleanup_all. induction ids as [|i ids IH]; intros own en A; simpl.
  - eapply EAcc_ext; [|exact A]. intros a. unfold unDon, inP. destruct (own a); auto. now rewrite andb_false_r.
  - eapply EAcc_ext; [|apply IH, cleanup_level_acc, A]. intros a. rewrite unDon_comp. apply unDon_ext.
    intros d' i'. unfold inP. simpl. destruct (existsb (Nat.eqb d') depths); simpl; auto.
Qed.

Lemma cleanup_all_st depths : forall ids en,
  mem (st (cleanup_all depths ids en)) = mem (st en) /\ ut (st (cleanup_all depths ids en)) = ut (st en) /\
  nn (st (cleanup_all depths ids en)) = nn (st en) /\ que (cleanup_all depths ids en) = que en.
Proof.
  assert (L : forall i ds en, let en' := fold_left (fun en d => cleanup en d i) ds en in
    mem (st en') = mem (st en) /\ ut (st en') = ut (st en) /\ nn (st en') = nn (st en) /\ que en' = que en).
  { intros i. induction ds as [|d ds IH]; intros en; simpl; auto. destruct (IH (cleanup en d i)) as (A1 & A2 & A3 & A4).
    rewrite A1, A2, A3, A4. simpl. auto. }
  unfold cleanup_all. induction ids as [|i ids IH]; intros en; simpl; auto.
  destruct (IH (fold_left (fun en d => cleanup en d i) depths en)) as (A1 & A2 & A3 & A4).
  destruct (L i depths en) as (B1 & B2 & B3 & B4). rewrite A1, A2, A3, A4. auto.
Qed.

(** ** Between operations *)

(** Engine at rest: no requests, no forwarded nodes. *)
Record EInv (own : N -> tag) (D : den) (en : eng) : Prop := {
  ei_acc : EAcc own en;
  ei_swf : SWF o (st en);
  ei_dok : Dok D (st en);
  ei_que : forall d i, que en d i = [];
  ei_don : forall d i, don en d i = [];
  ei_ind : forall p a, own p <> OInd a
}.

(** What a whole operation leaves alone. *)
Record oext (own : N -> tag) (D : den) (en : eng) (own' : N -> tag) (D' : den) (en' : eng) : Prop := {
  ox_node : forall i a, own a = ONode i -> own' a = ONode i /\ sameTE (mem (st en)) (mem (st en')) a;
  ox_x : forall a, own a = OX -> own' a = OX /\ mem (st en') a = mem (st en) a;
  ox_D : forall a rho, a = ONE \/ (exists i, own a = ONode i) -> D' a rho = D a rho;
  ox_user : forall a, own' a = ONode 0 -> own a = ONode 0;
  ox_ut0 : ut (st en') 0 = ut (st en) 0;
  ox_low : forall a, a <= 2 -> sameTE (mem (st en)) (mem (st en')) a
}.

Lemma oext_refl own D en : oext own D en own D en.
Proof. constructor; auto; intros; split; auto; split; auto. Qed.
Lemma oext_trans own D en own1 D1 en1 own2 D2 en2 :
  oext own D en own1 D1 en1 -> oext own1 D1 en1 own2 D2 en2 -> oext own D en own2 D2 en2.
Proof.
  intros X Y. constructor.
  - intros i a H. destruct (ox_node _ _ _ _ _ _ X i a H) as [H1 [T1 E1]].
    destruct (ox_node _ _ _ _ _ _ Y i a H1) as [H2 [T2 E2]]. split; auto. split; congruence.
  - intros a H. destruct (ox_x _ _ _ _ _ _ X a H) as [H1 E1].
    destruct (ox_x _ _ _ _ _ _ Y a H1) as [H2 E2]. split; congruence.
  - intros a rho H. rewrite (ox_D _ _ _ _ _ _ Y).
    + apply (ox_D _ _ _ _ _ _ X); auto.
    + destruct H as [H|[i H]]; auto. right. exists i. eapply (ox_node _ _ _ _ _ _ X); auto.
  - intros a H. eapply (ox_user _ _ _ _ _ _ X). eapply (ox_user _ _ _ _ _ _ Y); auto.
  - rewrite (ox_ut0 _ _ _ _ _ _ Y). apply (ox_ut0 _ _ _ _ _ _ X).
  - intros a La. destruct (ox_low _ _ _ _ _ _ X a La), (ox_low _ _ _ _ _ _ Y a La). split; congruence.
Qed.

(** Requests only, from the apply phase to the reduce phase. *)
Lemma apply_to_reduce Pend own D S en L x :
  AInv o k Pend 0 own D S en -> RCq (kun k) own S idn (mem (st en)) L x ->
  (forall d j b, own b = OQue d j -> In b S) ->
  (forall d j b, own b = OQue d j -> x b = 0) ->
  RState x S own D en.
Proof.
  intros A R HS Hx. exists idn, L. pose proof (ai_acc _ _ _ _ _ _ _ _ A) as AC.
  assert (ND : forall d i a, own a <> ODon d i).
  { intros d i a Oa. apply (acc_don _ _ _ _ _ AC) in Oa. rewrite (ai_don _ _ _ _ _ _ _ _ A) in Oa. destruct Oa. }
  assert (V : forall q e, vedge (lvl own q) e -> vedge (RL own) e).
  { intros q e. apply vedge_mono. intros i a _ [H|(d & _ & H)]; [left|right; left]; eauto. }
  split; [|split; [exact R|split; [|split; [eauto|split; [eauto|]]]]].
  - constructor; auto.
    + exact (ai_swf _ _ _ _ _ _ _ _ A).
    + exact (ai_dok _ _ _ _ _ _ _ _ A).
    + intros d i a Oa. destruct (ai_que _ _ _ _ _ _ _ _ A _ _ _ Oa) as [Ii Hst]. split; auto.
      assert (a <> 0) as Na by (assert (2 < a) by (apply (acc_rng _ _ _ AC); congruence); lia).
      destruct (Hst Na) as [[_ Ap]|[Hn _]]; [|exfalso; apply Hn; eapply HS; eauto].
      unfold Applied in Ap. unfold RApplied. destruct (kun k d i).
      { destruct Ap as [B1 B2 B3]. constructor; eauto. }
      destruct Ap as [B1 B2 B3 B4 B5].
      constructor; eauto.
      * intros Nt. destruct (B1 Nt). split; eauto.
      * intros Nt. destruct (B2 Nt). split; eauto.
    + intros d i a Oa. destruct (ND _ _ _ Oa).
    + intros p a Op. destruct (ai_ind _ _ _ _ _ _ _ _ A p a Op) as [Hn (d & i & E)]. apply Hn. eauto.
  - split; [|reflexivity]. intros a d i Oa. destruct (ND _ _ _ Oa).
  - intros b d j Ob. destruct (ND _ _ _ Ob).
Qed.

(** After the clean-up the engine is at rest again. *)
Lemma cleanup_spec x S own D en ds ids :
  RState x S own D en -> (forall d j b, own b <> OQue d j) ->
  (forall d j b, own b = ODon d j -> In d ds /\ In j ids) ->
  let own' := unDon own (inP ds ids) in
  let en' := cleanup_all ds ids en in
  EInv own' D en' /\ (exists L, RC own' [] idn (mem (st en')) L x) /\
  mem (st en') = mem (st en) /\ ut (st en') = ut (st en) /\ nn (st en') = nn (st en) /\
  (forall a t, (forall d j, t <> ODon d j) -> (forall j, t <> OFree j) -> (own' a = t <-> own a = t)).
Proof.
  intros (rs & L & I & R & RO & HS & Hx & Hd) NQ ND own' en'.
  pose proof (ri_acc _ _ _ _ _ I) as A.
  pose proof (cleanup_all_acc ds ids own en A) as A'. fold own' en' in A'.
  destruct (cleanup_all_st ds ids en) as (Em & Eu & En & Eq). fold en' in Em, Eu, En, Eq.
  assert (In1 : forall d j b, own b = ODon d j -> inP ds ids d j = true).
  { intros d j b Ob. destruct (ND _ _ _ Ob) as [Ld Ij]. unfold inP. apply andb_true_iff. split; apply existsb_exists.
    - exists d. split; auto. apply Nat.eqb_refl.
    - exists j. split; auto. apply N.eqb_refl. }
  assert (Ot : forall a t, (forall d j, t <> ODon d j) -> (forall j, t <> OFree j) -> (own' a = t <-> own a = t)).
  { intros a t H1 H2. unfold own', unDon. destruct (own a) eqn:Eo; try tauto.
    rewrite (In1 _ _ _ Eo). split; intros Hc; exfalso; [apply (H2 i); congruence|apply (H1 d i); congruence]. }
  assert (NoD : forall d j b, own' b <> ODon d j).
  { intros d j b. unfold own', unDon. destruct (own b) eqn:Eo; try discriminate. rewrite (In1 _ _ _ Eo). discriminate. }
  assert (VN : forall i a, In a (ut (st en) i) -> (vedge (vnode own) (ct (mem (st en) a))) /\ (vedge (vnode own) (ce (mem (st en) a)))).
  { intros i a Ia. destruct (N.eq_dec i 0) as [->|Ni].
    - destruct (swf_user _ _ (ri_swf _ _ _ _ _ I) a Ia) as (V1 & V2 & _). split.
      + now apply (vnode_nodeR _ _ _ A).
      + rewrite V2. apply vedge_one.
    - pose proof (swf_node _ _ (ri_swf _ _ _ _ _ I) _ _ Ni Ia) as NO. split; apply (vnode_nodeR _ _ _ A); apply NO. }
  split; [|split; [|auto]].
  - constructor; auto.
    + eapply (SWF_frame o (st en)).
      * intros; now rewrite Eu.
      * intros; rewrite Em; split; auto.
      * rewrite Em; split; auto.
      * now rewrite Em.
      * exact (ri_swf _ _ _ _ _ I).
    + eapply (Dok_frame o D D (st en)).
      * exact (ri_swf _ _ _ _ _ I).
      * intros; now rewrite Eu.
      * intros; rewrite Em; split; auto.
      * auto.
      * exact (ri_dok _ _ _ _ _ I).
    + intros d i. rewrite Eq. destruct (que en d i) as [|b l] eqn:Q; auto. exfalso. apply (NQ d i b).
      apply (acc_que _ _ _ _ _ A). rewrite Q. now left.
    + intros d i. destruct (don en' d i) as [|b l] eqn:Q; auto. exfalso. apply (NoD d i b).
      apply (acc_don _ _ _ _ _ A'). rewrite Q. now left.
    + intros p a Op. apply Ot in Op; try discriminate. exact (ri_ind _ _ _ _ _ I _ _ Op).
  - exists L. rewrite Em. destruct R as [K1 K2 K3 K4 K5 K6].
    assert (LN : forall a, In a L -> exists i, own a = ONode i).
    { intros a Ia. apply K2 in Ia as [|(d & i & E & _)]; auto. destruct (NQ _ _ _ E). }
    assert (Cc : forall b, counted own' b <-> counted own b).
    { intros b. unfold counted. split; intros [(i & E)|(d & i & E)].
      - left. exists i. apply Ot in E; auto; discriminate.
      - right. exists d, i. apply Ot in E; auto; discriminate.
      - left. exists i. apply Ot; auto; discriminate.
      - right. exists d, i. apply Ot; auto; discriminate. }
    assert (TL : forall a, In a L -> (eptr (ct (mem (st en) a)) <= NUL \/ counted own (eptr (ct (mem (st en) a)))) /\
                                  (eptr (ce (mem (st en) a)) <= NUL \/ counted own (eptr (ce (mem (st en) a))))).
    { intros a Ia. destruct (LN a Ia) as [i E]. apply (acc_node _ _ _ _ A) in E. destruct (VN i a E) as [V1 V2].
      split; [destruct V1 as [[_ P]|[_ P]]|destruct V2 as [[_ P]|[_ P]]]; try (left; rewrite P; auto; fail); right; left; eauto. }
    assert (Oi : forall b, occ idn (mem (st en)) L b = occ rs (mem (st en)) L b).
    { intros b. apply occ_rs_ext. intros c Ic. destruct (TL c Ic) as [T1 T2]. unfold idn.
      split; symmetry; apply RO; auto. }
    constructor; auto.
    + intros a. rewrite K2. split.
      * intros [(i & E)|(d & i & E & _)]; [|destruct (NQ _ _ _ E)]. left. exists i. apply Ot; auto; discriminate.
      * intros [(i & E)|(d & i & E & [] & _)]. left. exists i. apply Ot in E; auto; discriminate.
    + intros a Ia. destruct (TL a Ia) as [T1 T2]. split; [destruct T1 as [T|T]|destruct T2 as [T|T]];
      (left; exact T) || (right; left; apply Cc; exact T).
    + intros b Hb. rewrite Oi. apply K4, Cc, Hb.
    + intros b Hb. apply K5, Cc, Hb.
    + intros b Lb Fb. destruct (own b) eqn:Eo; try (apply K6; auto; rewrite Eo; unfold own', unDon in Fb; rewrite Eo in Fb; exact Fb).
      eapply Hd; eauto.
Qed.

Lemma fwd_end own D en rs e :
  RInv o k own D en -> rs_ok own (mem (st en)) rs -> vedge (RL own) e -> (forall d j b, own b <> OQue d j) ->
  vedge (vnode own) (fwd (mem (st en)) e) /\ forall rho, dv D (fwd (mem (st en)) e) rho = dv D e rho.
Proof.
  intros I [Rd Rc] V NQ. pose proof (ri_acc _ _ _ _ _ I) as A.
  assert (Node : vedge (vnode own) e -> fwd (mem (st en)) e = e).
  { intros Vn. eapply fwd_valid; [exact (ri_swf _ _ _ _ _ I)|]. now apply (vnode_nodeR _ _ _ A). }
  destruct V as [[E P]|[N0 [H|[(d & H)|(d & H)]]]].
  - assert (Vn : vedge (vnode own) e) by (left; auto). rewrite (Node Vn). auto.
  - assert (Vn : vedge (vnode own) e) by (right; auto). rewrite (Node Vn). auto.
  - destruct (NQ _ _ _ H).
  - destruct (ri_don _ _ _ _ _ I _ _ _ H) as [_ [F1 F2 F3 F4]].
    unfold fwd. rewrite F1. simpl. split.
    + now apply vedge_ephase.
    + intros rho. rewrite dv_ephase. unfold dv at 2. now rewrite F4.
Qed.

Lemma in_skipn c j : In j (ord o) -> N.of_nat c <= idx o j -> In j (skipn c (ord o)).
Proof.
  intros Ij Lj. pose proof (wfo_nth o j Wo Ij) as Hn. apply nth_error_In with (n := (N.to_nat (idx o j) - c)%nat).
  rewrite <- (firstn_skipn c (ord o)) in Hn.
  assert (Lk : (c <= length (ord o))%nat) by (pose proof (wfo_in o j Wo Ij); lia).
  rewrite nth_error_app2 in Hn; rewrite firstn_length in *; [|lia].
  replace (Nat.min c (length (ord o))) with c in Hn by lia. exact Hn.
Qed.

(** Apply and reduce sweeps from level [c] down, for any correct expansion and reduction. *)
Section Core.
Variable Pend : (N -> tag) -> den -> eng -> nat -> N -> N -> Prop.
Hypothesis Pend_ext : forall H own D en own' D' en' d i a,
  EAcc own en -> EAcc own' en' -> SWF o (st en) ->
  ext H own D en own' D' en' -> own a = OQue d i -> ~ H a ->
  (forall p, own p = OInd a -> ~ H p) -> Pend own D en d i a -> Pend own' D' en' d i a.
Variable Need : nat -> nat -> Prop.
Variable tstep : nat -> N -> eng -> eng.
Hypothesis tstep_ok : forall d i, table_ok o k Pend Need (tstep d i) d i.
Variable rt : nat -> N -> eng -> eng.
Variable Q : (N -> tag) -> den -> Prop.
Hypothesis Q_rext : forall own D en own' D' en', rext own D en own' D' en' -> Q own D -> Q own' D'.
Hypothesis Q_ext : forall H own D en own' D' en', EAcc own en -> ext H own D en own' D' en' -> Q own D -> Q own' D'.
Variable c0 : nat.
Hypothesis rt_ok : forall d i, In i (ord o) -> N.of_nat c0 <= idx o i -> rtable_okQ Q (rt d i) d i.
Variables (n : nat) (ds rds : list nat).
Hypothesis ds_ok : okds Need [] ds.
Hypothesis ds_in : forall d, In d ds <-> (d < n)%nat.
Hypothesis rds_in : forall d, (d < n)%nat -> In d rds.
Hypothesis k_lv : forall d, (d < n)%nat -> (klv k d <= n)%nat.

Lemma core_genQ c own D en L x : (c0 <= c)%nat ->
  AInv o k Pend 0 own D [] en -> RC own [] idn (mem (st en)) L x -> Q own D ->
  (forall d j b, own b = OQue d j -> N.of_nat c <= idx o j) -> QB n own ->
  (forall d j b, own b = OQue d j -> x b = 0) -> (forall p a, own p = OInd a -> x p = 0) ->
  let ids := skipn c (ord o) in
  let en3 := rall rt rds ids (sweep tstep ds ids en) in
  exists own' D' S', RState x S' own' D' en3 /\
    (forall d j b, own' b <> OQue d j) /\
    (forall d j b, own' b = ODon d j -> (d < n)%nat /\ In j ids) /\
    oext own D en own' D' en3 /\
    (forall r, vedge (lvl own n) r -> vedge (vnode own') (fwd (mem (st en3)) r) /\
       forall rho, dv D' (fwd (mem (st en3)) r) rho = dv D r rho).
Proof using Wo Pend_ext tstep_ok Q_rext Q_ext rt_ok ds_ok ds_in rds_in k_lv.
  intros Cc A R HQ Hk Qb Hx Hy ids. cbv zeta. apply (RC_rest _ (kun k)) in R.
  pose proof (ai_acc _ _ _ _ _ _ _ _ A) as AC.
  assert (ND : forall d i a, own a <> ODon d i).
  { intros d i a Oa. apply (acc_don _ _ _ _ _ AC) in Oa. rewrite (ai_don _ _ _ _ _ _ _ _ A) in Oa. destruct Oa. }
  destruct (sweep_spec o Wo k Pend Need tstep tstep_ok n ds ds_ok ds_in k_lv ids c own D [] en L x eq_refl A R)
    as (own1 & D1 & S1 & L1 & A1 & R1 & X1 & HS1 & Q1 & K1); auto.
  { intros d j b Ob. pose proof (Hk _ _ _ Ob). simpl. lia. }
  set (en2 := sweep tstep ds ids en) in *.
  pose proof (ai_acc _ _ _ _ _ _ _ _ A1) as AC1.
  assert (Own1 : forall a, ~ freeish (own a) -> (forall r, own a <> OInd r) -> own1 a = own a).
  { intros a Fa Ia. apply (x_own _ _ _ _ _ _ _ X1); auto. intros r Hr. destruct (Ia r Hr). }
  assert (Hx1 : forall d j b, own1 b = OQue d j -> x b = 0).
  { intros d j b Ob. assert (2 < b) by (apply (acc_rng _ _ _ AC1); congruence).
    destruct (freeish_dec (own b)) as [Fb|Fb]; [eapply (rc_x _ _ _ _ _ _ R); eauto|].
    assert ((exists q, own b = OInd q) \/ (forall q, own b <> OInd q)) as [[q E]|Ni].
    { destruct (own b); try (right; discriminate). left; eauto. }
    - eauto.
    - rewrite Own1 in Ob by auto. eauto. }
  assert (RS : RState x S1 own1 D1 en2) by (eapply apply_to_reduce; eauto).
  destruct (rall_spec rt Q Q_rext c0 rt_ok x S1 n rds rds_in ids c own1 D1 en2 eq_refl Cc RS (Q_ext _ _ _ _ _ _ _ AC X1 HQ) Q1) as (own2 & D2 & RS2 & X2 & B2).
  set (en3 := rall rt rds ids en2) in *.
  assert (Hk1 : forall d j b, own1 b = OQue d j -> N.of_nat c <= idx o j).
  { intros d j b Ob. destruct (K1 _ _ _ Ob) as [Ob'|]; [eauto|lia]. }
  assert (NQ : forall d j b, own2 b <> OQue d j).
  { intros d j b Ob. pose proof (B2 _ _ _ Ob). destruct (rx_que _ _ _ _ _ _ X2 _ _ _ Ob) as [Ob1 _].
    pose proof (Hk1 _ _ _ Ob1). lia. }
  exists own2, D2, S1. split; auto. split; auto. split; [|split].
  - intros d j b Ob. apply (rx_donq _ _ _ _ _ _ X2) in Ob as [Ob|Ob].
    + apply (acc_don _ _ _ _ _ AC1) in Ob. rewrite (ai_don _ _ _ _ _ _ _ _ A1) in Ob. destruct Ob.
    + split; [eapply Q1; eauto|]. apply in_skipn; [|eauto].
      destruct (ai_que _ _ _ _ _ _ _ _ A1 _ _ _ Ob); auto.
  - constructor.
    + intros i a Oa. assert (E1 : own1 a = ONode i) by (rewrite Own1; rewrite Oa; auto; discriminate).
      destruct (rx_node _ _ _ _ _ _ X2 _ _ E1) as [E2 [T2 F2]]. split; auto.
      destruct (x_mem _ _ _ _ _ _ _ X1 a) as [T1 F1]; [right; rewrite Oa; auto|rewrite Oa; simpl; tauto|].
      split; congruence.
    + intros a Oa. assert (E1 : own1 a = OX) by (rewrite Own1; rewrite Oa; auto; discriminate).
      destruct (rx_x _ _ _ _ _ _ X2 _ E1) as [E2 M2]. split; auto. rewrite M2. apply (x_memX _ _ _ _ _ _ _ X1); auto.
    + intros a rho H. rewrite (rx_D _ _ _ _ _ _ X2).
      * destruct H as [->|[i Oa]]; apply (x_D _ _ _ _ _ _ _ X1).
        -- left; unfold ONE; lia.
        -- rewrite (acc_one_none _ _ AC). discriminate.
        -- right; rewrite Oa; auto.
        -- rewrite Oa; discriminate.
      * destruct H as [->|[i Oa]]; auto. right. exists i. left. rewrite Own1; rewrite Oa; auto; discriminate.
    + intros a Oa. apply (rx_user _ _ _ _ _ _ X2) in Oa. apply (acc_node _ _ _ _ AC1) in Oa.
      rewrite (x_ut _ _ _ _ _ _ _ X1) in Oa. now apply (acc_node _ _ _ _ AC) in Oa.
    + rewrite (rx_ut0 _ _ _ _ _ _ X2). apply (x_ut _ _ _ _ _ _ _ X1).
    + intros a La. destruct (rx_low _ _ _ _ _ _ X2 a La) as [T2 F2].
      destruct (x_mem _ _ _ _ _ _ _ X1 a) as [T1 F1]; [left; auto|rewrite (acc_low _ _ _ _ AC La); simpl; tauto|]. split; congruence.
  - intros r Vr. destruct RS2 as (rs2 & L2 & I2 & R2 & RO2 & _).
    assert (V1 : vedge (lvl own1 n) r) by exact (ext_vedge _ _ _ _ _ _ _ _ _ X1 Vr).
    assert (V2 : vedge (RL own1) r).
    { revert V1. apply vedge_mono. intros i a _ [H|(d & _ & H)]; [left|right; left]; eauto. }
    pose proof (RL_vedge _ _ _ _ _ _ _ X2 V2) as V3.
    destruct (fwd_end own2 D2 en3 rs2 r I2 RO2 V3 NQ) as [F1 F2]. split; auto.
    intros rho. rewrite F2. rewrite (RL_dv _ _ _ _ _ _ _ rho X2 V2).
    exact (ext_dv _ _ _ _ _ _ _ _ _ _ X1 AC Vr).
Qed.

(** With the clean-up. *)
Lemma clean_genQ cds cids c own D en L x : (c0 <= c)%nat ->
  (forall d, (d < n)%nat -> In d cds) -> (forall j, In j (skipn c (ord o)) -> In j cids) ->
  AInv o k Pend 0 own D [] en -> RC own [] idn (mem (st en)) L x -> Q own D ->
  (forall d j b, own b = OQue d j -> N.of_nat c <= idx o j) -> QB n own ->
  (forall d j b, own b = OQue d j -> x b = 0) -> (forall p a, own p = OInd a -> x p = 0) ->
  let ids := skipn c (ord o) in
  let en3 := rall rt rds ids (sweep tstep ds ids en) in
  let en4 := cleanup_all cds cids en3 in
  exists own' D', EInv own' D' en4 /\ (exists L', RC own' [] idn (mem (st en4)) L' x) /\
    oext own D en own' D' en4 /\
    (forall r, vedge (lvl own n) r -> vedge (nodeR (st en4)) (fwd (mem (st en3)) r) /\
       forall rho, dv D' (fwd (mem (st en3)) r) rho = dv D r rho).
Proof using Wo Pend_ext tstep_ok Q_rext Q_ext rt_ok ds_ok ds_in rds_in k_lv.
  intros Cc Hcd Hci A R HQ Hk Qb Hx Hy ids en3 en4.
  destruct (core_genQ c own D en L x Cc A R HQ Hk Qb Hx Hy) as (own2 & D2 & S2 & RS & NQ & ND & X & F).
  fold ids in RS, ND, X, F. fold en3 in RS, X, F.
  destruct (cleanup_spec x S2 own2 D2 en3 cds cids RS NQ) as (I4 & (L4 & R4) & Em & Eu & En & Ot).
  { intros d j b Ob. destruct (ND _ _ _ Ob). auto. }
  fold en4 in I4, R4, Em, Eu, En.
  exists (unDon own2 (inP cds cids)), D2. split; auto. split; [eauto|]. split.
  - constructor.
    + intros i a Oa. destruct (ox_node _ _ _ _ _ _ X i a Oa) as [O2 T2]. split; [apply Ot; auto; discriminate|].
      rewrite Em. auto.
    + intros a Oa. destruct (ox_x _ _ _ _ _ _ X a Oa) as [O2 T2]. split; [apply Ot; auto; discriminate|].
      rewrite Em. auto.
    + apply (ox_D _ _ _ _ _ _ X).
    + intros a Oa. apply Ot in Oa; try discriminate. apply (ox_user _ _ _ _ _ _ X); auto.
    + rewrite Eu. apply (ox_ut0 _ _ _ _ _ _ X).
    + intros a La. rewrite Em. apply (ox_low _ _ _ _ _ _ X a La).
  - intros r Vr. destruct (F r Vr) as [F1 F2]. split; auto.
    destruct RS as (rs & L' & I & _). apply (vnode_nodeR _ _ _ (ri_acc _ _ _ _ _ I)) in F1.
    revert F1. apply vedge_mono. intros i a _. unfold nodeR. now rewrite Eu.
Qed.
End Core.

Section CoreAny.
Variable Pend : (N -> tag) -> den -> eng -> nat -> N -> N -> Prop.
Hypothesis Pend_ext : forall H own D en own' D' en' d i a,
  EAcc own en -> EAcc own' en' -> SWF o (st en) ->
  ext H own D en own' D' en' -> own a = OQue d i -> ~ H a ->
  (forall p, own p = OInd a -> ~ H p) -> Pend own D en d i a -> Pend own' D' en' d i a.
Variable Need : nat -> nat -> Prop.
Variable tstep : nat -> N -> eng -> eng.
Hypothesis tstep_ok : forall d i, table_ok o k Pend Need (tstep d i) d i.
Variable rt : nat -> N -> eng -> eng.
Hypothesis rt_ok : forall d i, In i (ord o) -> rtable_ok (rt d i) d i.
Variables (n : nat) (ds rds : list nat).
Hypothesis ds_ok : okds Need [] ds.
Hypothesis ds_in : forall d, In d ds <-> (d < n)%nat.
Hypothesis rds_in : forall d, (d < n)%nat -> In d rds.
Hypothesis k_lv : forall d, (d < n)%nat -> (klv k d <= n)%nat.

Lemma core_gen c own D en L x :
  AInv o k Pend 0 own D [] en -> RC own [] idn (mem (st en)) L x ->
  (forall d j b, own b = OQue d j -> N.of_nat c <= idx o j) -> QB n own ->
  (forall d j b, own b = OQue d j -> x b = 0) -> (forall p a, own p = OInd a -> x p = 0) ->
  let ids := skipn c (ord o) in
  let en3 := rall rt rds ids (sweep tstep ds ids en) in
  exists own' D' S', RState x S' own' D' en3 /\
    (forall d j b, own' b <> OQue d j) /\
    (forall d j b, own' b = ODon d j -> (d < n)%nat /\ In j ids) /\
    oext own D en own' D' en3 /\
    (forall r, vedge (lvl own n) r -> vedge (vnode own') (fwd (mem (st en3)) r) /\
       forall rho, dv D' (fwd (mem (st en3)) r) rho = dv D r rho).
Proof using Wo Pend_ext tstep_ok rt_ok ds_ok ds_in rds_in k_lv.
  intros A R. apply (core_genQ Pend Pend_ext Need tstep tstep_ok rt anyQ) with (c0 := 0%nat) (L := L); auto; try lia; try (intros d i Hi _; exact (rt_ok d i Hi)); intros; exact Logic.I.
Qed.

(** With the clean-up. *)
Lemma clean_gen cds cids c own D en L x :
  (forall d, (d < n)%nat -> In d cds) -> (forall j, In j (skipn c (ord o)) -> In j cids) ->
  AInv o k Pend 0 own D [] en -> RC own [] idn (mem (st en)) L x ->
  (forall d j b, own b = OQue d j -> N.of_nat c <= idx o j) -> QB n own ->
  (forall d j b, own b = OQue d j -> x b = 0) -> (forall p a, own p = OInd a -> x p = 0) ->
  let ids := skipn c (ord o) in
  let en3 := rall rt rds ids (sweep tstep ds ids en) in
  let en4 := cleanup_all cds cids en3 in
  exists own' D', EInv own' D' en4 /\ (exists L', RC own' [] idn (mem (st en4)) L' x) /\
    oext own D en own' D' en4 /\
    (forall r, vedge (lvl own n) r -> vedge (nodeR (st en4)) (fwd (mem (st en3)) r) /\
       forall rho, dv D' (fwd (mem (st en3)) r) rho = dv D r rho).
Proof using Wo Pend_ext tstep_ok rt_ok ds_ok ds_in rds_in k_lv.
  intros Hcd Hci A R. apply (clean_genQ Pend Pend_ext Need tstep tstep_ok rt anyQ) with (c0 := 0%nat) (L := L); auto; try lia; try (intros d i Hi _; exact (rt_ok d i Hi)); intros; exact Logic.I.
Qed.
End CoreAny.

Lemma ext_oext H own D en own' D' en' :
  EAcc own en -> EAcc own' en' -> ext H own D en own' D' en' -> oext own D en own' D' en'.
Proof.
  intros AC AC1 X1. constructor.
  - intros i a Oa. split; [rewrite (x_own _ _ _ _ _ _ _ X1); rewrite Oa; auto; discriminate|].
    apply (x_mem _ _ _ _ _ _ _ X1); [right; rewrite Oa; auto|rewrite Oa; simpl; tauto].
  - intros a Oa. split; [rewrite (x_own _ _ _ _ _ _ _ X1); rewrite Oa; auto; discriminate|].
    apply (x_memX _ _ _ _ _ _ _ X1); auto.
  - intros a rho [->|[i Oa]]; apply (x_D _ _ _ _ _ _ _ X1).
    + left; unfold ONE; lia.
    + rewrite (acc_one_none _ _ AC). discriminate.
    + right; rewrite Oa; auto.
    + rewrite Oa; discriminate.
  - intros a Oa. apply (acc_node _ _ _ _ AC1) in Oa.
    rewrite (x_ut _ _ _ _ _ _ _ X1) in Oa. now apply (acc_node _ _ _ _ AC) in Oa.
  - apply (x_ut _ _ _ _ _ _ _ X1).
  - intros a La. apply (x_mem _ _ _ _ _ _ _ X1); [left; auto|]. rewrite (acc_low _ _ _ _ AC La). simpl. tauto.
Qed.

Lemma EInv_AInv Pend own D en : EInv own D en -> AInv o k Pend 0 own D [] en.
Proof.
  intros [A W DK Q DN NI]. constructor; auto.
  - intros d i a Oa. apply (acc_que _ _ _ _ _ A) in Oa. rewrite Q in Oa. destruct Oa.
  - intros a [].
  - intros p a Op. destruct (NI _ _ Op).
Qed.
Lemma EInv_nq own D en d j b : EInv own D en -> own b <> OQue d j.
Proof. intros [A W DK Q DN NI] Ob. apply (acc_que _ _ _ _ _ A) in Ob. rewrite Q in Ob. destruct Ob. Qed.

End Sweeps.

(** The same for the pipelined operators. *)
Section Std.
Variable o : order.
Hypothesis Wo : wfo o.
Variable enum : memory -> list N -> list N.
Hypothesis enum_perm : forall m l, Permutation (enum m l) l.
Variable Pend : (N -> tag) -> den -> eng -> nat -> N -> N -> Prop.
Hypothesis Pend_ext : forall H own D en own' D' en' d i a,
  EAcc own en -> EAcc own' en' -> SWF o (st en) ->
  ext H own D en own' D' en' -> own a = OQue d i -> ~ H a ->
  (forall p, own p = OInd a -> ~ H p) -> Pend own D en d i a -> Pend own' D' en' d i a.
Variable step : nat -> N -> eng -> N -> eng.
Hypothesis step_spec : forall d, step_ok o kstd Pend below step d.

Lemma core_spec n k own D en L x :
  AInv o kstd Pend 0 own D [] en -> RC own [] idn (mem (st en)) L x ->
  (forall d j b, own b = OQue d j -> N.of_nat k <= idx o j) -> QB n own ->
  (forall d j b, own b = OQue d j -> x b = 0) -> (forall p a, own p = OInd a -> x p = 0) ->
  let ids := skipn k (ord o) in
  let en3 := reduce_all enum (seq 0 n) ids (sweep (stable step enum) (seq 0 n) ids en) in
  exists own' D' S', RState o kstd x S' own' D' en3 /\
    (forall d j b, own' b <> OQue d j) /\
    (forall d j b, own' b = ODon d j -> (d < n)%nat /\ In j ids) /\
    oext own D en own' D' en3 /\
    (forall r, vedge (lvl own n) r -> vedge (vnode own') (fwd (mem (st en3)) r) /\
       forall rho, dv D' (fwd (mem (st en3)) r) rho = dv D r rho).
Proof using Wo enum_perm Pend_ext step_spec.
  apply (core_gen o Wo kstd Pend Pend_ext below (stable step enum)) with
    (rt := fun d i en => reduce_table enum en d i).
  - intros d i. apply stable_ok; auto.
  - intros d i _. apply reduce_table_ok; auto.
  - apply okds_seq. intros e. simpl. lia.
  - intros d. rewrite in_seq. lia.
  - intros d. rewrite in_seq. lia.
  - intros d Hd. simpl. lia.
Qed.

Lemma core_clean n k own D en L x :
  AInv o kstd Pend 0 own D [] en -> RC own [] idn (mem (st en)) L x ->
  (forall d j b, own b = OQue d j -> N.of_nat k <= idx o j) -> QB n own ->
  (forall d j b, own b = OQue d j -> x b = 0) -> (forall p a, own p = OInd a -> x p = 0) ->
  let ids := skipn k (ord o) in
  let en3 := reduce_all enum (seq 0 n) ids (sweep (stable step enum) (seq 0 n) ids en) in
  let en4 := cleanup_all (seq 0 n) ids en3 in
  exists own' D', EInv o own' D' en4 /\ (exists L', RC own' [] idn (mem (st en4)) L' x) /\
    oext own D en own' D' en4 /\
    (forall r, vedge (lvl own n) r -> vedge (nodeR (st en4)) (fwd (mem (st en3)) r) /\
       forall rho, dv D' (fwd (mem (st en3)) r) rho = dv D r rho).
Proof using Wo enum_perm Pend_ext step_spec.
  apply (clean_gen o Wo kstd Pend Pend_ext below (stable step enum)) with
    (rt := fun d i en => reduce_table enum en d i); auto.
  - intros d i. apply stable_ok; auto.
  - intros d i _. apply reduce_table_ok; auto.
  - apply okds_seq. intros e. simpl. lia.
  - intros d. rewrite in_seq. lia.
  - intros d. rewrite in_seq. lia.
  - intros d. rewrite in_seq. lia.
Qed.
End Std.
