(** * Sizes and profiles: the marking algorithms count every node once. *)
From Coq Require Import Permutation Sorted.
From Verif Require Import Base BFModel ITEModel MgrModel ApiModel StoreInv Own EngInv ApplyProof BinopProof ReduceProof
  EngineProof OpProof MultiProof QProof GCProof VarProof MInv ApiProof ApiOps ApiStruct GraphModel GraphProof.
Open Scope N_scope.

Definition bitpos (x : edge) : N := if eneg x then 1 else 0.
Definition has (mk : marks) (x : edge) : bool := N.testbit (mk (eptr x)) (bitpos x).

Lemma land_sign k x : (N.land k (signbit x) =? 0) = negb (N.testbit k (bitpos x)).
Proof. unfold signbit, bitpos. destruct (eneg x); destruct k as [|[[?|?|]|[?|?|]|]]; reflexivity. Qed.
Lemma lor_sign k x b : N.testbit (N.lor k (signbit x)) b = N.testbit k b || (b =? bitpos x).
Proof.
  rewrite N.lor_spec. f_equal. unfold signbit, bitpos.
  destruct (eneg x); [change 2 with (2 ^ 1)|change 1 with (2 ^ 0) at 1]; rewrite N.pow2_bits_eqb; apply N.eqb_sym.
Qed.
Lemma bitpos_inj x y : bitpos x = bitpos y -> eneg x = eneg y.
Proof. unfold bitpos. destruct (eneg x), (eneg y); auto; discriminate. Qed.

Definition sumN (l : list N) : N := fold_right N.add 0 l.
Lemma sumN_app a b : sumN (a ++ b) = sumN a + sumN b.
Proof. induction a; simpl; [auto|]. rewrite IHa. lia. Qed.

Lemma nodup_app {A} (a b : list A) : NoDup a -> NoDup b -> (forall x, In x a -> ~ In x b) -> NoDup (a ++ b).
Proof.
  induction a as [|x a IH]; simpl; intros Na Nb H; auto. inversion Na; subst. constructor.
  - rewrite in_app_iff. intros [|]; [auto|]. apply (H x); auto.
  - apply IH; auto.
Qed.

Section Marks.
Variables (o : order) (s : store).
Hypothesis Wo : wfo o.
Hypothesis W : SWF o s.
Let m := mem s.
Notation V := (vedge (nodeR s)).

(** Edges that agree in address and sign are equal. *)
Lemma edge_eq x y : V x -> V y -> eptr x = eptr y -> eneg x = eneg y -> x = y.
Proof. intros Vx Vy P E. apply (eeq_valid o s); auto. apply eeq_true. auto. Qed.

Definition closed (mk : marks) : Prop :=
  forall x, V x -> isconst x = false -> has mk x = true -> has mk (thenof m x) = true /\ has mk (elseof m x) = true.

Lemma mark_spec fuel : forall mk f, V f -> (rank o f < fuel)%nat ->
  exists mk', mark_bdd fuel m mk f = Some mk' /\
    (forall p b, N.testbit (mk p) b = true -> N.testbit (mk' p) b = true) /\
    has mk' f = true /\
    (forall p b, N.testbit (mk' p) b = true -> N.testbit (mk p) b = true \/
       exists x, sub m f x /\ eptr x = p /\ bitpos x = b /\
         (isconst x = false -> has mk' (thenof m x) = true /\ has mk' (elseof m x) = true)).
Proof.
  induction fuel as [|fuel IH]; intros mk f Vf L; [lia|]. simpl. rewrite land_sign, negb_involutive.
  destruct (N.testbit (mk (eptr f)) (bitpos f)) eqn:E.
  { exists mk. split; auto. }
  set (mk1 := upd mk (eptr f) (N.lor (mk (eptr f)) (signbit f))).
  assert (M1 : forall p b, N.testbit (mk1 p) b = N.testbit (mk p) b || ((p =? eptr f) && (b =? bitpos f))).
  { intros p b. unfold mk1, upd. destruct (N.eqb_spec p (eptr f)) as [->|]; simpl; [apply lor_sign|]. now rewrite orb_false_r. }
  assert (H1 : has mk1 f = true) by (unfold has; rewrite M1, !N.eqb_refl; apply orb_true_r).
  destruct (isconst f) eqn:C.
  { exists mk1. split; auto. split; [intros p b H; rewrite M1, H; auto|]. split; auto.
    intros p b H. rewrite M1 in H. apply orb_true_iff in H as [H|H]; auto. right.
    apply andb_true_iff in H as [A B]. apply N.eqb_eq in A, B. subst. exists f. do 3 (split; [constructor|]). congruence. }
  destruct (node_split o s Wo W f Vf C) as (N0 & I1 & I2 & V1 & V2 & G1 & G2 & R1 & R2). fold m in V1, V2, R1, R2.
  destruct (IH mk1 (thenof m f)) as (mk2 & -> & A1 & A2 & A3); auto; [lia|].
  destruct (IH mk2 (elseof m f)) as (mk3 & -> & B1 & B2 & B3); auto; [lia|].
  exists mk3. split; auto.
  assert (Mono : forall x, has mk2 x = true -> has mk3 x = true) by (intros x; apply B1).
  split; [intros p b H; apply B1, A1; rewrite M1, H; auto|]. split; [apply B1, A1, H1|].
  intros p b H. destruct (B3 p b H) as [H2|(x & S & P & Q & X)].
  2:{ right. exists x. split; [|auto]. eapply sub_trans; [|eauto]. apply sub_else; [constructor|auto]. }
  destruct (A3 p b H2) as [H3|(x & S & P & Q & X)].
  2:{ right. exists x. split; [|split; [auto|split; [auto|]]].
      - eapply sub_trans; [|eauto]. apply sub_then; [constructor|auto].
      - intros Cx. destruct (X Cx). auto. }
  rewrite M1 in H3. apply orb_true_iff in H3 as [H3|H3]; auto. right.
  apply andb_true_iff in H3 as [A B]. apply N.eqb_eq in A, B. subst. exists f. do 3 (split; [constructor|]). auto.
Qed.

Definition below (fs : list edge) (x : edge) : Prop := exists f, In f fs /\ sub m f x.
Lemma below_V fs x : (forall f, In f fs -> V f) -> below fs x -> V x.
Proof. intros H (f & I & S). eapply (sub_V o s); eauto. Qed.
Lemma below_then fs x : below fs x -> isconst x = false -> below fs (thenof m x).
Proof. intros (f & I & S) C. exists f. split; auto. now constructor. Qed.
Lemma below_else fs x : below fs x -> isconst x = false -> below fs (elseof m x).
Proof. intros (f & I & S) C. exists f. split; auto. now constructor. Qed.

Lemma mark_all_spec fs : forall mk, (forall f, In f fs -> V f) -> closed mk ->
  exists mk', mark_all (depth o) m mk fs = Some mk' /\ closed mk' /\
    (forall p b, N.testbit (mk p) b = true -> N.testbit (mk' p) b = true) /\
    (forall f, In f fs -> has mk' f = true) /\
    (forall p b, N.testbit (mk' p) b = true -> N.testbit (mk p) b = true \/
       exists x, below fs x /\ eptr x = p /\ bitpos x = b).
Proof.
  induction fs as [|f fs IH]; intros mk Vs Cl; cbn [mark_all].
  { exists mk. split; [auto|]. split; [auto|]. split; [auto|]. split; [intros f []|auto]. }
  assert (Vf : V f) by (apply Vs; now left).
  destruct (mark_spec (depth o) mk f Vf) as (mk1 & -> & A1 & A2 & A3); [eapply rank_depth; eauto|].
  assert (Cl1 : closed mk1).
  { intros x Vx C H. destruct (A3 _ _ H) as [H1|(y & S & P & Q & X)].
    - destruct (Cl x Vx C H1). split; now apply A1.
    - assert (y = x) by (apply edge_eq; auto; [exact (sub_V o s Wo W f y Vf S)|now apply bitpos_inj]). subst y. auto. }
  destruct (IH mk1) as (mk2 & -> & B0 & B1 & B2 & B3); auto.
  { intros g Ig. apply Vs. now right. }
  exists mk2. split; auto. split; auto. split; [intros; apply B1, A1; auto|]. split.
  - intros g [<-|Ig]; [now apply B1|auto].
  - intros p b H. destruct (B3 p b H) as [H1|(x & (g & Ig & S) & P & Q)].
    + destruct (A3 p b H1) as [H2|(x & S & P & Q & _)]; auto. right. exists x. split; auto. exists f. split; [now left|auto].
    + right. exists x. split; auto. exists g. split; [now right|auto].
Qed.

(** After marking from scratch exactly the reachable edges are marked. *)
Lemma mark_fresh fs mk0 : (forall f, In f fs -> V f) -> (forall p, mk0 p = 0) ->
  exists mk, mark_all (depth o) m mk0 fs = Some mk /\
    (forall x, V x -> (has mk x = true <-> below fs x)) /\
    (forall p, mk p <> 0 -> exists x, below fs x /\ eptr x = p) /\
    (forall x, below fs x -> mk (eptr x) <> 0).
Proof.
  intros Vs Z. destruct (mark_all_spec fs mk0 Vs) as (mk & E & Cl & _ & A & B).
  { intros x _ _ H. unfold has in H. rewrite Z in H. destruct (bitpos x); discriminate. }
  assert (B' : forall p b, N.testbit (mk p) b = true -> exists x, below fs x /\ eptr x = p /\ bitpos x = b).
  { intros p b H. destruct (B p b H) as [H1|]; auto. rewrite Z in H1. destruct b; discriminate. }
  assert (A' : forall x, below fs x -> has mk x = true).
  { intros x (f & If & S). induction S as [|x S IH C|x S IH C]; auto;
      (destruct (Cl x) as [X1 X2]; [eapply (sub_V o s); eauto|auto..]). }
  exists mk. split; auto. split; [|split].
  - intros x Vx. split; auto. intros H. destruct (B' _ _ H) as (y & By & P & Q).
    replace x with y; auto. apply edge_eq; auto; [eapply below_V; eauto|now apply bitpos_inj].
  - intros p Np.
    assert (exists b, N.testbit (mk p) b = true) as [b Hb].
    { destruct (mk p) as [|q]; [congruence|]. exists (N.log2 (Npos q)). now apply N.bit_log2. }
    destruct (B' p b Hb) as (x & Bx & P & _). eauto.
  - intros x Bx E0. specialize (A' x Bx). unfold has in A'. rewrite E0 in A'. destruct (bitpos x); discriminate.
Qed.

(** ** Counting *)

Definition level (x : edge) : N := if isconst x then N.of_nat (length (ord o)) else idx o (eid x).

Section Count.
Variable fs : list edge.
Hypothesis Vs : forall f, In f fs -> V f.
Variable cnt : N -> N.

Definition down (mk : marks) : Prop :=
  forall x, below fs x -> isconst x = false -> mk (eptr x) = 0 -> mk (eptr (thenof m x)) = 0 /\ mk (eptr (elseof m x)) = 0.
Definition total (mk : marks) (l : list edge) : N := sumN (map (fun x => cnt (mk (eptr x))) l).
Definition at_level (k : N) (l : list edge) : list edge := filter (fun x => level x =? k) l.

Lemma total_app mk a b : total mk (a ++ b) = total mk a + total mk b.
Proof. unfold total. now rewrite map_app, sumN_app. Qed.
Lemma total_ext mk mk' l : (forall x, In x l -> mk (eptr x) = mk' (eptr x)) -> total mk l = total mk' l.
Proof. intros H. unfold total. f_equal. apply map_ext_in. intros x I. now rewrite H. Qed.
Lemma total_level mk mk' k l : (forall x, In x l -> mk (eptr x) = mk' (eptr x)) -> total mk (at_level k l) = total mk' (at_level k l).
Proof. intros H. apply total_ext. intros x I. apply filter_In in I as [I _]. auto. Qed.
Lemma total_one mk k x : total mk (at_level k [x]) = if level x =? k then cnt (mk (eptr x)) else 0.
Proof. unfold at_level, total. simpl. destruct (level x =? k); simpl; lia. Qed.
Lemma same_children x y : eptr x = eptr y -> eptr (thenof m x) = eptr (thenof m y) /\ eptr (elseof m x) = eptr (elseof m y).
Proof. intros E. unfold thenof, elseof. simpl. now rewrite E. Qed.
Lemma below_trans f x : below fs f -> sub m f x -> below fs x.
Proof. intros (g & Ig & Sg) S. exists g. split; auto. eapply sub_trans; eauto. Qed.
Lemma zero_below mk f x : down mk -> below fs f -> mk (eptr f) = 0 -> sub m f x -> mk (eptr x) = 0.
Proof.
  intros Dn Bf Z. induction 1 as [|x S IH C|x S IH C]; auto; (destruct (Dn x) as [X1 X2]; [eapply below_trans; eauto|auto..]).
Qed.

Record visited (mk : marks) (f : edge) (mk' : marks) (L : list edge) : Prop := {
  vi_nd : NoDup (map eptr L);
  vi_in : forall x, In x L -> sub m f x /\ mk (eptr x) <> 0;
  vi_all : forall x, sub m f x -> mk (eptr x) <> 0 -> In (eptr x) (map eptr L);
  vi_clear : forall p, In p (map eptr L) -> mk' p = 0;
  vi_keep : forall p, ~ In p (map eptr L) -> mk' p = mk p
}.

Lemma visited_down mk f mk' L : below fs f -> down mk -> visited mk f mk' L -> down mk'.
Proof.
  intros Bf Dn Vi x Bx C Z.
  assert (Zero : forall y, sub m f y -> mk' (eptr y) = 0).
  { intros y Sy. destruct (in_dec N.eq_dec (eptr y) (map eptr L)) as [I|I]; [eapply vi_clear; eauto|].
    rewrite (vi_keep _ _ _ _ Vi) by auto. destruct (N.eq_dec (mk (eptr y)) 0); auto. exfalso. apply I. eapply vi_all; eauto. }
  assert (Keep0 : forall p, mk p = 0 -> mk' p = 0).
  { intros p Ep. destruct (in_dec N.eq_dec p (map eptr L)); [eapply vi_clear; eauto|]. rewrite (vi_keep _ _ _ _ Vi); auto. }
  destruct (in_dec N.eq_dec (eptr x) (map eptr L)) as [I|I].
  - apply in_map_iff in I as (y & E & Iy). destruct (vi_in _ _ _ _ Vi y Iy) as [Sy _].
    assert (Cy : isconst y = false).
    { assert (Ey : eid y = eid x).
      { apply (same_ptr o s W); [exact (below_V fs y Vs (below_trans f y Bf Sy))|exact (below_V fs x Vs Bx)|exact E]. }
      unfold isconst in *. now rewrite Ey. }
    destruct (same_children y x E) as [<- <-]. split; apply Zero; constructor; auto.
  - rewrite (vi_keep _ _ _ _ Vi) in Z by auto. destruct (Dn x Bx C Z). auto.
Qed.

Lemma count_spec fuel : forall mk f, below fs f -> (rank o f < fuel)%nat -> down mk ->
  exists mk' L, visited mk f mk' L /\ size_step cnt fuel m mk f = Some (total mk L, mk') /\
    forall lc, exists lc', profile_step cnt o fuel m lc mk f = Some (lc', mk') /\
      forall k, lc' k = lc k + total mk (at_level k L).
Proof.
  induction fuel as [|fuel IH]; intros mk f Bf Rf Dn; [lia|]. cbn [size_step profile_step].
  assert (Vf : V f) by (eapply below_V; eauto).
  destruct (N.eqb_spec (mk (eptr f)) 0) as [Z|Nz].
  { exists mk, []. split; [split|split; [reflexivity|]].
    - constructor.
    - intros x [].
    - intros x S Hx. exfalso. apply Hx. eapply zero_below; eauto.
    - intros p [].
    - auto.
    - intros lc. exists lc. split; auto. intros k. cbn. lia. }
  destruct (isconst f) eqn:C.
  { exists (upd mk (eptr f) 0), [f]. split; [split|split].
    - constructor; [intros []|constructor].
    - intros x [<-|[]]. split; [constructor|auto].
    - intros x S _. destruct (sub_inv _ _ _ S) as [-> |[C' _]]; [now left|congruence].
    - intros p [<-|[]]. apply upd_same.
    - intros p Np. apply upd_other. intros ->. apply Np. now left.
    - unfold total. simpl. now rewrite N.add_0_r.
    - intros lc. eexists. split; [reflexivity|]. intros k. rewrite total_one. unfold bump, level. rewrite C.
      destruct (N.eqb_spec (N.of_nat (length (ord o))) k) as [<-|Ne]; [rewrite upd_same; lia|rewrite upd_other by auto; lia]. }
  destruct (node_split o s Wo W f Vf C) as (N0 & I1 & I2 & V1 & V2 & G1 & G2 & R1 & R2). fold m in V1, V2, R1, R2, G1, G2.
  destruct (IH mk (thenof m f)) as (mk1 & L1 & Vi1 & E1 & P1); [now apply below_then|lia|auto|].
  assert (Dn1 : down mk1) by (eapply visited_down; [|exact Dn|exact Vi1]; now apply below_then).
  destruct (IH mk1 (elseof m f)) as (mk2 & L2 & Vi2 & E2 & P2); [now apply below_else|lia|auto|].
  rewrite E1, E2.
  assert (Ns : forall c x, sub m c x -> V c -> idx o (eid f) < idx o (eid c) -> eptr x <> eptr f).
  { intros c x S Vc G E. pose proof (sub_V o s Wo W c x Vc S) as Vx. pose proof (same_ptr o s W x f Vx Vf E) as Ei.
    destruct (sub_idx o s Wo W c x Vc S) as [-> |]; rewrite Ei in *; lia. }
  assert (N1 : ~ In (eptr f) (map eptr L1)).
  { intros I. apply in_map_iff in I as (x & E & Ix). destruct (vi_in _ _ _ _ Vi1 x Ix). eapply (Ns (thenof m f) x); eauto. }
  assert (N2 : ~ In (eptr f) (map eptr L2)).
  { intros I. apply in_map_iff in I as (x & E & Ix). destruct (vi_in _ _ _ _ Vi2 x Ix). eapply (Ns (elseof m f) x); eauto. }
  assert (N12 : forall p, In p (map eptr L1) -> ~ In p (map eptr L2)).
  { intros p J1 J2. apply in_map_iff in J2 as (x & <- & Ix). destruct (vi_in _ _ _ _ Vi2 x Ix) as [_ X]. apply X. eapply vi_clear; eauto. }
  assert (K2 : forall x, In x L2 -> mk1 (eptr x) = mk (eptr x)).
  { intros x Ix. apply (vi_keep _ _ _ _ Vi1). intros J. apply (N12 _ J). now apply in_map. }
  exists (upd mk2 (eptr f) 0), (f :: L1 ++ L2). split; [split|split].
  - simpl. rewrite map_app. constructor.
    + rewrite in_app_iff. tauto.
    + apply nodup_app; [apply Vi1|apply Vi2|auto].
  - intros x [<-|I]; [split; [constructor|auto]|]. apply in_app_iff in I as [I|I].
    + destruct (vi_in _ _ _ _ Vi1 x I). split; auto. eapply sub_trans; [|eauto]. apply sub_then; [constructor|auto].
    + destruct (vi_in _ _ _ _ Vi2 x I). rewrite <- K2 by auto. split; auto. eapply sub_trans; [|eauto]. apply sub_else; [constructor|auto].
  - intros x S Hx. simpl. rewrite map_app, in_app_iff. destruct (sub_inv _ _ _ S) as [-> |[_ [A|A]]]; auto.
    + right. left. eapply vi_all; eauto.
    + right. destruct (in_dec N.eq_dec (eptr x) (map eptr L1)) as [J|J]; auto. right.
      eapply vi_all; eauto. rewrite (vi_keep _ _ _ _ Vi1); auto.
  - simpl. rewrite map_app. intros p Hp. destruct (N.eq_dec p (eptr f)) as [->|Np]; [apply upd_same|]. rewrite upd_other by auto.
    destruct Hp as [Hp|Hp]; [congruence|]. apply in_app_iff in Hp as [Hp|Hp].
    + rewrite (vi_keep _ _ _ _ Vi2) by auto. eapply vi_clear; eauto.
    + eapply vi_clear; eauto.
  - simpl. rewrite map_app. intros p Hp. rewrite in_app_iff in Hp. rewrite upd_other by (intros ->; tauto).
    rewrite (vi_keep _ _ _ _ Vi2), (vi_keep _ _ _ _ Vi1) by tauto. auto.
  - change (f :: L1 ++ L2) with ([f] ++ L1 ++ L2). rewrite !total_app, (total_ext mk1 mk L2) by auto.
    unfold total at 3. simpl. now rewrite N.add_0_r.
  - intros lc. destruct (P1 (bump lc (idx o (eid f)) (cnt (mk (eptr f))))) as (lc1 & -> & Q1).
    destruct (P2 lc1) as (lc2 & -> & Q2). exists lc2. split; auto. intros k. rewrite Q2, Q1.
    change (f :: L1 ++ L2) with ([f] ++ L1 ++ L2). unfold at_level. rewrite !filter_app. rewrite !total_app.
    fold (at_level k [f]) (at_level k L1) (at_level k L2). rewrite total_one, (total_level mk1 mk k L2) by auto.
    unfold bump, level. rewrite C.
    destruct (N.eqb_spec (idx o (eid f)) k) as [<-|Ne]; [rewrite upd_same; lia|rewrite upd_other by auto; lia].
Qed.

(** Over a list of roots. *)
Record visited_all (mk : marks) (gs : list edge) (mk' : marks) (L : list edge) : Prop := {
  va_nd : NoDup (map eptr L);
  va_in : forall x, In x L -> below gs x /\ mk (eptr x) <> 0;
  va_all : forall x, below gs x -> mk (eptr x) <> 0 -> In (eptr x) (map eptr L);
  va_clear : forall p, In p (map eptr L) -> mk' p = 0;
  va_keep : forall p, ~ In p (map eptr L) -> mk' p = mk p
}.
Lemma count_all_spec gs : forall mk, (forall g, In g gs -> In g fs) -> down mk ->
  exists mk' L, visited_all mk gs mk' L /\ size_all cnt (depth o) m mk gs = Some (total mk L, mk') /\
    forall lc, exists lc', profile_all cnt o (depth o) m lc mk gs = Some (lc', mk') /\
      forall k, lc' k = lc k + total mk (at_level k L).
Proof.
  induction gs as [|g gs IH]; intros mk Sub Dn; cbn [size_all profile_all].
  { exists mk, []. split; [split|split; [reflexivity|]].
    - constructor.
    - intros x [].
    - intros x (f & [] & _).
    - intros p [].
    - auto.
    - intros lc. exists lc. split; auto. intros k. cbn. lia. }
  assert (Ig : In g fs) by (apply Sub; now left).
  assert (Bg : below fs g) by (exists g; split; [auto|constructor]).
  destruct (count_spec (depth o) mk g Bg) as (mk1 & L1 & Vi & E1 & P1); [eapply rank_depth; eauto|auto|].
  destruct (IH mk1) as (mk2 & L2 & Va & E2 & P2); [intros x Ix; apply Sub; now right|eapply visited_down; eauto|].
  rewrite E1, E2.
  assert (N12 : forall p, In p (map eptr L1) -> ~ In p (map eptr L2)).
  { intros p J1 J2. apply in_map_iff in J2 as (x & <- & Ix). destruct (va_in _ _ _ _ Va x Ix) as [_ X]. apply X. eapply vi_clear; eauto. }
  assert (K2 : forall x, In x L2 -> mk1 (eptr x) = mk (eptr x)).
  { intros x Ix. apply (vi_keep _ _ _ _ Vi). intros J. apply (N12 _ J). now apply in_map. }
  exists mk2, (L1 ++ L2). split; [split|split].
  - rewrite map_app. apply nodup_app; [apply Vi|apply Va|auto].
  - intros x I. apply in_app_iff in I as [I|I].
    + destruct (vi_in _ _ _ _ Vi x I). split; auto. exists g. split; [now left|auto].
    + destruct (va_in _ _ _ _ Va x I) as [(h & Ih & S) X]. rewrite <- K2 by auto. split; auto. exists h. split; [now right|auto].
  - intros x (h & [<-|Ih] & S) Hx; rewrite map_app, in_app_iff.
    + left. eapply vi_all; eauto.
    + destruct (in_dec N.eq_dec (eptr x) (map eptr L1)) as [J|J]; auto. right.
      eapply va_all; eauto; [exists h; auto|]. rewrite (vi_keep _ _ _ _ Vi); auto.
  - intros p Hp. rewrite map_app in Hp. apply in_app_iff in Hp as [Hp|Hp].
    + rewrite (va_keep _ _ _ _ Va) by auto. eapply vi_clear; eauto.
    + eapply va_clear; eauto.
  - intros p Hp. rewrite map_app, in_app_iff in Hp. rewrite (va_keep _ _ _ _ Va), (vi_keep _ _ _ _ Vi) by tauto. auto.
  - rewrite total_app, (total_ext mk1 mk L2) by auto. reflexivity.
  - intros lc. destruct (P1 lc) as (lc1 & -> & Q1). destruct (P2 lc1) as (lc2 & -> & Q2). exists lc2. split; auto.
    intros k. rewrite Q2, Q1. unfold at_level. rewrite !filter_app, !total_app.
    fold (at_level k L1) (at_level k L2). rewrite (total_level mk1 mk k L2) by auto. lia.
Qed.
End Count.

(** ** The results *)

(** [L] lists the nodes below the roots, [E] the edges, each once. *)
Definition lists_nodes (fs L : list edge) : Prop :=
  NoDup (map eptr L) /\ (forall x, In x L -> below fs x) /\ (forall x, below fs x -> In (eptr x) (map eptr L)).
Definition lists_edges (fs E : list edge) : Prop := NoDup E /\ (forall x, In x E <-> below fs x).
Definition at_lvl (k : N) (l : list edge) : list edge := filter (fun x => level x =? k) l.

Lemma count_one l (g : N -> N) : (forall x, In x l -> g x = 1) -> sumN (map g l) = N.of_nat (length l).
Proof. induction l as [|x l IH]; simpl; intros H; auto. rewrite H, IH by auto. lia. Qed.

Lemma counting_edges fs mk L : (forall f, In f fs -> V f) -> lists_nodes fs L -> (forall x, V x -> (has mk x = true <-> below fs x)) ->
  exists E, lists_edges fs E /\ total count_nodes mk L = N.of_nat (length E) /\
    forall k, total count_nodes mk (at_lvl k L) = N.of_nat (length (at_lvl k E)).
Proof.
  intros Vs (ND & A & B) H.
  set (ex := fun x => filter (has mk) [x; enot x]).
  assert (Len : forall x, N.of_nat (length (ex x)) = count_nodes (mk (eptr x))).
  { intros x. unfold ex, count_nodes. cbn [filter]. unfold has, bitpos. cbn [enot eptr eneg].
    destruct (eneg x); cbn [negb]; destruct (N.testbit (mk (eptr x)) 0), (N.testbit (mk (eptr x)) 1); reflexivity. }
  assert (Lv : forall x y, In y (ex x) -> level y = level x /\ eptr y = eptr x).
  { intros x y I. unfold ex in I. apply filter_In in I as [[<-|[<-|[]]] _]; auto. }
  exists (flat_map ex L). split; [split|split].
  - clear B. induction L as [|x L IH]; simpl; [constructor|]. inversion ND as [|? ? N1 N2]; subst.
    apply nodup_app; [|apply IH; auto; intros y Iy; apply A; now right|].
    + unfold ex. apply NoDup_filter. constructor; [|constructor; [intros []|constructor]].
      intros [E|[]]. apply (f_equal eneg) in E. simpl in E. now destruct (eneg x).
    + intros y I1 I2. apply in_flat_map in I2 as (z & Iz & I2). destruct (Lv _ _ I1) as [_ E1]. destruct (Lv _ _ I2) as [_ E2].
      apply N1. rewrite <- E1, E2. now apply in_map.
  - intros x. rewrite in_flat_map. split.
    + intros (y & Iy & I). assert (V y) by (eapply below_V; eauto).
      unfold ex in I. apply filter_In in I as [[<-|[<-|[]]] Hx]; apply H; auto.
    + intros Bx. assert (Vx : V x) by (eapply below_V; eauto). specialize (B x Bx). apply in_map_iff in B as (y & E & Iy).
      assert (Vy : V y) by (eapply below_V; eauto). exists y. split; auto. unfold ex. apply filter_In. split.
      * destruct (ptr_cases o s W y x Vy Vx E) as [-> | ->]; simpl; auto.
      * now apply H.
  - clear A B ND. induction L as [|x L IH]; auto. unfold total in *. simpl. rewrite app_length, Nat2N.inj_add, Len, IH. reflexivity.
  - intros k. clear A B ND. induction L as [|x L IH]; auto. unfold total, at_lvl in *. simpl. rewrite filter_app, app_length, Nat2N.inj_add.
    assert (F : filter (fun x => level x =? k) (ex x) = if level x =? k then ex x else []).
    { assert (G : forall l, (forall y, In y l -> level y = level x) -> filter (fun x => level x =? k) l = if level x =? k then l else []).
      { induction l as [|y l IHl]; simpl; intros Hl; [now destruct (level x =? k)|]. rewrite (Hl y), IHl by auto. now destruct (level x =? k). }
      apply G. intros y Iy. now apply Lv. }
    rewrite F. destruct (level x =? k); simpl; rewrite ?Len; rewrite IH; reflexivity.
Qed.

Lemma size_profile_spec fs mk0 negout : (forall f, In f fs -> V f) -> (forall p, p <> ONE -> mk0 p = 0) ->
  exists n lc mk' L, size_of negout o m mk0 fs = Some (n, mk') /\ profile_of negout o m mk0 fs = Some (lc, mk') /\
    (forall p, mk' p = 0) /\ lists_nodes fs L /\
    (negout = true -> n = N.of_nat (length L) /\ forall k, lc k = N.of_nat (length (at_lvl k L))) /\
    (negout = false -> exists E, lists_edges fs E /\ n = N.of_nat (length E) /\ forall k, lc k = N.of_nat (length (at_lvl k E))).
Proof.
  intros Vs Z. unfold size_of, profile_of.
  destruct (mark_fresh fs (upd mk0 ONE 0)) as (mk & -> & M1 & M2 & M3); auto.
  { intros p. unfold upd. destruct (N.eqb_spec p ONE); auto. }
  assert (Dn : down fs mk).
  { intros x Bx C E. exfalso. now apply (M3 x Bx). }
  destruct (count_all_spec fs Vs (counting negout) fs mk (fun g H => H) Dn) as (mk' & L & Va & E & P).
  destruct (P (fun _ => 0)) as (lc & E' & Q). rewrite E, E'.
  assert (LN : lists_nodes fs L).
  { split; [apply Va|]. split; [intros x Ix; now apply (va_in _ _ _ _ Va)|]. intros x Bx. eapply va_all; eauto. }
  exists (total (counting negout) mk L), lc, mk', L. split; auto. split; auto. split; [|split; [auto|split]].
  - intros p. destruct (in_dec N.eq_dec p (map eptr L)) as [I|I]; [eapply va_clear; eauto|].
    rewrite (va_keep _ _ _ _ Va) by auto. destruct (N.eq_dec (mk p) 0) as [|Np]; auto. exfalso.
    destruct (M2 p Np) as (x & Bx & <-). apply I. now apply LN.
  - intros ->.
    assert (G : forall l, (forall x, In x l -> In x L) -> total (counting true) mk l = N.of_nat (length l)).
    { induction l as [|x l IH]; intros H; auto. unfold total in *. cbn [map sumN fold_right length]. fold (sumN (map (fun x => counting true (mk (eptr x))) l)). rewrite IH by (intros; apply H; now right).
      unfold counting, count_no_nodes. destruct (va_in _ _ _ _ Va x) as [_ X]; [apply H; now left|].
      destruct (N.ltb_spec 0 (mk (eptr x))); lia. }
    split; [apply G; auto|]. intros k. rewrite Q, N.add_0_l. apply G. intros x I. now apply filter_In in I.
  - intros ->. destruct (counting_edges fs mk L Vs LN M1) as (E0 & A1 & A2 & A3). exists E0. split; auto. split; auto.
    intros k. rewrite Q, N.add_0_l. apply A3.
Qed.
End Marks.
