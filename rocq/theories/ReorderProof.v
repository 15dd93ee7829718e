(** * Reordering: an exchange of adjacent variables keeps every function. *)
From Coq Require Import Permutation.
From Verif Require Import Base BFModel MgrModel StoreInv ReorderModel.

Definition dval (D : den) (p : ded) (rho : N -> bool) : bool := xorb (snd p) (D (fst p) rho).
Definition indep (F : (N -> bool) -> bool) (p : N) : Prop := forall rho b, F (upd rho p b) = F rho.

Lemma deq_iff p q : deq p q = true <-> p = q.
Proof.
  unfold deq. destruct p as [a x], q as [b y]; simpl. rewrite andb_true_iff, N.eqb_eq, Bool.eqb_true_iff.
  split; [intros [-> ->]; auto|intros [= -> ->]; auto].
Qed.
Lemma deq_false p q : deq p q = false <-> p <> q.
Proof. rewrite <- not_true_iff_false, deq_iff. tauto. Qed.
Lemma dval_dnot D p rho : dval D (dnot p) rho = negb (dval D p rho).
Proof. unfold dval, dnot; simpl. destruct (snd p), (D (fst p) rho); auto. Qed.
Lemma dval_dtag D p b rho : dval D (dtag p b) rho = xorb b (dval D p rho).
Proof. unfold dval, dtag; simpl. destruct (snd p), b, (D (fst p) rho); auto. Qed.
Lemma dnot_inj p q : dnot p = dnot q -> p = q.
Proof. destruct p as [a x], q as [b y]. unfold dnot; simpl. intros [= -> E]. destruct x, y; auto; discriminate. Qed.
Lemma dtag_inj p q b : dtag p b = dtag q b -> p = q.
Proof. destruct p as [a x], q as [c y]. unfold dtag; simpl. intros [= -> E]. destruct x, y, b; auto; discriminate. Qed.
Lemma upd_same' {A} (f : N -> A) k v : upd f k v k = v.
Proof. unfold upd. now rewrite N.eqb_refl. Qed.
Lemma upd_other' {A} (f : N -> A) k v x : x <> k -> upd f k v x = f x.
Proof. intros H. unfold upd. now apply N.eqb_neq in H as ->. Qed.

(** ** Reference counts *)

Definition dw (m : N -> dnode) (b a : N) : Z := (Z.b2z (fst (dt (m a)) =? b)%N + Z.b2z (fst (de (m a)) =? b)%N)%Z.
Fixpoint docc (m : N -> dnode) (P : list N) (b : N) : Z :=
  match P with [] => 0%Z | a :: P => (dw m b a + docc m P b)%Z end.

Lemma dw_nonneg m b a : (0 <= dw m b a)%Z.
Proof. unfold dw. destruct (_ =? b), (_ =? b); simpl; lia. Qed.
Lemma docc_nonneg m P b : (0 <= docc m P b)%Z.
Proof. induction P as [|a P IH]; simpl; [lia|]. pose proof (dw_nonneg m b a). lia. Qed.
Lemma docc_ge m P a b : In a P -> (dw m b a <= docc m P b)%Z.
Proof.
  induction P as [|k P IH]; simpl; [tauto|]. intros [->|H].
  - pose proof (docc_nonneg m P b). lia.
  - specialize (IH H). pose proof (dw_nonneg m b k). lia.
Qed.
Lemma docc_frame m m' P b : (forall a, In a P -> dt (m' a) = dt (m a) /\ de (m' a) = de (m a)) -> docc m' P b = docc m P b.
Proof.
  induction P as [|k P IH]; simpl; intros H; auto. unfold dw. destruct (H k (or_introl eq_refl)) as [-> ->].
  rewrite IH; auto.
Qed.
Lemma docc_upd m P f c b : NoDup P -> In f P -> docc (upd m f c) P b = (docc m P b - dw m b f + dw (upd m f c) b f)%Z.
Proof.
  intros ND. induction ND as [|k P Nk ND IH]; simpl; [tauto|]. intros [->|H].
  - rewrite (docc_frame m (upd m f c)); [lia|]. intros a Ia. rewrite upd_other'; auto. intros ->; auto.
  - rewrite (IH H). assert (dw (upd m f c) b k = dw m b k); [|lia].
    unfold dw. rewrite upd_other'; auto. intros ->; auto.
Qed.
Lemma docc_perm m P P' b : Permutation P P' -> docc m P b = docc m P' b.
Proof. induction 1; simpl; lia. Qed.

Definition b2n' (b : bool) : Z := Z.b2z b.

Section X.
Variables (o : order) (i j : N) (M : N -> N -> bool).

(** [L]: the nodes taken out of the table of the upper variable and not yet put back. *)
Definition node (L : list N) (s : dst) (a : N) : Prop := (exists v, In a (dtab s v)) \/ In a L.
Definition inn (L : list N) (s : dst) (a : N) : Prop := (exists v, v <> 0 /\ In a (dtab s v)) \/ In a L.
Definition okp (L : list N) (s : dst) (p : N) : Prop := p = ONE \/ inn L s p.

Lemma inn_node L s a : inn L s a -> node L s a.
Proof. intros [(v & _ & H)|H]; [left; eauto|now right]. Qed.

Definition agree (k : N) (F : (N -> bool) -> bool) : Prop :=
  forall r1 r2, (forall u, In u (ord o) -> k <= idx o u -> r1 u = r2 u) -> F r1 = F r2.

Record XI (L : list N) (D : den) (s : dst) : Prop := {
  x_tab : forall v a, In a (dtab s v) -> did (dm s a) = v /\ ~ In a L /\ 2 < a < dnx s;
  x_nd : forall v, NoDup (dtab s v);
  x_ndL : NoDup L;
  x_L : forall a, In a L -> did (dm s a) = i /\ 2 < a < dnx s /\
     (did (dm s (fst (dt (dm s a)))) = j \/ did (dm s (fst (de (dm s a)))) = j);
  x_one : did (dm s ONE) = 0 /\ drc (dm s ONE) = MAXREF /\ fst (de (dm s ONE)) <> 0;
  x_D1 : forall rho, D ONE rho = true;
  x_ord : forall a, inn L s a -> In (did (dm s a)) (ord o);
  x_ch : forall a, inn L s a -> okp L s (fst (dt (dm s a))) /\ okp L s (fst (de (dm s a))) /\
     snd (dt (dm s a)) = false /\ dt (dm s a) <> de (dm s a);
  x_lvL : forall a c, In a L -> c = fst (dt (dm s a)) \/ c = fst (de (dm s a)) ->
     ~ In c L /\ ((did (dm s c) = j /\ idx o i < idx o (did (dm s (fst (dt (dm s c))))) /\
                                     idx o i < idx o (did (dm s (fst (de (dm s c)))))) \/ idx o i < idx o (did (dm s c)));
  x_lv : forall v a c, v <> 0 -> In a (dtab s v) -> c = fst (dt (dm s a)) \/ c = fst (de (dm s a)) ->
     idx o v < idx o (did (dm s c)) /\ (In c L -> idx o v < idx o j);
  x_D : forall a rho, inn L s a ->
     D a rho = if rho (did (dm s a)) then dval D (dt (dm s a)) rho else dval D (de (dm s a)) rho;
  x_agL : forall a, In a L -> agree (idx o j) (D a);
  x_ag : forall v a, v <> 0 -> In a (dtab s v) -> agree (idx o v) (D a);
  x_pos : forall a, inn L s a -> D a (fun _ => true) = true;
  x_inj : forall a b, okp L s a -> okp L s b -> (forall rho, D a rho = D b rho) -> a = b;
  x_user : forall a, In a (dtab s 0) ->
     okp L s (fst (dt (dm s a))) /\ snd (dt (dm s a)) = false /\ de (dm s a) = (ONE, false);
  x_uu : forall a b, In a (dtab s 0) -> In b (dtab s 0) -> dt (dm s a) = dt (dm s b) -> a = b;
  x_fl : NoDup (dfl s) /\ forall b, In b (dfl s) -> 2 < b < dnx s /\ ~ node L s b;
  x_nx : 2 < dnx s;
  x_M : forall a p q, inn L s a -> p <> q -> M p q = false -> indep (D a) p \/ indep (D a) q
}.

Record XR (L : list N) (s : dst) (P : list N) (x : N -> Z) : Prop := {
  xr_nd : NoDup P;
  xr_P : forall a, In a P <-> node L s a;
  xr_rng : forall a, In a P -> 2 < a;
  xr_cnt : forall b, In b P -> drc (dm s b) <= MAXREF /\
     (drc (dm s b) = MAXREF \/ Z.of_N (drc (dm s b)) = (docc (dm s) P b + x b)%Z);
  xr_x : forall b, 2 < b -> ~ In b P -> x b = 0%Z
}.

Hypothesis Wo : wfo o.
Hypothesis Ii : In i (ord o).
Hypothesis Ij : In j (ord o).
Hypothesis Hij : idx o i = idx o j + 1.

Lemma i0 : i <> 0. Proof. now apply (wfo_in o i Wo Ii). Qed.
Lemma j0 : j <> 0. Proof. now apply (wfo_in o j Wo Ij). Qed.
Lemma iNj : i <> j. Proof. intros E. rewrite E in Hij. lia. Qed.

(** Only counts change. *)
Lemma XI_drc L D s s' : XI L D s ->
  (forall a, did (dm s' a) = did (dm s a) /\ dt (dm s' a) = dt (dm s a) /\ de (dm s' a) = de (dm s a)) ->
  drc (dm s' ONE) = drc (dm s ONE) -> dtab s' = dtab s -> dfl s' = dfl s -> dnx s' = dnx s -> XI L D s'.
Proof.
  intros X H H1 Ht Hf Hn.
  assert (Hi : forall a, did (dm s' a) = did (dm s a)) by apply H.
  assert (HT : forall a, dt (dm s' a) = dt (dm s a)) by apply H.
  assert (HE : forall a, de (dm s' a) = de (dm s a)) by apply H. clear H.
  assert (HN : forall a, node L s' a <-> node L s a) by (intros; unfold node; now rewrite Ht).
  assert (HI : forall a, inn L s' a <-> inn L s a) by (intros; unfold inn; now rewrite Ht).
  assert (HO : forall a, okp L s' a <-> okp L s a) by (intros; unfold okp; now rewrite HI).
  destruct X. constructor; auto.
  - intros v a. rewrite Ht, Hi, Hn. auto.
  - intros v. rewrite Ht. auto.
  - intros a Ia. rewrite HT, HE, !Hi, Hn. auto.
  - rewrite Hi, H1, HE. auto.
  - intros a Ia. rewrite Hi. apply x_ord0. now apply HI.
  - intros a Ia. rewrite HT, HE, !HO. apply x_ch0. now apply HI.
  - intros a c Ia. rewrite !HT, !HE, !Hi. exact (x_lvL0 a c Ia).
  - intros v a c Hv. rewrite Ht, HT, HE, Hi. exact (x_lv0 v a c Hv).
  - intros a rho Ia. rewrite HT, HE, Hi. apply x_D0. now apply HI.
  - intros v a Hv. rewrite Ht. eauto.
  - intros a Ia. apply x_pos0. now apply HI.
  - intros a b Ia Ib. apply x_inj0; now apply HO.
  - intros a. rewrite Ht, HT, HE, HO. auto.
  - intros a b. rewrite Ht, !HT. auto.
  - rewrite Hf, Hn. destruct x_fl0 as [A B]. split; auto. intros b Hb. rewrite HN. auto.
  - now rewrite Hn.
  - intros a p q Ia. apply x_M0. now apply HI.
Qed.

Section Inv.
Variables (L : list N) (D : den) (s : dst).
Hypothesis X : XI L D s.

Lemma okp_rng p : okp L s p -> p <> 0.
Proof.
  intros [->|[(v & _ & H)|H]]; [discriminate| |].
  - destruct (x_tab _ _ _ X _ _ H) as (_ & _ & R). lia.
  - destruct (x_L _ _ _ X _ H) as (_ & R & _). lia.
Qed.
Lemma inn_one : ~ node L s ONE.
Proof.
  intros [(v & H)|H].
  - destruct (x_tab _ _ _ X _ _ H) as (_ & _ & R). unfold ONE in R. lia.
  - destruct (x_L _ _ _ X _ H) as (_ & R & _). unfold ONE in R. lia.
Qed.
Lemma okp_true p : okp L s p -> D p (fun _ => true) = true.
Proof. intros [->|H]; [apply (x_D1 _ _ _ X)|now apply (x_pos _ _ _ X)]. Qed.

Lemma dval_inj p q : okp L s (fst p) -> okp L s (fst q) -> (forall rho, dval D p rho = dval D q rho) -> p = q.
Proof.
  intros Op Oq H. pose proof (H (fun _ => true)) as H1. unfold dval in H1. rewrite !okp_true in H1 by auto.
  assert (E : snd p = snd q) by (destruct (snd p), (snd q); auto; discriminate).
  destruct p as [p b], q as [q b']; simpl in *. subst b'. f_equal.
  apply (x_inj _ _ _ X); auto. intros rho. specialize (H rho). unfold dval in H; simpl in H.
  destruct b, (D p rho), (D q rho); auto; discriminate.
Qed.

(** A node below the exchanged pair depends on variables below only. *)
Lemma okp_agree p : okp L s p -> ~ In p L -> agree (idx o (did (dm s p))) (D p).
Proof.
  intros [->|[(v & Hv & H)|H]] NL; [|  |tauto].
  - intros r1 r2 _. now rewrite !(x_D1 _ _ _ X).
  - destruct (x_tab _ _ _ X _ _ H) as (-> & _). now apply (x_ag _ _ _ X v).
Qed.
Lemma low_notL p : idx o i < idx o (did (dm s p)) -> ~ In p L.
Proof. intros H Ip. destruct (x_L _ _ _ X _ Ip) as (E & _). rewrite E in H. lia. Qed.
Lemma low_indep p v : okp L s p -> idx o i < idx o (did (dm s p)) -> idx o v <= idx o i -> indep (D p) v.
Proof.
  intros Op Hp Hv rho b. apply (okp_agree p Op (low_notL p Hp)). intros u Iu Hu.
  apply upd_other'. intros ->. lia.
Qed.
Lemma low_dval p v rho b : okp L s (fst p) -> idx o i < idx o (did (dm s (fst p))) -> idx o v <= idx o i ->
  dval D p (upd rho v b) = dval D p rho.
Proof. intros. unfold dval. f_equal. now apply low_indep. Qed.
Lemma low_agree p : okp L s (fst p) -> idx o i < idx o (did (dm s (fst p))) -> agree (idx o i) (dval D p).
Proof.
  intros Op Hp r1 r2 H. unfold dval. f_equal. apply (okp_agree _ Op (low_notL _ Hp)). intros u Iu Hu. apply H; auto. lia.
Qed.

(** The children of a node that is taken out do not depend on its variable. *)
Lemma okp_j c : okp L s c -> did (dm s c) = j -> inn L s c.
Proof. intros [->|H] E; auto. destruct (x_one _ _ _ X) as (E0 & _). rewrite E0 in E. destruct (j0 (eq_sym E)). Qed.
Lemma child_indep b c rho bb : In b L -> c = fst (dt (dm s b)) \/ c = fst (de (dm s b)) -> D c (upd rho i bb) = D c rho.
Proof.
  intros Ib Hc. destruct (x_ch _ _ _ X b (or_intror Ib)) as (C1 & C2 & _ & _).
  assert (Oc : okp L s c) by (destruct Hc as [-> | ->]; auto).
  destruct (x_lvL _ _ _ X b c Ib Hc) as [NL [(E & H1 & H2)|H]].
  - pose proof (okp_j c Oc E) as Hn. destruct (x_ch _ _ _ X c Hn) as (U1 & U2 & _ & _).
    rewrite !(x_D _ _ _ X c _ Hn), E. rewrite upd_other' by (intros Q; apply iNj; auto).
    rewrite !low_dval by (auto; lia). auto.
  - apply low_indep; auto. lia.
Qed.
End Inv.

(** ** Finding or making a node of the variable [i] *)

Record fr (L : list N) (s : dst) (D : den) (s' : dst) (D' : den) : Prop := {
  fr_dm : forall b, b = ONE \/ node L s b -> dm s' b = dm s b;
  fr_D : forall b rho, okp L s b -> D' b rho = D b rho;
  fr_tab : forall v b, In b (dtab s v) -> In b (dtab s' v);
  fr_oth : forall v, v <> i -> dtab s' v = dtab s v
}.

Lemma dfindadd_spec L D s t e a found s1 :
  XI L D s -> okp L s (fst t) -> okp L s (fst e) -> t <> e -> snd t = false ->
  idx o i < idx o (did (dm s (fst t))) -> idx o i < idx o (did (dm s (fst e))) ->
  (forall p q, p <> q -> M p q = false ->
     indep (fun rho : N -> bool => if rho i then dval D t rho else dval D e rho) p \/
     indep (fun rho : N -> bool => if rho i then dval D t rho else dval D e rho) q) ->
  dfindadd s i t e = (a, found, s1) ->
  exists D', XI L D' s1 /\ fr L s D s1 D' /\ In a (dtab s1 i) /\
    (forall rho, D' a rho = if rho i then dval D t rho else dval D e rho) /\
    (forall P x, XR L s P x -> exists P', XR L s1 P'
       (if found then x else fun b => x b - Z.b2z (fst t =? b)%N - Z.b2z (fst e =? b)%N)%Z).
Proof.
  intros X Ot Oe NE Pt Lt Le HM. unfold dfindadd.
  pose proof (low_notL _ _ _ X _ Lt) as NLt. pose proof (low_notL _ _ _ X _ Le) as NLe.
  destruct (find (dhas s t e) (dtab s i)) as [a0|] eqn:F.
  - intros [= <- <- <-]. apply find_some in F as [Ia Hh]. unfold dhas in Hh. apply andb_true_iff in Hh as [Ht He].
    apply deq_iff in Ht, He. exists D. split; [exact X|]. split; [constructor; auto|]. split; [exact Ia|]. split; [|eauto].
    intros rho. assert (In0 : inn L s a0) by (left; exists i; split; auto; apply i0).
    rewrite (x_D _ _ _ X _ rho In0). destruct (x_tab _ _ _ X _ _ Ia) as (-> & _). now rewrite Ht, He.
  - assert (NF : forall b, In b (dtab s i) -> dt (dm s b) = t -> de (dm s b) = e -> False).
    { intros b Ib E1 E2. pose proof (find_none _ _ F b Ib) as H. unfold dhas in H. rewrite E1, E2 in H.
      rewrite (proj2 (deq_iff t t) eq_refl), (proj2 (deq_iff e e) eq_refl) in H. discriminate. }
    assert (Al : exists a0 s0, dalloc s = (a0, s0) /\ dm s0 = dm s /\ dtab s0 = dtab s /\ dnum s0 = dnum s /\
              ~ node L s a0 /\ 2 < a0 < dnx s0 /\ dnx s <= dnx s0 /\ NoDup (dfl s0) /\
              (forall b, In b (dfl s0) -> In b (dfl s) /\ b <> a0)).
    { destruct (x_fl _ _ _ X) as [N1 N2]. pose proof (x_nx _ _ _ X) as Nx. unfold dalloc.
      destruct (dfl s) as [|b r] eqn:Fl.
      - eexists _, _. split; [reflexivity|]. cbn [dm dtab dnum dnx dfl].
        do 3 (split; [reflexivity|]). split.
        { intros [(v & H)|H].
          - destruct (x_tab _ _ _ X _ _ H) as (_ & _ & R). lia.
          - destruct (x_L _ _ _ X _ H) as (_ & R & _). lia. }
        split; [lia|]. split; [lia|]. split; [constructor|]. intros b [].
      - eexists _, _. split; [reflexivity|]. cbn [dm dtab dnum dnx dfl].
        do 3 (split; [reflexivity|]). destruct (N2 b (or_introl eq_refl)) as [R NN].
        split; [exact NN|]. split; [exact R|]. split; [lia|]. inversion N1; subst. split; [auto|].
        intros c Ic. split; [now right|]. intros ->; auto. }
    destruct Al as (a0 & s0 & EA & E1 & E2 & E3 & NN & R0 & Rx & Nd & Fl0). rewrite EA. rewrite E2.
    intros [= <- <- <-].
    set (s' := set_dtab (dput s0 a0 (DN i 0 t e)) i (a0 :: dtab s i)).
    assert (Em : forall b, b <> a0 -> dm s' b = dm s b).
    { intros b Hb. unfold s'. cbn [dm set_dtab dput]. rewrite upd_other' by auto. now rewrite E1. }
    assert (Ea : dm s' a0 = DN i 0 t e).
    { unfold s'. cbn [dm set_dtab dput]. apply upd_same'. }
    assert (Ti : dtab s' i = a0 :: dtab s i) by (unfold s'; cbn [dtab set_dtab dput]; apply upd_same').
    assert (To : forall v, v <> i -> dtab s' v = dtab s v).
    { intros v Hv. unfold s'; cbn [dtab set_dtab dput]. rewrite upd_other' by auto. now rewrite E2. }
    assert (Tin : forall v b, In b (dtab s' v) <-> In b (dtab s v) \/ (v = i /\ b = a0)).
    { intros v b. destruct (N.eq_dec v i) as [->|Hv].
      - rewrite Ti. simpl. split; intros [H|H]; auto. destruct H as [_ ->]. auto.
      - rewrite To by auto. split; [auto|]. intros [H|[H _]]; tauto. }
    assert (Nn : forall b, node L s' b <-> node L s b \/ b = a0).
    { intros b. unfold node. split.
      - intros [(v & H)|H]; [|auto]. apply Tin in H as [H|[_ H]]; [left; left; eauto|auto].
      - intros [[(v & H)|H]| ->]; [left; exists v; apply Tin; auto|auto|left; exists i; apply Tin; auto]. }
    assert (Nin : forall b, inn L s' b <-> inn L s b \/ b = a0).
    { intros b. unfold inn. split.
      - intros [(v & Hv & H)|H]; [|auto]. apply Tin in H as [H|[_ H]]; [left; left; eauto|auto].
      - intros [[(v & Hv & H)|H]| ->]; [left; exists v; split; auto; apply Tin; auto|auto|].
        left; exists i; split; [apply i0|]; apply Tin; auto. }
    assert (Nok : forall b, okp L s' b <-> okp L s b \/ b = a0).
    { intros b. unfold okp. rewrite Nin. tauto. }
    assert (Ndf : forall b, node L s b -> b <> a0) by (intros b H ->; auto).
    assert (Odf : forall b, okp L s b -> b <> a0).
    { intros b [->|H]; [unfold ONE; lia|]. apply Ndf. now apply inn_node. }
    assert (Idf : forall b, inn L s b -> b <> a0) by (intros b H; apply Ndf; now apply inn_node).
    set (Fn := fun rho : N -> bool => if rho i then dval D t rho else dval D e rho) in *.
    set (D' := upd D a0 Fn).
    assert (Da : forall rho, D' a0 rho = Fn rho) by (intros; unfold D'; now rewrite upd_same').
    assert (Do : forall b rho, b <> a0 -> D' b rho = D b rho) by (intros; unfold D'; now rewrite upd_other').
    assert (Dvo : forall p rho, okp L s (fst p) -> dval D' p rho = dval D p rho).
    { intros p rho Op. unfold dval. rewrite Do; auto. }
    assert (Ft : forall rho, dval D t rho = Fn (upd rho i true)).
    { intros rho. unfold Fn. rewrite upd_same'. symmetry. apply (low_dval _ _ _ X); auto. lia. }
    assert (Fe : forall rho, dval D e rho = Fn (upd rho i false)).
    { intros rho. unfold Fn. rewrite upd_same'. symmetry. apply (low_dval _ _ _ X); auto. lia. }
    assert (Fa : agree (idx o i) Fn).
    { intros r1 r2 H. unfold Fn. rewrite (H i Ii) by lia.
      rewrite (low_agree _ _ _ X t Ot Lt r1 r2 H), (low_agree _ _ _ X e Oe Le r1 r2 H). auto. }
    assert (NFn : forall b, okp L s b -> (forall rho, D b rho = Fn rho) -> False).
    { intros b Ob H. destruct Ob as [->|Hb].
      - apply NE. apply (dval_inj _ _ _ X); auto. intros rho. rewrite Ft, Fe, <- !H, !(x_D1 _ _ _ X). auto.
      - pose proof (x_ch _ _ _ X b Hb) as (C1 & C2 & C3 & C4).
        assert (Low : (forall rho, dval D (dt (dm s b)) rho = Fn (upd rho i true)) ->
                      (forall rho, dval D (de (dm s b)) rho = Fn (upd rho i false)) ->
                      dt (dm s b) = t /\ de (dm s b) = e).
        { intros G1 G2. split; apply (dval_inj _ _ _ X); auto; intros rho; [rewrite G1, Ft|rewrite G2, Fe]; auto. }
        destruct Hb as [(v & Hv & Ib)|Ib].
        + destruct (x_tab _ _ _ X _ _ Ib) as (Ev & NLb & _).
          pose proof (x_lv _ _ _ X v b _ Hv Ib (or_introl eq_refl)) as [V1 V1'].
          pose proof (x_lv _ _ _ X v b _ Hv Ib (or_intror eq_refl)) as [V2 V2'].
          assert (Hn0 : inn L s b) by (left; eauto).
          assert (Iv : In v (ord o)) by (rewrite <- Ev; apply (x_ord _ _ _ X); auto).
          assert (Xb : forall rho bb, D b (upd rho v bb) = if bb then dval D (dt (dm s b)) (upd rho v bb) else dval D (de (dm s b)) (upd rho v bb)).
          { intros rho bb. rewrite (x_D _ _ _ X b _ Hn0), Ev, upd_same'. auto. }
          destruct (N.lt_trichotomy (idx o v) (idx o i)) as [Hlt|[Heq|Hgt]].
          * (* above: Fn does not depend on v *)
            assert (Fi : forall rho bb, Fn (upd rho v bb) = Fn rho).
            { intros rho bb. apply Fa. intros u Iu Hu. apply upd_other'. intros ->. lia. }
            apply C4. apply (dval_inj _ _ _ X); auto. intros rho.
            assert (Q : forall c bb, (c = dt (dm s b) \/ c = de (dm s b)) -> dval D c (upd rho v bb) = dval D c rho).
            { intros c bb Hc. unfold dval. f_equal.
              assert (Oc : okp L s (fst c)) by (destruct Hc as [-> | ->]; auto).
              assert (Lc : idx o v < idx o (did (dm s (fst c))) /\ (In (fst c) L -> idx o v < idx o j)).
              { destruct Hc as [-> | ->]; auto. }
              destruct (in_dec N.eq_dec (fst c) L) as [IL|NL].
              - apply (x_agL _ _ _ X _ IL). intros u Iu Hu. apply upd_other'. intros ->. destruct Lc as [_ Lc].
                specialize (Lc IL). lia.
              - apply (okp_agree _ _ _ X _ Oc NL). intros u Iu Hu. apply upd_other'. intros ->. lia. }
            rewrite <- (Q (dt (dm s b)) true), <- (Q (de (dm s b)) false) by auto.
            rewrite <- (Xb rho true), <- (Xb rho false), !H, !Fi. auto.
          * assert (E0 : v = i) by (apply (wfo_inj o v i Wo Iv Ii Heq)). rewrite E0 in *. clear v E0 Heq.
            destruct Low as [G1 G2].
            -- intros rho. rewrite <- H, Xb. symmetry. apply (low_dval _ _ _ X); auto. lia.
            -- intros rho. rewrite <- H, Xb. symmetry. apply (low_dval _ _ _ X); auto. lia.
            -- exact (NF b Ib G1 G2).
          * apply NE. apply (dval_inj _ _ _ X); auto. intros rho. rewrite Ft, Fe, <- !H.
            apply (x_ag _ _ _ X v b Hv Ib). intros u Iu Hu.
            rewrite !upd_other'; auto; intros ->; lia.
        + assert (Hn0 : inn L s b) by (right; auto).
          destruct (x_L _ _ _ X b Ib) as (Ei & _ & Hj).
          pose proof (x_lvL _ _ _ X b _ Ib (or_introl eq_refl)) as [V1 V1'].
          pose proof (x_lvL _ _ _ X b _ Ib (or_intror eq_refl)) as [V2 V2'].
          (* the children of b do not depend on i: below i, or nodes of j, whose children are below both *)
          assert (Ind : forall c, c = dt (dm s b) \/ c = de (dm s b) -> forall rho bb, dval D c (upd rho i bb) = dval D c rho).
          { intros c Hc rho bb. unfold dval. f_equal. apply (child_indep _ _ _ X b); auto. destruct Hc as [-> | ->]; auto. }
          assert (Xb : forall rho bb, D b (upd rho i bb) = if bb then dval D (dt (dm s b)) (upd rho i bb) else dval D (de (dm s b)) (upd rho i bb)).
          { intros rho bb. rewrite (x_D _ _ _ X b _ Hn0), Ei, upd_same'. auto. }
          destruct Low as [G1 G2].
          * intros rho. rewrite <- H, Xb. symmetry. apply Ind. auto.
          * intros rho. rewrite <- H, Xb. symmetry. apply Ind. auto.
          * rewrite G1, G2 in Hj. destruct Hj as [Hj|Hj]; rewrite Hj in *; lia. }
    exists D'. split; [|split; [|split; [|split]]].
    + constructor.
      * intros v b Ib. apply Tin in Ib as [Ib|[-> ->]].
        -- destruct (x_tab _ _ _ X _ _ Ib) as (G1 & G2 & G3). rewrite Em by (apply Ndf; left; eauto).
           split; [auto|]. split; [auto|]. unfold s'; cbn [dnx set_dtab dput]. lia.
        -- rewrite Ea. cbn [did]. split; [auto|]. split; [intros H; apply NN; now right|].
           unfold s'; cbn [dnx set_dtab dput]. lia.
      * intros v. destruct (N.eq_dec v i) as [->|Hv].
        -- rewrite Ti. constructor; [|apply X]. intros H. apply NN. left; eauto.
        -- rewrite To by auto. apply X.
      * apply X.
      * intros b Ib. destruct (x_L _ _ _ X b Ib) as (G1 & G2 & G3).
        pose proof (x_ch _ _ _ X b (or_intror Ib)) as (C1 & C2 & _ & _).
        rewrite (Em b) by (apply Ndf; now right). rewrite !Em by (apply Odf; auto).
        split; [auto|]. split; [|auto]. unfold s'; cbn [dnx set_dtab dput]. lia.
      * rewrite Em by (unfold ONE; lia). apply X.
      * intros rho. rewrite Do by (unfold ONE; lia). apply X.
      * intros b Ib. apply Nin in Ib as [Ib| ->].
        -- rewrite Em by auto. now apply X.
        -- now rewrite Ea.
      * intros b Ib. rewrite !Nok. apply Nin in Ib as [Ib| ->].
        -- rewrite Em by auto. destruct (x_ch _ _ _ X b Ib) as (C1 & C2 & C3 & C4). auto.
        -- rewrite Ea. cbn [dt de]. auto.
      * intros b c Ib Hc. rewrite (Em b) in Hc by (apply Ndf; now right).
        pose proof (x_ch _ _ _ X b (or_intror Ib)) as (C1 & C2 & _ & _).
        destruct (x_lvL _ _ _ X b c Ib Hc) as [G1 G2].
        assert (Oc : okp L s c) by (destruct Hc as [-> | ->]; auto).
        rewrite (Em c) by auto. split; [auto|]. destruct G2 as [(G2 & G3 & G4)|G2]; [left|auto].
        assert (Hc' : inn L s c) by (eapply okp_j; eauto).
        destruct (x_ch _ _ _ X c Hc') as (U1 & U2 & _ & _). rewrite !Em by auto. auto.
      * intros v b c Hv Ib Hc. apply Tin in Ib as [Ib|[-> ->]].
        -- assert (Hb : inn L s b) by (left; eauto). rewrite (Em b) in Hc by auto.
           destruct (x_ch _ _ _ X b Hb) as (U1 & U2 & _ & _).
           rewrite Em by (destruct Hc as [-> | ->]; auto). exact (x_lv _ _ _ X v b c Hv Ib Hc).
        -- rewrite Ea in Hc. cbn [dt de] in Hc. rewrite Em by (destruct Hc as [-> | ->]; auto).
           destruct Hc as [-> | ->]; split; auto; intros Q; tauto.
      * intros b rho Ib. apply Nin in Ib as [Ib| ->].
        -- destruct (x_ch _ _ _ X b Ib) as (U1 & U2 & _ & _). rewrite Em by auto. rewrite !Dvo by auto.
           rewrite Do by auto. now apply X.
        -- rewrite Ea. cbn [dt de did]. rewrite !Dvo by auto. apply Da.
      * intros b Ib r1 r2 H. rewrite !Do by (apply Ndf; now right). now apply (x_agL _ _ _ X b Ib).
      * intros v b Hv Ib r1 r2 H. apply Tin in Ib as [Ib|[-> ->]].
        -- rewrite !Do by (apply Ndf; left; eauto). now apply (x_ag _ _ _ X v b Hv Ib).
        -- rewrite !Da. now apply Fa.
      * intros b Ib. apply Nin in Ib as [Ib| ->].
        -- rewrite Do by auto. now apply X.
        -- rewrite Da. unfold Fn, dval. rewrite Pt. rewrite (okp_true _ _ _ X) by auto. auto.
      * intros b c Ob Oc H. apply Nok in Ob as [Ob| ->]; apply Nok in Oc as [Oc| ->]; auto.
        -- apply (x_inj _ _ _ X); auto. intros rho. rewrite <- (Do b), <- (Do c) by auto. auto.
        -- exfalso. apply (NFn b Ob). intros rho. rewrite <- (Do b), H by auto. apply Da.
        -- exfalso. apply (NFn c Oc). intros rho. rewrite <- (Do c), <- H by auto. apply Da.
      * intros b Ib. apply Tin in Ib as [Ib|[E _]]; [|destruct (i0 (eq_sym E))].
        rewrite Em by (apply Ndf; left; eauto). rewrite Nok. destruct (x_user _ _ _ X b Ib) as (G1 & G2 & G3). auto.
      * intros b c Ib Ic. apply Tin in Ib as [Ib|[E _]]; [|destruct (i0 (eq_sym E))].
        apply Tin in Ic as [Ic|[E _]]; [|destruct (i0 (eq_sym E))].
        rewrite !Em by (apply Ndf; left; eauto). now apply X.
      * split; [exact Nd|]. intros b Ib. destruct (Fl0 b Ib) as [G1 G2].
        destruct (x_fl _ _ _ X) as [_ Q]. destruct (Q b G1) as [Q1 Q2].
        split; [unfold s'; cbn [dnx set_dtab dput]; lia|]. rewrite Nn. tauto.
      * pose proof (x_nx _ _ _ X). unfold s'; cbn [dnx set_dtab dput]. lia.
      * intros b p q Ib Hpq Hm. apply Nin in Ib as [Ib| ->].
        -- destruct (x_M _ _ _ X b p q Ib Hpq Hm) as [H|H]; [left|right]; intros rho bb; rewrite !Do by auto; apply H.
        -- destruct (HM p q Hpq Hm) as [H|H]; [left|right]; intros rho bb; rewrite !Da; apply H.
    + constructor.
      * intros b [->|Hb]; apply Em; [unfold ONE; lia|auto].
      * intros b rho Ob. apply Do. auto.
      * intros v b Ib. apply Tin. auto.
      * exact To.
    + apply Tin. auto.
    + exact Da.
    + intros P x [R1 R2 R3 R4 R5]. exists (a0 :: P).
      assert (NP : ~ In a0 P) by (rewrite R2; auto).
      assert (Docc : forall b, docc (dm s') (a0 :: P) b = (Z.b2z (fst t =? b)%N + Z.b2z (fst e =? b)%N + docc (dm s) P b)%Z).
      { intros b. change (docc (dm s') (a0 :: P) b) with (dw (dm s') b a0 + docc (dm s') P b)%Z. unfold dw at 1. rewrite Ea. cbn [dt de]. rewrite (docc_frame (dm s) (dm s')); [lia|].
        intros c Ic. rewrite Em; auto. intros ->; auto. }
      constructor.
      * constructor; auto.
      * intros b. rewrite Nn, <- R2. simpl. split; intros [H|H]; auto.
      * intros b [<-|H]; [lia|auto].
      * intros b Ib. rewrite Docc. destruct (N.eq_dec b a0) as [->|Hb].
        -- rewrite Ea. cbn [drc]. split; [unfold MAXREF; lia|]. right.
           assert (Z0 : docc (dm s) P a0 = 0%Z).
           { assert (G : forall l, (forall c, In c l -> In c P) -> docc (dm s) l a0 = 0%Z).
             { induction l as [|c l IH]; simpl; intros Hl; auto. rewrite IH by auto.
               assert (Hc : node L s c) by (apply R2; auto).
               assert (okp L s (fst (dt (dm s c))) /\ okp L s (fst (de (dm s c)))) as [U1 U2].
               { destruct Hc as [(v & Ic)|Ic].
                 - destruct (N.eq_dec v 0) as [->|Hv].
                   + destruct (x_user _ _ _ X c Ic) as (G1 & _ & ->). split; [auto|left; auto].
                   + destruct (x_ch _ _ _ X c) as (G1 & G2 & _); [left; eauto|auto].
                 - destruct (x_ch _ _ _ X c) as (G1 & G2 & _); [now right|auto]. }
               unfold dw. destruct (N.eqb_spec (fst (dt (dm s c))) a0) as [E|_]; [destruct (Odf _ U1 E)|].
               destruct (N.eqb_spec (fst (de (dm s c))) a0) as [E|_]; [destruct (Odf _ U2 E)|]. reflexivity. }
             apply G. auto. }
           rewrite Z0. rewrite (R5 a0) by (auto; lia). lia.
        -- rewrite Em by auto. destruct Ib as [E|Ib]; [destruct (Hb (eq_sym E))|]. destruct (R4 b Ib) as [G1 G2].
           split; [auto|]. destruct G2 as [G2|G2]; [auto|]. right. lia.
      * intros b Hb Nb. assert (B1 : b <> a0) by (intros ->; apply Nb; now left). assert (B2 : ~ In b P) by (intros Q; apply Nb; now right).
        rewrite (R5 b) by auto.
        assert (forall p, okp L s p -> b2n' (p =? b) = 0%Z) as Q.
        { intros p Op. unfold b2n'. destruct (N.eqb_spec p b) as [<-|_]; auto. exfalso. apply B2. apply R2.
          destruct Op as [->|Op]; [unfold ONE in Hb; lia|now apply inn_node]. }
        unfold b2n' in Q. rewrite (Q _ Ot), (Q _ Oe). reflexivity.
Qed.

Definition low (s : dst) (p : ded) : Prop := idx o i < idx o (did (dm s (fst p))).

Lemma XI_num L D s n : XI L D s -> XI L D (DS (dm s) (dtab s) (dfl s) (dnx s) n).
Proof. intros X. apply (XI_drc L D s); auto. Qed.
Lemma XR_num L s P x n : XR L s P x -> XR L (DS (dm s) (dtab s) (dfl s) (dnx s) n) P x.
Proof. intros [R1 R2 R3 R4 R5]. constructor; auto. Qed.
Lemma XR_ext L s P x x' : (forall b, x' b = x b) -> XR L s P x -> XR L s P x'.
Proof.
  intros E [R1 R2 R3 R4 R5]. constructor; auto.
  - intros b Ib. rewrite E. auto.
  - intros b Hb Nb. rewrite E. auto.
Qed.

Lemma dunique_spec L D s t e r found s1 :
  XI L D s -> okp L s (fst t) -> okp L s (fst e) -> t <> e -> low s t -> low s e ->
  (forall p q, p <> q -> M p q = false ->
     indep (fun rho : N -> bool => if rho i then dval D t rho else dval D e rho) p \/
     indep (fun rho : N -> bool => if rho i then dval D t rho else dval D e rho) q) ->
  dunique s i t e = (r, found, s1) ->
  exists D', XI L D' s1 /\ fr L s D s1 D' /\ In (fst r) (dtab s1 i) /\ snd r = snd t /\
    (forall rho, dval D' r rho = if rho i then dval D t rho else dval D e rho) /\
    (forall P x, XR L s P x -> exists P', XR L s1 P'
       (if found then x else fun b => x b - Z.b2z (fst t =? b)%N - Z.b2z (fst e =? b)%N)%Z).
Proof.
  intros X Ot Oe NE Lt Le HM. unfold dunique. rewrite (proj2 (deq_false t e) NE).
  destruct (snd t) eqn:St.
  - destruct (dfindadd s i (dnot t) (dnot e)) as [[a f] s0] eqn:F. intros H.
    apply pair_equal_spec in H as [H <-]. apply pair_equal_spec in H as [<- <-].
    destruct (dfindadd_spec L D s (dnot t) (dnot e) a f s0) as (D' & X' & Fr & Ia & Da & R'); auto.
    + intros E. apply NE. now apply dnot_inj.
    + unfold dnot; simpl. now rewrite St.
    + intros p q Hp Hm. destruct (HM p q Hp Hm) as [H|H]; [left|right]; intros rho b; specialize (H rho b); simpl in H;
        rewrite !dval_dnot; destruct (upd rho _ b i), (rho i); congruence.
    + exists D'. split; [now apply XI_num|]. split; [destruct Fr; constructor; auto|]. split; [exact Ia|].
      split; [reflexivity|]. split.
      * intros rho. unfold dval at 1. cbn [fst snd]. rewrite Da, !dval_dnot. destruct (rho i); now rewrite xorb_true_l, negb_involutive.
      * intros P x R. destruct (R' P x R) as [P' R1]. exists P'. apply XR_num. destruct f; auto.
  - destruct (dfindadd s i t e) as [[a f] s0] eqn:F. intros H.
    apply pair_equal_spec in H as [H <-]. apply pair_equal_spec in H as [<- <-].
    destruct (dfindadd_spec L D s t e a f s0) as (D' & X' & Fr & Ia & Da & R'); auto.
    exists D'. split; [now apply XI_num|]. split; [destruct Fr; constructor; auto|]. split; [exact Ia|].
    split; [reflexivity|]. split.
    + intros rho. unfold dval at 1. cbn [fst snd]. rewrite Da. now rewrite xorb_false_l.
    + intros P x R. destruct (R' P x R) as [P' R1]. exists P'. now apply XR_num.
Qed.

Lemma fr_refl L s D : fr L s D s D.
Proof. constructor; auto. Qed.
Lemma fr_node L s D s' D' b : fr L s D s' D' -> node L s b -> node L s' b.
Proof. intros F [(v & H)|H]; [left; exists v; now apply F|now right]. Qed.
Lemma fr_okp L s D s' D' b : fr L s D s' D' -> okp L s b -> okp L s' b.
Proof. intros F [->|[(v & Hv & H)|H]]; [now left|right; left; exists v; split; auto; now apply F|right; now right]. Qed.
Lemma okp_on L s b : okp L s b -> b = ONE \/ node L s b.
Proof. intros [->|H]; auto. right. now apply inn_node. Qed.
Lemma fr_dval L s D s' D' p rho : fr L s D s' D' -> okp L s (fst p) -> dval D' p rho = dval D p rho.
Proof. intros F O. unfold dval. f_equal. now apply F. Qed.
Lemma fr_low L s D s' D' p : fr L s D s' D' -> okp L s (fst p) -> low s p -> low s' p.
Proof. intros F O H. unfold low. rewrite (fr_dm _ _ _ _ _ F) by (now apply okp_on). exact H. Qed.

(** The new child for the lower variable: an existing one if both cofactors coincide. *)
Definition choose (s : dst) (t e : ded) : ded * bool * dst := if deq e t then (t, true, s) else dunique s i t e.
Lemma choose_spec L D s t e r found s1 :
  XI L D s -> okp L s (fst t) -> okp L s (fst e) -> low s t -> low s e ->
  (forall p q, p <> q -> M p q = false ->
     indep (fun rho : N -> bool => if rho i then dval D t rho else dval D e rho) p \/
     indep (fun rho : N -> bool => if rho i then dval D t rho else dval D e rho) q) ->
  choose s t e = (r, found, s1) ->
  exists D', XI L D' s1 /\ fr L s D s1 D' /\ okp L s1 (fst r) /\ ~ In (fst r) L /\ idx o j < idx o (did (dm s1 (fst r))) /\
    snd r = snd t /\ (forall rho, dval D' r rho = if rho i then dval D t rho else dval D e rho) /\
    (forall P x, XR L s P x -> exists P', XR L s1 P'
       (if found then x else fun b => x b - Z.b2z (fst t =? b)%N - Z.b2z (fst e =? b)%N)%Z).
Proof.
  intros X Ot Oe Lt Le HM. unfold choose. destruct (deq e t) eqn:Q.
  - apply deq_iff in Q. subst e. intros H. apply pair_equal_spec in H as [H <-]. apply pair_equal_spec in H as [<- <-].
    exists D. split; [exact X|]. split; [apply fr_refl|]. split; [exact Ot|].
    split; [exact (low_notL _ _ _ X _ Lt)|]. split; [unfold low in Lt; lia|]. split; [reflexivity|].
    split; [intros rho; now destruct (rho i)|eauto].
  - apply deq_false in Q. intros H.
    destruct (dunique_spec L D s t e r found s1) as (D' & X' & Fr & Ir & Sr & Dr & R'); auto.
    exists D'. split; [exact X'|]. split; [exact Fr|].
    destruct (x_tab _ _ _ X' _ _ Ir) as (Ei & NL & _).
    split; [right; left; exists i; split; [apply i0|auto]|]. split; [exact NL|]. split; [rewrite Ei; lia|].
    split; [exact Sr|]. split; [exact Dr|exact R'].
Qed.

(** *** Counts *)

Lemma XI_icr L D s (p : ded) : XI L D s -> XI L D (dicr s p).
Proof.
  intros X. assert (E : forall a, did (dm (dicr s p) a) = did (dm s a) /\ dt (dm (dicr s p) a) = dt (dm s a) /\
                          de (dm (dicr s p) a) = de (dm s a)).
  { intros a. unfold dicr, dput. cbn [dm]. unfold upd. destruct (N.eqb_spec a (fst p)) as [->|_]; auto. }
  apply (XI_drc L D s); auto. unfold dicr, dput. cbn [dm]. unfold upd. destruct (N.eqb_spec ONE (fst p)) as [<-|_]; auto.
  cbn [set_drc drc]. destruct (x_one _ _ _ X) as (_ & -> & _). reflexivity.
Qed.
Lemma XI_dcr L D s (p : ded) : XI L D s -> XI L D (ddcr s p).
Proof.
  intros X. assert (E : forall a, did (dm (ddcr s p) a) = did (dm s a) /\ dt (dm (ddcr s p) a) = dt (dm s a) /\
                          de (dm (ddcr s p) a) = de (dm s a)).
  { intros a. unfold ddcr, dput. cbn [dm]. unfold upd. destruct (N.eqb_spec a (fst p)) as [->|_]; auto. }
  apply (XI_drc L D s); auto. unfold ddcr, dput. cbn [dm]. unfold upd. destruct (N.eqb_spec ONE (fst p)) as [<-|_]; auto.
  cbn [set_drc drc]. destruct (x_one _ _ _ X) as (_ & -> & _). reflexivity.
Qed.

Lemma XR_count L s P x (p : ded) n k :
  XR L s P x -> fst p = ONE \/ In (fst p) P ->
  (In (fst p) P -> n <= MAXREF /\ (n = MAXREF \/ (drc (dm s (fst p)) <> MAXREF /\ Z.of_N n = (Z.of_N (drc (dm s (fst p))) + k)%Z))) ->
  XR L (dput s (fst p) (set_drc (dm s (fst p)) n)) P (fun b => x b + (if (fst p =? b)%N then k else 0))%Z.
Proof.
  intros [R1 R2 R3 R4 R5] Hp Hn.
  assert (Dc : forall b, docc (dm (dput s (fst p) (set_drc (dm s (fst p)) n))) P b = docc (dm s) P b).
  { intros b. apply docc_frame. intros a _. unfold dput. cbn [dm]. unfold upd.
    destruct (N.eqb_spec a (fst p)) as [->|_]; auto. }
  constructor; auto.
  - intros b Ib. rewrite Dc. unfold dput. cbn [dm]. unfold upd. rewrite N.eqb_sym.
    destruct (N.eqb_spec (fst p) b) as [E|NE].
    + rewrite <- E in *. cbn [set_drc drc]. destruct (Hn Ib) as [G1 G2]. split; [auto|].
      destruct G2 as [G2|[G2 G3]]; [auto|]. right. destruct (R4 _ Ib) as [_ [Q|Q]]; [congruence|]. lia.
    + destruct (R4 b Ib) as [G1 G2]. split; [auto|]. destruct G2 as [G2|G2]; [auto|right; lia].
  - intros b Hb Nb. rewrite (R5 b Hb Nb). destruct (N.eqb_spec (fst p) b) as [E|_]; [|lia].
    destruct Hp as [Hp|Hp]; [rewrite <- E, Hp in Hb; unfold ONE in Hb; lia|]. rewrite E in Hp. tauto.
Qed.

Lemma XR_icr L s P x (p : ded) : XR L s P x -> okp L s (fst p) ->
  XR L (dicr s p) P (fun b => x b + Z.b2z (fst p =? b)%N)%Z.
Proof.
  intros R O. unfold dicr. apply (XR_ext _ _ _ (fun b => x b + (if (fst p =? b)%N then 1 else 0))%Z).
  { intros b. destruct (_ =? b); reflexivity. }
  apply XR_count; auto.
  - apply okp_on in O as [O|O]; auto. right. now apply (xr_P _ _ _ _ R).
  - intros I. destruct (xr_cnt _ _ _ _ R _ I) as [G _]. unfold rc_icr. destruct (N.ltb_spec (drc (dm s (fst p))) MAXREF); lia.
Qed.
Lemma XR_dcr L s P x (p : ded) : XR L s P x -> okp L s (fst p) -> (1 <= x (fst p))%Z ->
  XR L (ddcr s p) P (fun b => x b - Z.b2z (fst p =? b)%N)%Z.
Proof.
  intros R O Hx. unfold ddcr. apply (XR_ext _ _ _ (fun b => x b + (if (fst p =? b)%N then -1 else 0))%Z).
  { intros b. destruct (_ =? b); simpl; lia. }
  apply XR_count; auto.
  - apply okp_on in O as [O|O]; auto. right. now apply (xr_P _ _ _ _ R).
  - intros I. destruct (xr_cnt _ _ _ _ R _ I) as [G H]. unfold rc_dcr.
    destruct (N.eqb_spec (drc (dm s (fst p))) 0) as [E|NE].
    + exfalso. rewrite E in H. pose proof (docc_nonneg (dm s) P (fst p)). destruct H as [H|H]; [discriminate|]. lia.
    + destruct (N.eqb_spec (drc (dm s (fst p))) MAXREF) as [E|NM]; [split; [lia|auto]|]. split; [lia|]. right. split; [auto|lia].
Qed.

(** *** Rewriting a node in place *)

Lemma put_f L D s f n1 n0 c : XI (f :: L) D s ->
  okp (f :: L) s (fst n1) -> okp (f :: L) s (fst n0) -> ~ In (fst n1) (f :: L) -> ~ In (fst n0) (f :: L) ->
  idx o j < idx o (did (dm s (fst n1))) -> idx o j < idx o (did (dm s (fst n0))) ->
  snd n1 = false -> n1 <> n0 ->
  (forall rho, D f rho = if rho j then dval D n1 rho else dval D n0 rho) ->
  XI L D (set_dtab (dput s f (DN j c n1 n0)) j (f :: dtab s j)).
Proof.
  intros X O1 O0 N1 N0 L1 L0 S1 NE Df. set (s' := set_dtab (dput s f (DN j c n1 n0)) j (f :: dtab s j)).
  assert (If : In f (f :: L)) by now left.
  destruct (x_L _ _ _ X f If) as (Fi & Fr & _).
  assert (Em : forall b, b <> f -> dm s' b = dm s b).
  { intros b Hb. unfold s'. cbn [dm set_dtab dput]. now apply upd_other'. }
  assert (Ef : dm s' f = DN j c n1 n0) by (unfold s'; cbn [dm set_dtab dput]; apply upd_same').
  assert (Tin : forall v b, In b (dtab s' v) <-> In b (dtab s v) \/ (v = j /\ b = f)).
  { intros v b. unfold s'. cbn [dtab set_dtab dput]. unfold upd. destruct (N.eqb_spec v j) as [->|Hv].
    - simpl. split; intros [H|H]; auto. destruct H as [_ ->]; auto.
    - split; [auto|]. intros [H|[H _]]; tauto. }
  assert (Nf : forall v, ~ In f (dtab s v)).
  { intros v H. destruct (x_tab _ _ _ X v f H) as (_ & H1 & _). apply H1. now left. }
  assert (NDL := x_ndL _ _ _ X). assert (NfL : ~ In f L) by (inversion NDL; auto).
  assert (NN : forall b, node L s' b <-> node (f :: L) s b).
  { intros b. unfold node. split.
    - intros [(v & H)|H]; [|right; now right]. apply Tin in H as [H|[_ ->]]; [left; eauto|right; now left].
    - intros [(v & H)|[<-|H]]; [left; exists v; apply Tin; auto|left; exists j; apply Tin; auto|now right]. }
  assert (NI : forall b, inn L s' b <-> inn (f :: L) s b).
  { intros b. unfold inn. split.
    - intros [(v & Hv & H)|H]; [|right; now right]. apply Tin in H as [H|[_ ->]]; [left; eauto|right; now left].
    - intros [(v & Hv & H)|[<-|H]]; [left; exists v; split; auto; apply Tin; auto| |now right].
      left; exists j; split; [apply j0; auto|apply Tin; auto]. }
  assert (NO : forall b, okp L s' b <-> okp (f :: L) s b) by (intros b; unfold okp; now rewrite NI).
  assert (Di : forall b, b <> f -> did (dm s' b) = did (dm s b)) by (intros; now rewrite Em).
  assert (Fne : ONE <> f) by (intros <-; unfold ONE in Fr; lia).
  constructor.
  - intros v b Ib. apply Tin in Ib as [Ib|[-> ->]].
    + destruct (x_tab _ _ _ X v b Ib) as (G1 & G2 & G3). rewrite Em by (intros ->; exact (Nf _ Ib)).
      split; [auto|]. split; [intros H; apply G2; now right|exact G3].
    + rewrite Ef. split; [reflexivity|]. split; [exact NfL|exact Fr].
  - intros v. unfold s'. cbn [dtab set_dtab dput]. unfold upd. destruct (N.eqb_spec v j) as [->|Hv].
    + constructor; [apply Nf|apply X].
    + apply X.
  - now inversion NDL.
  - intros b Ib. assert (Ib' : In b (f :: L)) by now right.
    destruct (x_L _ _ _ X b Ib') as (G1 & G2 & G3).
    assert (b <> f) by (intros ->; auto). rewrite (Em b) by auto.
    destruct (x_lvL _ _ _ X b _ Ib' (or_introl eq_refl)) as [V1 _].
    destruct (x_lvL _ _ _ X b _ Ib' (or_intror eq_refl)) as [V2 _].
    rewrite (Di (fst (dt (dm s b)))) by (intros E; apply V1; rewrite E; now left).
    rewrite (Di (fst (de (dm s b)))) by (intros E; apply V2; rewrite E; now left). auto.
  - rewrite Em by auto. apply X.
  - apply X.
  - intros b Ib. apply NI in Ib. destruct (N.eq_dec b f) as [->|Hb].
    + rewrite Ef. exact Ij.
    + rewrite Em by auto. now apply X.
  - intros b Ib. apply NI in Ib. destruct (N.eq_dec b f) as [->|Hb].
    + rewrite Ef. cbn [dt de]. rewrite !NO. auto.
    + rewrite Em by auto. rewrite !NO. now apply X.
  - intros b k Ib Hk. assert (Ib' : In b (f :: L)) by now right. assert (b <> f) by (intros ->; auto).
    rewrite (Em b) in Hk by auto. destruct (x_lvL _ _ _ X b k Ib' Hk) as [V1 V2].
    assert (k <> f) by (intros ->; apply V1; now left). rewrite (Em k) by auto.
    split; [intros H1; apply V1; now right|]. destruct V2 as [(V2 & V3 & V4)|V2]; [left|now right].
    split; [exact V2|]. rewrite !Di; auto; intros E; rewrite E, Fi in *; lia.
  - intros v b k Hv Ib Hk. apply Tin in Ib as [Ib|[-> ->]].
    + assert (b <> f) by (intros ->; exact (Nf _ Ib)). rewrite (Em b) in Hk by auto.
      destruct (x_lv _ _ _ X v b k Hv Ib Hk) as [V1 V2].
      destruct (N.eq_dec k f) as [->|Hkf].
      * rewrite Ef. cbn [did]. split; [apply V2; now left|]. intros Q. tauto.
      * rewrite Em by auto. split; [auto|]. intros Q. apply V2. now right.
    + rewrite Ef in Hk. cbn [dt de] in Hk.
      assert (k <> f) by (intros ->; destruct Hk as [E|E]; [apply N1|apply N0]; rewrite <- E; now left).
      rewrite Em by auto. destruct Hk as [-> | ->]; split; auto; intros Q; exfalso; [apply N1|apply N0]; now right.
  - intros b rho Ib. apply NI in Ib. destruct (N.eq_dec b f) as [->|Hb].
    + rewrite Ef. cbn [did dt de]. apply Df.
    + rewrite Em by auto. now apply X.
  - intros b Ib. apply (x_agL _ _ _ X). now right.
  - intros v b Hv Ib. apply Tin in Ib as [Ib|[-> ->]].
    + exact (x_ag _ _ _ X v b Hv Ib).
    + apply (x_agL _ _ _ X). now left.
  - intros b Ib. apply NI in Ib. now apply X.
  - intros a b Ia Ib. apply NO in Ia. apply NO in Ib. now apply X.
  - intros b Ib. apply Tin in Ib as [Ib|[E _]]; [|destruct (j0 (eq_sym E))].
    rewrite Em by (intros ->; exact (Nf _ Ib)). rewrite NO. now apply X.
  - intros a b Ia Ib. apply Tin in Ia as [Ia|[E _]]; [|destruct (j0 (eq_sym E))].
    apply Tin in Ib as [Ib|[E _]]; [|destruct (j0 (eq_sym E))].
    rewrite (Em a) by (intros ->; exact (Nf _ Ia)). rewrite (Em b) by (intros ->; exact (Nf _ Ib)).
    exact (x_uu _ _ _ X a b Ia Ib).
  - destruct (x_fl _ _ _ X) as [G1 G2]. split; [exact G1|]. intros b Ib. rewrite NN. now apply G2.
  - exact (x_nx _ _ _ X).
  - intros a p q Ia. apply NI in Ia. now apply X.
Qed.

Lemma put_f_R L D s f n1 n0 P x : XI (f :: L) D s -> XR (f :: L) s P x ->
  okp (f :: L) s (fst n1) -> okp (f :: L) s (fst n0) ->
  XR L (set_dtab (dput s f (DN j (drc (dm s f)) n1 n0)) j (f :: dtab s j)) P
    (fun b => x b + Z.b2z (fst (de (dm s f)) =? b)%N + Z.b2z (fst (dt (dm s f)) =? b)%N
                  - Z.b2z (fst n0 =? b)%N - Z.b2z (fst n1 =? b)%N)%Z.
Proof.
  intros X [R1 R2 R3 R4 R5] O1 O0.
  assert (IP : In f P) by (apply R2; right; now left).
  destruct (x_ch _ _ _ X f (or_intror (or_introl eq_refl))) as (C1 & C2 & _ & _).
  constructor; auto.
  - intros a. rewrite R2. unfold node. cbn [dtab set_dtab dput]. split.
    + intros [(v & H)|[<-|H]]; [|left; exists j; rewrite upd_same'; now left|now right].
      left. exists v. destruct (N.eq_dec v j) as [->|Hv]; [rewrite upd_same'; now right|now rewrite upd_other'].
    + intros [(v & H)|H]; [|right; now right]. destruct (N.eq_dec v j) as [->|Hv].
      * rewrite upd_same' in H. destruct H as [<-|H]; [right; now left|left; eauto].
      * rewrite upd_other' in H by auto. left; eauto.
  - intros b Ib. cbn [dm set_dtab dput]. rewrite docc_upd by auto. unfold dw. rewrite upd_same'. cbn [dt de].
    assert (E : drc (upd (dm s) f (DN j (drc (dm s f)) n1 n0) b) = drc (dm s b)).
    { unfold upd. destruct (N.eqb_spec b f) as [->|_]; auto. }
    rewrite E. destruct (R4 b Ib) as [G1 G2]. split; [exact G1|]. destruct G2 as [G2|G2]; [now left|right]. lia.
  - intros b Hb Nb. rewrite (R5 b Hb Nb).
    assert (Q : forall p, okp (f :: L) s p -> Z.b2z (p =? b) = 0%Z).
    { intros p Op. destruct (N.eqb_spec p b) as [<-|_]; auto. exfalso. apply Nb. apply R2.
      destruct Op as [->|Op]; [unfold ONE in Hb; lia|now apply inn_node]. }
    rewrite !Q by auto. reflexivity.
Qed.

(** The cofactors of a child of a node that was taken out. *)
Lemma dcof_spec L D s f c pt pe : XI L D s -> In f L -> c = dt (dm s f) \/ c = de (dm s f) ->
  dcof s j c = (pt, pe) ->
  okp L s (fst pt) /\ okp L s (fst pe) /\ low s pt /\ low s pe /\
  (forall rho, dval D c rho = if rho j then dval D pt rho else dval D pe rho) /\
  (did (dm s (fst c)) = j -> pt <> pe) /\ (snd c = false -> snd pt = false).
Proof.
  intros X If Hc. destruct (x_ch _ _ _ X f (or_intror If)) as (C1 & C2 & _ & _).
  assert (Oc : okp L s (fst c)) by (destruct Hc as [-> | ->]; auto).
  assert (Hc' : fst c = fst (dt (dm s f)) \/ fst c = fst (de (dm s f))) by (destruct Hc as [-> | ->]; auto).
  destruct (x_lvL _ _ _ X f _ If Hc') as [NL V].
  unfold dcof. destruct (N.eqb_spec (did (dm s (fst c))) j) as [E|NE]; intros H; apply pair_equal_spec in H as [<- <-].
  - assert (Hn : inn L s (fst c)) by (eapply okp_j; eauto).
    destruct (x_ch _ _ _ X _ Hn) as (U1 & U2 & U3 & U4).
    destruct V as [(_ & V1 & V2)|V]; [|rewrite E in V; lia].
    split; [exact U1|]. split; [exact U2|]. split; [exact V1|]. split; [exact V2|]. split.
    + intros rho. rewrite !dval_dtag. unfold dval at 1. rewrite (x_D _ _ _ X _ rho Hn), E. now destruct (rho j).
    + split; [intros _ Q; apply U4; eapply dtag_inj; eauto|]. intros Q. unfold dtag. simpl. now rewrite U3, Q.
  - destruct V as [(V & _)|V]; [tauto|].
    do 4 (split; [auto|]). split; [intros rho; now destruct (rho j)|]. split; [tauto|auto].
Qed.

(** *** One node *)

Record fx (L : list N) (s : dst) (D : den) (L' : list N) (s' : dst) (D' : den) : Prop := {
  fx_D : forall b, okp L s b -> okp L' s' b /\ forall rho, D' b rho = D b rho;
  fx_tab : forall v b, In b (dtab s v) -> In b (dtab s' v) /\ dt (dm s' b) = dt (dm s b) /\ de (dm s' b) = de (dm s b);
  fx_0 : dtab s' 0 = dtab s 0
}.
Lemma fx_refl L s D : fx L s D L s D.
Proof. constructor; auto. Qed.
Lemma fx_trans L s D L1 s1 D1 L2 s2 D2 : fx L s D L1 s1 D1 -> fx L1 s1 D1 L2 s2 D2 -> fx L s D L2 s2 D2.
Proof.
  intros [A1 A2 A3] [B1 B2 B3]. constructor; [| |congruence].
  - intros b O. destruct (A1 b O) as [O1 E1]. destruct (B1 b O1) as [O2 E2]. split; auto. intros rho. now rewrite E2, E1.
  - intros v b H. destruct (A2 v b H) as (H1 & E1 & E2). destruct (B2 v b H1) as (H2 & F1 & F2). split; auto. split; congruence.
Qed.

Definition cofx (F : (N -> bool) -> bool) (b : bool) : (N -> bool) -> bool := fun rho => F (upd rho j b).
Lemma indep_cofx k F b p : agree k F -> indep F p -> indep (cofx F b) p.
Proof.
  intros A H rho c. unfold cofx.
  destruct (N.eq_dec p j) as [->|Np].
  - apply A. intros u _ _. unfold upd. destruct (u =? j); auto.
  - rewrite <- (H (upd rho j b) c). apply A. intros u _ _. unfold upd.
    destruct (N.eqb_spec u j), (N.eqb_spec u p); auto. congruence.
Qed.

Lemma exchange1_spec L D s f : XI (f :: L) D s ->
  exists D', XI L D' (exchange1 i j s f) /\ fx (f :: L) s D L (exchange1 i j s f) D' /\
    (forall P x, (forall b, (0 <= x b)%Z) -> XR (f :: L) s P x -> exists P', XR L (exchange1 i j s f) P' x).
Proof.
  intros X. assert (If : In f (f :: L)) by now left.
  assert (Hf : inn (f :: L) s f) by now right.
  unfold exchange1, exchange_aux.
  set (f0 := de (dm s f)). set (f1 := dt (dm s f)).
  destruct (dcof s j f0) as [f01 f00] eqn:C0. destruct (dcof s j f1) as [f11 f10] eqn:C1.
  destruct (dcof_spec _ _ _ f f0 _ _ X If (or_intror eq_refl) C0) as (A1 & A2 & A3 & A4 & A5 & A6 & _).
  destruct (dcof_spec _ _ _ f f1 _ _ X If (or_introl eq_refl) C1) as (B1 & B2 & B3 & B4 & B5 & B6 & B7).
  destruct (x_ch _ _ _ X f Hf) as (O1 & O0 & S1 & _). fold f1 in O1, S1. fold f0 in O0.
  specialize (B7 S1).
  destruct (x_L _ _ _ X f If) as (Ei & _ & Hj). fold f0 f1 in Hj.
  assert (Df : forall rho, D f rho = if rho i then dval D f1 rho else dval D f0 rho).
  { intros rho. rewrite (x_D _ _ _ X f rho Hf), Ei. reflexivity. }
  assert (Agf : agree (idx o j) (D f)) by now apply (x_agL _ _ _ X).
  assert (Lowj : forall p rho b, okp (f :: L) s (fst p) -> low s p -> dval D p (upd rho j b) = dval D p rho).
  { intros p rho b Op Lp. apply (low_dval _ _ _ X); auto. lia. }
  assert (Cf1 : forall rho, cofx (D f) true rho = if rho i then dval D f11 rho else dval D f01 rho).
  { intros rho. unfold cofx. rewrite Df, A5, B5, upd_same', upd_other' by apply iNj.
    rewrite (Lowj f11), (Lowj f01) by auto. auto. }
  assert (Cf0 : forall rho, cofx (D f) false rho = if rho i then dval D f10 rho else dval D f00 rho).
  { intros rho. unfold cofx. rewrite Df, A5, B5, upd_same', upd_other' by apply iNj.
    rewrite (Lowj f10), (Lowj f00) by auto. auto. }
  assert (HM : forall b p q, p <> q -> M p q = false -> indep (cofx (D f) b) p \/ indep (cofx (D f) b) q).
  { intros b p q Hp Hm. destruct (x_M _ _ _ X f p q Hf Hp Hm) as [H|H]; [left|right]; eapply indep_cofx; eauto. }
  assert (HM0 : forall p q, p <> q -> M p q = false ->
     indep (fun rho : N -> bool => if rho i then dval D f10 rho else dval D f00 rho) p \/
     indep (fun rho : N -> bool => if rho i then dval D f10 rho else dval D f00 rho) q).
  { intros p q Hp Hm. destruct (HM false p q Hp Hm) as [H|H]; [left|right]; intros rho b; rewrite <- !Cf0; apply H. }
  (* the else child *)
  assert (Eq0 : (if deq f00 f10 then (f00, true, s) else dunique s i f10 f00) = choose s f10 f00).
  { unfold choose. destruct (deq f00 f10) eqn:Q; auto. apply deq_iff in Q. now rewrite Q. }
  rewrite Eq0. clear Eq0. destruct (choose s f10 f00) as [[n0 d0] s1] eqn:H0.
  destruct (choose_spec _ _ _ _ _ _ _ _ X B2 A2 B4 A4 HM0 H0) as (D1 & X1 & F1 & N01 & N02 & N03 & N04 & N05 & R1).
  set (s2 := dicr s1 n0). assert (X2 : XI (f :: L) D1 s2) by now apply XI_icr.
  assert (Sid : forall a, did (dm s2 a) = did (dm s1 a) /\ dt (dm s2 a) = dt (dm s1 a) /\ de (dm s2 a) = de (dm s1 a)).
  { intros a. unfold s2, dicr, dput. cbn [dm]. unfold upd. destruct (N.eqb_spec a (fst n0)) as [->|_]; auto. }
  assert (Ok2 : forall p, okp (f :: L) s p -> okp (f :: L) s2 p).
  { intros p Op. apply (fr_okp _ _ _ _ _ _ F1) in Op. exact Op. }
  assert (Lo2 : forall p, okp (f :: L) s (fst p) -> low s p -> low s2 p).
  { intros p Op Lp. unfold low. destruct (Sid (fst p)) as (-> & _). exact (fr_low _ _ _ _ _ _ F1 Op Lp). }
  assert (Dv1 : forall p rho, okp (f :: L) s (fst p) -> dval D1 p rho = dval D p rho).
  { intros p rho Op. exact (fr_dval _ _ _ _ _ _ rho F1 Op). }
  assert (HM1 : forall p q, p <> q -> M p q = false ->
     indep (fun rho : N -> bool => if rho i then dval D1 f11 rho else dval D1 f01 rho) p \/
     indep (fun rho : N -> bool => if rho i then dval D1 f11 rho else dval D1 f01 rho) q).
  { intros p q Hp Hm. destruct (HM true p q Hp Hm) as [H|H]; [left|right]; intros rho b;
      rewrite !Dv1 by auto; rewrite <- !Cf1; apply H. }
  assert (Eq1 : (if deq f01 f11 then (f11, true, s2) else dunique s2 i f11 f01) = choose s2 f11 f01) by reflexivity.
  rewrite Eq1. clear Eq1. destruct (choose s2 f11 f01) as [[n1 d1] s3] eqn:H1.
  destruct (choose_spec _ _ _ _ _ _ _ _ X2 (Ok2 _ B1) (Ok2 _ A1) (Lo2 _ B1 B3) (Lo2 _ A1 A3) HM1 H1)
    as (D3 & X3 & F3 & N11 & N12 & N13 & N14 & N15 & R3).
  set (s4 := dicr s3 n1). assert (X4 : XI (f :: L) D3 s4) by now apply XI_icr.
  assert (Sid4 : forall a, did (dm s4 a) = did (dm s3 a) /\ dt (dm s4 a) = dt (dm s3 a) /\ de (dm s4 a) = de (dm s3 a)).
  { intros a. unfold s4, dicr, dput. cbn [dm]. unfold upd. destruct (N.eqb_spec a (fst n1)) as [->|_]; auto. }
  assert (N01' : okp (f :: L) s4 (fst n0)) by (apply (fr_okp _ _ _ _ _ _ F3); exact N01).
  assert (N11' : okp (f :: L) s4 (fst n1)) by exact N11.
  assert (N03' : idx o j < idx o (did (dm s4 (fst n0)))).
  { destruct (Sid4 (fst n0)) as (-> & _). rewrite (fr_dm _ _ _ _ _ F3) by (apply okp_on; exact N01).
    destruct (Sid (fst n0)) as (-> & _). exact N03. }
  assert (N13' : idx o j < idx o (did (dm s4 (fst n1)))) by (destruct (Sid4 (fst n1)) as (-> & _); exact N13).
  assert (Dv3 : forall p rho, okp (f :: L) s (fst p) -> dval D3 p rho = dval D p rho).
  { intros p rho Op. rewrite (fr_dval _ _ _ _ _ _ rho F3 (Ok2 _ Op)). auto. }
  assert (Vn1 : forall rho, dval D3 n1 rho = cofx (D f) true rho).
  { intros rho. rewrite N15, Cf1, !Dv1 by auto. auto. }
  assert (Vn0 : forall rho, dval D3 n0 rho = cofx (D f) false rho).
  { intros rho. rewrite (fr_dval _ _ _ _ _ _ rho F3 N01), N05, Cf0. auto. }
  assert (Dff : forall rho, D3 f rho = D f rho).
  { intros rho. rewrite (fr_D _ _ _ _ _ F3), (fr_D _ _ _ _ _ F1); auto; [|apply Ok2]; now right. }
  assert (Dfn : forall rho, D3 f rho = if rho j then dval D3 n1 rho else dval D3 n0 rho).
  { intros rho. rewrite Vn1, Vn0, Dff. unfold cofx.
    destruct (rho j) eqn:Q; apply Agf; intros u _ _; unfold upd; destruct (N.eqb_spec u j) as [->|_]; auto. }
  assert (NE : n1 <> n0).
  { intros Q. assert (G : forall rho, cofx (D f) true rho = cofx (D f) false rho) by (intros; now rewrite <- Vn1, <- Vn0, Q).
    assert (G1 : forall rho, dval D f11 rho = dval D f10 rho).
    { intros rho. pose proof (G (upd rho i true)) as H. rewrite Cf1, Cf0, upd_same' in H.
      rewrite !(low_dval _ _ _ X) in H by (auto; lia). exact H. }
    assert (G0 : forall rho, dval D f01 rho = dval D f00 rho).
    { intros rho. pose proof (G (upd rho i false)) as H. rewrite Cf1, Cf0, upd_same' in H.
      rewrite !(low_dval _ _ _ X) in H by (auto; lia). exact H. }
    destruct Hj as [Hj|Hj].
    - apply (B6 Hj). apply (dval_inj _ _ _ X); auto.
    - apply (A6 Hj). apply (dval_inj _ _ _ X); auto. }
  assert (Pos : snd n1 = false) by now rewrite N14.
  set (s5 := set_dtab (dput s4 f (DN j (drc (dm s4 f)) n1 n0)) j (f :: dtab s4 j)).
  assert (X5 : XI L D3 s5).
  { apply put_f; auto. }
  set (s6 := if d0 then s5 else dicr (dicr s5 f00) f10).
  set (s7 := if d1 then s6 else dicr (dicr s6 f01) f11).
  assert (X6 : XI L D3 s6) by (unfold s6; destruct d0; [auto|now apply XI_icr, XI_icr]).
  assert (X7 : XI L D3 s7) by (unfold s7; destruct d1; [auto|now apply XI_icr, XI_icr]).
  assert (Eqs : (let s5 := dput s4 f (DN j (drc (dm s4 f)) n1 n0) in
         let s6 := if d0 then s5 else dicr (dicr s5 f00) f10 in
         let s7 := if d1 then s6 else dicr (dicr s6 f01) f11 in
         let s1 := ddcr (ddcr s7 f0) f1 in set_dtab s1 j (f :: dtab s1 j)) = ddcr (ddcr s7 f0) f1).
  { unfold s7, s6, s5. destruct d0, d1; reflexivity. }
  cbv zeta in Eqs. cbv zeta. rewrite Eqs.
  assert (Tab : dtab (ddcr (ddcr s7 f0) f1) = dtab s5) by (unfold s7, s6; destruct d0, d1; reflexivity).
  assert (TE : forall a, dt (dm (ddcr (ddcr s7 f0) f1) a) = dt (dm s5 a) /\ de (dm (ddcr (ddcr s7 f0) f1) a) = de (dm s5 a)).
  { assert (I1 : forall t p a, dt (dm (dicr t p) a) = dt (dm t a) /\ de (dm (dicr t p) a) = de (dm t a)).
    { intros t p a. unfold dicr, dput. cbn [dm]. unfold upd. destruct (N.eqb_spec a (fst p)) as [->|_]; auto. }
    assert (I2 : forall t p a, dt (dm (ddcr t p) a) = dt (dm t a) /\ de (dm (ddcr t p) a) = de (dm t a)).
    { intros t p a. unfold ddcr, dput. cbn [dm]. unfold upd. destruct (N.eqb_spec a (fst p)) as [->|_]; auto. }
    intros a. destruct (I2 (ddcr s7 f0) f1 a) as [-> ->]. destruct (I2 s7 f0 a) as [-> ->].
    unfold s7, s6. destruct d0, d1; auto.
    - destruct (I1 (dicr s5 f01) f11 a) as [-> ->]. apply I1.
    - destruct (I1 (dicr s5 f00) f10 a) as [-> ->]. apply I1.
    - destruct (I1 (dicr (dicr (dicr s5 f00) f10) f01) f11 a) as [-> ->].
      destruct (I1 (dicr (dicr s5 f00) f10) f01 a) as [-> ->].
      destruct (I1 (dicr s5 f00) f10 a) as [-> ->]. apply I1. }
  assert (Tin : forall v b, In b (dtab s v) -> In b (dtab s5 v)).
  { intros v b H. apply (fr_tab _ _ _ _ _ F1) in H. apply (fr_tab _ _ _ _ _ F3) in H.
    unfold s5. cbn [dtab set_dtab dput]. unfold upd. destruct (N.eqb_spec v j) as [->|_]; [now right|exact H]. }
  assert (Ok5 : forall b, okp (f :: L) s b -> okp L s5 b).
  { intros b [->|[(v & Hv & H)|[<-|H]]]; [now left|right; left; exists v; auto| |right; now right].
    right; left. exists j. split; [apply j0|]. unfold s5. cbn [dtab set_dtab dput]. rewrite upd_same'. now left. }
  exists D3. split; [now apply XI_dcr, XI_dcr|]. split.
  - constructor.
    + intros b Ob. split; [unfold okp, inn; rewrite Tab; now apply Ok5|].
      intros rho. rewrite (fr_D _ _ _ _ _ F3), (fr_D _ _ _ _ _ F1); auto.
    + intros v b Ib. rewrite Tab. split; [auto|]. destruct (TE b) as [-> ->].
      assert (b <> f). { intros ->. destruct (x_tab _ _ _ X v f Ib) as (_ & Q & _). apply Q. now left. }
      unfold s5. cbn [dm set_dtab dput]. rewrite upd_other' by auto.
      destruct (Sid4 b) as (_ & -> & ->). rewrite (fr_dm _ _ _ _ _ F3).
      2:{ right. left. exists v. exact (fr_tab _ _ _ _ _ F1 v b Ib). }
      destruct (Sid b) as (_ & -> & ->). rewrite (fr_dm _ _ _ _ _ F1); auto. right. left. eauto.
    + rewrite Tab. unfold s5. cbn [dtab set_dtab dput]. rewrite upd_other' by (intros Q; apply j0; auto).
      change (dtab s4 0) with (dtab s3 0). rewrite (fr_oth _ _ _ _ _ F3) by (intros Q; apply i0; auto).
      change (dtab s2 0) with (dtab s1 0). apply F1. intros Q; apply i0; auto.
  - intros P x Hx R.
    destruct (R1 P x R) as [P1 Q1].
    assert (Q2 := XR_icr _ _ _ _ n0 Q1 N01). fold s2 in Q2.
    destruct (R3 _ _ Q2) as [P3 Q3].
    assert (Q4 := XR_icr _ _ _ _ n1 Q3 N11). fold s4 in Q4.
    assert (Q5 := put_f_R L D3 s4 f n1 n0 _ _ X4 Q4 N11' N01'). fold s5 in Q5.
    assert (E4 : dt (dm s4 f) = f1 /\ de (dm s4 f) = f0).
    { destruct (Sid4 f) as (_ & -> & ->). rewrite (fr_dm _ _ _ _ _ F3) by (right; right; now left).
      destruct (Sid f) as (_ & -> & ->). rewrite (fr_dm _ _ _ _ _ F1) by (right; right; now left). auto. }
    destruct E4 as [E4 E4']. rewrite E4, E4' in Q5.
    assert (OO : forall p, okp (f :: L) s p -> okp L s6 p).
    { intros p Op. apply Ok5 in Op. unfold s6. destruct d0; exact Op. }
    assert (OO7 : forall p, okp (f :: L) s p -> okp L s7 p).
    { intros p Op. apply Ok5 in Op. unfold s7, s6. destruct d0, d1; exact Op. }
    assert (Q6 : XR L s6 P3 (fun b => x b + Z.b2z (fst f0 =? b)%N + Z.b2z (fst f1 =? b)%N
        - (if d1 then 0 else Z.b2z (fst f11 =? b)%N + Z.b2z (fst f01 =? b)%N))%Z).
    { unfold s6. destruct d0.
      - eapply XR_ext; [|exact Q5]. intros b. cbv beta. destruct d1; lia.
      - eapply XR_ext; [|apply XR_icr; [apply XR_icr; [exact Q5|]|]]; [|now apply Ok5|exact (Ok5 _ B2)].
        intros b. cbv beta. destruct d1; lia. }
    assert (Q7 : XR L s7 P3 (fun b => x b + Z.b2z (fst f0 =? b)%N + Z.b2z (fst f1 =? b)%N)%Z).
    { unfold s7. destruct d1.
      - eapply XR_ext; [|exact Q6]. intros b. cbv beta. lia.
      - eapply XR_ext; [|apply XR_icr; [apply XR_icr; [exact Q6|]|]]; [|now apply OO|exact (OO _ B1)].
        intros b. cbv beta. lia. }
    exists P3.
    eapply XR_ext; [|apply XR_dcr; [apply XR_dcr; [exact Q7| |]| |]].
    + intros b. cbv beta. lia.
    + now apply OO7.
    + cbv beta. rewrite N.eqb_refl. specialize (Hx (fst f0)). destruct (fst f1 =? fst f0); simpl; lia.
    + exact (OO7 _ O1).
    + cbv beta. rewrite N.eqb_refl. specialize (Hx (fst f1)). destruct (fst f0 =? fst f1); simpl; lia.
Qed.

Lemma exchange_fold : forall L D s, XI L D s ->
  exists D', XI [] D' (fold_left (exchange1 i j) L s) /\ fx L s D [] (fold_left (exchange1 i j) L s) D' /\
    (forall P x, (forall b, (0 <= x b)%Z) -> XR L s P x -> exists P', XR [] (fold_left (exchange1 i j) L s) P' x).
Proof.
  induction L as [|f L IH]; intros D s X; simpl.
  - exists D. split; [exact X|]. split; [apply fx_refl|eauto].
  - destruct (exchange1_spec L D s f X) as (D1 & X1 & F1 & R1).
    destruct (IH D1 _ X1) as (D2 & X2 & F2 & R2).
    exists D2. split; [exact X2|]. split; [eapply fx_trans; eauto|].
    intros P x Hx R. destruct (R1 P x Hx R) as [P1 Q1]. exact (R2 P1 x Hx Q1).
Qed.

(** *** Sweeping dead nodes *)

(** What stays: the user nodes with their functions, the nodes with references from outside, the variables. *)
Record gx (x : N -> Z) (s : dst) (D : den) (s' : dst) (D' : den) : Prop := {
  gx_D : forall b, okp [] s b -> b = ONE \/ (0 < x b)%Z -> okp [] s' b /\ forall rho, D' b rho = D b rho;
  gx_0 : dtab s' 0 = dtab s 0;
  gx_u : forall u, In u (dtab s 0) -> dt (dm s' u) = dt (dm s u) /\ de (dm s' u) = de (dm s u) /\
           forall rho, D' (fst (dt (dm s u))) rho = D (fst (dt (dm s u))) rho;
  gx_v : forall v b, v <> 0 -> In b (dtab s v) -> (0 < x b)%Z -> dt (dm s b) = (ONE, false) -> de (dm s b) = (ONE, true) ->
           In b (dtab s' v) /\ dt (dm s' b) = (ONE, false) /\ de (dm s' b) = (ONE, true)
}.
Lemma gx_refl x s D : gx x s D s D.
Proof. constructor; auto. Qed.
Lemma gx_trans x s D s1 D1 s2 D2 : gx x s D s1 D1 -> gx x s1 D1 s2 D2 -> gx x s D s2 D2.
Proof.
  intros [A1 A2 A3 A4] [B1 B2 B3 B4]. constructor; [|congruence| |].
  - intros b O H. destruct (A1 b O H) as [O1 E1]. destruct (B1 b O1 H) as [O2 E2]. split; auto. intros rho. now rewrite E2, E1.
  - intros u Iu. destruct (A3 u Iu) as (E1 & E2 & E3). rewrite A2 in B3. destruct (B3 u Iu) as (F1 & F2 & F3).
    split; [congruence|]. split; [congruence|]. intros rho. rewrite <- E3. rewrite E1 in F3. apply F3.
  - intros v b Hv Ib Hx E1 E2. destruct (A4 v b Hv Ib Hx E1 E2) as (I1 & G1 & G2). exact (B4 v b Hv I1 Hx G1 G2).
Qed.

Lemma node_child L D s c : XI L D s -> node L s c -> okp L s (fst (dt (dm s c))) /\ okp L s (fst (de (dm s c))).
Proof.
  intros X [(v & Ic)|Ic].
  - destruct (N.eq_dec v 0) as [->|Hv].
    + destruct (x_user _ _ _ X c Ic) as (G1 & _ & ->). split; [auto|left; auto].
    + destruct (x_ch _ _ _ X c) as (G1 & G2 & _); [left; eauto|auto].
  - destruct (x_ch _ _ _ X c) as (G1 & G2 & _); [now right|auto].
Qed.

Lemma docc_split m P a b : NoDup P -> In a P -> docc m P b = (dw m b a + docc m (remove N.eq_dec a P) b)%Z.
Proof.
  intros ND. induction ND as [|k P Nk ND IH]; [intros []|]. intros Ia. cbn [docc remove].
  destruct (N.eq_dec a k) as [<-|Hk].
  - f_equal. now rewrite notin_remove.
  - destruct Ia as [E|Ia]; [congruence|]. cbn [docc]. rewrite (IH Ia). lia.
Qed.

Lemma nodup_remove (a : N) l : NoDup l -> NoDup (remove N.eq_dec a l).
Proof.
  induction 1 as [|k l Nk ND IH]; cbn [remove]; [constructor|]. destruct (N.eq_dec a k); auto. constructor; auto.
  intros H. apply in_remove in H. tauto.
Qed.

Lemma sweep1_spec D s P x a : XI [] D s -> XR [] s P x -> (forall b, (0 <= x b)%Z) -> In a (dtab s j) ->
  XI [] D (sweep1 j s a) /\ gx x s D (sweep1 j s a) D /\ (exists P', XR [] (sweep1 j s a) P' x) /\
  (forall b, In b (dtab s j) -> b <> a -> In b (dtab (sweep1 j s a) j)).
Proof.
  intros X R Hx Ia. unfold sweep1. destruct (N.eqb_spec (drc (dm s a)) 0) as [E0|_].
  2:{ split; [exact X|]. split; [apply gx_refl|]. split; [eauto|auto]. }
  pose proof R as [R1 R2 R3 R4 R5].
  assert (IP : In a P) by (apply R2; left; eauto).
  assert (Oc0 : docc (dm s) P a = 0%Z /\ x a = 0%Z).
  { destruct (R4 a IP) as [_ [Q|Q]]; rewrite E0 in Q; [discriminate|].
    pose proof (docc_nonneg (dm s) P a). specialize (Hx a). lia. }
  destruct Oc0 as [Oc0 Xa].
  assert (Np : forall c, node [] s c -> fst (dt (dm s c)) <> a /\ fst (de (dm s c)) <> a).
  { intros c Hc. apply R2 in Hc. pose proof (docc_ge (dm s) P c a Hc) as G. rewrite Oc0 in G. unfold dw in G.
    split; intros Q; rewrite Q, N.eqb_refl in G; [destruct (_ =? a)|destruct (_ =? a)]; simpl in G; lia. }
  set (s1 := set_dtab s j (remove N.eq_dec a (dtab s j))).
  set (s2 := DS (dm s1) (dtab s1) (a :: dfl s1) (dnx s1) (dnum s1 - 1)).
  assert (Tin : forall v b, In b (dtab s2 v) <-> In b (dtab s v) /\ b <> a).
  { intros v b. unfold s2, s1. cbn [dtab set_dtab]. destruct (N.eq_dec v j) as [->|Hv].
    - rewrite upd_same'. split; [apply in_remove|]. intros [H1 H2]. now apply in_in_remove.
    - rewrite upd_other' by auto. split; [|tauto]. intros H. split; auto. intros ->.
      destruct (x_tab _ _ _ X v a H) as (Q1 & _). destruct (x_tab _ _ _ X j a Ia) as (Q2 & _). congruence. }
  assert (NN : forall b, node [] s2 b <-> node [] s b /\ b <> a).
  { intros b. unfold node. split.
    - intros [(v & H)|[]]. apply Tin in H as [H H1]. split; eauto.
    - intros [[(v & H)|[]] H1]. left. exists v. apply Tin. auto. }
  assert (NI : forall b, inn [] s2 b <-> inn [] s b /\ b <> a).
  { intros b. unfold inn. split.
    - intros [(v & Hv & H)|[]]. apply Tin in H as [H H1]. split; eauto.
    - intros [[(v & Hv & H)|[]] H1]. left. exists v. split; auto. apply Tin. auto. }
  assert (An1 : a <> ONE) by (specialize (R3 a IP); unfold ONE; lia).
  assert (NO : forall b, okp [] s2 b <-> okp [] s b /\ b <> a).
  { intros b. unfold okp. rewrite NI. split; [intros [->|[H1 H2]]; split; auto|]. intros [[->|H] H2]; auto. }
  assert (Cn : forall b, inn [] s b -> okp [] s2 (fst (dt (dm s b))) /\ okp [] s2 (fst (de (dm s b)))).
  { intros b Hb. destruct (x_ch _ _ _ X b Hb) as (U1 & U2 & _). destruct (Np b (inn_node _ _ _ Hb)). rewrite !NO. auto. }
  assert (X2 : XI [] D s2).
  { constructor.
    - intros v b Ib. apply Tin in Ib as [Ib _]. exact (x_tab _ _ _ X v b Ib).
    - intros v. unfold s2, s1. cbn [dtab set_dtab]. unfold upd. destruct (v =? j); [apply nodup_remove|]; apply X.
    - constructor.
    - intros b [].
    - apply X.
    - apply X.
    - intros b Ib. apply NI in Ib as [Ib _]. exact (x_ord _ _ _ X b Ib).
    - intros b Ib. apply NI in Ib as [Ib _]. destruct (Cn b Ib) as [U1 U2].
      destruct (x_ch _ _ _ X b Ib) as (_ & _ & U3 & U4). auto.
    - intros b c [].
    - intros v b c Hv Ib Hc. apply Tin in Ib as [Ib _]. exact (x_lv _ _ _ X v b c Hv Ib Hc).
    - intros b rho Ib. apply NI in Ib as [Ib _]. exact (x_D _ _ _ X b rho Ib).
    - intros b [].
    - intros v b Hv Ib. apply Tin in Ib as [Ib _]. exact (x_ag _ _ _ X v b Hv Ib).
    - intros b Ib. apply NI in Ib as [Ib _]. exact (x_pos _ _ _ X b Ib).
    - intros b c Ob Oc. apply NO in Ob as [Ob _]. apply NO in Oc as [Oc _]. exact (x_inj _ _ _ X b c Ob Oc).
    - intros u Iu. apply Tin in Iu as [Iu _]. destruct (x_user _ _ _ X u Iu) as (U1 & U2 & U3).
      destruct (Np u) as [U4 _]; [left; eauto|]. split; [apply NO; split; auto|auto].
    - intros u w Iu Iw. apply Tin in Iu as [Iu _]. apply Tin in Iw as [Iw _]. exact (x_uu _ _ _ X u w Iu Iw).
    - destruct (x_fl _ _ _ X) as [G1 G2]. split.
      + unfold s2, s1. cbn [dfl set_dtab]. constructor; auto. intros H. destruct (G2 a H) as [_ Q]. apply Q. left. eauto.
      + intros b Ib. rewrite NN. unfold s2, s1 in Ib |- *. cbn [dfl set_dtab dnx] in *.
        destruct Ib as [<-|Ib]; [|destruct (G2 b Ib); tauto]. destruct (x_tab _ _ _ X j a Ia) as (_ & _ & Q). tauto.
    - exact (x_nx _ _ _ X).
    - intros b p q Ib. apply NI in Ib as [Ib _]. exact (x_M _ _ _ X b p q Ib). }
  destruct (node_child _ _ _ a X) as [O1 O2]; [left; eauto|].
  destruct (Np a) as [P1 P2]; [left; eauto|].
  assert (O1' : okp [] s2 (fst (dt (dm s a)))) by (apply NO; auto).
  assert (O2' : okp [] s2 (fst (de (dm s a)))) by (apply NO; auto).
  assert (Q2 : XR [] s2 (remove N.eq_dec a P)
     (fun b => x b + Z.b2z (fst (dt (dm s a)) =? b)%N + Z.b2z (fst (de (dm s a)) =? b)%N)%Z).
  { constructor.
    - now apply nodup_remove.
    - intros b. rewrite NN, <- R2. split; [apply in_remove|]. intros [H1 H2]. now apply in_in_remove.
    - intros b H. apply in_remove in H as [H _]. auto.
    - intros b H. apply in_remove in H as [H _]. destruct (R4 b H) as [G1 G2]. split; [exact G1|].
      destruct G2 as [G2|G2]; [now left|right].
      rewrite (docc_split _ _ a b R1 IP) in G2. unfold dw in G2. unfold s2, s1. cbn [dm set_dtab]. lia.
    - intros b Hb Nb.
      assert (Q : forall p, okp [] s2 p -> Z.b2z (p =? b) = 0%Z).
      { intros p Op. destruct (N.eqb_spec p b) as [<-|_]; auto. exfalso. apply Nb. apply NO in Op as [Op Np'].
        apply in_in_remove; [auto|]. apply R2. destruct Op as [->|Op]; [unfold ONE in Hb; lia|now apply inn_node]. }
      rewrite !Q by auto. destruct (N.eq_dec b a) as [->|Hab]; [lia|].
      rewrite (R5 b Hb); [lia|]. intros H. apply Nb. now apply in_in_remove. }
  split; [now apply XI_dcr, XI_dcr|].
  assert (TE : forall b, dt (dm (ddcr (ddcr s2 (dt (dm s a))) (de (dm s a))) b) = dt (dm s b) /\
                    de (dm (ddcr (ddcr s2 (dt (dm s a))) (de (dm s a))) b) = de (dm s b)).
  { assert (I2 : forall t p b, dt (dm (ddcr t p) b) = dt (dm t b) /\ de (dm (ddcr t p) b) = de (dm t b)).
    { intros t p b. unfold ddcr, dput. cbn [dm]. unfold upd. destruct (N.eqb_spec b (fst p)) as [->|_]; auto. }
    intros b. destruct (I2 (ddcr s2 (dt (dm s a))) (de (dm s a)) b) as [-> ->]. exact (I2 s2 (dt (dm s a)) b). }
  split; [|split].
  - constructor.
    + intros b Ob Hb. split; [|auto]. change (okp [] s2 b). apply NO. split; auto.
      destruct Hb as [->|Hb]; [auto|]. intros ->. lia.
    + change (dtab s2 0 = dtab s 0). unfold s2, s1. cbn [dtab set_dtab]. apply upd_other'. intros Q. apply j0; auto.
    + intros u Iu. destruct (TE u) as [-> ->]. auto.
    + intros v b Hv Ib Hb E1 E2. destruct (TE b) as [-> ->]. split; [|auto].
      change (In b (dtab s2 v)). apply Tin. split; auto. intros ->. lia.
  - exists (remove N.eq_dec a P).
    eapply XR_ext; [|apply XR_dcr; [apply XR_dcr; [exact Q2| |]| |]].
    + intros b. cbv beta. lia.
    + exact O1'.
    + cbv beta. rewrite N.eqb_refl. specialize (Hx (fst (dt (dm s a)))).
      destruct (fst (de (dm s a)) =? fst (dt (dm s a))); simpl; lia.
    + exact O2'.
    + cbv beta. rewrite N.eqb_refl. specialize (Hx (fst (de (dm s a)))).
      destruct (fst (dt (dm s a)) =? fst (de (dm s a))); simpl; lia.
  - intros b Ib Hb. change (In b (dtab s2 j)). apply Tin. auto.
Qed.

Lemma sweep_fold x : (forall b, (0 <= x b)%Z) -> forall l D s P, XI [] D s -> XR [] s P x -> NoDup l ->
  (forall a, In a l -> In a (dtab s j)) ->
  XI [] D (fold_left (sweep1 j) l s) /\ gx x s D (fold_left (sweep1 j) l s) D /\
  exists P', XR [] (fold_left (sweep1 j) l s) P' x.
Proof.
  intros Hx. induction l as [|a l IH]; intros D s P X R ND Hl; cbn [fold_left].
  - split; [exact X|]. split; [apply gx_refl|eauto].
  - destruct (sweep1_spec D s P x a X R Hx (Hl a (or_introl eq_refl))) as (X1 & G1 & [P1 R1] & K).
    inversion ND as [|? ? Na ND']; subst.
    destruct (IH D _ P1 X1 R1 ND') as (X2 & G2 & R2).
    + intros b Ib. apply K; [apply Hl; now right|]. intros ->; auto.
    + split; [exact X2|]. split; [eapply gx_trans; eauto|exact R2].
Qed.

Lemma fx_gx x L s D s' D' : XI L D s -> fx L s D [] s' D' -> 
  (forall b, okp L s b -> b = ONE \/ (0 < x b)%Z -> okp [] s' b /\ forall rho, D' b rho = D b rho) /\
  dtab s' 0 = dtab s 0 /\
  (forall u, In u (dtab s 0) -> dt (dm s' u) = dt (dm s u) /\ de (dm s' u) = de (dm s u) /\
           forall rho, D' (fst (dt (dm s u))) rho = D (fst (dt (dm s u))) rho) /\
  (forall v b, In b (dtab s v) -> In b (dtab s' v) /\ dt (dm s' b) = dt (dm s b) /\ de (dm s' b) = de (dm s b)).
Proof.
  intros X [F1 F2 F3]. split; [intros; now apply F1|]. split; [exact F3|]. split; [|exact F2].
  intros u Iu. destruct (F2 0 u Iu) as (_ & E1 & E2). split; [exact E1|]. split; [exact E2|].
  apply F1. apply (x_user _ _ _ X u Iu).
Qed.
End X.
