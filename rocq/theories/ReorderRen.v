(** Reallocation: every internal node moves to a fresh address, bottom-up, and everything that points to a node is
    redirected. *)
From Coq Require Import NArith ZArith List Bool Lia Permutation.
From Verif Require Import Base BFModel StoreInv MgrModel ApiModel ReorderModel ReorderProof.
Import ListNotations.
Open Scope N_scope.

Definition rp (ren : N -> N) (p : ded) : ded := (ren (fst p), snd p).

(** What reallocation does, with the renaming [ren]. *)
Record REN (s0 s : dst) (ren : N -> N) : Prop := {
  rn_0 : dtab s 0 = dtab s0 0;
  rn_tab : forall v b, v <> 0 -> (In b (dtab s v) <-> exists a, In a (dtab s0 v) /\ b = ren a);
  rn_nd : forall v, NoDup (dtab s v);
  rn_rng : forall a, inn [] s0 a -> dnx s0 <= ren a < dnx s;
  rn_inj : forall a b, inn [] s0 a -> inn [] s0 b -> ren a = ren b -> a = b;
  rn_one : ren ONE = ONE;
  rn_new : forall a, inn [] s0 a ->
     dm s (ren a) = DN (did (dm s0 a)) (drc (dm s0 a)) (rp ren (dt (dm s0 a))) (rp ren (de (dm s0 a)));
  rn_fwd : forall a, inn [] s0 a -> dm s a = DN (did (dm s0 a)) (drc (dm s0 a)) (ren a, false) (0, false);
  rn_user : forall u, In u (dtab s0 0) -> dm s u = DN (did (dm s0 u)) (drc (dm s0 u)) (rp ren (dt (dm s0 u))) (de (dm s0 u));
  rn_dm1 : dm s ONE = dm s0 ONE;
  rn_nx : dnx s0 <= dnx s
}.

Section Ren.
Variables (o : order) (M : N -> N -> bool) (D : den) (s0 : dst) (i1 j1 : N).
Hypothesis Wo : wfo o.
Hypothesis X : XI o i1 j1 M [] D s0.

(** [St]: the tables begun; [Dn]: the nodes moved. *)
Record RA (St Dn : list N) (ren : N -> N) (s : dst) : Prop := {
  ra_0 : dtab s 0 = dtab s0 0;
  ra_tab : forall v b, v <> 0 -> (In b (dtab s v) <->
     (In v St /\ exists a, In a (dtab s0 v) /\ In a Dn /\ b = ren a) \/ (~ In v St /\ In b (dtab s0 v)));
  ra_nd : forall v, NoDup (dtab s v);
  ra_nx : dnx s0 <= dnx s;
  ra_old : forall a, a < dnx s0 -> ~ In a Dn -> dm s a = dm s0 a;
  ra_Dn : forall a, In a Dn -> inn [] s0 a /\ In (did (dm s0 a)) St /\
     (forall c, c = fst (dt (dm s0 a)) \/ c = fst (de (dm s0 a)) -> c = ONE \/ In c Dn);
  ra_fwd : forall a, In a Dn -> dm s a = DN (did (dm s0 a)) (drc (dm s0 a)) (ren a, false) (0, false);
  ra_rng : forall a, In a Dn -> dnx s0 <= ren a < dnx s;
  ra_new : forall a, In a Dn -> dm s (ren a) = DN (did (dm s0 a)) (drc (dm s0 a)) (rp ren (dt (dm s0 a))) (rp ren (de (dm s0 a)));
  ra_inj : forall a b, In a Dn -> In b Dn -> ren a = ren b -> a = b;
  ra_one : ren ONE = ONE
}.

Lemma in_tab v a : v <> 0 -> In a (dtab s0 v) -> inn [] s0 a /\ did (dm s0 a) = v /\ 2 < a < dnx s0.
Proof. intros Hv Ia. destruct (x_tab _ _ _ _ _ _ _ X v a Ia) as (A & _ & B). split; [left; eauto|auto]. Qed.
Lemma inn_did a : inn [] s0 a -> In a (dtab s0 (did (dm s0 a))) /\ did (dm s0 a) <> 0 /\ 2 < a < dnx s0.
Proof. intros [(v & Hv & Ia)|[]]. destruct (in_tab v a Hv Ia) as (_ & -> & B). auto. Qed.
Lemma one_lt : ONE < dnx s0.
Proof. pose proof (x_nx _ _ _ _ _ _ _ X). unfold ONE. lia. Qed.

Lemma ra_dfwd St Dn ren s p : RA St Dn ren s -> fst p = ONE \/ In (fst p) Dn -> dfwd (dm s) p = rp ren p.
Proof.
  intros R. destruct p as [a b]. cbn [fst]. unfold dfwd, rp. cbn [fst snd]. intros [->|Ia].
  - rewrite (ra_one _ _ _ _ R). rewrite (ra_old _ _ _ _ R ONE one_lt).
    + destruct (x_one _ _ _ _ _ _ _ X) as (_ & _ & Q). destruct (N.eqb_spec (fst (de (dm s0 ONE))) 0); congruence.
    + intros Q. apply (ra_Dn _ _ _ _ R) in Q as (Q & _). apply inn_did in Q. unfold ONE in Q. lia.
  - rewrite (ra_fwd _ _ _ _ R a Ia). cbn [de dt fst snd]. unfold dtag. cbn [fst snd]. rewrite N.eqb_refl.
    now destruct b.
Qed.

Lemma realloc1_spec St Dn ren s i a : RA St Dn ren s -> In i St -> i <> 0 -> In a (dtab s0 i) -> ~ In a Dn ->
  (forall c, c = fst (dt (dm s0 a)) \/ c = fst (de (dm s0 a)) -> c = ONE \/ In c Dn) ->
  RA St (a :: Dn) (upd ren a (dnx s)) (realloc1 i s a).
Proof.
  intros R Hi Ni Ia Na Hc. destruct (in_tab i a Ni Ia) as (Na0 & Ea & Ra).
  pose proof (ra_nx _ _ _ _ R) as Nx.
  assert (NO : forall b, In b Dn -> b <> a) by (intros b Ib ->; auto).
  assert (N1 : a <> ONE) by (unfold ONE; lia).
  assert (RP : forall p : ded, fst p = ONE \/ In (fst p) Dn -> rp (upd ren a (dnx s)) p = rp ren p).
  { intros p Hp. unfold rp. rewrite upd_other'; auto. destruct Hp as [->|Hp]; auto. }
  unfold realloc1. rewrite (ra_old _ _ _ _ R a) by (auto; lia).
  rewrite (ra_dfwd _ _ _ _ _ R (Hc _ (or_introl eq_refl))), (ra_dfwd _ _ _ _ _ R (Hc _ (or_intror eq_refl))).
  constructor; cbn [dtab dm dnx].
  - rewrite upd_other' by auto. apply R.
  - intros v b Hv. destruct (N.eq_dec v i) as [->|Nv].
    + rewrite upd_same'. split.
      * intros [<-|Ib].
        -- left. split; auto. exists a. rewrite upd_same'. split; auto. split; [now left|auto].
        -- apply (ra_tab _ _ _ _ R i b Ni) in Ib as [[_ (c & C1 & C2 & ->)]|[Q _]]; [|tauto].
           left. split; auto. exists c. split; auto. split; [now right|]. now rewrite upd_other' by auto.
      * intros [[_ (c & C1 & C2 & ->)]|[Q _]]; [|tauto]. destruct C2 as [<-|C2]; [left; now rewrite upd_same'|].
        right. apply (ra_tab _ _ _ _ R i _ Ni). left. split; auto. exists c. rewrite upd_other' by auto. auto.
    + rewrite upd_other' by auto. rewrite (ra_tab _ _ _ _ R v b Hv). split.
      * intros [[Q (c & C1 & C2 & ->)]|Q]; [|tauto]. left. split; auto. exists c. rewrite upd_other' by auto.
        split; auto. split; [now right|auto].
      * intros [[Q (c & C1 & C2 & ->)]|Q]; [|tauto]. left. split; auto. exists c. destruct C2 as [<-|C2].
        -- destruct (in_tab v a Hv C1) as (_ & Q1 & _). congruence.
        -- rewrite upd_other' by auto. auto.
  - intros v. destruct (N.eq_dec v i) as [->|Nv]; [|rewrite upd_other' by auto; apply R].
    rewrite upd_same'. constructor; [|apply R].
    intros Ib. apply (ra_tab _ _ _ _ R i _ Ni) in Ib as [[_ (c & C1 & C2 & E)]|[Q _]]; [|tauto].
    pose proof (ra_rng _ _ _ _ R c C2). lia.
  - lia.
  - intros b Lb Nb. rewrite !upd_other'; [apply R; auto; intros Q; apply Nb; now right|lia|].
    intros ->. apply Nb. now left.
  - intros b [<-|Ib].
    + split; auto. rewrite Ea. split; auto. intros c Hc'. destruct (Hc c Hc'); auto. right. now right.
    + destruct (ra_Dn _ _ _ _ R b Ib) as (B1 & B2 & B3). split; auto. split; auto.
      intros c Hc'. destruct (B3 c Hc'); auto. right. now right.
  - intros b [<-|Ib].
    + rewrite !upd_same'. now rewrite Ea.
    + destruct (ra_Dn _ _ _ _ R b Ib) as (B1 & _). apply inn_did in B1 as (_ & _ & B1).
      rewrite (upd_other' _ a _ b) by auto. rewrite upd_other' by lia. rewrite upd_other' by auto.
      apply (ra_fwd _ _ _ _ R b Ib).
  - intros b [<-|Ib]; [rewrite upd_same'; lia|]. rewrite upd_other' by auto. pose proof (ra_rng _ _ _ _ R b Ib). lia.
  - intros b [<-|Ib].
    + rewrite upd_same'. rewrite upd_other' by lia. rewrite upd_same'. rewrite !RP; auto.
    + rewrite (upd_other' ren) by auto. pose proof (ra_rng _ _ _ _ R b Ib).
      rewrite !upd_other' by lia. rewrite (ra_new _ _ _ _ R b Ib).
      destruct (ra_Dn _ _ _ _ R b Ib) as (_ & _ & B3). rewrite !RP; auto.
  - intros b c [<-|Ib] [<-|Ic]; auto; rewrite ?upd_same', ?(upd_other' ren) by auto; intros E.
    + pose proof (ra_rng _ _ _ _ R c Ic). lia.
    + pose proof (ra_rng _ _ _ _ R b Ib). lia.
    + exact (ra_inj _ _ _ _ R b c Ib Ic E).
  - rewrite upd_other' by auto. exact (ra_one _ _ _ _ R).
Qed.

Lemma realloc_fold St i : In i St -> i <> 0 -> forall l Dn ren s, RA St Dn ren s -> NoDup l ->
  (forall a, In a l -> In a (dtab s0 i) /\ ~ In a Dn /\
     forall c, c = fst (dt (dm s0 a)) \/ c = fst (de (dm s0 a)) -> c = ONE \/ In c Dn) ->
  exists Dn' ren', RA St Dn' ren' (fold_left (realloc1 i) l s) /\
    (forall a, In a Dn' <-> In a Dn \/ In a l).
Proof.
  intros Hi Ni. induction l as [|a l IH]; intros Dn ren s R ND Hl; cbn [fold_left].
  - exists Dn, ren. split; auto. intros a. simpl. tauto.
  - inversion ND as [|? ? Na ND']; subst. destruct (Hl a (or_introl eq_refl)) as (A1 & A2 & A3).
    destruct (IH _ _ _ (realloc1_spec St Dn ren s i a R Hi Ni A1 A2 A3) ND') as (Dn' & ren' & R' & E).
    + intros b Ib. destruct (Hl b (or_intror Ib)) as (B1 & B2 & B3). split; auto. split.
      * intros [->|Q]; auto.
      * intros c Hc. destruct (B3 c Hc); auto. right. now right.
    + exists Dn', ren'. split; auto. intros b. rewrite E. simpl. tauto.
Qed.

Lemma realloc_table_spec St Dn ren s i : RA St Dn ren s -> ~ In i St -> i <> 0 ->
  (forall a, inn [] s0 a -> idx o i < idx o (did (dm s0 a)) -> In a Dn) ->
  exists Dn' ren', RA (i :: St) Dn' ren' (realloc_table s i) /\ (forall a, In a Dn' <-> In a Dn \/ In a (dtab s0 i)).
Proof.
  intros R Hi Ni Hb. unfold realloc_table.
  assert (Di : forall a, In a (dtab s0 i) -> ~ In a Dn).
  { intros a Ia Q. destruct (ra_Dn _ _ _ _ R a Q) as (_ & Q1 & _). destruct (in_tab i a Ni Ia) as (_ & Q2 & _). congruence. }
  assert (Et : forall a, In a (dtab s i) <-> In a (dtab s0 i)).
  { intros a. rewrite (ra_tab _ _ _ _ R i a Ni). tauto. }
  assert (R1 : RA (i :: St) Dn ren (set_dtab s i [])).
  { constructor; cbn [dtab dm dnx set_dtab].
    - rewrite upd_other' by auto. apply R.
    - intros v b Hv. destruct (N.eq_dec v i) as [->|Nv].
      + rewrite upd_same'. split; [intros []|]. intros [[_ (a & A1 & A2 & ->)]|[Q _]].
        * destruct (Di a A1 A2).
        * destruct Q. now left.
      + rewrite upd_other' by auto. rewrite (ra_tab _ _ _ _ R v b Hv). simpl.
        split; (intros [[Q1 Q2]|[Q1 Q2]]; [left|right]; split; auto; intuition congruence).
    - intros v. unfold upd. destruct (v =? i); [constructor|apply R].
    - apply R.
    - apply R.
    - intros a Ia. destruct (ra_Dn _ _ _ _ R a Ia) as (A1 & A2 & A3). split; auto. split; [now right|auto].
    - exact (ra_fwd _ _ _ _ R).
    - exact (ra_rng _ _ _ _ R).
    - exact (ra_new _ _ _ _ R).
    - exact (ra_inj _ _ _ _ R).
    - exact (ra_one _ _ _ _ R). }
  destruct (realloc_fold (i :: St) i (or_introl eq_refl) Ni (dtab s i) Dn ren _ R1 (ra_nd _ _ _ _ R i)) as (Dn' & ren' & R' & E).
  - intros a Ia. apply Et in Ia. split; auto. split; auto. intros c Hc.
    destruct (in_tab i a Ni Ia) as (Na & _).
    pose proof (proj1 (x_lv _ _ _ _ _ _ _ X i a c Ni Ia Hc)) as Lc.
    destruct (x_ch _ _ _ _ _ _ _ X a Na) as (O1 & O2 & _).
    assert (Oc : okp [] s0 c) by (destruct Hc as [->| ->]; auto).
    destruct Oc as [->|Nc]; auto.
  - exists Dn', ren'. split; [exact R'|]. intros a. rewrite E, Et. tauto.
Qed.

Lemma realloc_all : forall l St Dn ren s, rev (ord o) = rev St ++ l -> RA St Dn ren s ->
  (forall a, inn [] s0 a -> In (did (dm s0 a)) St -> In a Dn) ->
  exists Dn' ren', RA (rev (rev (ord o))) Dn' ren' (fold_left realloc_table l s) /\ 
    (forall a, inn [] s0 a -> In (did (dm s0 a)) (rev (rev (ord o))) -> In a Dn').
Proof.
  induction l as [|i l IH]; intros St Dn ren s E R HD; cbn [fold_left].
  - rewrite app_nil_r in E. rewrite E, rev_involutive. eauto.
  - assert (Eo : ord o = rev l ++ i :: St).
    { apply (f_equal (@rev N)) in E. rewrite rev_involutive, rev_app_distr, rev_involutive in E. simpl in E.
      rewrite E. rewrite <- app_assoc. reflexivity. }
    assert (Ii : In i (ord o)) by (rewrite Eo; apply in_or_app; right; now left).
    destruct (wfo_in o i Wo Ii) as [Ni _].
    assert (Nx : nth_error (ord o) (length (rev l)) = Some i).
    { rewrite Eo, nth_error_app2, Nat.sub_diag by lia. reflexivity. }
    destruct (wfo_idx o Wo _ _ Nx) as [_ Ex].
    assert (NiS : ~ In i St).
    { pose proof (wfo_nodup o Wo) as ND. rewrite Eo in ND. apply NoDup_remove_2 in ND.
      intros Q. apply ND. apply in_or_app. now right. }
    destruct (realloc_table_spec St Dn ren s i R NiS Ni) as (Dn' & ren' & R' & ED).
    + intros a Na La. apply HD; auto. pose proof (x_ord _ _ _ _ _ _ _ X a Na) as Io.
      rewrite Eo in Io. apply in_app_or in Io as [Io|[Io|Io]]; auto.
      * exfalso. apply In_nth_error in Io as [n Hn].
        assert (Ln : (n < length (rev l))%nat) by (apply nth_error_Some; congruence).
        assert (Hn' : nth_error (ord o) n = Some (did (dm s0 a))) by (rewrite Eo, nth_error_app1; auto).
        destruct (wfo_idx o Wo _ _ Hn') as [_ Q]. lia.
      * rewrite <- Io in La. lia.
    + apply (IH (i :: St) Dn' ren'); auto.
      * simpl. rewrite <- app_assoc. exact E.
      * intros a Na [Q|Q]; apply ED; [right|left; auto]. rewrite Q. now apply inn_did.
Qed.

Lemma fix_user_fold ren s1 : forall l s, NoDup l -> 
  (forall u, In u l -> In u (dtab s0 0) /\ dm s u = dm s0 u) ->
  (forall u, In u (dtab s0 0) -> ~ In u l -> dm s u = dm s0 u -> False) \/ True ->
  (forall p, inn [] s0 p \/ p = ONE -> dm s p = dm s1 p) ->
  (forall u, In u (dtab s0 0) -> dfwd (dm s1) (dt (dm s0 u)) = rp ren (dt (dm s0 u))) ->
  let s' := fold_left fix_user1 l s in
  dtab s' = dtab s /\ dnx s' = dnx s /\
  (forall b, ~ In b l -> dm s' b = dm s b) /\
  (forall u, In u l -> dm s' u = DN (did (dm s0 u)) (drc (dm s0 u)) (rp ren (dt (dm s0 u))) (de (dm s0 u))).
Proof.
  induction l as [|u l IH]; intros s ND Hl _ Hp Hf; cbn [fold_left].
  - split; auto. split; auto. split; auto. intros u [].
  - inversion ND as [|? ? Nu ND']; subst. destruct (Hl u (or_introl eq_refl)) as [Iu Eu].
    destruct (x_tab _ _ _ _ _ _ _ X 0 u Iu) as (E0 & _ & Ru).
    assert (Nin : ~ inn [] s0 u). { intros Q. apply inn_did in Q as (_ & Q & _). congruence. }
    assert (N1 : u <> ONE) by (unfold ONE; lia).
    assert (Fw : dfwd (dm s) (dt (dm s u)) = rp ren (dt (dm s0 u))).
    { rewrite Eu, <- Hf by auto. destruct (x_user _ _ _ _ _ _ _ X u Iu) as (O & _ & _).
      unfold dfwd. rewrite (Hp (fst (dt (dm s0 u)))); [reflexivity|]. destruct O; auto. }
    destruct (IH (fix_user1 s u)) as (T & N & A & B); auto.
    + intros w Iw. destruct (Hl w (or_intror Iw)) as [W1 W2]. split; auto. unfold fix_user1, dput. cbn [dm].
      rewrite upd_other'; auto. intros ->; auto.
    + intros p Hp'. unfold fix_user1, dput. cbn [dm]. rewrite upd_other'; auto. intros ->. destruct Hp'; auto.
    + split; [exact T|]. split; [exact N|]. split.
      * intros b Nb. rewrite A by (intros Q; apply Nb; now right). unfold fix_user1, dput. cbn [dm].
        apply upd_other'. intros ->. apply Nb. now left.
      * intros w [<-|Iw]; auto. rewrite A by auto. unfold fix_user1, dput. cbn [dm]. rewrite upd_same', Fw, Eu. reflexivity.
Qed.

Theorem reallocate_spec : exists ren, REN s0 (reallocate o s0) ren.
Proof.
  assert (R0 : RA [] [] (fun b => b) s0).
  { constructor.
    - reflexivity.
    - intros v b Hv. simpl. split; [tauto|]. intros [[[] _]|[_ Q]]; auto.
    - exact (x_nd _ _ _ _ _ _ _ X).
    - lia.
    - auto.
    - intros a [].
    - intros a [].
    - intros a [].
    - intros a [].
    - intros a b [].
    - reflexivity. }
  destruct (realloc_all (rev (ord o)) [] [] (fun b => b) s0 eq_refl R0) as (Dn & ren & R & HD).
  { intros a _ []. }
  rewrite rev_involutive in R, HD.
  assert (All : forall a, inn [] s0 a -> In a Dn).
  { intros a Na. apply HD; auto. apply (x_ord _ _ _ _ _ _ _ X a Na). }
  unfold reallocate. set (s1 := fold_left realloc_table (rev (ord o)) s0) in *.
  assert (Eu : forall u, In u (dtab s0 0) -> dm s1 u = dm s0 u /\ ~ inn [] s0 u /\ u <> ONE /\ u < dnx s0).
  { intros u Iu. destruct (x_tab _ _ _ _ _ _ _ X 0 u Iu) as (E0 & _ & Ru).
    assert (Nin : ~ inn [] s0 u). { intros Q. apply inn_did in Q as (_ & Q & _). congruence. }
    split; [|split; [auto|split; [unfold ONE; lia|lia]]]. apply (ra_old _ _ _ _ R); [lia|].
    intros Q. apply (ra_Dn _ _ _ _ R) in Q as (Q & _). auto. }
  destruct (fix_user_fold ren s1 (dtab s1 0) s1) as (T & N & A & B); auto.
  - apply R.
  - rewrite (ra_0 _ _ _ _ R). intros u Iu. split; auto. apply Eu; auto.
  - intros u Iu. apply (ra_dfwd _ _ _ _ _ R). destruct (x_user _ _ _ _ _ _ _ X u Iu) as ([O|O] & _ & _); auto.
  - rewrite (ra_0 _ _ _ _ R) in *. set (s2 := fold_left fix_user1 (dtab s0 0) s1) in *.
    exists ren.
    assert (In0 : forall v a, v <> 0 -> In a (dtab s0 v) -> In v (ord o) /\ In a Dn).
    { intros v a Hv Ia. destruct (in_tab v a Hv Ia) as (Na & <- & _). split; auto. apply (x_ord _ _ _ _ _ _ _ X a Na). }
    assert (NU : forall b, ~ b < dnx s0 -> ~ In b (dtab s0 0)).
    { intros b Lb Ib. apply Eu in Ib. lia. }
    constructor.
    + rewrite T. apply R.
    + intros v b Hv. rewrite T, (ra_tab _ _ _ _ R v b Hv). split.
      * intros [[_ (a & A1 & _ & A3)]|[Q1 Q2]]; eauto. destruct (In0 v b Hv Q2). tauto.
      * intros (a & A1 & A2). destruct (In0 v a Hv A1). left. split; eauto.
    + rewrite T. apply R.
    + intros a Na. rewrite N. apply (ra_rng _ _ _ _ R); auto.
    + intros a b Na Nb. apply (ra_inj _ _ _ _ R); auto.
    + exact (ra_one _ _ _ _ R).
    + intros a Na. pose proof (ra_rng _ _ _ _ R a (All a Na)). rewrite A by (apply NU; lia). apply (ra_new _ _ _ _ R); auto.
    + intros a Na. rewrite A by (intros Q; apply Eu in Q; tauto). apply (ra_fwd _ _ _ _ R); auto.
    + exact B.
    + rewrite A by (intros Q; apply Eu in Q; tauto). apply (ra_old _ _ _ _ R); [apply one_lt|].
      intros Q. apply (ra_Dn _ _ _ _ R) in Q as (Q & _). apply inn_did in Q. unfold ONE in Q. lia.
    + rewrite N. apply R.
Qed.
End Ren.
