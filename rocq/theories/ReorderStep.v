(** Exchanging two neighbouring variables: the whole step, and any sequence of steps. *)
From Coq Require Import NArith ZArith List Bool Lia Permutation.
From Verif Require Import Base BFModel StoreInv MgrModel ApiModel ReorderModel ReorderProof.
Import ListNotations.
Open Scope N_scope.

(** ** The order after an exchange *)
Lemma swap_list_perm k l : Permutation (swap_list k l) l.
Proof.
  revert l. induction k as [|k IH]; intros [|a l]; cbn [swap_list]; auto.
  destruct l as [|b l]; auto. constructor.
Qed.
Lemma swap_list_nth k l i j : nth_error l k = Some i -> nth_error l (S k) = Some j ->
  forall n, nth_error (swap_list k l) n =
    if Nat.eqb n k then Some j else if Nat.eqb n (S k) then Some i else nth_error l n.
Proof.
  revert l. induction k as [|k IH]; intros [|a l] Hi Hj n; try discriminate.
  - destruct l as [|b l]; [discriminate|]. cbn in Hi, Hj. injection Hi as ->. injection Hj as ->.
    cbn [swap_list]. destruct n as [|[|n]]; reflexivity.
  - cbn [swap_list]. destruct n as [|n]; [reflexivity|]. cbn [nth_error Nat.eqb] in *. exact (IH l Hi Hj n).
Qed.

Section Swap.
Variables (o : order) (k : N) (i j : N).
Hypothesis Wo : wfo o.
Hypothesis Hi : nth_error (ord o) (N.to_nat k) = Some i.
Hypothesis Hj : nth_error (ord o) (S (N.to_nat k)) = Some j.
Let o' := swap_order o k i j.

Lemma sw_i : i <> 0 /\ idx o i = k /\ In i (ord o).
Proof. destruct (wfo_idx o Wo _ _ Hi) as [A B]. split; auto. split; [lia|]. eapply nth_error_In; eauto. Qed.
Lemma sw_j : j <> 0 /\ idx o j = k + 1 /\ In j (ord o).
Proof. destruct (wfo_idx o Wo _ _ Hj) as [A B]. split; auto. split; [lia|]. eapply nth_error_In; eauto. Qed.
Lemma sw_ij : i <> j.
Proof. pose proof sw_i. pose proof sw_j. intros E. destruct H as (_ & H & _), H0 as (_ & H0 & _). rewrite E in H. lia. Qed.
Lemma sw_in v : In v (ord o') <-> In v (ord o).
Proof. unfold o'. cbn [ord swap_order]. split; apply Permutation_in; [|symmetry]; apply swap_list_perm. Qed.
Lemma sw_idx_i : idx o' i = k + 1.
Proof. unfold o'. cbn [idx swap_order]. rewrite upd_other' by (apply sw_ij). apply upd_same'. Qed.
Lemma sw_idx_j : idx o' j = k.
Proof. unfold o'. cbn [idx swap_order]. apply upd_same'. Qed.
Lemma sw_idx v : v <> i -> v <> j -> idx o' v = idx o v.
Proof. intros A B. unfold o'. cbn [idx swap_order]. now rewrite !upd_other' by auto. Qed.
Lemma sw_wfo : wfo o'.
Proof.
  destruct sw_i as (I1 & I2 & I3), sw_j as (J1 & J2 & J3). constructor.
  - unfold o'. cbn [ord swap_order]. eapply Permutation_NoDup; [symmetry; apply swap_list_perm|apply Wo].
  - intros n v Hn. unfold o' in Hn. cbn [ord swap_order] in Hn. rewrite (swap_list_nth _ _ _ _ Hi Hj) in Hn.
    destruct (Nat.eqb_spec n (N.to_nat k)) as [->|N1].
    + injection Hn as <-. split; auto. rewrite sw_idx_j. lia.
    + destruct (Nat.eqb_spec n (S (N.to_nat k))) as [->|N2].
      * injection Hn as <-. split; auto. rewrite sw_idx_i. lia.
      * destruct (wfo_idx o Wo _ _ Hn) as [V1 V2]. split; auto.
        rewrite sw_idx; auto; intros ->; lia.
  - unfold o'. cbn [ord swap_order]. rewrite (Permutation_length (swap_list_perm _ _)). apply Wo.
  - rewrite sw_idx by auto. apply Wo.
Qed.

Definition vok (v : N) : Prop := In v (ord o) \/ v = 0.
Lemma vok_case v : vok v -> v = i \/ v = j \/ v <> i /\ v <> j /\ idx o' v = idx o v /\ idx o v <> k /\ idx o v <> k + 1.
Proof.
  destruct sw_i as (I1 & I2 & I3), sw_j as (J1 & J2 & J3).
  intros Hv. destruct (N.eq_dec v i) as [|A]; auto. destruct (N.eq_dec v j) as [|B]; auto. right. right.
  split; auto. split; auto. split; [now apply sw_idx|].
  destruct Hv as [Hv| ->].
  - split; intros Q; [apply A|apply B]; apply (wfo_inj o); auto; lia.
  - rewrite (wfo_const o Wo). pose proof (wfo_lt_const o i Wo I3). pose proof (wfo_lt_const o j Wo J3). lia.
Qed.
Lemma cmp v w : vok v -> vok w -> idx o v < idx o w -> ~ (v = i /\ w = j) -> idx o' v < idx o' w.
Proof.
  destruct sw_i as (I1 & I2 & I3), sw_j as (J1 & J2 & J3). pose proof sw_idx_i. pose proof sw_idx_j. pose proof sw_ij.
  intros Hv Hw L Nij.
  destruct (vok_case v Hv) as [->|[->|(V1 & V2 & V3 & V4 & V5)]], (vok_case w Hw) as [->|[->|(W1 & W2 & W3 & W4 & W5)]];
    try lia; tauto.
Qed.

Lemma agree_other v F : In v (ord o) -> v <> i -> agree o (idx o v) F -> agree o' (idx o' v) F.
Proof.
  intros Iv Nv A r1 r2 Hr. apply A. intros u Iu Hu. apply Hr; [now apply sw_in|].
  destruct (N.eq_dec (idx o v) (idx o u)) as [Q|Q].
  - apply (wfo_inj o) in Q; auto. subst. lia.
  - apply N.lt_le_incl, cmp; [now left|now left|lia|tauto].
Qed.
Lemma agree_i F : agree o (idx o i) F -> agree o' (idx o' j) F.
Proof.
  destruct sw_i as (I1 & I2 & I3), sw_j as (J1 & J2 & J3). pose proof sw_idx_i. pose proof sw_idx_j.
  intros A r1 r2 Hr. apply A. intros u Iu Hu. apply Hr; [now apply sw_in|].
  destruct (vok_case u (or_introl Iu)) as [->|[->|U]]; lia.
Qed.


Lemma XI_any i1 j1 i2 j2 M D s : XI o i1 j1 M [] D s -> XI o i2 j2 M [] D s.
Proof.
  intros X. constructor.
  - exact (x_tab _ _ _ _ _ _ _ X).
  - exact (x_nd _ _ _ _ _ _ _ X).
  - constructor.
  - intros ? [].
  - exact (x_one _ _ _ _ _ _ _ X).
  - exact (x_D1 _ _ _ _ _ _ _ X).
  - exact (x_ord _ _ _ _ _ _ _ X).
  - exact (x_ch _ _ _ _ _ _ _ X).
  - intros ? ? [].
  - intros v a c Hv Ia Hc. split; [|intros []]. apply (x_lv _ _ _ _ _ _ _ X v a c Hv Ia Hc).
  - exact (x_D _ _ _ _ _ _ _ X).
  - intros ? [].
  - exact (x_ag _ _ _ _ _ _ _ X).
  - exact (x_pos _ _ _ _ _ _ _ X).
  - exact (x_inj _ _ _ _ _ _ _ X).
  - exact (x_user _ _ _ _ _ _ _ X).
  - exact (x_uu _ _ _ _ _ _ _ X).
  - exact (x_fl _ _ _ _ _ _ _ X).
  - exact (x_nx _ _ _ _ _ _ _ X).
  - exact (x_M _ _ _ _ _ _ _ X).
Qed.

(** The state with the nodes of [i] that point to [j] taken out of their table. *)
Record pulled (s : dst) (L : list N) (s1 : dst) : Prop := {
  pl_m : dm s1 = dm s;
  pl_fl : dfl s1 = dfl s;
  pl_nx : dnx s1 = dnx s;
  pl_ot : forall v, v <> i -> dtab s1 v = dtab s v;
  pl_nd : NoDup (dtab s1 i);
  pl_ndL : NoDup L;
  pl_in : forall a, In a (dtab s i) <-> In a (dtab s1 i) \/ In a L;
  pl_dis : forall a, In a (dtab s1 i) -> ~ In a L;
  pl_L : forall a, In a L -> did (dm s (fst (dt (dm s a)))) = j \/ did (dm s (fst (de (dm s a)))) = j;
  pl_i : forall a c, In a (dtab s1 i) -> c = fst (dt (dm s a)) \/ c = fst (de (dm s a)) -> did (dm s c) <> j
}.

Section Pull.
Variables (M : N -> N -> bool) (D : den) (s : dst) (L : list N) (s1 : dst) (i1 j1 : N).
Hypothesis X : XI o i1 j1 M [] D s.
Hypothesis PL : pulled s L s1.

Lemma pl_node a : node L s1 a <-> node [] s a.
Proof.
  unfold node. split.
  - intros [(v & Ia)|Ia].
    + left. exists v. destruct (N.eq_dec v i) as [->|Nv]; [apply (pl_in _ _ _ PL); auto|]. now rewrite (pl_ot _ _ _ PL) in Ia.
    + left. exists i. apply (pl_in _ _ _ PL). auto.
  - intros [(v & Ia)|[]]. destruct (N.eq_dec v i) as [->|Nv].
    + apply (pl_in _ _ _ PL) in Ia as [Ia|Ia]; [left; eauto|now right].
    + left. exists v. now rewrite (pl_ot _ _ _ PL).
Qed.
Lemma pl_inn a : inn L s1 a <-> inn [] s a.
Proof.
  destruct sw_i as (I1 & I2 & I3).
  unfold inn. split.
  - intros [(v & Hv & Ia)|Ia].
    + left. exists v. split; auto. destruct (N.eq_dec v i) as [->|Nv]; [apply (pl_in _ _ _ PL); auto|]. now rewrite (pl_ot _ _ _ PL) in Ia.
    + left. exists i. split; auto. apply (pl_in _ _ _ PL). auto.
  - intros [(v & Hv & Ia)|[]]. destruct (N.eq_dec v i) as [->|Nv].
    + apply (pl_in _ _ _ PL) in Ia as [Ia|Ia]; [left; eauto|now right].
    + left. exists v. split; auto. now rewrite (pl_ot _ _ _ PL).
Qed.
Lemma pl_okp a : okp L s1 a <-> okp [] s a.
Proof. unfold okp. now rewrite pl_inn. Qed.
Lemma pl_tab v a : In a (dtab s1 v) -> In a (dtab s v).
Proof.
  intros Ia. destruct (N.eq_dec v i) as [->|Nv]; [apply (pl_in _ _ _ PL); auto|]. now rewrite (pl_ot _ _ _ PL) in Ia.
Qed.
Lemma pl_vok a : okp [] s a -> vok (did (dm s a)).
Proof. intros [->|Ia]; [right; apply (x_one _ _ _ _ _ _ _ X)|left; exact (x_ord _ _ _ _ _ _ _ X a Ia)]. Qed.
Lemma pl_ordv v a : v <> 0 -> In a (dtab s v) -> In v (ord o).
Proof.
  intros Hv Ia. destruct (x_tab _ _ _ _ _ _ _ X v a Ia) as [<- _]. apply (x_ord _ _ _ _ _ _ _ X). left. eauto.
Qed.
Lemma pl_ch a c : inn [] s a -> c = fst (dt (dm s a)) \/ c = fst (de (dm s a)) -> okp [] s c.
Proof. intros Ia. destruct (x_ch _ _ _ _ _ _ _ X a Ia) as (A & B & _). intros [->| ->]; auto. Qed.

Lemma pull_XI : XI o' i j M L D s1.
Proof.
  destruct sw_i as (I1 & I2 & I3), sw_j as (J1 & J2 & J3). pose proof sw_idx_i as Ei. pose proof sw_idx_j as Ej. pose proof sw_ij as Nij.
  pose proof (pl_m _ _ _ PL) as Em.
  assert (IL : forall a, In a L -> In a (dtab s i)) by (intros a Ia; apply (pl_in _ _ _ PL); auto).
  constructor.
  - intros v a Ia. rewrite Em, (pl_nx _ _ _ PL). destruct (x_tab _ _ _ _ _ _ _ X v a (pl_tab v a Ia)) as (A & _ & B).
    split; [exact A|]. split; [|exact B]. intros Q. destruct (N.eq_dec v i) as [->|Nv]; [exact (pl_dis _ _ _ PL a Ia Q)|].
    destruct (x_tab _ _ _ _ _ _ _ X i a (IL a Q)) as (A' & _). congruence.
  - intros v. destruct (N.eq_dec v i) as [->|Nv]; [apply PL|]. rewrite (pl_ot _ _ _ PL) by auto. apply X.
  - apply PL.
  - intros a Ia. rewrite Em, (pl_nx _ _ _ PL). destruct (x_tab _ _ _ _ _ _ _ X i a (IL a Ia)) as (A & _ & B).
    split; [exact A|]. split; [exact B|]. exact (pl_L _ _ _ PL a Ia).
  - rewrite Em. exact (x_one _ _ _ _ _ _ _ X).
  - exact (x_D1 _ _ _ _ _ _ _ X).
  - intros a Ia. rewrite Em. apply sw_in. apply (x_ord _ _ _ _ _ _ _ X). now apply pl_inn.
  - intros a Ia. rewrite Em, !pl_okp. apply (x_ch _ _ _ _ _ _ _ X). now apply pl_inn.
  - intros a c Ia Hc. rewrite Em in *.
    assert (Na : inn [] s a) by (left; exists i; auto).
    pose proof (proj1 (x_lv _ _ _ _ _ _ _ X i a c I1 (IL a Ia) Hc)) as Lc.
    pose proof (pl_ch a c Na Hc) as Oc.
    split. { intros Q. destruct (x_tab _ _ _ _ _ _ _ X i c (IL c Q)) as (A' & _). rewrite A' in Lc. lia. }
    destruct (vok_case _ (pl_vok c Oc)) as [Q|[Q|(_ & _ & Q & _)]].
    + rewrite Q in Lc. lia.
    + left. split; [exact Q|].
      destruct Oc as [->|Nc]. { destruct (x_one _ _ _ _ _ _ _ X) as [Q1 _]. rewrite Q1 in Q. congruence. }
      assert (Ic : In c (dtab s j)).
      { destruct Nc as [(v & Hv & Ic)|[]]. destruct (x_tab _ _ _ _ _ _ _ X v c Ic) as [Q1 _]. congruence. }
      assert (G : forall g, g = fst (dt (dm s c)) \/ g = fst (de (dm s c)) -> idx o' i < idx o' (did (dm s g))).
      { intros g Hg. pose proof (proj1 (x_lv _ _ _ _ _ _ _ X j c g J1 Ic Hg)) as Lg.
        destruct (vok_case _ (pl_vok g (pl_ch c g Nc Hg))) as [Q1|[Q1|(_ & _ & Q1 & _)]]; rewrite ?Q1 in *; lia. }
      split; apply G; auto.
    + right. pose proof (vok_case _ (pl_vok c Oc)) as [Q1|[Q1|(_ & _ & _ & Q1 & Q2)]]; try rewrite Q1 in *; lia.
  - intros v a c Hv Ia Hc. rewrite Em in *. pose proof (pl_tab v a Ia) as Ia0.
    pose proof (proj1 (x_lv _ _ _ _ _ _ _ X v a c Hv Ia0 Hc)) as Lc.
    assert (Na : inn [] s a) by (left; exists v; auto).
    pose proof (pl_vok c (pl_ch a c Na Hc)) as Vc. pose proof (pl_ordv v a Hv Ia0) as Iv.
    split.
    + apply cmp; auto; [now left|]. intros [-> Q]. exact (pl_i _ _ _ PL a c Ia Hc Q).
    + intros Q. destruct (x_tab _ _ _ _ _ _ _ X i c (IL c Q)) as (A' & _). rewrite A' in Lc. 
      destruct (vok_case v (or_introl Iv)) as [Q1|[Q1|(_ & _ & Q1 & _)]]; try rewrite Q1 in *; lia.
  - intros a rho Ia. rewrite Em. apply (x_D _ _ _ _ _ _ _ X). now apply pl_inn.
  - intros a Ia. apply agree_i. apply (x_ag _ _ _ _ _ _ _ X i a I1 (IL a Ia)).
  - intros v a Hv Ia. pose proof (pl_tab v a Ia) as Ia0. pose proof (pl_ordv v a Hv Ia0) as Iv.
    destruct (N.eq_dec v i) as [->|Nv].
    2:{ apply agree_other; auto. apply (x_ag _ _ _ _ _ _ _ X v a Hv Ia0). }
    assert (Na : inn [] s a) by (left; exists i; auto).
    intros r1 r2 Hr. rewrite !(x_D _ _ _ _ _ _ _ X a _ Na).
    destruct (x_tab _ _ _ _ _ _ _ X i a Ia0) as (-> & _).
    rewrite (Hr i) by (try apply sw_in; auto; lia).
    assert (G : forall c, c = fst (dt (dm s a)) \/ c = fst (de (dm s a)) -> D c r1 = D c r2).
    { intros c Hc. pose proof (proj1 (x_lv _ _ _ _ _ _ _ X i a c Hv Ia0 Hc)) as Lc.
      pose proof (pl_i _ _ _ PL a c Ia Hc) as Nj.
      destruct (pl_ch a c Na Hc) as [->|Nc]; [now rewrite !(x_D1 _ _ _ _ _ _ _ X)|].
      destruct Nc as [(w & Hw & Ic)|[]]. destruct (x_tab _ _ _ _ _ _ _ X w c Ic) as [Q1 _]. rewrite Q1 in *.
      pose proof (pl_ordv w c Hw Ic) as Iw.
      apply (x_ag _ _ _ _ _ _ _ X w c Hw Ic). intros u Iu Hu. apply Hr; [now apply sw_in|].
      destruct (vok_case w (or_introl Iw)) as [Q2|[Q2|(_ & _ & Q2 & Q3 & Q4)]]; [rewrite Q2 in Lc; lia|congruence|].
      destruct (vok_case u (or_introl Iu)) as [Q5|[Q5|(_ & _ & Q5 & Q6 & Q7)]]; try rewrite Q5 in *; lia. }
    unfold dval. rewrite !G; auto.
  - intros a Ia. apply (x_pos _ _ _ _ _ _ _ X). now apply pl_inn.
  - intros a b Oa Ob. apply pl_okp in Oa. apply pl_okp in Ob. exact (x_inj _ _ _ _ _ _ _ X a b Oa Ob).
  - intros a Ia. rewrite Em, pl_okp. apply (x_user _ _ _ _ _ _ _ X). now apply pl_tab.
  - intros a b Ia Ib. rewrite Em. apply (x_uu _ _ _ _ _ _ _ X); now apply pl_tab.
  - rewrite (pl_fl _ _ _ PL), (pl_nx _ _ _ PL). destruct (x_fl _ _ _ _ _ _ _ X) as [A B]. split; [exact A|].
    intros b Ib. rewrite pl_node. exact (B b Ib).
  - rewrite (pl_nx _ _ _ PL). exact (x_nx _ _ _ _ _ _ _ X).
  - intros a p q Ia. apply (x_M _ _ _ _ _ _ _ X). now apply pl_inn.
Qed.
Lemma pull_XR P x : XR [] s P x -> XR L s1 P x.
Proof.
  intros [A1 A2 A3 A4 A5]. constructor; auto.
  - intros a. now rewrite pl_node.
  - now rewrite (pl_m _ _ _ PL).
Qed.
End Pull.

(** *** The whole step *)
Theorem exchange_spec M D s P x i1 j1 : XI o i1 j1 M [] D s -> XR [] s P x -> (forall b, (0 <= x b)%Z) ->
  exists D' P', XI o' i j M [] D' (exchange M s i j) /\ XR [] (exchange M s i j) P' x /\ gx x s D (exchange M s i j) D'.
Proof.
  intros X R Hx.
  destruct sw_i as (I1 & I2 & I3), sw_j as (J1 & J2 & J3). pose proof sw_idx_i as Ei. pose proof sw_idx_j as Ej. pose proof sw_ij as Nij.
  unfold exchange. destruct (M i j) eqn:EM.
  - set (L := rev (filter (touches s j) (dtab s i))).
    set (s1 := set_dtab s i (filter (fun a => negb (touches s j a)) (dtab s i))).
    assert (PL : pulled s L s1).
    { constructor; try reflexivity.
      - intros v Nv. unfold s1. cbn [dtab set_dtab]. now apply upd_other'.
      - unfold s1. cbn [dtab set_dtab]. rewrite upd_same'. apply NoDup_filter, X.
      - unfold L. apply NoDup_rev, NoDup_filter, X.
      - intros a. unfold s1, L. cbn [dtab set_dtab]. rewrite upd_same', <- in_rev, !filter_In.
        destruct (touches s j a); simpl; intuition congruence.
      - intros a. unfold s1, L. cbn [dtab set_dtab]. rewrite upd_same', <- in_rev, !filter_In.
        intros [_ Q] [_ Q']. rewrite Q' in Q. discriminate.
      - intros a. unfold L. rewrite <- in_rev, filter_In. intros [_ Q]. unfold touches in Q.
        apply orb_true_iff in Q as [Q|Q]; apply N.eqb_eq in Q; auto.
      - intros a c. unfold s1. cbn [dtab set_dtab]. rewrite upd_same', filter_In. intros [_ Q].
        apply negb_true_iff in Q. unfold touches in Q. apply orb_false_iff in Q as [Q1 Q2].
        apply N.eqb_neq in Q1, Q2. intros [->| ->]; auto. }
    pose proof (pull_XI M D s L s1 i1 j1 X PL) as X1.
    pose proof (pull_XR s L s1 PL P x R) as R1.
    pose proof (exchange_fold o' i j M sw_wfo (proj2 (sw_in i) I3) (proj2 (sw_in j) J3)) as EF.
    destruct (EF ltac:(lia) L D s1 X1) as (D' & X2 & F2 & RR).
    destruct (RR P x Hx R1) as [P2 R2].
    destruct (sweep_fold o' i j M sw_wfo (proj2 (sw_in j) J3) ltac:(lia) x Hx (dtab (fold_left (exchange1 i j) L s1) j) D' _ P2 X2 R2)
      as (X3 & G3 & [P3 R3]).
    + apply X2.
    + auto.
    + exists D', P3. split; [exact X3|]. split; [exact R3|]. eapply gx_trans; [|exact G3].
      destruct (fx_gx o' i j M x L s1 D _ D' X1 F2) as (A1 & A2 & A3 & A4).
      assert (E0 : dtab s1 0 = dtab s 0) by (apply PL; auto).
      constructor.
      * intros b Ob Hb. apply A1; auto. now apply (pl_okp s L s1 PL).
      * now rewrite A2.
      * intros u Iu. rewrite E0 in A3. rewrite (pl_m _ _ _ PL) in A3. auto.
      * intros v b Hv Ib Hb E1 E2. rewrite (pl_m _ _ _ PL) in A4.
        assert (Ib1 : In b (dtab s1 v)).
        { destruct (N.eq_dec v i) as [->|Nv]; [|now rewrite (pl_ot _ _ _ PL)].
          apply (pl_in _ _ _ PL) in Ib as [Ib|Ib]; auto. exfalso.
          destruct (pl_L _ _ _ PL b Ib) as [Q|Q]; rewrite ?E1, ?E2 in Q; cbn [fst] in Q;
            rewrite (proj1 (x_one _ _ _ _ _ _ _ X)) in Q; congruence. }
        destruct (A4 v b Ib1) as (B1 & B2 & B3). rewrite B2, B3. auto.
  - exists D, P. split; [|split; [exact R|apply gx_refl]].
    apply (pull_XI M D s [] s i1 j1 X). constructor; auto.
    + apply X.
    + constructor.
    + intros a. simpl. tauto.
    + intros a [].
    + intros a c Ia Hc Q.
      assert (Na : inn [] s a) by (left; exists i; auto).
      destruct (pl_ch M D s i1 j1 X a c Na Hc) as [->|Nc].
      { rewrite (proj1 (x_one _ _ _ _ _ _ _ X)) in Q. congruence. }
      assert (Ic : In c (dtab s j)).
      { destruct Nc as [(v & Hv & Ic)|[]]. destruct (x_tab _ _ _ _ _ _ _ X v c Ic) as [Q1 _]. congruence. }
      (* a function with a node is not independent of its variable *)
      assert (DEP : forall w b, w <> 0 -> In b (dtab s w) -> indep (D b) w -> False).
      { intros w b Hw Ib Hd. assert (Nb : inn [] s b) by (left; exists w; auto).
        pose proof (pl_ordv M D s i1 j1 X w b Hw Ib) as Iw.
        destruct (x_tab _ _ _ _ _ _ _ X w b Ib) as (Eb & _).
        destruct (x_ch _ _ _ _ _ _ _ X b Nb) as (O1 & O2 & O3 & O4).
        assert (G : forall g rho bb, g = fst (dt (dm s b)) \/ g = fst (de (dm s b)) -> D g (upd rho w bb) = D g rho).
        { intros g rho bb Hg. pose proof (proj1 (x_lv _ _ _ _ _ _ _ X w b g Hw Ib Hg)) as Lg.
          destruct (pl_ch M D s i1 j1 X b g Nb Hg) as [->|Ng]; [now rewrite !(x_D1 _ _ _ _ _ _ _ X)|].
          destruct Ng as [(u & Hu & Ig)|[]]. destruct (x_tab _ _ _ _ _ _ _ X u g Ig) as [Q1 _]. rewrite Q1 in Lg.
          apply (x_ag _ _ _ _ _ _ _ X u g Hu Ig). intros y Iy Hy. apply upd_other'. intros ->. lia. }
        assert (Dv : forall rho, dval D (dt (dm s b)) rho = dval D (de (dm s b)) rho).
        { intros rho. pose proof (x_D _ _ _ _ _ _ _ X b (upd rho w true) Nb) as U.
          pose proof (x_D _ _ _ _ _ _ _ X b (upd rho w false) Nb) as V.
          rewrite Eb, upd_same' in U, V. rewrite Hd in U, V. unfold dval in *. rewrite !G in U, V by auto. congruence. }
        apply O4. apply (dval_inj o i1 j1 M [] D s X); auto. }
      pose proof (x_M _ _ _ _ _ _ _ X a i j Na Nij EM) as [Hd|Hd]; [exact (DEP i a I1 Ia Hd)|].
      apply (DEP j c J1 Ic). intros rho b.
      (* the child of [a] is independent of [j] as well *)
      assert (G : forall g rho bb, g = fst (dt (dm s a)) \/ g = fst (de (dm s a)) -> D g (upd rho i bb) = D g rho).
      { intros g rho' bb Hg. pose proof (proj1 (x_lv _ _ _ _ _ _ _ X i a g I1 Ia Hg)) as Lg.
        destruct (pl_ch M D s i1 j1 X a g Na Hg) as [->|Ng]; [now rewrite !(x_D1 _ _ _ _ _ _ _ X)|].
        destruct Ng as [(u & Hu & Ig)|[]]. destruct (x_tab _ _ _ _ _ _ _ X u g Ig) as [Q1 _]. rewrite Q1 in Lg.
        apply (x_ag _ _ _ _ _ _ _ X u g Hu Ig). intros y Iy Hy. apply upd_other'. intros ->. lia. }
      destruct (x_tab _ _ _ _ _ _ _ X i a Ia) as (Ea & _).
      assert (U : forall bb r, D a (upd r i bb) = if bb then dval D (dt (dm s a)) r else dval D (de (dm s a)) r).
      { intros bb r. rewrite (x_D _ _ _ _ _ _ _ X a _ Na), Ea, upd_same'. unfold dval. rewrite !G by auto. reflexivity. }
      assert (V : forall bb, D a (upd (upd rho j b) i bb) = D a (upd rho i bb)).
      { intros bb. transitivity (D a (upd (upd rho i bb) j b)); [|apply Hd].
        apply (x_ag _ _ _ _ _ _ _ X i a I1 Ia). intros u _ _. unfold upd.
        destruct (N.eqb_spec u i), (N.eqb_spec u j); congruence. }
      destruct Hc as [->| ->].
      * pose proof (V true) as V1. rewrite !U in V1. unfold dval in V1. 
        destruct (snd (dt (dm s a))), (D (fst (dt (dm s a))) (upd rho j b)), (D (fst (dt (dm s a))) rho); simpl in V1; congruence.
      * pose proof (V false) as V1. rewrite !U in V1. unfold dval in V1. 
        destruct (snd (de (dm s a))), (D (fst (de (dm s a))) (upd rho j b)), (D (fst (de (dm s a))) rho); simpl in V1; congruence.
Qed.
End Swap.
