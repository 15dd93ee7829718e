(** * The satisfying fraction. *)
From Coq Require Import Permutation Sorted QArith Qabs Lqa Qfield.
From Verif Require Import SpecRound Base BFModel ITEModel MgrModel ApiModel StoreInv Own EngInv ApplyProof BinopProof ReduceProof
  EngineProof OpProof MultiProof QProof GCProof VarProof MInv ApiProof ApiOps ApiStruct GraphModel GraphProof.
Open Scope N_scope.

Definition half : Q := 1 # 2.
Fixpoint dens (vs : list N) (F : bf) (rho : N -> bool) : Q :=
  match vs with
  | [] => if F rho then 1%Q else 0%Q
  | v :: vs => (half * dens vs F (flip rho v true) + half * dens vs F (flip rho v false))%Q
  end.

Lemma dens_ext vs : forall (F G : bf) r1 r2, (forall rho, F rho = G rho) -> bext G -> (forall i, r1 i = r2 i) ->
  (dens vs F r1 == dens vs G r2)%Q.
Proof.
  induction vs as [|v vs IH]; intros F G r1 r2 E B H; simpl.
  - rewrite E, (B r1 r2 H). reflexivity.
  - rewrite (IH F G (flip r1 v true) (flip r2 v true)), (IH F G (flip r1 v false) (flip r2 v false)); auto; try reflexivity;
      intros i; unfold flip; destruct (i =? v); auto.
Qed.
Lemma dens_pt vs (F : bf) r1 r2 : bext F -> (forall i, r1 i = r2 i) -> (dens vs F r1 == dens vs F r2)%Q.
Proof. intros. now apply dens_ext. Qed.

Lemma dens_perm vs vs' (F : bf) : bext F -> Permutation vs vs' -> NoDup vs -> forall rho, (dens vs F rho == dens vs' F rho)%Q.
Proof.
  intros B P. induction P as [|v l l' P IH|u v l|l1 l2 l3 P1 IH1 P2 IH2]; intros ND rho; simpl; try reflexivity.
  - inversion ND; subst. rewrite (IH H2 (flip rho v true)), (IH H2 (flip rho v false)). reflexivity.
  - inversion ND as [|? ? H1 H2]; subst.
    assert (Ne : u <> v) by (intros ->; apply H1; now left).
    rewrite (dens_pt l F (flip (flip rho v true) u true) (flip (flip rho u true) v true)),
            (dens_pt l F (flip (flip rho v true) u false) (flip (flip rho u false) v true)),
            (dens_pt l F (flip (flip rho v false) u true) (flip (flip rho u true) v false)),
            (dens_pt l F (flip (flip rho v false) u false) (flip (flip rho u false) v false));
      auto; try (intros i; apply flip_comm; auto). lra.
  - rewrite IH1 by auto. apply IH2. eapply Permutation_NoDup; eauto.
Qed.

Lemma dens_flip vs : forall (F : bf) v b rho, bext F -> (forall r c, F (flip r v c) = F r) ->
  (dens vs F (flip rho v b) == dens vs F rho)%Q.
Proof.
  induction vs as [|u vs IH]; intros F v b rho B H; simpl; [now rewrite H|].
  destruct (N.eq_dec u v) as [->|Ne].
  - rewrite (dens_pt vs F (flip (flip rho v b) v true) (flip rho v true)), (dens_pt vs F (flip (flip rho v b) v false) (flip rho v false));
      auto; try reflexivity; intros i; apply flip_flip.
  - rewrite (dens_pt vs F (flip (flip rho v b) u true) (flip (flip rho u true) v b)), (dens_pt vs F (flip (flip rho v b) u false) (flip (flip rho u false) v b));
      auto; try (intros i; now apply flip_comm; auto).
    rewrite (IH F v b (flip rho u true)), (IH F v b (flip rho u false)) by auto. reflexivity.
Qed.
Lemma dens_indep vs (F : bf) v rho : bext F -> (forall r c, F (flip r v c) = F r) -> (dens (v :: vs) F rho == dens vs F rho)%Q.
Proof. intros B H. simpl. rewrite (dens_flip vs F v true), (dens_flip vs F v false) by auto. unfold half. lra. Qed.
Lemma dens_fix vs : forall (F : bf) v b rho, bext F -> ~ In v vs ->
  (dens vs F (flip rho v b) == dens vs (fun r => F (flip r v b)) rho)%Q.
Proof.
  induction vs as [|u vs IH]; intros F v b rho B H; simpl; [reflexivity|].
  assert (Ne : v <> u) by (intros ->; apply H; now left). assert (Nv : ~ In v vs) by (intros A; apply H; now right).
  rewrite <- (IH F v b (flip rho u true)), <- (IH F v b (flip rho u false)) by auto.
  rewrite (dens_pt vs F (flip (flip rho v b) u true) (flip (flip rho u true) v b)), (dens_pt vs F (flip (flip rho v b) u false) (flip (flip rho u false) v b));
    auto; try reflexivity; intros i; apply flip_comm; auto.
Qed.

Section Frac.
Variables (o : order) (D : den) (s : store).
Hypothesis Wo : wfo o.
Hypothesis W : SWF o s.
Hypothesis K : Dok D s.
Let m := mem s.
Notation V := (vedge (nodeR s)).

Lemma dens_step vs e rho : V e -> isconst e = false -> NoDup vs -> In (eid e) vs ->
  (dens vs (dv D e) rho == half * dens vs (dv D (thenof m e)) rho + half * dens vs (dv D (elseof m e)) rho)%Q.
Proof.
  intros Ve C ND Iv. destruct (node_split o s Wo W e Ve C) as (N0 & I1 & I2 & V1 & V2 & G1 & G2 & _).
  destruct (in_split _ _ Iv) as (l1 & l2 & ->).
  assert (P : Permutation (l1 ++ eid e :: l2) (eid e :: l1 ++ l2)) by (symmetry; apply Permutation_middle).
  assert (B : forall x, V x -> bext (dv D x)) by (intros x Vx; apply (dv_bext o D s x); auto).
  rewrite (dens_perm _ _ (dv D e) (B e Ve) P ND), (dens_perm _ _ (dv D (thenof m e)) (B _ V1) P ND),
          (dens_perm _ _ (dv D (elseof m e)) (B _ V2) P ND).
  assert (Nv : ~ In (eid e) (l1 ++ l2)) by now apply NoDup_remove_2.
  rewrite (dens_indep _ (dv D (thenof m e)) (eid e)), (dens_indep _ (dv D (elseof m e)) (eid e)); auto.
  - cbn [dens]. rewrite (dens_fix _ (dv D e) (eid e) true), (dens_fix _ (dv D e) (eid e) false) by auto.
    rewrite (dens_ext (l1 ++ l2) (fun r => dv D e (flip r (eid e) true)) (dv D (thenof m e)) rho rho),
            (dens_ext (l1 ++ l2) (fun r => dv D e (flip r (eid e) false)) (dv D (elseof m e)) rho rho); auto; try reflexivity.
    + intros r. symmetry. now apply (dv_E o D s).
    + intros r. symmetry. now apply (dv_T o D s).
  - intros r c. apply (dv_flip o D s); auto.
  - intros r c. apply (dv_flip o D s); auto.
Qed.

Variable rnd : Q -> Q.
Variable P : edge -> Q -> Prop.
Hypothesis P0 : P zero 0%Q.
Hypothesis P1 : P one 1%Q.
Hypothesis Pn : forall e a b, V e -> isconst e = false -> P (thenof m e) a -> P (elseof m e) b -> P e (mean rnd a b).

Definition tabok (h : map1 Q) : Prop := forall k q, In (k, q) h -> V k /\ P k q.

Lemma lookup1_in {A} (h : map1 A) k q : lookup1 h k = Some q -> exists k', eeq k k' = true /\ In (k', q) h.
Proof.
  induction h as [|[k' v] h IH]; simpl; [discriminate|]. destruct (eeq k k') eqn:E.
  - intros [= <-]. exists k'. auto.
  - intros H. destruct (IH H) as (k2 & E2 & I2). exists k2. auto.
Qed.

Lemma fraction_gen fuel : forall h f, V f -> (rank o f < fuel)%nat -> tabok h ->
  exists q h', fraction_step rnd fuel m h f = Some (q, h') /\ P f q /\ tabok h'.
Proof.
  induction fuel as [|fuel IH]; intros h f Vf L T; [lia|]. simpl.
  destruct (isconst f) eqn:C.
  { destruct (const_cases _ f Vf C) as [-> | ->]; simpl; eexists _, _; split; eauto. }
  destruct (lookup1 h f) as [q|] eqn:E.
  { destruct (lookup1_in h f q E) as (k & Ek & Ik). destruct (T k q Ik) as [Vk Pk].
    apply (eeq_valid o s) in Ek; auto. subst k. eauto. }
  destruct (node_split o s Wo W f Vf C) as (N0 & I1 & I2 & V1 & V2 & G1 & G2 & R1 & R2). fold m in V1, V2, R1, R2.
  destruct (IH h (thenof m f)) as (a & h1 & -> & Pa & T1); auto; [lia|].
  destruct (IH h1 (elseof m f)) as (b & h2 & -> & Pb & T2); auto; [lia|].
  eexists _, _. split; [reflexivity|]. split; auto. intros k q [[= <- <-]|Hk]; auto.
Qed.
End Frac.

(** Powers of two as rationals. *)
Lemma p2_pos n : (0 < p2 n)%Q.
Proof. unfold p2. change 0%Q with (inject_Z 0). rewrite <- Zlt_Qlt. apply Z.pow_pos_nonneg; lia. Qed.
Lemma p2_ne n : ~ (p2 n == 0)%Q.
Proof. pose proof (p2_pos n). lra. Qed.
Lemma p2_add a b : (p2 (a + b) == p2 a * p2 b)%Q.
Proof. unfold p2. rewrite <- inject_Z_mult. rewrite Nat2Z.inj_add, Z.pow_add_r by lia. reflexivity. Qed.
Lemma p2_S n : (p2 (S n) == 2 * p2 n)%Q.
Proof. change (S n) with (1 + n)%nat. rewrite p2_add. reflexivity. Qed.

Lemma dyadic_mean n a b r1 r2 : dyadic r1 a -> dyadic r2 b -> (r1 < n)%nat -> (r2 < n)%nat -> dyadic n (half * a + half * b)%Q.
Proof.
  intros (k1 & B1 & E1) (k2 & B2 & E2) L1 L2.
  assert (F : forall r k, (r < n)%nat -> (0 <= k <= 2 ^ Z.of_nat r)%Z ->
     exists j, (0 <= 2 * j <= 2 ^ Z.of_nat n)%Z /\ (half * (inject_Z k / p2 r) == inject_Z j / p2 n)%Q).
  { intros r k L B. replace n with (S r + (n - S r))%nat by lia. set (t := (n - S r)%nat). exists (k * 2 ^ Z.of_nat t)%Z.
    assert (2 ^ Z.of_nat (S r + t) = 2 * 2 ^ Z.of_nat r * 2 ^ Z.of_nat t)%Z as ->.
    { rewrite Nat2Z.inj_add, Z.pow_add_r, Nat2Z.inj_succ, Z.pow_succ_r by lia. ring. }
    assert (0 < 2 ^ Z.of_nat t)%Z by (apply Z.pow_pos_nonneg; lia). split; [nia|].
    rewrite p2_add, p2_S, inject_Z_mult. change (inject_Z (2 ^ Z.of_nat t)) with (p2 t). unfold half.
    pose proof (p2_ne r). pose proof (p2_ne t). field. auto. }
  destruct (F r1 k1 L1 B1) as (j1 & C1 & F1). destruct (F r2 k2 L2 B2) as (j2 & C2 & F2).
  exists (j1 + j2)%Z. split; [lia|]. rewrite E1, E2, F1, F2, inject_Z_plus. pose proof (p2_ne n). field. auto.
Qed.
Lemma dyadic_half n a r : dyadic r a -> (r < n)%nat -> dyadic n (half * a)%Q.
Proof.
  intros Da L. assert (D0 : dyadic r 0%Q). { exists 0%Z. split; [split; [lia|apply Z.pow_nonneg; lia]|]. unfold Qdiv. rewrite Qmult_0_l. reflexivity. }
  destruct (dyadic_mean n a 0%Q r r Da D0 L L) as (k & B & E). exists k. split; auto. rewrite <- E. unfold half. lra.
Qed.

Lemma dyadic_mono n n' q : (n <= n')%nat -> dyadic n q -> dyadic n' q.
Proof.
  intros L (k & B & E). replace n' with (n + (n' - n))%nat by lia. set (d := (n' - n)%nat). exists (k * 2 ^ Z.of_nat d)%Z.
  assert (0 < 2 ^ Z.of_nat d)%Z by (apply Z.pow_pos_nonneg; lia). split.
  - rewrite Nat2Z.inj_add, Z.pow_add_r by lia. nia.
  - rewrite E, p2_add, inject_Z_mult. change (inject_Z (2 ^ Z.of_nat d)) with (p2 d).
    pose proof (p2_ne n). pose proof (p2_ne d). field. auto.
Qed.
Lemma dyadic_01 n : dyadic n 0%Q /\ dyadic n 1%Q.
Proof.
  split; [exists 0%Z|exists (2 ^ Z.of_nat n)%Z]; (split; [split; [try lia|try lia]; try (apply Z.pow_nonneg; lia)|]).
  - unfold Qdiv. rewrite Qmult_0_l. reflexivity.
  - change (inject_Z (2 ^ Z.of_nat n)) with (p2 n). pose proof (p2_ne n). field. auto.
Qed.

Section Round.
Variables (o : order) (D : den) (s : store) (rnd : Q -> Q) (vs : list N) (rho : N -> bool).
Hypothesis Wo : wfo o.
Hypothesis W : SWF o s.
Hypothesis K : Dok D s.
Hypothesis Rd : rounding rnd.
Hypothesis ND : NoDup vs.
Hypothesis Vs : forall i, In i (ord o) -> In i vs.
Notation V := (vedge (nodeR s)).

Lemma dens_zero l r : (dens l (dv D zero) r == 0)%Q.
Proof.
  revert r. induction l as [|v l IH]; intros r; simpl.
  - rewrite (dv_zero D s) by auto. reflexivity.
  - rewrite (IH (flip r v true)), (IH (flip r v false)). reflexivity.
Qed.
Lemma dens_one l r : (dens l (dv D one) r == 1)%Q.
Proof.
  revert r. induction l as [|v l IH]; intros r; simpl.
  - rewrite (dv_one D s) by auto. reflexivity.
  - rewrite (IH (flip r v true)), (IH (flip r v false)). reflexivity.
Qed.

Lemma rnd_proper a b : (a == b)%Q -> (rnd a == rnd b)%Q.
Proof. intros E. apply Qle_antisym; apply (rd_mono rnd Rd); rewrite E; apply Qle_refl. Qed.

(** With at most 53 variables nothing is rounded. *)
Lemma fraction_exact f : V f -> (length (ord o) <= 53)%nat ->
  exists q h, fraction_step rnd (depth o) (mem s) [] f = Some (q, h) /\ (q == dens vs (dv D f) rho)%Q.
Proof.
  intros Vf L53.
  destruct (fraction_gen o s Wo W rnd (fun e q => dyadic (rank o e) q /\ (q == dens vs (dv D e) rho)%Q))
    with (fuel := depth o) (h := @nil (edge * Q)) (f := f) as (q & h & E & [_ Q1] & _); auto.
  - split; [apply dyadic_01|]. now rewrite dens_zero.
  - split; [apply dyadic_01|]. now rewrite dens_one.
  - intros e a b Ve C [Da Ea] [Db Eb].
    destruct (node_split o s Wo W e Ve C) as (N0 & I1 & I2 & V1 & V2 & G1 & G2 & R1 & R2).
    pose proof (rank_le o s e Ve) as Rl.
    assert (M : (mean rnd a b == half * a + half * b)%Q).
    { unfold mean. fold half.
      rewrite (rnd_proper (rnd (half * a) + rnd (half * b)) (half * a + half * b)).
      - apply Rd. apply (dyadic_mono (rank o e)); [lia|]. eapply dyadic_mean; eauto.
      - rewrite (rd_exact rnd Rd (half * a)), (rd_exact rnd Rd (half * b)); [reflexivity| |];
          (apply (dyadic_mono (rank o e)); [lia|]; eapply dyadic_half; eauto). }
    split.
    + destruct (dyadic_mean (rank o e) a b _ _ Da Db R1 R2) as (k & B & Ek). exists k. split; auto. now rewrite M.
    + rewrite M, Ea, Eb. symmetry. apply (dens_step o D s Wo W K vs e rho Ve C ND). auto.
  - eapply rank_depth; eauto.
  - intros k q [].
  - eauto.
Qed.

(** In general at most three roundings per level. *)
Lemma fraction_error f : V f ->
  exists q h, fraction_step rnd (depth o) (mem s) [] f = Some (q, h) /\
    (Qabs (q - dens vs (dv D f) rho) <= inject_Z (3 * Z.of_nat (length (ord o))) / p2 54)%Q.
Proof.
  intros Vf. set (eps := (1 / p2 54)%Q).
  assert (Pe : (0 < eps)%Q) by (unfold eps; reflexivity).
  assert (Nn : forall n, (0 <= inject_Z (3 * Z.of_nat n) * eps)%Q).
  { intros n. apply Qmult_le_0_compat; [|lra]. change 0%Q with (inject_Z 0). rewrite <- Zle_Qle. lia. }
  assert (R0 : (rnd 0 == 0)%Q) by (apply Rd, dyadic_01).
  assert (R1 : (rnd 1 == 1)%Q) by (apply Rd, dyadic_01).
  assert (Rh : (rnd half == half)%Q).
  { apply Rd. exists (2 ^ 52)%Z. split; [split; discriminate|reflexivity]. }
  destruct (fraction_gen o s Wo W rnd (fun e q => (0 <= q <= 1)%Q /\
      (Qabs (q - dens vs (dv D e) rho) <= inject_Z (3 * Z.of_nat (rank o e)) * eps)%Q))
    with (fuel := depth o) (h := @nil (edge * Q)) (f := f) as (q & h & E & [_ Q1] & _); auto.
  - split; [lra|]. rewrite dens_zero. apply Qabs_Qle_condition. pose proof (Nn (rank o zero)). lra.
  - split; [lra|]. rewrite dens_one. apply Qabs_Qle_condition. pose proof (Nn (rank o one)). lra.
  - intros e a b Ve C [Ba Ea] [Bb Eb].
    destruct (node_split o s Wo W e Ve C) as (N0 & I1 & I2 & V1 & V2 & G1 & G2 & L1 & L2).
    assert (H : forall c, (0 <= c <= 1)%Q -> (0 <= rnd (half * c) <= half)%Q /\ (Qabs (rnd (half * c) - half * c) <= eps)%Q).
    { intros c Bc. split; [split|].
      - apply Qle_trans with (rnd 0); [rewrite R0; apply Qle_refl|]. apply Rd. unfold half. lra.
      - apply Qle_trans with (rnd half); [|rewrite Rh; apply Qle_refl]. apply Rd. unfold half. lra.
      - apply Rd. unfold half. lra. }
    destruct (H a Ba) as [Ha1 Ha2]. destruct (H b Bb) as [Hb1 Hb2]. unfold mean. fold half.
    set (ra := rnd (half * a)) in *. set (rb := rnd (half * b)) in *.
    assert (Sm : (0 <= ra + rb <= 1)%Q) by (unfold half in *; lra).
    pose proof (rd_err rnd Rd (ra + rb) Sm) as Es. fold eps in Es.
    split.
    + split; [apply Qle_trans with (rnd 0); [rewrite R0; apply Qle_refl|]|apply Qle_trans with (rnd 1); [|rewrite R1; apply Qle_refl]];
        apply Rd; lra.
    + rewrite (dens_step o D s Wo W K vs e rho Ve C ND (Vs _ I1)).
      set (da := dens vs (dv D (thenof (mem s) e)) rho) in *. set (db := dens vs (dv D (elseof (mem s) e)) rho) in *.
      assert (Q3 : forall n, (n < rank o e)%nat -> (inject_Z (3 * Z.of_nat n) * eps <= inject_Z (3 * Z.of_nat (rank o e)) * eps - 3 * eps)%Q).
      { intros n Ln.
        assert (A : (inject_Z (3 * Z.of_nat n) <= inject_Z (3 * Z.of_nat (rank o e)) - 3)%Q).
        { unfold Qminus. change (- (3))%Q with (inject_Z (-3)). rewrite <- inject_Z_plus, <- Zle_Qle. lia. }
        assert (B : (inject_Z (3 * Z.of_nat n) * eps <= (inject_Z (3 * Z.of_nat (rank o e)) - 3) * eps)%Q) by (apply Qmult_le_compat_r; [exact A|lra]).
        lra. }
      pose proof (Q3 _ L1) as Q1. pose proof (Q3 _ L2) as Q2.
      apply Qabs_Qle_condition in Ea, Eb, Ha2, Hb2, Es. apply Qabs_Qle_condition. unfold half in *. lra.
  - eapply rank_depth; eauto.
  - intros k q [].
  - exists q, h. split; auto. eapply Qle_trans; [exact Q1|].
    assert (A : (inject_Z (3 * Z.of_nat (rank o f)) <= inject_Z (3 * Z.of_nat (length (ord o))))%Q).
    { rewrite <- Zle_Qle. pose proof (rank_le o s f Vf). lia. }
    setoid_replace (inject_Z (3 * Z.of_nat (length (ord o))) / p2 54)%Q with (inject_Z (3 * Z.of_nat (length (ord o))) * eps)%Q
      by (unfold eps, Qdiv; ring).
    apply Qmult_le_compat_r; [exact A|lra].
Qed.
End Round.
