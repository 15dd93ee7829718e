(** * Proofs about the read-only graph algorithms. *)
From Coq Require Import Permutation Sorted QArith.
From Verif Require Import Base BFModel ITEModel MgrModel ApiModel StoreInv Own EngInv ApplyProof BinopProof ReduceProof
  EngineProof OpProof MultiProof QProof GCProof VarProof MInv ApiProof ApiOps ApiStruct GraphModel.
Open Scope N_scope.

(** Edges that are passed when walking down from [f]. *)
Inductive sub (m : memory) (f : edge) : edge -> Prop :=
| sub_top : sub m f f
| sub_then x : sub m f x -> isconst x = false -> sub m f (thenof m x)
| sub_else x : sub m f x -> isconst x = false -> sub m f (elseof m x).

Lemma sub_trans m f x y : sub m f x -> sub m x y -> sub m f y.
Proof. intros S. induction 1; auto; constructor; auto. Qed.
Lemma sub_inv m f x : sub m f x -> x = f \/ (isconst f = false /\ (sub m (thenof m f) x \/ sub m (elseof m f) x)).
Proof.
  induction 1 as [|x S [-> |(C & [A|A])] Cx|x S [-> |(C & [A|A])] Cx]; auto; right; split; auto.
  - left. constructor.
  - left. now constructor.
  - right. now constructor.
  - right. constructor.
  - left. now constructor.
  - right. now constructor.
Qed.
Lemma thenof_enot m f : thenof m (enot f) = enot (thenof m f).
Proof. unfold thenof, enot, ephase. simpl. f_equal. now destruct (eneg f), (eneg (ct (m (eptr f)))). Qed.
Lemma elseof_enot m f : elseof m (enot f) = enot (elseof m f).
Proof. unfold elseof, enot, ephase. simpl. f_equal. now destruct (eneg f), (eneg (ce (m (eptr f)))). Qed.
Lemma isconst_enot f : isconst (enot f) = isconst f.
Proof. reflexivity. Qed.
Lemma sub_enot m f x : sub m f x -> sub m (enot f) (enot x).
Proof.
  induction 1 as [|x S IH Cx|x S IH Cx]; [constructor| |].
  - rewrite <- thenof_enot. now constructor.
  - rewrite <- elseof_enot. now constructor.
Qed.

Section Graph.
Variables (o : order) (D : den) (s : store).
Hypothesis Wo : wfo o.
Hypothesis W : SWF o s.
Hypothesis K : Dok D s.
Let m := mem s.
Notation V := (vedge (nodeR s)).

Definition rank (e : edge) : nat := if isconst e then 0%nat else (length (ord o) - N.to_nat (idx o (eid e)))%nat.

Lemma node_split e : V e -> isconst e = false ->
  eid e <> 0 /\ In (eid e) (ord o) /\ In (eptr e) (ut s (eid e)) /\ V (thenof m e) /\ V (elseof m e) /\
  idx o (eid e) < idx o (eid (thenof m e)) /\ idx o (eid e) < idx o (eid (elseof m e)) /\
  (rank (thenof m e) < rank e)%nat /\ (rank (elseof m e) < rank e)%nat.
Proof.
  intros Ve C. assert (N0 : eid e <> 0) by (unfold isconst in C; now apply N.eqb_neq).
  destruct (node_facts o s e W Ve N0) as (I1 & I2 & V1 & V2 & G1 & G2). unfold gt_idx in *.
  assert (R : forall x, V x -> idx o (eid e) < idx o (eid x) -> (rank x < rank e)%nat).
  { intros x Vx G. unfold rank. rewrite C. destruct (wfo_in o _ Wo I1) as [_ L1].
    destruct (isconst x) eqn:Cx; [lia|]. 
    destruct (vedge_idx o s x Wo W Vx) as [[E _]|(_ & _ & L2)]; [unfold isconst in Cx; rewrite E in Cx; discriminate|]. lia. }
  do 7 (split; [auto|]). split; apply R; auto.
Qed.
Lemma rank_le e : V e -> (rank e <= length (ord o))%nat.
Proof. intros. unfold rank. destruct (isconst e); lia. Qed.
Lemma rank_depth e : V e -> (rank e < depth o)%nat.
Proof. intros Ve. pose proof (rank_le e Ve). unfold depth. lia. Qed.

Lemma edge_induct (P : edge -> Prop) :
  (forall e, V e -> isconst e = true -> P e) ->
  (forall e, V e -> isconst e = false -> P (thenof m e) -> P (elseof m e) -> P e) ->
  forall e, V e -> P e.
Proof.
  intros Hc Hn. assert (G : forall n e, (rank e < n)%nat -> V e -> P e).
  { induction n as [|n IH]; intros e L Ve; [lia|]. destruct (isconst e) eqn:C; auto.
    destruct (node_split e Ve C) as (_ & _ & _ & V1 & V2 & _ & _ & R1 & R2). apply Hn; auto; apply IH; auto; lia. }
  intros e. apply (G (S (rank e))). lia.
Qed.

Lemma sub_V f x : V f -> sub m f x -> V x.
Proof.
  intros Vf. induction 1 as [|x S IH C|x S IH C]; auto; apply (node_split x IH C).
Qed.
Lemma sub_idx f x : V f -> sub m f x -> x = f \/ idx o (eid f) < idx o (eid x).
Proof.
  intros Vf. induction 1 as [|x S IH C|x S IH C]; auto; right;
    destruct (node_split x (sub_V _ _ Vf S) C) as (_ & _ & _ & _ & _ & L1 & L2 & _); destruct IH as [-> |]; lia.
Qed.
Lemma sub_rank f x : V f -> sub m f x -> x = f \/ (rank x < rank f)%nat.
Proof.
  intros Vf. induction 1 as [|x S IH C|x S IH C]; auto; right;
    destruct (node_split x (sub_V _ _ Vf S) C) as (_ & _ & _ & _ & _ & _ & _ & L1 & L2); destruct IH as [-> |]; lia.
Qed.
Lemma same_ptr f g : V f -> V g -> eptr f = eptr g -> eid f = eid g.
Proof.
  intros Vf Vg E.
  assert (H : g = f \/ g = enot f).
  { destruct (bool_dec (eneg f) (eneg g)) as [En|En].
    - left. symmetry. apply (eeq_valid o s); auto. apply eeq_true. auto.
    - right. symmetry. apply (eeq_valid o s); [auto|now apply vedge_enot|auto|]. apply eeq_true. split; auto.
      simpl. destruct (eneg f), (eneg g); auto; congruence. }
  destruct H as [-> | ->]; auto.
Qed.
Lemma ptr_cases f g : V f -> V g -> eptr f = eptr g -> g = f \/ g = enot f.
Proof.
  intros Vf Vg E. pose proof (same_ptr f g Vf Vg E) as Ei. destruct f as [i p n], g as [j q k]. simpl in *. subst.
  unfold enot; simpl. destruct n, k; auto.
Qed.
(** The two children of a node are different functions. *)
Lemma children_differ e : V e -> isconst e = false -> thenof m e <> elseof m e.
Proof.
  intros Ve C E. destruct (node_split e Ve C) as (N0 & _ & I2 & _).
  pose proof (no_red _ _ _ _ (swf_node o s W _ _ N0 I2)) as H.
  unfold thenof, elseof in E. assert (ct (m (eptr e)) = ce (m (eptr e))).
  { pose proof (f_equal eid E). pose proof (f_equal eptr E). pose proof (f_equal eneg E). simpl in *.
    apply edge_ext; auto. destruct (eneg e), (eneg (ct (m (eptr e)))), (eneg (ce (m (eptr e)))); simpl in *; auto. }
  unfold m in *. rewrite H0, eeq_refl in H. discriminate.
Qed.
Lemma children_not_both e c : V e -> isconst e = false -> thenof m e = c -> elseof m e = c -> False.
Proof. intros Ve C E1 E2. apply (children_differ e Ve C). congruence. Qed.

Lemma dv_split e rho : V e -> isconst e = false ->
  dv D e rho = if rho (eid e) then dv D (thenof m e) rho else dv D (elseof m e) rho.
Proof. intros Ve C. destruct (node_split e Ve C) as (N0 & _ & I2 & _). now apply dv_node. Qed.
Lemma dv_T e rho : V e -> isconst e = false -> dv D (thenof m e) rho = dv D e (flip rho (eid e) true).
Proof. intros Ve C. destruct (node_split e Ve C) as (N0 & _). now apply (dv_then o). Qed.
Lemma dv_E e rho : V e -> isconst e = false -> dv D (elseof m e) rho = dv D e (flip rho (eid e) false).
Proof. intros Ve C. destruct (node_split e Ve C) as (N0 & _). now apply (dv_else o). Qed.
Lemma dv_ext_e e r1 r2 : V e -> (forall i, r1 i = r2 i) -> dv D e r1 = dv D e r2.
Proof. intros Ve E. apply (dv_bext o D s e); auto. Qed.
Lemma canon e1 e2 : V e1 -> V e2 -> (forall rho, dv D e1 rho = dv D e2 rho) -> e1 = e2.
Proof. intros. apply (canon_dv o D s); auto. Qed.
Lemma is_one_fun e : V e -> (forall rho, dv D e rho = true) -> e = one.
Proof. intros Ve H. apply canon; auto; [apply vedge_one|]. intros rho. rewrite H. symmetry. eapply dv_one; eauto. Qed.
Lemma is_zero_fun e : V e -> (forall rho, dv D e rho = false) -> e = zero.
Proof. intros Ve H. apply canon; auto; [apply vedge_zero|]. intros rho. rewrite H. symmetry. eapply dv_zero; eauto. Qed.
Lemma iszero_iff e : V e -> (iszero e = true <-> e = zero).
Proof. intros Ve. split; [now apply (iszero_true o s)|intros ->; reflexivity]. Qed.
Lemma isone_iff e : V e -> (isone e = true <-> e = one).
Proof. intros Ve. split; [now apply (isone_true o s)|intros ->; reflexivity]. Qed.
Lemma flip_flip rho i a b j : flip (flip rho i a) i b j = flip rho i b j.
Proof. unfold flip. now destruct (j =? i). Qed.
Lemma flip_comm rho i j a b k : i <> j -> flip (flip rho i a) j b k = flip (flip rho j b) i a k.
Proof. intros Ne. unfold flip. destruct (N.eqb_spec k j), (N.eqb_spec k i); subst; congruence. Qed.

(** ** Dependence on a variable *)

Definition dep (e : edge) (i : N) : Prop := exists rho, dv D e (flip rho i true) <> dv D e (flip rho i false).

Lemma dep_top e : V e -> isconst e = false -> dep e (eid e).
Proof.
  intros Ve C. destruct (node_split e Ve C) as (N0 & I1 & I2 & V1 & V2 & _).
  destruct (differ o D s (thenof m e) (elseof m e) Wo W K V1 V2 (children_differ e Ve C)) as [rho H].
  exists rho. now rewrite <- dv_T, <- dv_E.
Qed.
Lemma dep_child e i : V e -> isconst e = false -> i <> eid e -> dep (thenof m e) i \/ dep (elseof m e) i -> dep e i.
Proof.
  intros Ve C Ne [[rho H]|[rho H]]; [exists (flip rho (eid e) true)|exists (flip rho (eid e) false)].
  - rewrite !dv_T in H by auto. intros E. apply H.
    rewrite (dv_ext_e e (flip (flip rho i true) (eid e) true) (flip (flip rho (eid e) true) i true)) by (auto; intros; now apply flip_comm).
    rewrite E. apply dv_ext_e; auto. intros. symmetry. now apply flip_comm.
  - rewrite !dv_E in H by auto. intros E. apply H.
    rewrite (dv_ext_e e (flip (flip rho i true) (eid e) false) (flip (flip rho (eid e) false) i true)) by (auto; intros; now apply flip_comm).
    rewrite E. apply dv_ext_e; auto. intros. symmetry. now apply flip_comm.
Qed.
Lemma dep_sub f x i : V f -> sub m f x -> dep x i -> idx o (eid x) <= idx o i -> In i (ord o) -> dep f i.
Proof.
  intros Vf S. induction S as [|x S IH C|x S IH C]; auto; intros Hd L Ii;
    pose proof (sub_V _ _ Vf S) as Vx; destruct (node_split x Vx C) as (N0 & I1 & _ & _ & _ & L1 & L2 & _);
    (apply IH; [apply dep_child; auto; intros ->; lia|lia|auto]).
Qed.
Lemma no_sub_indep f i : V f -> (forall x, sub m f x -> isconst x = false -> eid x <> i) ->
  forall rho b, dv D f (flip rho i b) = dv D f rho.
Proof.
  intros Vf. pattern f. revert f Vf. apply edge_induct.
  - intros e Ve C _ rho b. destruct (const_cases _ e Ve C) as [-> | ->]; rewrite ?(dv_one D s), ?(dv_zero D s); auto.
  - intros e Ve C IH1 IH2 H rho b. rewrite (dv_split e (flip rho i b)), (dv_split e rho) by auto.
    assert (Ne : eid e <> i) by (apply H; auto; constructor).
    replace (flip rho i b (eid e)) with (rho (eid e)) by (unfold flip; destruct (N.eqb_spec (eid e) i); congruence).
    destruct (rho (eid e)).
    + apply IH1. intros x Sx. apply H. eapply sub_trans; [|eauto]. constructor; [constructor|auto].
    + apply IH2. intros x Sx. apply H. eapply sub_trans; [|eauto]. apply sub_else; [constructor|auto].
Qed.
(** The variables of the reachable nodes are the variables the function depends on. *)
Lemma dep_iff f i : V f -> In i (ord o) -> (dep f i <-> exists x, sub m f x /\ isconst x = false /\ eid x = i).
Proof.
  intros Vf Ii. split.
  - intros [rho H].
    assert (Dec : forall f, V f -> (exists x, sub m f x /\ isconst x = false /\ eid x = i) \/ (forall x, sub m f x -> isconst x = false -> eid x <> i)).
    { clear f Vf rho H. intros f Vf. pattern f. revert f Vf. apply edge_induct.
      - intros e Ve C. right. intros x Sx Cx. destruct (sub_inv _ _ _ Sx) as [-> |[C' _]]; congruence.
      - intros e Ve C [(x & Sx & Cx & Ex)|H1].
        { intros _. left. exists x. split; auto. eapply sub_trans; [|eauto]. constructor; [constructor|auto]. }
        intros [(x & Sx & Cx & Ex)|H2].
        { left. exists x. split; auto. eapply sub_trans; [|eauto]. apply sub_else; [constructor|auto]. }
        destruct (N.eq_dec (eid e) i) as [E|Ne]; [left; exists e; split; [constructor|auto]|].
        right. intros x Sx Cx. destruct (sub_inv _ _ _ Sx) as [-> |[_ [A|A]]]; auto. }
    destruct (Dec f Vf) as [A|A]; auto. exfalso. apply H. now rewrite !(no_sub_indep f i Vf A).
  - intros (x & Sx & Cx & <-). apply (dep_sub f x); auto; [|lia]. apply dep_top; auto. eapply sub_V; eauto.
Qed.

(** ** Type *)

Ltac dif := match goal with |- context [if ?b then _ else _] => destruct b end.
Ltac tdis := let A := fresh in intros A; exfalso; revert A; clear; vm_compute; discriminate.

Lemma type_zero e : V e -> (type_aux m e = TYPE_ZERO <-> forall rho, dv D e rho = false).
Proof.
  intros Ve. unfold type_aux. split.
  - destruct (isconst e && iszero e) eqn:E.
    + intros _ rho. apply andb_true_iff in E as [_ E]. apply iszero_iff in E; auto. subst. eapply dv_zero; eauto.
    + destruct (isconst e && isone e); [tdis|]. dif; [tdis|]. dif; tdis.
  - intros H. apply is_zero_fun in H; auto. subst. reflexivity.
Qed.
Lemma type_one e : V e -> (type_aux m e = TYPE_ONE <-> forall rho, dv D e rho = true).
Proof.
  intros Ve. unfold type_aux. split.
  - destruct (isconst e && iszero e) eqn:E; [tdis|].
    destruct (isconst e && isone e) eqn:E1.
    + intros _ rho. apply andb_true_iff in E1 as [_ E1]. apply isone_iff in E1; auto. subst. eapply dv_one; eauto.
    + dif; [tdis|]. dif; tdis.
  - intros H. apply is_one_fun in H; auto. subst. reflexivity.
Qed.
Lemma literal_edge e i (b : bool) : V e -> (forall rho, dv D e rho = Bool.eqb (rho i) b) ->
  isconst e = false /\ eid e = i /\ thenof m e = (if b then one else zero) /\ elseof m e = (if b then zero else one).
Proof.
  intros Ve H.
  assert (C : isconst e = false).
  { destruct (isconst e) eqn:C; auto. exfalso. pose proof (H (fun _ => true)) as A. pose proof (H (fun _ => false)) as B.
    destruct (const_cases _ e Ve C) as [-> | ->]; rewrite ?(dv_one D s), ?(dv_zero D s) in A, B by auto; destruct b; discriminate. }
  destruct (node_split e Ve C) as (N0 & I1 & I2 & V1 & V2 & _).
  assert (Ei : eid e = i).
  { destruct (dep_top e Ve C) as [rho Hr]. rewrite !H in Hr. destruct (N.eq_dec (eid e) i); auto. exfalso. apply Hr.
    unfold flip. destruct (N.eqb_spec i (eid e)); congruence. }
  split; auto. split; auto.
  assert (T : forall rho, dv D (thenof m e) rho = b) by (intros rho; rewrite dv_T, H by auto; rewrite <- Ei, flip_same; now destruct b).
  assert (F : forall rho, dv D (elseof m e) rho = negb b) by (intros rho; rewrite dv_E, H by auto; rewrite <- Ei, flip_same; now destruct b).
  destruct b; split; (apply is_one_fun + apply is_zero_fun); auto.
Qed.
Lemma type_lit e (b : bool) : V e ->
  (type_aux m e = (if b then TYPE_POSVAR else TYPE_NEGVAR) <-> exists i, forall rho, dv D e rho = Bool.eqb (rho i) b).
Proof.
  intros Ve. split.
  - unfold type_aux. destruct (isconst e) eqn:C.
    { destruct (const_cases _ e Ve C) as [-> | ->]; cbn; destruct b; tdis. }
    cbn [andb]. destruct (node_split e Ve C) as (N0 & I1 & I2 & V1 & V2 & _).
    destruct (isone (thenof m e) && iszero (elseof m e)) eqn:E1.
    + apply andb_true_iff in E1 as [A B]. apply isone_iff in A; auto. apply iszero_iff in B; auto.
      intros H. exists (eid e). intros rho. rewrite dv_split, A, B, (dv_one D s), (dv_zero D s) by auto.
      destruct b; [now destruct (rho (eid e))|exfalso; revert H; clear; vm_compute; discriminate].
    + destruct (iszero (thenof m e) && isone (elseof m e)) eqn:E2.
      * apply andb_true_iff in E2 as [A B]. apply iszero_iff in A; auto. apply isone_iff in B; auto.
        intros H. exists (eid e). intros rho. rewrite dv_split, A, B, (dv_one D s), (dv_zero D s) by auto.
        destruct b; [exfalso; revert H; clear; vm_compute; discriminate|now destruct (rho (eid e))].
      * destruct b; tdis.
  - intros [i H]. destruct (literal_edge e i b Ve H) as (C & _ & T & F). unfold type_aux. rewrite C, T, F.
    destruct b; reflexivity.
Qed.
Lemma type_range e : In (type_aux m e) [TYPE_NONTERMINAL; TYPE_ZERO; TYPE_ONE; TYPE_POSVAR; TYPE_NEGVAR].
Proof.
  unfold type_aux. dif; [simpl; auto|]. dif; [simpl; auto|].
  dif; [simpl; auto 6|]. dif; simpl; auto 6.
Qed.

(** ** Cubes *)

Definition lits := list (N * bool).
Lemma lit_dec (p q : N * bool) : {p = q} + {p <> q}.
Proof. decide equality; [apply bool_dec|apply N.eq_dec]. Qed.
Definition cube (L : lits) (rho : N -> bool) : bool := forallb (fun p => Bool.eqb (rho (fst p)) (snd p)) L.

Lemma cube_filter i b L rho : (forall c, In (i, c) L -> c = b) ->
  cube (filter (fun p => negb (fst p =? i)) L) rho = cube L (flip rho i b).
Proof.
  induction L as [|[j c] L IH]; simpl; intros H; auto. specialize (IH (fun c' Hc => H c' (or_intror Hc))).
  destruct (N.eqb_spec j i) as [->|Ne]; simpl.
  - rewrite IH. rewrite flip_same. rewrite (H c) by now left. now destruct b.
  - rewrite IH. unfold flip at 2. destruct (N.eqb_spec j i); [congruence|auto].
Qed.
Lemma cube_out i L rho b : (forall c, ~ In (i, c) L) -> cube L (flip rho i b) = cube L rho.
Proof.
  induction L as [|[j c] L IH]; simpl; intros H; auto. f_equal; [|apply IH; intros c' Hc; apply (H c'); auto].
  unfold flip. destruct (N.eqb_spec j i) as [->|]; auto. exfalso. apply (H c). auto.
Qed.
Lemma cube_clash i b L rho : In (i, b) L -> cube L (flip rho i (negb b)) = false.
Proof.
  induction L as [|[j c] L IH]; simpl; [tauto|]. intros [[= -> ->]|H].
  - rewrite flip_same. now destruct b.
  - rewrite IH by auto. apply andb_false_r.
Qed.

Lemma iscube_spec fuel : forall e, V e -> (rank e < fuel)%nat -> e <> zero ->
  exists b, iscube_step fuel m e = Some (Ok b) /\
    (b = true <-> exists L, forall rho, dv D e rho = cube L rho).
Proof.
  induction fuel as [|fuel IH]; intros e Ve L Nz; [lia|]. simpl.
  destruct (isconst e) eqn:C.
  { destruct (const_cases _ e Ve C) as [-> | ->]; [|congruence].
    exists true. split; auto. split; auto. intros _. exists []. intros rho. eapply dv_one; eauto. }
  destruct (node_split e Ve C) as (N0 & I1 & I2 & V1 & V2 & G1 & G2 & R1 & R2).
  destruct (iszero (thenof m e)) eqn:Z1.
  { apply iszero_iff in Z1; auto. destruct (IH (elseof m e)) as (b & -> & Hb); auto; [lia| |].
    { intros E. apply (children_differ e Ve C). congruence. }
    exists b. split; auto. rewrite Hb. split.
    - intros [Ls H]. exists ((eid e, false) :: Ls). intros rho. rewrite dv_split, Z1, (dv_zero D s), H by auto. simpl.
      now destruct (rho (eid e)).
    - intros [Ls H]. exists (filter (fun p => negb (fst p =? eid e)) Ls). intros rho.
      rewrite (cube_filter (eid e) false), dv_E, H; auto. intros c Hc. destruct c; auto. exfalso.
      apply (children_not_both e zero Ve C); auto. apply is_zero_fun; auto. intros rho'. rewrite dv_E, H by auto.
      now apply (cube_clash (eid e) true). }
  destruct (iszero (elseof m e)) eqn:Z2.
  { apply iszero_iff in Z2; auto. destruct (IH (thenof m e)) as (b & -> & Hb); auto; [lia| |].
    { intros E. apply (children_differ e Ve C). congruence. }
    exists b. split; auto. rewrite Hb. split.
    - intros [Ls H]. exists ((eid e, true) :: Ls). intros rho. rewrite dv_split, Z2, (dv_zero D s), H by auto. simpl.
      now destruct (rho (eid e)).
    - intros [Ls H]. exists (filter (fun p => negb (fst p =? eid e)) Ls). intros rho.
      rewrite (cube_filter (eid e) true), dv_T, H; auto. intros c Hc. destruct c; auto. exfalso.
      apply (children_not_both e zero Ve C); auto. apply is_zero_fun; auto. intros rho'. rewrite dv_T, H by auto.
      now apply (cube_clash (eid e) false). }
  exists false. split; auto. split; [discriminate|]. intros [Ls H]. exfalso.
  assert (Dec : forall b, In (eid e, b) Ls \/ ~ In (eid e, b) Ls).
  { intros b. destruct (in_dec lit_dec (eid e, b) Ls); auto. }
  destruct (Dec true) as [A|A].
  { assert (elseof m e = zero) by (apply is_zero_fun; auto; intros rho; rewrite dv_E, H by auto; now apply (cube_clash (eid e) true)).
    rewrite H0 in Z2. discriminate. }
  destruct (Dec false) as [B|B].
  { assert (thenof m e = zero) by (apply is_zero_fun; auto; intros rho; rewrite dv_T, H by auto; now apply (cube_clash (eid e) false)).
    rewrite H0 in Z1. discriminate. }
  apply (children_differ e Ve C). apply canon; auto. intros rho. rewrite dv_T, dv_E, !H by auto.
  rewrite !cube_out; auto; intros []; auto.
Qed.
End Graph.
