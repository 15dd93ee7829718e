(** * Creating variables. *)
From Coq Require Import Permutation.
From Verif Require Import Base BFModel MgrModel StoreInv Own EngInv ApplyProof BinopProof ReduceProof EngineProof
  OpProof MultiProof QProof.

Lemma icr_sat s e b : cr (mem s (eptr e)) = MAXREF -> mem (icr s e) b = mem s b.
Proof.
  intros H. unfold icr; simpl. unfold upd. destruct (N.eqb_spec b (eptr e)) as [->|]; auto.
  unfold set_cr. rewrite H, rc_icr_max. destruct (mem s (eptr e)) as [u v w]. simpl in *. now subst w.
Qed.
Lemma dcr_sat s e b : cr (mem s (eptr e)) = MAXREF -> mem (dcr s e) b = mem s b.
Proof.
  intros H. unfold dcr; simpl. unfold upd. destruct (N.eqb_spec b (eptr e)) as [->|]; auto.
  unfold set_cr. rewrite H, rc_dcr_max. destruct (mem s (eptr e)) as [u v w]. simpl in *. now subst w.
Qed.

(** Variable ids are [1..n]. *)
Definition idsok (o : order) : Prop :=
  forall i, In i (ord o) <-> 1 <= i <= N.of_nat (length (ord o)).

Section Insert.
Variable o : order.
Variable index : N.
Hypothesis Wo : wfo o.
Hypothesis Ids : idsok o.
Let n := N.of_nat (length (ord o)).
Hypothesis Hi : index <= n.
Hypothesis Hn : n + 1 < CONST_INDEX.
Let id := n + 1.
Let o' := order_insert o id index.

Lemma ins_ord : ord o' = firstn (N.to_nat index) (ord o) ++ id :: skipn (N.to_nat index) (ord o).
Proof. reflexivity. Qed.

Lemma ins_perm : Permutation (ord o') (id :: ord o).
Proof.
  rewrite ins_ord. rewrite <- (firstn_skipn (N.to_nat index) (ord o)) at 3. symmetry. apply Permutation_middle.
Qed.

Lemma ins_in i : In i (ord o') <-> i = id \/ In i (ord o).
Proof.
  split.
  - intros H. apply (Permutation_in i ins_perm) in H. destruct H; auto.
  - intros H. apply (Permutation_in i (Permutation_sym ins_perm)). destruct H; [left|right]; auto.
Qed.

Lemma ins_len : N.of_nat (length (ord o')) = n + 1.
Proof. rewrite (Permutation_length ins_perm). simpl length. unfold n. lia. Qed.

Lemma id_new : ~ In id (ord o).
Proof. intros H. apply Ids in H. unfold id, n in *. lia. Qed.

Lemma ins_idx_old i : In i (ord o) -> idx o' i = if index <=? idx o i then idx o i + 1 else idx o i.
Proof.
  intros Ii. destruct (wfo_in o i Wo Ii) as [N0 _]. apply Ids in Ii. unfold o', order_insert, id, n in *. simpl.
  destruct (N.eqb_spec i (N.of_nat (length (ord o)) + 1)); [lia|].
  destruct (N.eqb_spec i 0); [congruence|]. destruct (N.leb_spec i (N.of_nat (length (ord o)))); [|lia].
  simpl. reflexivity.
Qed.

Lemma ins_idx_id : idx o' id = index.
Proof. unfold o', order_insert. simpl. now rewrite N.eqb_refl. Qed.

Lemma ins_idx_0 : idx o' 0 = CONST_INDEX.
Proof.
  unfold o', order_insert. cbn [idx]. destruct (N.eqb_spec 0 id); [unfold id in *; lia|]. simpl. apply Wo.
Qed.

Lemma wfo_insert : wfo o'.
Proof.
  constructor.
  - eapply Permutation_NoDup; [symmetry; exact ins_perm|]. constructor; [apply id_new|apply Wo].
  - intros k i Hk. rewrite ins_ord in Hk.
    assert (Lf : length (firstn (N.to_nat index) (ord o)) = N.to_nat index).
    { rewrite firstn_length. unfold n in Hi. lia. }
    assert (Old : forall k i, nth_error (ord o) k = Some i -> In i (ord o) /\ i <> 0 /\ idx o i = N.of_nat k).
    { intros k0 i0 H0. split; [eapply nth_error_In; eauto|]. apply Wo; auto. }
    destruct (Nat.lt_total k (N.to_nat index)) as [Lt|[E|Gt]].
    + rewrite nth_error_app1 in Hk by lia.
      assert (Hk' : nth_error (ord o) k = Some i).
      { rewrite <- (firstn_skipn (N.to_nat index) (ord o)). rewrite nth_error_app1 by lia. exact Hk. }
      destruct (Old _ _ Hk') as (Ii & N0 & Ei). split; auto. rewrite ins_idx_old by auto. rewrite Ei.
      destruct (N.leb_spec index (N.of_nat k)); lia.
    + rewrite nth_error_app2 in Hk by lia. rewrite Lf, E, Nat.sub_diag in Hk. simpl in Hk. injection Hk as <-.
      split; [unfold id; lia|]. rewrite ins_idx_id. lia.
    + rewrite nth_error_app2 in Hk by lia. rewrite Lf in Hk.
      destruct (k - N.to_nat index)%nat as [|d] eqn:Ed; [lia|]. simpl in Hk.
      assert (Hk' : nth_error (ord o) (k - 1) = Some i).
      { rewrite <- (firstn_skipn (N.to_nat index) (ord o)). rewrite nth_error_app2 by lia.
        rewrite Lf. replace (k - 1 - N.to_nat index)%nat with d by lia. exact Hk. }
      destruct (Old _ _ Hk') as (Ii & N0 & Ei). split; auto. rewrite ins_idx_old by auto. rewrite Ei.
      destruct (N.leb_spec index (N.of_nat (k - 1))); lia.
  - rewrite ins_len. lia.
  - apply ins_idx_0.
Qed.

Lemma idsok_insert : idsok o'.
Proof.
  intros i. rewrite ins_in, ins_len. rewrite (Ids i). unfold id, n. split; [intros [->|?]; lia|].
  intros H. destruct (N.eq_dec i (N.of_nat (length (ord o)) + 1)); [left; auto|right; lia].
Qed.

Lemma ins_mono i j : In i (ord o) -> In j (ord o) \/ j = 0 -> idx o i < idx o j -> idx o' i < idx o' j.
Proof.
  intros Ii Hj H. rewrite ins_idx_old by auto.
  destruct Hj as [Ij| ->].
  - rewrite ins_idx_old by auto. destruct (N.leb_spec index (idx o i)), (N.leb_spec index (idx o j)); lia.
  - rewrite ins_idx_0. pose proof (wfo_in o i Wo Ii) as [_ Hl]. fold n in Hl.
    destruct (index <=? idx o i); unfold CONST_INDEX in *; lia.
Qed.

(** Relative order of existing variables is unchanged. *)
Lemma ins_iff i j : In i (ord o) -> In j (ord o) -> (idx o' i < idx o' j <-> idx o i < idx o j).
Proof.
  intros Ii Ij. rewrite !ins_idx_old by auto.
  destruct (N.leb_spec index (idx o i)), (N.leb_spec index (idx o j)); lia.
Qed.

Lemma SWF_insert s : SWF o s -> SWF o' s.
Proof.
  intros W. pose proof W as [B1 B2 B3 B4 B5 B6 B7]. constructor; auto.
  intros i a N0 Ia. pose proof (B1 i a N0 Ia) as [C1 C2 C3 C4 C5 C6 C7].
  assert (Ve : forall e, vedge (nodeR s) e -> In (eid e) (ord o) \/ eid e = 0).
  { intros e [[E _]|[Ne R]]; auto. left. apply (B1 _ _ Ne R). }
  constructor; auto.
  - apply ins_in. auto.
  - unfold gt_idx in *. apply ins_mono; auto.
  - unfold gt_idx in *. apply ins_mono; auto.
Qed.

Lemma QS_insert D en x : QS o D en x -> QS o' D en x.
Proof.
  intros (own & L & [A W K Q DN NI] & R). exists own, L. split; auto. constructor; auto. now apply SWF_insert.
Qed.
End Insert.

Lemma newvar_store o D en x index a s1 :
  wfo o -> idsok o -> let n := N.of_nat (length (ord o)) in
  index <= n -> n + 1 < CONST_INDEX -> QS o D en x -> alloc (st en) (n + 1) = (a, s1) ->
  let s2 := put s1 a (C one zero MAXREF) in
  let s3 := set_nn (set_ut s2 (upd (ut s2) (n + 1) (a :: ut s2 (n + 1)))) (nn s2 + 1) in
  let o' := order_insert o (n + 1) index in
  exists D', wfo o' /\ idsok o' /\ QS o' D' (set_st en s3) x /\ sext (st en) D s3 D' /\
    In a (ut s3 (n + 1)) /\ mem s3 a = C one zero MAXREF /\
    (forall rho, D' a rho = rho (n + 1)) /\ (forall b, b <> a -> mem s3 b = mem (st en) b).
Proof.
  intros Wo Ids n Hi Hn Q Al s2 s3 o'.
  pose proof (wfo_insert o index Wo Ids Hi Hn) as Wo'.
  pose proof (idsok_insert o index Ids Hi Hn) as Ids'.
  pose proof (QS_insert o index Wo Ids Hi Hn D en x Q) as Q'. fold n o' in Wo', Ids', Q'.
  pose proof (QS_swf _ _ _ _ Q') as W.
  assert (Ni : n + 1 <> 0) by lia.
  assert (Ui : ut (st en) (n + 1) = []).
  { destruct (ut (st en) (n + 1)) as [|b l] eqn:E; auto. exfalso.
    assert (NI : ~ In (n + 1) (ord o)) by (intros H; apply Ids in H; unfold n in *; lia).
    apply NI. apply (swf_node o (st en) (QS_swf _ _ _ _ Q) (n + 1) b); auto. rewrite E. now left. }
  pose proof Q' as (own & L & I & R).
  destruct (alloc_spec own (st en) _ _ (n + 1) a s1 (ei_acc _ _ _ _ I) Al) as (Fa & Ra & Rx & A1 & Em & Eu & En).
  assert (C1 : cr (mem (st en) ONE) = MAXREF) by apply W.
  assert (Mb : forall b, b <> a -> mem s3 b = mem (st en) b).
  { intros b Nb. unfold s3, s2; simpl. rewrite upd_other, Em, upd_other; auto. }
  destruct (QS_add o' D en x (n + 1) one zero a s1 s3 MAXREF) as (Q2 & X & La & Na & Xa); auto.
  - right. split; auto. split; [apply ins_in; auto|].
    assert (gt_idx o' (n + 1) one).
    { assert (E1 : idx o' (n + 1) = index) by (apply ins_idx_id).
      assert (E0 : idx o' 0 = CONST_INDEX) by (apply Wo').
      unfold gt_idx. change (eid one) with 0. rewrite E1, E0. lia. }
    split; auto.
  - apply vedge_one.
  - apply vedge_zero.
  - rewrite Ui. reflexivity.
  - intros j. unfold s3, s2; simpl. unfold upd. rewrite Eu. now destruct (j =? n + 1).
  - unfold s3, s2; simpl. now rewrite upd_same.
  - lia.
  - intros b Nb. rewrite Mb by auto. rewrite icr_sat; [rewrite icr_sat; auto|].
    change (eptr zero) with ONE. rewrite cr_icr. change (eptr one) with ONE. rewrite N.eqb_refl, C1. reflexivity.
  - eexists. split; [exact Wo'|]. split; [exact Ids'|]. split; [exact Q2|]. split; [exact X|].
    split; [unfold s3, s2; simpl; rewrite upd_same; now left|].
    split; [unfold s3, s2; simpl; now rewrite upd_same|]. split; auto.
    intros rho. rewrite upd_same. rewrite (dv_one D (st en)) by apply I. rewrite (dv_zero D (st en)) by apply I.
    now destruct (rho (n + 1)).
Qed.
