(** Breadth-first reordering: the free lists of indices that are no variables stay as they are. *)
From Coq Require Import NArith ZArith List Bool Lia Permutation.
From Verif Require Import Base BFModel StoreInv MgrModel ApiModel ReorderModel ReorderProof ReorderStep ReorderInit PackModel BFReorderModel.
Import ListNotations.
Open Scope N_scope.

Lemma obind_ok {A B} (q : outcome A) (f : A -> outcome B) y : obind q f = Ok y -> exists a, q = Ok a /\ f a = Ok y.
Proof. destruct q; cbn [obind]; try discriminate. eauto. Qed.

Lemma fl_alloc s i v : v <> i -> fl (snd (alloc s i)) v = fl s v.
Proof. intros H. unfold alloc. destruct (fl s i); cbn [snd fl]; auto. unfold upd. destruct (N.eqb_spec v i); congruence. Qed.
Lemma fl_icr s e : fl (icr s e) = fl s. Proof. reflexivity. Qed.
Lemma fl_dcr s e : fl (dcr s e) = fl s. Proof. reflexivity. Qed.
Lemma fl_addref s e z : fl (addref s e z) = fl s. Proof. reflexivity. Qed.
Lemma fl_put s a c : fl (put s a c) = fl s. Proof. reflexivity. Qed.
Lemma fl_uniq s i t e v : v <> i -> fl (snd (uniq_add s i t e)) v = fl s v.
Proof.
  intros H. unfold uniq_add, tfindadd. destruct (tfind (mem s) (ut s i) t e); cbn [snd fl set_nn set_ut]; auto.
  pose proof (fl_alloc s i v H) as Q. destruct (alloc s i) as [a s1]. cbn [snd] in Q. cbn [snd fl set_nn set_ut put set_mem]. exact Q.
Qed.
Lemma fl_find s i t e v : v <> i -> fl (snd (find_or_add s i t e)) v = fl s v.
Proof.
  intros H. unfold find_or_add. destruct (eeq t e); auto. destruct (eneg t); [|now apply fl_uniq].
  pose proof (fl_uniq s i (enot t) (enot e) v H) as Q. destruct (uniq_add s i (enot t) (enot e)) as [[a b] c]. exact Q.
Qed.

Lemma fl_swap1 o k i j s w f s' w' v : v <> i -> v <> j -> swap1 o k i j (Ok (s, w)) f = Ok (s', w') -> fl s' v = fl s v /\ w' v = w v.
Proof.
  intros Vi Vj H. unfold swap1 in H. cbn [obind] in H.
  destruct (bcof o k (mem s) (ce (mem s f))) as [f01 f00]. destruct (bcof o k (mem s) (ct (mem s f))) as [f11 f10].
  destruct (_ || _ || _ || _); [discriminate|].
  assert (Q0 : fl (snd (if eeq f10 f00 then (f00, true, s) else find_or_add s i f10 f00)) v = fl s v).
  { destruct (eeq f10 f00); [reflexivity|now apply fl_find]. }
  destruct (if eeq f10 f00 then (f00, true, s) else find_or_add s i f10 f00) as [[n0 found0] s1]. cbn [snd] in Q0.
  assert (Q1 : fl (snd (if eeq f11 f01 then (f01, true, icr s1 n0) else find_or_add (icr s1 n0) i f11 f01)) v = fl s1 v).
  { destruct (eeq f11 f01); [reflexivity|]. rewrite fl_find; auto. }
  destruct (if eeq f11 f01 then (f01, true, icr s1 n0) else find_or_add (icr s1 n0) i f11 f01) as [[n1 found1] s3]. cbn [snd] in Q1.
  match type of H with (let '(n, s8) := alloc ?z j in _) = _ => set (s7 := z) in *; pose proof (fl_alloc s7 j v Vj) as Q2 end.
  assert (Q7 : fl s7 v = fl s3 v) by (unfold s7; destruct found0, found1; reflexivity).
  destruct (alloc s7 j) as [n s8]. cbn [snd] in Q2. injection H as <- <-. split.
  - cbn [fl addref put set_mem set_nn set_ut]. congruence.
  - unfold upd. destruct (N.eqb_spec v i); congruence.
Qed.
Lemma swap1_stuck o k i j l r : (forall p, r <> Ok p) -> fold_left (swap1 o k i j) l r = r.
Proof. intros H. induction l as [|a l IH]; cbn [fold_left]; auto. destruct r as [p| |]; [destruct (H p); auto| |]; exact IH. Qed.
Lemma bsweep1_stuck j l r : (forall p, r <> Ok p) -> fold_left (bsweep1 j) l r = r.
Proof. intros H. induction l as [|a l IH]; cbn [fold_left]; auto. destruct r as [p| |]; [destruct (H p); auto| |]; exact IH. Qed.
Lemma fl_swaps o k i j v : v <> i -> v <> j -> forall l s w s' w', fold_left (swap1 o k i j) l (Ok (s, w)) = Ok (s', w') -> fl s' v = fl s v /\ w' v = w v.
Proof.
  intros Vi Vj. induction l as [|f l IH]; intros s w s' w' H; cbn [fold_left] in H; [injection H as <- <-; auto|].
  destruct (swap1 o k i j (Ok (s, w)) f) as [[s1 w1]| |] eqn:E.
  - destruct (fl_swap1 _ _ _ _ _ _ _ _ _ v Vi Vj E) as [A B]. destruct (IH _ _ _ _ H) as [A' B']. split; congruence.
  - rewrite swap1_stuck in H by congruence. discriminate.
  - rewrite swap1_stuck in H by congruence. discriminate.
Qed.
Lemma fl_sweep1 j s a s' v : v <> j -> bsweep1 j (Ok s) a = Ok s' -> fl s' v = fl s v.
Proof.
  intros Vj H. unfold bsweep1 in H. cbn [obind] in H. destruct (cr (mem s a) =? 0); [|now injection H as <-].
  destruct (clean (mem s) a); [|discriminate]. injection H as <-. cbn [fl set_nn free_node set_fl set_ut dcr put set_mem].
  unfold upd. destruct (N.eqb_spec v j); congruence.
Qed.
Lemma fl_sweeps j v : v <> j -> forall l s s', fold_left (bsweep1 j) l (Ok s) = Ok s' -> fl s' v = fl s v.
Proof.
  intros Vj. induction l as [|f l IH]; intros s s' H; cbn [fold_left] in H; [now injection H as <-|].
  destruct (bsweep1 j (Ok s) f) as [s1| |] eqn:E.
  - rewrite (IH _ _ H). eapply fl_sweep1; eauto.
  - rewrite bsweep1_stuck in H by congruence. discriminate.
  - rewrite bsweep1_stuck in H by congruence. discriminate.
Qed.

Section Free.
Variable f0 : N -> list N.
Definition FK (b : bst) : Prop := forall v, ~ In v (ord (bo b)) -> fl (bs b) v = f0 v /\ bw b v = [].
Lemma FK_bswap Mx b k flag b' : FK b -> bswap Mx k flag b = Ok b' -> FK b'.
Proof.
  intros B H. unfold bswap in H.
  destruct (nth_error (ord (bo b)) (N.to_nat k)) as [i|] eqn:Hi; [|now injection H as <-].
  destruct (nth_error (ord (bo b)) (S (N.to_nat k))) as [j|] eqn:Hj; [|now injection H as <-].
  cbv zeta in H. apply obind_ok in H as ([s' w'] & Ex & H). injection H as <-. intros v. cbn [bo bs bw fst snd swap_order ord]. intros Nv.
  assert (Nv' : ~ In v (ord (bo b))).
  { intros Q. apply Nv. eapply Permutation_in; [symmetry; apply swap_list_perm|exact Q]. }
  assert (Vi : v <> i) by (intros ->; apply Nv'; eapply nth_error_In; eauto).
  assert (Vj : v <> j) by (intros ->; apply Nv'; eapply nth_error_In; eauto).
  destruct (B v Nv') as [B1 B2]. destruct (Mx i j); [|injection Ex as <- <-; auto].
  match type of Ex with (if ?z then _ else _) = _ => destruct z; [|discriminate] end.
  apply obind_ok in Ex as ([s2 w2] & E2 & Ex). apply obind_ok in Ex as (s3 & E3 & Ex). cbn [fst snd] in E3, Ex. injection Ex as <- <-.
  destruct (fl_swaps _ _ _ _ v Vi Vj _ _ _ _ _ E2) as [A1 A2]. rewrite (fl_sweeps j v Vj _ _ _ E3), A1, A2. auto.
Qed.
Lemma FK_straighten ids b b' : FK b -> straighten ids b = Ok b' -> FK b'.
Proof. intros B H. unfold straighten in H. apply obind_ok in H as (m & _ & H). injection H as <-. exact B. Qed.
Lemma FK_cof b i b' : FK b -> fix_cofactors b i = Ok b' -> FK b'.
Proof. intros B H. unfold fix_cofactors in H. cbv zeta in H. destruct (forallb _ _); [|discriminate]. injection H as <-. exact B. Qed.
Lemma FK_finish b b' : FK b -> finish_pass b = Ok b' -> FK b'.
Proof.
  intros B H. unfold finish_pass in H. apply obind_ok in H as (b1 & F & H).
  assert (B1 : FK b1).
  { revert B F. generalize (rev (ord (bo b))) as l. intros l. revert b. induction l as [|i l IH]; intros b B F; cbn [fold_left] in F; [now injection F as <-|].
    cbn [obind] in F. destruct (fix_cofactors b i) as [b2| |] eqn:E.
    - eapply IH; [eapply FK_cof; eauto|exact F].
    - exfalso. clear - F. induction l as [|q l IH]; cbn [fold_left obind] in F; [discriminate|auto].
    - exfalso. clear - F. induction l as [|q l IH]; cbn [fold_left obind] in F; [discriminate|auto]. }
  cbv zeta in H. match type of H with (if ?z then _ else _) = _ => destruct z; [|discriminate] end. injection H as <-.
  intros v. cbn [bo bs bw fl set_fl set_mem]. intros Nv. destruct (B1 v Nv) as [-> ->]. auto.
Qed.
End Free.
