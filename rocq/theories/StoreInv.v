(** * Store invariant and canonicity. *)
From Coq Require Import Permutation.
From Verif Require Import Base.

Arguments N.add : simpl never.
Arguments N.sub : simpl never.
Arguments N.mul : simpl never.
Arguments N.eqb : simpl never.
Arguments N.ltb : simpl never.
Arguments N.leb : simpl never.

(** ** Generic lemmas *)

Lemma upd_same {A} (f : N -> A) k v : upd f k v k = v.
Proof. unfold upd. now rewrite N.eqb_refl. Qed.

Lemma upd_other {A} (f : N -> A) k v x : x <> k -> upd f k v x = f x.
Proof. intros H. unfold upd. destruct (N.eqb_spec x k); congruence. Qed.

Lemma upd_spec {A} (f : N -> A) k v x : upd f k v x = if x =? k then v else f x.
Proof. reflexivity. Qed.

Lemma eeq_true a b : eeq a b = true <-> eptr a = eptr b /\ eneg a = eneg b.
Proof.
  unfold eeq. rewrite andb_true_iff, N.eqb_eq, Bool.eqb_true_iff. tauto.
Qed.

Lemma eeq_refl a : eeq a a = true.
Proof. apply eeq_true; auto. Qed.

Lemma edge_eta e : e = E (eid e) (eptr e) (eneg e).
Proof. now destruct e. Qed.

Lemma edge_ext a b : eid a = eid b -> eptr a = eptr b -> eneg a = eneg b -> a = b.
Proof. destruct a, b; simpl; congruence. Qed.

Lemma enot_enot e : enot (enot e) = e.
Proof. destruct e as [i p n]; unfold enot; simpl; now rewrite negb_involutive. Qed.

Lemma ephase_false e : ephase e false = e.
Proof. destruct e; unfold ephase; simpl; now rewrite xorb_false_r. Qed.

Lemma ephase_true e : ephase e true = enot e.
Proof. destruct e as [i p n]; unfold ephase, enot; simpl; now destruct n. Qed.

(** ** Orders *)

(** [idToIndex] and [indexToId] are mutually inverse on the created variables. *)
Record wfo (o : order) : Prop := {
  wfo_nodup : NoDup (ord o);
  wfo_idx : forall k i, nth_error (ord o) k = Some i -> i <> 0 /\ idx o i = N.of_nat k;
  wfo_len : N.of_nat (length (ord o)) < CONST_INDEX;
  wfo_const : idx o 0 = CONST_INDEX
}.

Lemma wfo_in o i : wfo o -> In i (ord o) -> i <> 0 /\ idx o i < N.of_nat (length (ord o)).
Proof.
  intros W H. apply In_nth_error in H as [k Hk].
  destruct (wfo_idx o W k i Hk) as [H1 H2]. split; auto.
  assert (k < length (ord o))%nat by (apply nth_error_Some; congruence). lia.
Qed.

Lemma wfo_nth o i : wfo o -> In i (ord o) -> nth_error (ord o) (N.to_nat (idx o i)) = Some i.
Proof.
  intros W H. apply In_nth_error in H as [k Hk].
  destruct (wfo_idx o W k i Hk) as [_ H2]. rewrite H2, Nat2N.id. exact Hk.
Qed.

Lemma wfo_inj o i j : wfo o -> In i (ord o) -> In j (ord o) -> idx o i = idx o j -> i = j.
Proof.
  intros W Hi Hj E. pose proof (wfo_nth o i W Hi). pose proof (wfo_nth o j W Hj).
  rewrite E in H. congruence.
Qed.

Lemma wfo_lt_const o i : wfo o -> In i (ord o) -> idx o i < CONST_INDEX.
Proof. intros W H. pose proof (wfo_in o i W H). pose proof (wfo_len o W). lia. Qed.

(** ** Valid edges and well-formed stores *)

(** An edge is valid with respect to a set [R] of (id, address) pairs if it is a constant or
    points to a member. *)
Definition vedge (R : N -> N -> Prop) (e : edge) : Prop :=
  (eid e = 0 /\ eptr e = ONE) \/ (eid e <> 0 /\ R (eid e) (eptr e)).

Definition nodeR (s : store) : N -> N -> Prop := fun i a => In a (ut s i).

Definition gt_idx (o : order) (i : N) (e : edge) : Prop := idx o i < idx o (eid e).

(** A node [a] of variable [i]: children are valid and strictly below, the then edge is
    not complemented and the children differ. *)
Record nodeok (o : order) (s : store) (i a : N) : Prop := {
  no_id : In i (ord o);
  no_t : vedge (nodeR s) (ct (mem s a));
  no_e : vedge (nodeR s) (ce (mem s a));
  no_ti : gt_idx o i (ct (mem s a));
  no_ei : gt_idx o i (ce (mem s a));
  no_pos : eneg (ct (mem s a)) = false;
  no_red : eeq (ct (mem s a)) (ce (mem s a)) = false
}.

Record SWF (o : order) (s : store) : Prop := {
  swf_node : forall i a, i <> 0 -> In a (ut s i) -> nodeok o s i a;
  swf_user : forall a, In a (ut s 0) ->
      vedge (nodeR s) (ct (mem s a)) /\ ce (mem s a) = one /\ eneg (ct (mem s a)) = false;
  swf_uniq : forall i a b, In a (ut s i) -> In b (ut s i) ->
      eeq (ct (mem s a)) (ct (mem s b)) = true -> eeq (ce (mem s a)) (ce (mem s b)) = true -> a = b;
  swf_disj : forall i j a, In a (ut s i) -> In a (ut s j) -> i = j;
  swf_addr : forall i a, In a (ut s i) -> 2 < a;
  swf_one : eptr (ce (mem s ONE)) <> 0;
  swf_onerc : cr (mem s ONE) = MAXREF
}.

Lemma vedge_mono (R R' : N -> N -> Prop) e :
  (forall i a, i <> 0 -> R i a -> R' i a) -> vedge R e -> vedge R' e.
Proof. intros H [?|[? ?]]; [left|right]; auto. Qed.

Lemma vedge_enot R e : vedge R (enot e) <-> vedge R e.
Proof. unfold vedge; simpl; tauto. Qed.

Lemma vedge_ephase R e b : vedge R (ephase e b) <-> vedge R e.
Proof. unfold vedge; simpl; tauto. Qed.

Lemma vedge_one R : vedge R one.
Proof. left; auto. Qed.
Lemma vedge_zero R : vedge R zero.
Proof. left; auto. Qed.

(** In a well-formed store the tagged pointer determines the edge. *)
Lemma eeq_valid o s a b : SWF o s -> vedge (nodeR s) a -> vedge (nodeR s) b ->
  eeq a b = true -> a = b.
Proof.
  intros W Va Vb H. apply eeq_true in H as [Hp Hn].
  apply edge_ext; auto.
  destruct Va as [[Ia Pa]|[Ia Ra]], Vb as [[Ib Pb]|[Ib Rb]].
  - congruence.
  - pose proof (swf_addr o s W _ _ Rb). unfold ONE in *. lia.
  - pose proof (swf_addr o s W _ _ Ra). unfold ONE in *. lia.
  - rewrite Hp in Ra. exact (swf_disj o s W _ _ _ Ra Rb).
Qed.

Lemma vedge_ptr o s e : SWF o s -> vedge (nodeR s) e -> eptr e <> 0.
Proof.
  intros W [[_ H]|[_ H]].
  - rewrite H. unfold ONE; lia.
  - pose proof (swf_addr o s W _ _ H). lia.
Qed.

Lemma vedge_idx_lt o s e : wfo o -> SWF o s -> vedge (nodeR s) e -> eid e <> 0 ->
  In (eid e) (ord o).
Proof.
  intros Wo W [[H _]|[_ H]] N0; [congruence|].
  exact (no_id o s _ _ (swf_node o s W _ _ N0 H)).
Qed.

(** Nodes are never mistaken for forwarded ones. *)
Lemma fwd_valid o s e : SWF o s -> vedge (nodeR s) e -> fwd (mem s) e = e.
Proof.
  intros W V. unfold fwd.
  assert (H : eptr (ce (mem s (eptr e))) <> 0).
  { destruct V as [[_ P]|[N0 R]].
    - rewrite P. exact (swf_one o s W).
    - apply (vedge_ptr o s _ W). exact (no_e o s _ _ (swf_node o s W _ _ N0 R)). }
  destruct (N.eqb_spec (eptr (ce (mem s (eptr e)))) 0); congruence.
Qed.

(** ** Denotations *)

(** A valuation of addresses; [dv D e rho] is the value of an edge. *)
Definition den := N -> (N -> bool) -> bool.
Definition dv (D : den) (e : edge) (rho : N -> bool) : bool := xorb (eneg e) (D (eptr e) rho).

Lemma dv_enot D e rho : dv D (enot e) rho = negb (dv D e rho).
Proof. unfold dv; simpl. now destruct (eneg e), (D (eptr e) rho). Qed.

Lemma dv_ephase D e b rho : dv D (ephase e b) rho = xorb b (dv D e rho).
Proof. unfold dv; simpl. now destruct (eneg e), b, (D (eptr e) rho). Qed.

(** [D] respects the nodes of the store. *)
Record Dok (D : den) (s : store) : Prop := {
  dok_one : forall rho, D ONE rho = true;
  dok_node : forall i a rho, i <> 0 -> In a (ut s i) ->
     D a rho = if rho i then dv D (ct (mem s a)) rho else dv D (ce (mem s a)) rho
}.

Lemma dv_one D s rho : Dok D s -> dv D one rho = true.
Proof. intros H. unfold dv; simpl. now rewrite (dok_one D s H). Qed.
Lemma dv_zero D s rho : Dok D s -> dv D zero rho = false.
Proof. intros H. unfold dv; simpl. now rewrite (dok_one D s H). Qed.

Lemma dv_node D s e rho : Dok D s -> eid e <> 0 -> In (eptr e) (ut s (eid e)) ->
  dv D e rho = if rho (eid e) then dv D (thenof (mem s) e) rho else dv D (elseof (mem s) e) rho.
Proof.
  intros H N0 R. unfold thenof, elseof. rewrite !dv_ephase. unfold dv at 1.
  rewrite (dok_node D s H _ _ rho N0 R). destruct (rho (eid e)); reflexivity.
Qed.

(** Evaluation follows [D]. *)
Lemma ev_dv o D s : wfo o -> SWF o s -> Dok D s ->
  forall e, vedge (nodeR s) e -> forall rho, ev (mem s) rho e (dv D e rho).
Proof.
  intros Wo W HD.
  assert (G : forall n e, vedge (nodeR s) e -> (N.to_nat (CONST_INDEX - idx o (eid e)) < n)%nat ->
              forall rho, ev (mem s) rho e (dv D e rho)).
  { induction n as [|n IH]; intros e V Hn rho; [lia|].
    destruct V as [[I P]|[N0 R]].
    - replace (dv D e rho) with (negb (eneg e)).
      + now constructor.
      + unfold dv. rewrite P, (dok_one D s HD). now destruct (eneg e).
    - unfold dv. rewrite (dok_node D s HD _ _ rho N0 R).
      pose proof (swf_node o s W _ _ N0 R) as NO.
      pose proof (wfo_lt_const o _ Wo (no_id _ _ _ _ NO)) as Hc.
      pose proof (no_ti _ _ _ _ NO) as Ht. pose proof (no_ei _ _ _ _ NO) as He.
      unfold gt_idx in *.
      constructor; auto. destruct (rho (eid e)); apply IH.
      + apply NO.
      + lia.
      + apply NO.
      + lia. }
  intros e V rho. eapply G; eauto.
Qed.

Lemma ev_det m rho e b : ev m rho e b -> forall b', ev m rho e b' -> b = b'.
Proof.
  induction 1 as [e H|e b N0 H IH]; intros b' H'; inversion H' as [e' I'|e' b0 I' H0]; subst; try congruence.
  f_equal. now apply IH.
Qed.

Lemma ev_enot m rho e b : ev m rho e b -> ev m rho (enot e) (negb b).
Proof.
  inversion 1 as [e' H0|e' b0 H0 H1]; subst.
  - change (ev m rho (enot e) (negb (eneg (enot e)))). now constructor.
  - replace (negb (xorb (eneg e) b0)) with (xorb (eneg (enot e)) b0).
    + constructor; auto.
    + simpl. now destruct (eneg e), b0.
Qed.

Lemma ev_iff o D s e rho b : wfo o -> SWF o s -> Dok D s -> vedge (nodeR s) e ->
  (ev (mem s) rho e b <-> b = dv D e rho).
Proof.
  intros Wo W HD V. pose proof (ev_dv o D s Wo W HD e V rho) as H. split.
  - intros H'. eapply ev_det; eauto.
  - intros ->; auto.
Qed.

(** The executable evaluator agrees with [ev]. *)
Lemma evalf_ev n : forall m rho e b, evalf n m rho e = Some b -> ev m rho e b.
Proof.
  induction n as [|n IH]; intros m rho e b H; simpl in H; [discriminate|].
  destruct (N.eqb_spec (eid e) 0).
  - injection H as <-. now constructor.
  - destruct (evalf n m rho _) as [b'|] eqn:E; [|discriminate]. injection H as <-.
    constructor; auto.
Qed.

(** A valuation always exists. *)
Definition Dof (m : memory) (ids : list N) (U : N -> list N) : den := fun a rho =>
  if a =? ONE then true
  else match find (fun i => existsb (N.eqb a) (U i)) ids with
       | Some i => match evalf (S (S (length ids))) m rho (E i a false) with Some b => b | None => false end
       | None => false
       end.

Lemma evalf_mono n : forall m rho e b k, evalf n m rho e = Some b -> (n <= k)%nat -> evalf k m rho e = Some b.
Proof.
  induction n as [|n IH]; intros m rho e b k H L; simpl in H; [discriminate|].
  destruct k as [|k]; [lia|]. simpl.
  destruct (N.eqb_spec (eid e) 0); auto.
  destruct (evalf n m rho _) as [b'|] eqn:E; [|discriminate].
  rewrite (IH _ _ _ _ k E) by lia. auto.
Qed.

Lemma evalf_total o s : wfo o -> SWF o s -> forall n e rho, vedge (nodeR s) e ->
  (eid e <> 0 -> (S (length (ord o)) <= n + N.to_nat (idx o (eid e)))%nat) -> 
  exists b, evalf (S n) (mem s) rho e = Some b.
Proof.
  intros Wo W. induction n as [|n IH]; intros e rho V H.
  - destruct V as [[I P]|[N0 R]].
    + simpl. rewrite I. simpl. eauto.
    + specialize (H N0). pose proof (wfo_in o _ Wo (no_id _ _ _ _ (swf_node o s W _ _ N0 R))). lia.
  - destruct V as [[I P]|[N0 R]].
    + simpl. rewrite I. simpl. eauto.
    + specialize (H N0). remember (S n) as k. simpl. destruct (N.eqb_spec (eid e) 0); [congruence|].
      pose proof (swf_node o s W _ _ N0 R) as NO.
      pose proof (no_ti _ _ _ _ NO) as Ht. pose proof (no_ei _ _ _ _ NO) as He. unfold gt_idx in *.
      assert (exists b, evalf k (mem s) rho
        (if rho (eid e) then ct (mem s (eptr e)) else ce (mem s (eptr e))) = Some b) as [b Hb].
      { subst k. apply IH; destruct (rho (eid e)); try apply NO; intros; lia. }
      rewrite Hb. eauto.
Qed.

Lemma Dof_ok o s : wfo o -> SWF o s -> Dok (Dof (mem s) (ord o) (ut s)) s.
Proof.
  intros Wo W.
  assert (K : forall i a, i <> 0 -> In a (ut s i) -> forall rho,
     evalf (S (S (length (ord o)))) (mem s) rho (E i a false) = Some (Dof (mem s) (ord o) (ut s) a rho)).
  { intros i a N0 R rho. unfold Dof.
    pose proof (swf_addr o s W _ _ R). destruct (N.eqb_spec a ONE); [unfold ONE in *; lia|].
    destruct (find _ (ord o)) as [j|] eqn:F.
    - apply find_some in F as [_ F]. apply existsb_exists in F as [x [Hx Ex]].
      apply N.eqb_eq in Ex; subst x. assert (j = i) by (eapply swf_disj; eauto). subst j.
      destruct (evalf_total o s Wo W (S (length (ord o))) (E i a false) rho) as [b Hb].
      + right; auto.
      + simpl. lia.
      + now rewrite Hb.
    - exfalso. pose proof (find_none _ _ F i (no_id _ _ _ _ (swf_node o s W _ _ N0 R))) as Hf.
      simpl in Hf. assert (existsb (N.eqb a) (ut s i) = true); [|congruence].
      apply existsb_exists. exists a. split; auto. apply N.eqb_refl. }
  assert (KV : forall e, vedge (nodeR s) e -> forall rho b n, evalf n (mem s) rho e = Some b ->
              b = dv (Dof (mem s) (ord o) (ut s)) e rho).
  { intros e [[I P]|[N0 R]] rho b n H.
    - destruct n; simpl in H; [discriminate|]. rewrite I in H. simpl in H. injection H as <-.
      unfold dv. rewrite P. unfold Dof. simpl. now destruct (eneg e).
    - apply evalf_ev in H. pose proof (evalf_ev _ _ _ _ _ (K _ _ N0 R rho)) as H2.
      unfold dv. destruct (eneg e) eqn:En.
      + apply ev_enot in H2. unfold enot in H2; simpl in H2.
        rewrite <- En in H2. rewrite <- edge_eta in H2.
        rewrite xorb_true_l. eapply ev_det; eauto.
      + rewrite <- En in H2. rewrite <- edge_eta in H2. rewrite xorb_false_l. eapply ev_det; eauto. }
  constructor.
  - intros rho. reflexivity.
  - intros i a rho N0 R.
    pose proof (K i a N0 R rho) as H. remember (S (length (ord o))) as n. simpl in H.
    destruct (N.eqb_spec i 0); [congruence|].
    pose proof (swf_node o s W _ _ N0 R) as NO.
    destruct (rho i).
    + destruct (evalf n (mem s) rho (ct (mem s a))) as [b|] eqn:Eb; [|discriminate].
      transitivity b; [simpl in H; destruct b; congruence|]. eapply KV; eauto. apply NO.
    + destruct (evalf n (mem s) rho (ce (mem s a))) as [b|] eqn:Eb; [|discriminate].
      transitivity b; [simpl in H; destruct b; congruence|]. eapply KV; eauto. apply NO.
Qed.

(** ** Independence of variables above *)

Definition agree_from (o : order) (k : N) (r1 r2 : N -> bool) : Prop :=
  forall i, In i (ord o) -> k <= idx o i -> r1 i = r2 i.

Lemma dv_agree o D s : wfo o -> SWF o s -> Dok D s ->
  forall e, vedge (nodeR s) e -> forall r1 r2, agree_from o (idx o (eid e)) r1 r2 ->
  dv D e r1 = dv D e r2.
Proof.
  intros Wo W HD.
  assert (G : forall n e, vedge (nodeR s) e -> (N.to_nat (CONST_INDEX - idx o (eid e)) < n)%nat ->
              forall r1 r2, agree_from o (idx o (eid e)) r1 r2 -> dv D e r1 = dv D e r2).
  { induction n as [|n IH]; intros e V Hn r1 r2 A; [lia|].
    destruct V as [[I P]|[N0 R]].
    - unfold dv. now rewrite P, !(dok_one D s HD).
    - unfold dv. rewrite !(dok_node D s HD _ _ _ N0 R).
      pose proof (swf_node o s W _ _ N0 R) as NO.
      pose proof (wfo_lt_const o _ Wo (no_id _ _ _ _ NO)) as Hc.
      pose proof (no_ti _ _ _ _ NO) as Ht. pose proof (no_ei _ _ _ _ NO) as He. unfold gt_idx in *.
      rewrite <- (A (eid e)); [|apply NO|lia].
      f_equal. destruct (r1 (eid e)); apply IH; try apply NO; try lia;
      intros i Hi Hk; apply A; auto; lia. }
  intros; eapply G; eauto.
Qed.

(** ** Canonicity *)

Definition flip (rho : N -> bool) (i : N) (b : bool) : N -> bool :=
  fun j => if j =? i then b else rho j.

Lemma flip_same rho i b : flip rho i b i = b.
Proof. unfold flip. now rewrite N.eqb_refl. Qed.

Lemma agree_flip o i rho b k : wfo o -> In i (ord o) -> idx o i < k -> agree_from o k rho (flip rho i b).
Proof.
  intros Wo Hi Hk j Hj Hkj. unfold flip. destruct (N.eqb_spec j i); auto. subst. lia.
Qed.

Lemma canon_aux o D s : wfo o -> SWF o s -> Dok D s -> forall n e1 e2,
  vedge (nodeR s) e1 -> vedge (nodeR s) e2 ->
  (N.to_nat (CONST_INDEX - idx o (eid e1)) < n)%nat -> (N.to_nat (CONST_INDEX - idx o (eid e2)) < n)%nat ->
  (forall rho, dv D e1 rho = dv D e2 rho) -> e1 = e2.
Proof.
  intros Wo W HD. induction n as [|n IH]; intros e1 e2 V1 V2 Hn1 Hn2 H; [lia|].
  (* positive evaluation at the all-true assignment fixes the complement bit *)
  assert (T : forall e, vedge (nodeR s) e -> dv D e (fun _ => true) = negb (eneg e)).
  { assert (TT : forall k e, vedge (nodeR s) e -> (N.to_nat (CONST_INDEX - idx o (eid e)) < k)%nat ->
                 eneg e = false -> dv D e (fun _ => true) = true).
    { clear - Wo W HD. intros k. induction k as [|k IH]; intros e V Hn P; [lia|].
      unfold dv. rewrite P, xorb_false_l.
      destruct V as [[I Q]|[N0 R]].
      - rewrite Q. apply (dok_one D s HD).
      - rewrite (dok_node D s HD _ _ _ N0 R).
        pose proof (swf_node o s W _ _ N0 R) as NO.
        pose proof (wfo_lt_const o _ Wo (no_id _ _ _ _ NO)) as Hc.
        pose proof (no_ti _ _ _ _ NO) as Ht. unfold gt_idx in *.
        apply IH; try apply NO. lia. }
    intros e V. destruct (eneg e) eqn:En.
    - rewrite <- (enot_enot e), dv_enot. rewrite (TT (S (N.to_nat (CONST_INDEX - idx o (eid e)))) (enot e)).
      + reflexivity.
      + now apply vedge_enot.
      + simpl. lia.
      + simpl. now rewrite En.
    - rewrite (TT (S (N.to_nat (CONST_INDEX - idx o (eid e)))) e); auto. }
  assert (Hneg : eneg e1 = eneg e2).
  { pose proof (H (fun _ => true)) as H0. rewrite !T in H0 by auto.
    destruct (eneg e1), (eneg e2); simpl in H0; congruence. }
  (* different levels are impossible: the upper node would not depend on its variable *)
  assert (Dep : forall x y, vedge (nodeR s) x -> vedge (nodeR s) y ->
     (N.to_nat (CONST_INDEX - idx o (eid x)) < S n)%nat ->
     (forall rho, dv D x rho = dv D y rho) -> eid x <> 0 -> idx o (eid x) < idx o (eid y) -> False).
  { intros x y Vx Vy Hxy Hd N0 Hlt.
    destruct Vx as [[? _]|[_ Rx]]; [congruence|].
    pose proof (swf_node o s W _ _ N0 Rx) as NO.
    pose proof (wfo_lt_const o _ Wo (no_id _ _ _ _ NO)) as Hc.
    pose proof (no_ti _ _ _ _ NO) as Ht. pose proof (no_ei _ _ _ _ NO) as He. unfold gt_idx in *.
    assert (ct (mem s (eptr x)) = ce (mem s (eptr x))) as Eq.
    { apply IH; try apply NO; [lia|lia|].
      intros rho.
      pose proof (Hd (flip rho (eid x) true)) as A1. pose proof (Hd (flip rho (eid x) false)) as A2.
      rewrite (dv_node D s x _ HD N0 Rx) in A1. rewrite (dv_node D s x _ HD N0 Rx) in A2.
      rewrite flip_same in A1, A2.
      unfold thenof, elseof in *. rewrite dv_ephase in A1, A2.
      rewrite <- (dv_agree o D s Wo W HD y Vy rho) in A1 by (apply agree_flip; [auto|apply NO|auto]).
      rewrite <- (dv_agree o D s Wo W HD y Vy rho) in A2 by (apply agree_flip; [auto|apply NO|auto]).
      rewrite (dv_agree o D s Wo W HD _ (no_t _ _ _ _ NO) rho (flip rho (eid x) true))
        by (apply agree_flip; [auto|apply NO|auto]).
      rewrite (dv_agree o D s Wo W HD _ (no_e _ _ _ _ NO) rho (flip rho (eid x) false))
        by (apply agree_flip; [auto|apply NO|auto]).
      rewrite <- A2 in A1.
      destruct (eneg x), (dv D (ct (mem s (eptr x))) (flip rho (eid x) true)),
        (dv D (ce (mem s (eptr x))) (flip rho (eid x) false)); simpl in A1; congruence. }
    pose proof (no_red _ _ _ _ NO) as Hr. rewrite Eq, eeq_refl in Hr. discriminate. }
  destruct (N.eq_dec (eid e1) 0) as [Z1|Z1], (N.eq_dec (eid e2) 0) as [Z2|Z2].
  - destruct V1 as [[_ P1]|[? _]]; [|congruence]. destruct V2 as [[_ P2]|[? _]]; [|congruence].
    apply edge_ext; congruence.
  - exfalso. apply (Dep e2 e1); auto; try lia.
    rewrite Z1, (wfo_const o Wo). apply wfo_lt_const; auto. eapply vedge_idx_lt; eauto.
  - exfalso. apply (Dep e1 e2); auto; try lia.
    rewrite Z2, (wfo_const o Wo). apply wfo_lt_const; auto. eapply vedge_idx_lt; eauto.
  - destruct (N.lt_trichotomy (idx o (eid e1)) (idx o (eid e2))) as [L|[L|L]].
    + exfalso. apply (Dep e1 e2); auto; lia.
    + assert (Ei : eid e1 = eid e2).
      { apply (wfo_inj o); auto; eapply vedge_idx_lt; eauto. }
      destruct V1 as [[? _]|[_ R1]]; [congruence|]. destruct V2 as [[? _]|[_ R2]]; [congruence|].
      rewrite Ei in R1.
      pose proof (swf_node o s W _ _ Z2 R1) as NO1. pose proof (swf_node o s W _ _ Z2 R2) as NO2.
      pose proof (wfo_lt_const o _ Wo (no_id _ _ _ _ NO1)) as Hc.
      pose proof (no_ti _ _ _ _ NO1) as Ht1. pose proof (no_ei _ _ _ _ NO1) as He1.
      pose proof (no_ti _ _ _ _ NO2) as Ht2. pose proof (no_ei _ _ _ _ NO2) as He2. unfold gt_idx in *.
      rewrite Ei in Hn1.
      assert (A : forall (b : bool) rho, dv D (if b then ct (mem s (eptr e1)) else ce (mem s (eptr e1))) rho =
                  dv D (if b then ct (mem s (eptr e2)) else ce (mem s (eptr e2))) rho).
      { intros b rho. pose proof (H (flip rho (eid e2) b)) as A1.
        rewrite (dv_node D s e1 _ HD Z1) in A1 by (rewrite Ei; auto).
        rewrite (dv_node D s e2 _ HD Z2 R2) in A1.
        rewrite Ei in A1. rewrite !flip_same in A1.
        unfold thenof, elseof in A1.
        assert (Q : forall z, vedge (nodeR s) z -> idx o (eid e2) < idx o (eid z) ->
                 dv D z (flip rho (eid e2) b) = dv D z rho).
        { intros z Vz Lz. symmetry. apply (dv_agree o D s Wo W HD z Vz). apply agree_flip; auto. apply NO1. }
        rewrite Hneg in A1.
        destruct b; rewrite !dv_ephase in A1; rewrite !Q in A1; try apply NO1; try apply NO2; auto;
          match goal with |- ?a = ?b => destruct (eneg e2), a, b; simpl in A1; congruence end. }
      assert (Et : ct (mem s (eptr e1)) = ct (mem s (eptr e2))).
      { apply IH; try apply NO1; try apply NO2; [lia|lia|]. exact (A true). }
      assert (Ee : ce (mem s (eptr e1)) = ce (mem s (eptr e2))).
      { apply IH; try apply NO1; try apply NO2; [lia|lia|]. exact (A false). }
      apply edge_ext; auto.
      eapply (swf_uniq o s W); eauto; [rewrite Et|rewrite Ee]; apply eeq_refl.
    + exfalso. apply (Dep e2 e1); auto; lia.
Qed.

Theorem canon_dv o D s e1 e2 : wfo o -> SWF o s -> Dok D s ->
  vedge (nodeR s) e1 -> vedge (nodeR s) e2 ->
  (forall rho, dv D e1 rho = dv D e2 rho) -> e1 = e2.
Proof.
  intros Wo W HD V1 V2 H.
  apply (canon_aux o D s Wo W HD (S (N.to_nat CONST_INDEX)) e1 e2); auto; lia.
Qed.

(** Canonicity, stated with [ev] only. *)
Theorem canonicity o s e1 e2 : wfo o -> SWF o s ->
  vedge (nodeR s) e1 -> vedge (nodeR s) e2 ->
  (forall rho b, ev (mem s) rho e1 b <-> ev (mem s) rho e2 b) -> e1 = e2.
Proof.
  intros Wo W V1 V2 H. pose proof (Dof_ok o s Wo W) as HD.
  eapply canon_dv; eauto. intros rho.
  pose proof (ev_dv o _ s Wo W HD e1 V1 rho) as A. apply H in A.
  eapply ev_iff in A; eauto.
Qed.
