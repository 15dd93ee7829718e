(** * Lemmas and examples for the properties of reordering. *)
From Coq Require Import Permutation.
From Verif Require Import Base BFModel ITEModel MgrModel ApiModel GraphModel AssocModel StoreInv MInv ApiProof ApiOps ApiVar ReorderModel
  ReorderCover SpecApi SpecAssoc WorldProof Client ApiLemmas ApiFacts AssocProof AssocWorld AssocFacts SpecReorder.
Open Scope N_scope.

Lemma swap_exchanged k l : exchanged (N.of_nat k) l (swap_list k l).
Proof.
  revert l. induction k as [|k IH]; intros l.
  - destruct l as [|a [|b l]]; cbn [swap_list].
    + right. split; [simpl; lia|reflexivity].
    + right. split; [simpl; lia|reflexivity].
    + left. exists [], a, b, l. auto.
  - destruct l as [|a l]; cbn [swap_list]; [right; split; [simpl; lia|reflexivity]|].
    destruct (IH l) as [(l1 & c & d & l2 & E1 & E2 & E3)|[E1 E2]].
    + left. exists (a :: l1), c, d, l2. rewrite E2. rewrite E1 at 1. split; [reflexivity|]. split; [reflexivity|]. cbn [length]. lia.
    + right. rewrite E2. split; [|reflexivity]. cbn [length]. lia.
Qed.
Lemma swap_none (l : list N) n : nth_error l (S n) = None -> swap_list n l = l.
Proof. revert n. induction l as [|a l IH]; intros [|n] H; cbn [swap_list]; auto; [destruct l; auto; discriminate|]. now rewrite IH. Qed.
Lemma exchange_at_ord Mx r k : ord (ro (exchange_at Mx r k)) = swap_list (N.to_nat k) (ord (ro r)).
Proof.
  unfold exchange_at. destruct (nth_error (ord (ro r)) (S (N.to_nat k))) eqn:E2.
  - destruct (nth_error (ord (ro r)) (N.to_nat k)) eqn:E1; [reflexivity|]. exfalso. apply nth_error_None in E1.
    assert (S (N.to_nat k) < length (ord (ro r)))%nat by (apply nth_error_Some; congruence). lia.
  - rewrite (swap_none _ _ E2). now destruct (nth_error (ord (ro r)) (N.to_nat k)).
Qed.
Lemma exchange_ats_ord Mx sw r : exchanges sw (ord (ro r)) (ord (ro (fold_left (exchange_at Mx) sw r))).
Proof.
  revert r. induction sw as [|k sw IH]; intros r; cbn [fold_left exchanges]; auto.
  exists (ord (ro (exchange_at Mx r k))). split; [|apply IH]. rewrite exchange_at_ord.
  replace k with (N.of_nat (N.to_nat k)) at 1 by apply N2Nat.id. apply swap_exchanged.
Qed.

Lemma stands_arel m hs D m' D' a a' S : MInv m hs lk0 D -> MInv m' hs lk0 D' -> In a (mtemp m :: massoc m) -> In a' (mtemp m' :: massoc m') ->
  arel D D' a a' -> stands_for m (amap a) S -> stands_for m' (amap a') S.
Proof.
  intros I I' Ia Ia' (_ & _ & R) H i. specialize (H i). specialize (R i). unfold both in *.
  destruct (amap a i) as [e|] eqn:E1, (amap a' i) as [e'|] eqn:E2, (S i) as [F|]; try tauto. intros rho. specialize (H rho).
  apply (ev_iff (mo m') D' (st (me m'))); [apply I'|eapply MI_swf; eauto|eapply MI_dok; eauto|exact (proj2 (ao_dom _ _ _ (mi_as _ _ _ _ I' a' Ia') i e' E2))|].
  rewrite R. apply (ev_iff (mo m) D (st (me m))) in H; [exact H|apply I|eapply MI_swf; eauto|eapply MI_dok; eauto|exact (proj2 (ao_dom _ _ _ (mi_as _ _ _ _ I a Ia) i e E1))].
Qed.
Lemma Forall2_in_l {A B} (R : A -> B -> Prop) l k x : Forall2 R l k -> In x l -> exists y, In y k /\ R x y.
Proof.
  induction 1 as [|a b l k Hab H IH]; [intros []|]. intros [<-|Ix]; [exists b; split; [now left|auto]|].
  destruct (IH Ix) as (y & Iy & Ry). exists y. split; [now right|auto].
Qed.

Lemma W_reorder w sw : reachable w -> ready_to_reorder (wm w) (wh w) ->
  let m' := reorder sw (wm w) in
  reachable (World m' (wh w)) /\
  (forall h F, In h (wh w) -> means (wm w) h F -> means m' h F) /\
  (forall j S, assoc_means (wm w) j S -> assoc_means m' j S) /\
  (forall S, temp_means (wm w) S -> temp_means m' S) /\
  (forall f g F G, In f (wh w) -> In g (wh w) -> means m' f F -> means m' g G -> (cal_isequal f g = true <-> same F G)) /\
  exchanges sw (ord (mo (wm w))) (ord (mo m')).
Proof.
  intros R Rd m'. destruct w as [m hs]. cbn [wm wh] in *.
  assert (R' : reachable (World m' hs)) by (eapply re_call; [exact R|]; now apply st_reorder).
  destruct (reachable_inv _ R) as [D I]. cbn [wm wh] in I.
  destruct (ready_spec m hs D I Rd) as [Ha Hs]. destruct (reorder_spec m hs D sw I Ha Hs) as (D' & I' & X & P). fold m' in I', X, P.
  split; [exact R'|]. split; [|split; [|split; [|split]]].
  - intros h F Ih M. apply (proj2 (means_hv m' hs lk0 D' h F I' Ih)). intros rho. rewrite (mx_h _ _ _ _ _ X h Ih).
    exact (proj1 (means_hv m hs lk0 D h F I Ih) M rho).
  - intros j S (a & Ia & Ej & St). destruct (Forall2_in_l _ _ _ _ (mx_as _ _ _ _ _ X) Ia) as (a' & Ia' & Ra).
    exists a'. split; auto. split; [rewrite <- Ej; apply Ra|]. exact (stands_arel m hs D m' D' a a' S I I' (or_intror Ia) (or_intror Ia') Ra St).
  - intros S St. exact (stands_arel m hs D m' D' _ _ S I I' (or_introl eq_refl) (or_introl eq_refl) (mx_tmp _ _ _ _ _ X) St).
  - intros f g F G. exact (W_canonical (World m' hs) R' f g F G).
  - exact (exchange_ats_ord (interacts (mo m) (fst (gc_table (st (me m), []) 0))) sw (RS (convert (mo m) (fst (gc_store (mo m) (st (me m))))) (mo m) (mtemp m) (massoc m))).
Qed.

(** ** A test for the client's condition *)
Definition meets (m : mgr) (e : edge) : list N := met (S (length (ord (mo m)))) (mmem m) e.
Definition pair_met (m : mgr) (hs : list ubdd) (p q : N) : bool :=
  existsb (fun h => existsb (N.eqb p) (meets m (uint (mmem m) h)) && existsb (N.eqb q) (meets m (uint (mmem m) h))) hs.
Definition edge_ready (m : mgr) (hs : list ubdd) (e : edge) : bool :=
  forallb (fun p => forallb (fun q => (p =? q) || pair_met m hs p q) (meets m e)) (meets m e).
Definition ready_b (m : mgr) (hs : list ubdd) : bool :=
  forallb (fun a => forallb (fun i => match amap a i with Some e => edge_ready m hs e | None => true end) (ord (mo m))) (mtemp m :: massoc m) &&
  forallb (fun i => forallb (fun b => negb (cr (mmem m b) =? 255) || edge_ready m hs (E i b false)) (ut (st (me m)) i)) (ord (mo m)).
Lemma existsb_N p l : existsb (N.eqb p) l = true <-> In p l.
Proof.
  rewrite existsb_exists. split; [intros (q & Iq & E); apply N.eqb_eq in E; now subst|]. intros Ip. exists p. split; auto. apply N.eqb_refl.
Qed.
Lemma ready_check w : reachable w -> ready_b (wm w) (wh w) = true -> ready_to_reorder (wm w) (wh w).
Proof.
  intros R H. destruct w as [m hs]. cbn [wm wh] in *. destruct (reachable_inv _ R) as [D I]. cbn [wm wh] in I.
  pose proof (mi_wfo _ _ _ _ I) as Wo. pose proof (MI_swf _ _ _ _ I) as W. pose proof (MI_dok _ _ _ _ I) as Kd.
  assert (T : forall e F, vedge (nodeR (st (me m))) e -> edge_ready m hs e = true -> edge_means m e F -> occur_together m hs F).
  { intros e F Ve He M p q Npq Hp Hq.
    assert (E : forall rho, F rho = dv D e rho).
    { intros rho. exact (proj1 (ev_iff (mo m) D (st (me m)) e rho (F rho) Wo W Kd Ve) (M rho)). }
    assert (Ip : In p (meets m e)) by (apply (dep_met (mo m) D (st (me m)) Wo W Kd e p Ve); exact (depF_ext _ _ p E Hp)).
    assert (Iq : In q (meets m e)) by (apply (dep_met (mo m) D (st (me m)) Wo W Kd e q Ve); exact (depF_ext _ _ q E Hq)).
    unfold edge_ready in He. rewrite forallb_forall in He. specialize (He p Ip). cbv beta in He. rewrite forallb_forall in He. specialize (He q Iq). cbv beta in He.
    apply orb_true_iff in He as [He|He]; [apply N.eqb_eq in He; congruence|]. unfold pair_met in He. apply existsb_exists in He as (h & Ih & He).
    apply andb_true_iff in He as [H1 H2]. apply existsb_N in H1. apply existsb_N in H2.
    exists h, (fun rho => hv m D h rho). split; auto. split; [exact (means_self m hs lk0 D h I Ih)|].
    pose proof (MI_int _ _ _ _ h I Ih) as Vh.
    split; [exact (met_dep (mo m) D (st (me m)) Wo W Kd _ _ p Vh H1)|exact (met_dep (mo m) D (st (me m)) Wo W Kd _ _ q Vh H2)]. }
  unfold ready_b in H. apply andb_true_iff in H as [H1 H2]. rewrite forallb_forall in H1, H2. split.
  - intros a i e F Ia Ee M. destruct (ao_dom _ _ _ (mi_as _ _ _ _ I a Ia) i e Ee) as [Ii Ve].
    specialize (H1 a Ia). cbv beta in H1. rewrite forallb_forall in H1. specialize (H1 i Ii). cbv beta in H1. rewrite Ee in H1. exact (T e F Ve H1 M).
  - intros i b F Ni Ib Hc M. assert (Ii : In i (ord (mo m))) by (apply (swf_node _ _ W i b Ni Ib)).
    specialize (H2 i Ii). cbv beta in H2. rewrite forallb_forall in H2. specialize (H2 b Ib). cbv beta in H2. rewrite Hc in H2.
    apply (T (E i b false) F); auto. right. split; auto.
Qed.

(** ** Examples *)
Lemma demo_ready : ready_to_reorder (wm demo) (wh demo).
Proof. apply (ready_check demo (run_reachable _)). vm_compute. reflexivity. Qed.
Lemma aworld_ready : ready_to_reorder (wm aworld) (wh aworld).
Proof. apply (ready_check aworld aworld_reachable). vm_compute. reflexivity. Qed.
Definition a_moved : list N := [0; 1; 2; 0; 1].
Lemma aworld_moved : ord (mo (wm aworld)) = [1; 4; 2; 3] /\ ord (mo (reorder a_moved (wm aworld))) = [2; 3; 4; 1] /\
  (nn (st (me (wm aworld))) =? nn (st (me (reorder a_moved (wm aworld))))) = false.
Proof. split; [vm_compute; reflexivity|split; vm_compute; reflexivity]. Qed.

(** ** Counterexamples *)

(** x3 is associated with x1 and x2; the handle of the image is given back. *)
Definition rworld : world := run [CNewvar 0; CNewvar 1; CNewvar 2; CBin BAnd false 2 1; CAssoc [1; 0]%nat true; CFree].
Definition s_image : substitution := fun i => if i =? 3 then Some (fun rho : N -> bool => rho 1 && rho 2) else None.
Lemma rworld_image : assoc_means (wm rworld) 0 s_image.
Proof.
  exists (nth 0 (massoc (wm rworld)) (mtemp (wm rworld))). split; [vm_compute; left; reflexivity|]. split; [vm_compute; reflexivity|].
  apply (stands_dec _ _ _ 4).
  - intros i Ia N. pose proof (reach_dom rworld _ i (run_reachable _) Ia N) as H.
    assert (E : ord (mo (wm rworld)) = [1; 2; 3]) by (vm_compute; reflexivity). rewrite E in H.
    destruct H as [<-|[<-|[<-|[]]]]; reflexivity.
  - exact (nth_default _ _ 0).
  - intros i L. unfold s_image. destruct (N.eqb_spec i 3) as [->|]; [vm_compute in L; elim L; reflexivity|reflexivity].
  - trees4.
Qed.
Definition shows_other (m : mgr) (i : N) (rho : N -> bool) (b : bool) (a : assoc) : bool :=
  match amap a i with
  | Some e => match unfold_tree 100 (mmem m) e with Some t => negb (Bool.eqb (teval rho t) b) | None => false end
  | None => false
  end.
Lemma not_assoc m j S i rho (F : bfun) b : S i = Some F -> F rho = b -> forallb (shows_other m i rho b) (massoc m) = true -> ~ assoc_means m j S.
Proof.
  intros E1 E2 H (a & Ia & _ & St). rewrite forallb_forall in H. specialize (H a Ia). specialize (St i). unfold shows_other in H. rewrite E1 in St.
  revert H St. generalize 100%nat as n. intros n H St. destruct (amap a i) as [e|]; [|discriminate].
  destruct (unfold_tree n (mmem m) e) as [t|] eqn:T; [|discriminate]. cbn [both] in St. specialize (St rho).
  pose proof (ev_det _ _ _ _ (unfold_tree_ev n (mmem m) e t rho T) _ St) as Q. rewrite Q, E2, Bool.eqb_reflx in H. discriminate.
Qed.
(** A child of a node that is not in any table. *)
Definition stray (m : mgr) (e : edge) : bool :=
  negb (eptr e =? 1) && forallb (fun v => negb (existsb (N.eqb (eptr e)) (ut (st (me m)) v))) (0 :: ord (mo m)).
Lemma stray_ok m e : stray m e = true -> eptr e <> 1 /\ forall v, v = 0 \/ In v (ord (mo m)) -> ~ In (eptr e) (ut (st (me m)) v).
Proof.
  unfold stray. intros H. apply andb_true_iff in H as [H1 H2]. apply negb_true_iff, N.eqb_neq in H1. split; auto.
  rewrite forallb_forall in H2. intros v Hv Iv. assert (Jv : In v (0 :: ord (mo m))) by (destruct Hv; [left; congruence|now right]).
  specialize (H2 v Jv). cbv beta in H2. apply (existsb_N (eptr e)) in Iv. rewrite Iv in H2. discriminate.
Qed.
Lemma association_refuted : exists w sw j S, reachable w /\ assoc_means (wm w) j S /\ ~ assoc_means (reorder sw (wm w)) j S /\
  let m' := reorder sw (wm w) in
  exists a i e, In a (massoc m') /\ amap a i = Some e /\
    eptr (ct (mmem m' (eptr e))) <> 1 /\ forall v, v = 0 \/ In v (ord (mo m')) -> ~ In (eptr (ct (mmem m' (eptr e)))) (ut (st (me m')) v).
Proof.
  exists rworld, [0], 0, s_image. split; [exact (run_reachable _)|]. split; [exact rworld_image|]. split.
  - apply (not_assoc _ 0 s_image 3 (fun i => i =? 1) (fun rho : N -> bool => rho 1 && rho 2) false); [reflexivity|reflexivity|]. vm_compute. reflexivity.
  - cbv zeta. exists (nth 0 (massoc (reorder [0] (wm rworld))) (mtemp (wm rworld))), 3, (E 1 13 false).
    split; [vm_compute; left; reflexivity|]. split; [vm_compute; reflexivity|]. apply stray_ok. vm_compute. reflexivity.
Qed.
(** Seventeen variables; the conjunction of the last two is the image of 256 variables in associations that are then
    given up, and the client gives its handle back. *)
Definition sworld : world := run (map (fun k => CNewvar (N.of_nat k)) (seq 0 17) ++ [CBin BAnd false 0 1] ++
  map (fun i => CAssoc (flat_map (fun j => if Nat.eqb i j then [] else [1 + j; 0]%nat) (seq 0 17)) true) (seq 0 16) ++
  map (fun i => CQuit (N.of_nat i)) (seq 0 16) ++ [CFree]).
Lemma saturated_refuted : exists w sw, reachable w /\ massoc (wm w) = [] /\ (forall i, In i (ord (mo (wm w))) -> amap (mtemp (wm w)) i = None) /\
  let m' := reorder sw (wm w) in
  exists i b, In i (ord (mo m')) /\ In b (ut (st (me m')) i) /\
    eptr (ct (mmem m' b)) <> 1 /\ forall v, v = 0 \/ In v (ord (mo m')) -> ~ In (eptr (ct (mmem m' b))) (ut (st (me m')) v).
Proof.
  exists sworld, [15]. split; [exact (run_reachable _)|]. split; [vm_compute; reflexivity|]. split.
  - assert (H : forallb (fun i => match amap (mtemp (wm sworld)) i with None => true | _ => false end) (ord (mo (wm sworld))) = true) by (vm_compute; reflexivity).
    rewrite forallb_forall in H. intros i Ii. specialize (H i Ii). cbv beta in H. destruct (amap (mtemp (wm sworld)) i); [discriminate H|exact eq_refl].
  - cbv zeta. exists 16, 40. split; [vm_compute; repeat (first [left; reflexivity|right])|]. split; [vm_compute; repeat (first [left; reflexivity|right])|].
    apply stray_ok. vm_compute. reflexivity.
Qed.
