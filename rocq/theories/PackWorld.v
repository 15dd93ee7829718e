(** * Lemmas and examples for the property of compaction. *)
From Coq Require Import Permutation.
From Verif Require Import Base BFModel ITEModel MgrModel ApiModel GraphModel AssocModel StoreInv MInv ApiProof ApiOps ApiVar ReorderModel PackModel PackTrans PackTable PackProof
  SpecApi SpecAssoc WorldProof Client ApiLemmas ApiFacts AssocProof AssocWorld AssocFacts ReorderFacts SpecPack.
Open Scope N_scope.

Lemma thin_needs p m i : 0 < npp p -> thin (npp p) (tnum p) (tden p) m i -> needs p (st (me m)) i = true.
Proof.
  intros Hp (k & H1 & H2 & H3). unfold cells_of, nodes_of in *. unfold needs, pages, count. unfold cells. rewrite (Permutation_length (in_order_perm _)), app_length.
  set (c := N.of_nat (length (ut (st (me m)) i) + length (fl (st (me m)) i))) in *.
  assert (E : (c + (npp p - 1)) / npp p = k).
  { symmetry. apply N.div_unique with (r := c + (npp p - 1) - npp p * k); [|]; nia. }
  rewrite E. apply andb_true_iff. split; apply N.ltb_lt; lia.
Qed.

Lemma W_repack w p : reachable w -> 0 < npp p -> tnum p <= tden p ->
  exists m', gc_repack p (wm w) = Ok m' /\ compact (npp p) (tnum p) (tden p) (gc (wm w)) m' /\
  (vars_stay p (gc (wm w)) ->
   reachable (World m' (wh w)) /\ variable_nodes_known m' /\
   (forall h F, In h (wh w) -> means (wm w) h F -> means m' h F) /\
   (forall j S, assoc_means (wm w) j S -> assoc_means m' j S) /\
   (forall S, temp_means (wm w) S -> temp_means m' S) /\
   (forall f g F G, In f (wh w) -> In g (wh w) -> means m' f F -> means m' g G -> (cal_isequal f g = true <-> same F G))).
Proof.
  intros R Hp Ht. destruct w as [m hs]. cbn [wm wh] in *.
  destruct (reachable_inv _ R) as [D I]. cbn [wm wh] in I.
  destruct (gc_repack_spec p m hs D Hp Ht I) as (m1 & E1 & E & C & K). exists (set_gclimit m1). split; [exact E|]. split.
  { split; [exact (proj1 (C 0))|]. intros i. destruct (C i) as (_ & C1 & C2). split; [exact C1|]. intros Ii Th.
    apply (thin_needs p _ i Hp) in Th. specialize (C2 Ii Th). unfold count in C2. rewrite app_length in C2. exact C2. }
  intros Vs. assert (R' : reachable (World (set_gclimit m1) hs)) by (eapply re_call; [exact R|]; now apply (st_repack p)).
  destruct (K Vs) as (D' & I' & X). set (m' := set_gclimit m1) in *.
  split; [exact R'|]. split; [|split; [|split; [|split]]].
  - intros i Ii. now apply (mi_var _ _ _ _ I').
  - intros h F Ih M. apply (proj2 (means_hv m' hs lk0 D' h F I' Ih)). intros rho. rewrite (mx_h _ _ _ _ _ X h Ih).
    exact (proj1 (means_hv m hs lk0 D h F I Ih) M rho).
  - intros j S (a & Ia & Ej & St). destruct (Forall2_in_l _ _ _ _ (mx_as _ _ _ _ _ X) Ia) as (a' & Ia' & Ra).
    exists a'. split; auto. split; [rewrite <- Ej; apply Ra|]. exact (stands_arel m hs D m' D' a a' S I I' (or_intror Ia) (or_intror Ia') Ra St).
  - intros S St. exact (stands_arel m hs D m' D' _ _ S I I' (or_introl eq_refl) (or_introl eq_refl) (mx_tmp _ _ _ _ _ X) St).
  - intros f g F G. exact (W_canonical (World m' hs) R' f g F G).
Qed.

(** ** Checks *)
Definition vars_stay_b (p : pack_par) (m : mgr) : bool := forallb (fun i => stays p (st (me m)) i (eptr (mvb m i))) (ord (mo m)).
Lemma vars_stay_check p m : vars_stay_b p m = true -> vars_stay p m.
Proof. intros H i Ii. unfold vars_stay_b in H. rewrite forallb_forall in H. now apply H. Qed.

Lemma runs_holding l w ids : holding w ids -> exists ids', holding (fold_left run1 l w) ids'.
Proof. revert w ids. induction l as [|c l IH]; intros w ids H; cbn [fold_left]; [eauto|]. eapply IH. apply run1_holding. exact H. Qed.

(** ** Examples *)

(** Pages of one node: nodes of three variables move. *)
Definition pp1 : pack_par := PP 1 9 10.
Definition scattered : world := run (setup ++ [CBin BXor false 0 1; CTop 1; CFree; CTop 1; CFree; CGc]).
Definition table_of (m : mgr) (i : N) : list N := ut (st (me m)) i.
Definition packed (p : pack_par) (m : mgr) : mgr := match gc_repack p m with Ok m' => m' | _ => m end.
Lemma scattered_moves : vars_stay pp1 (gc (wm scattered)) /\
  table_of (wm scattered) 2 = [26; 25; 6] /\ cells_of (wm scattered) 2 = 7 /\
  table_of (packed pp1 (wm scattered)) 2 = [21; 22; 6] /\ cells_of (packed pp1 (wm scattered)) 2 = 4.
Proof. split; [apply vars_stay_check; vm_compute; reflexivity|]. split; [vm_compute; reflexivity|]. split; [vm_compute; reflexivity|]. split; vm_compute; reflexivity. Qed.
Lemma scattered_thin : thin 1 9 10 (gc (wm scattered)) 2.
Proof.
  exists 7. assert (E : cells_of (gc (wm scattered)) 2 = 7 /\ nodes_of (gc (wm scattered)) 2 = 3) by (split; vm_compute; reflexivity).
  destruct E as [-> ->]. lia.
Qed.

(** ** The counterexample: after reordering, the node of a variable is no longer the first of its pages. *)
Definition frees : list cmd := [CFree; CFree; CFree; CFree; CFree; CFree; CFree].
Notation moved_var := (fold_left run1 frees (World (reorder [0] (wm demo)) (wh demo))).
Lemma after_reorder w ids sw k : holding w ids -> ready_to_reorder (wm w) (wh w) -> reachable (fold_left run1 k (World (reorder sw (wm w)) (wh w))).
Proof.
  intros Hw Rd. assert (H : holding (World (reorder sw (wm w)) (wh w)) ids).
  { eapply ho_call; [exact Hw|]. destruct w as [m hs]. now apply st_reorder. }
  destruct (runs_holding k _ _ H) as [ids' H']. exact (holding_reaches _ _ H').
Qed.
Lemma demo_holding : exists ids, holding demo ids.
Proof. eexists. exact (run_holding _). Qed.
Lemma moved_var_reachable : reachable moved_var.
Proof. destruct demo_holding as [ids H]. exact (after_reorder demo ids [0] frees H demo_ready). Qed.

Lemma wrong_var m h i rho b : value m h rho = Some b -> b <> rho i -> ~ means m h (fun rho => rho i).
Proof. intros V Nb M. apply Nb. apply value_ev in V. specialize (M rho). exact (ev_det _ _ _ _ V _ M). Qed.
Lemma lost_var : inb 1 (ord (mo (packed pp1 (wm moved_var)))) = true /\
  inb (eptr (mvb (packed pp1 (wm moved_var)) 1)) (flat_map (table_of (packed pp1 (wm moved_var))) (0 :: ord (mo (packed pp1 (wm moved_var))))) = false /\
  (let '(h, m2) := cal_var_with_id (packed pp1 (wm moved_var)) 1 in value m2 h (fun _ => false)) = Some true.
Proof. split; [vm_compute; reflexivity|split; vm_compute; reflexivity]. Qed.
Lemma packed_ok w p : reachable w -> 0 < npp p -> tnum p <= tden p -> gc_repack p (wm w) = Ok (packed p (wm w)).
Proof. intros R Hp Ht. destruct (W_repack w p R Hp Ht) as (m' & E & _). unfold packed. rewrite E. reflexivity. Qed.
Lemma lost_gen w p i : reachable w -> 0 < npp p -> tnum p <= tden p -> inb i (ord (mo (packed p (wm w)))) = true ->
  inb (eptr (mvb (packed p (wm w)) i)) (flat_map (table_of (packed p (wm w))) (0 :: ord (mo (packed p (wm w))))) = false ->
  (let '(h, m2) := cal_var_with_id (packed p (wm w)) i in value m2 h (fun _ => false)) = Some true ->
  exists w p m', reachable w /\ 0 < npp p /\ tnum p <= tden p /\ gc_repack p (wm w) = Ok m' /\
  exists i, In i (ord (mo m')) /\ (forall v, v = 0 \/ In v (ord (mo m')) -> ~ In (eptr (mvb m' i)) (ut (st (me m')) v)) /\
    let '(h, m2) := cal_var_with_id m' i in ~ means m2 h (fun rho => rho i).
Proof.
  intros R Hp Ht Ii H1 H2. apply inb_true in Ii. exists w, p, (packed p (wm w)). split; [exact R|]. split; [exact Hp|]. split; [exact Ht|]. split; [now apply packed_ok|].
  exists i. split; [exact Ii|]. split.
  - intros v Hv Iv. apply inb_false in H1. apply H1. apply in_flat_map. exists v. split; [|exact Iv]. destruct Hv; [left; auto|right; auto].
  - destruct (cal_var_with_id (packed p (wm w)) i) as [h m2]. apply (wrong_var m2 h i _ _ H2). discriminate.
Qed.
Lemma repack_refuted : exists w p m', reachable w /\ 0 < npp p /\ tnum p <= tden p /\ gc_repack p (wm w) = Ok m' /\
  exists i, In i (ord (mo m')) /\ (forall v, v = 0 \/ In v (ord (mo m')) -> ~ In (eptr (mvb m' i)) (ut (st (me m')) v)) /\
    let '(h, m2) := cal_var_with_id m' i in ~ means m2 h (fun rho => rho i).
Proof.
  destruct lost_var as (L1 & L2 & L3). assert (Q : 0 < npp pp1 /\ tnum pp1 <= tden pp1) by (cbn [npp tnum tden pp1]; lia). destruct Q as [Q1 Q2].
  exact (lost_gen moved_var pp1 1 moved_var_reachable Q1 Q2 L1 L2 L3).
Qed.
