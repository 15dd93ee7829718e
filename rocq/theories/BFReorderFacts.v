(** * Lemmas and examples for the property of breadth-first reordering. *)
From Coq Require Import Permutation.
From Verif Require Import Base BFModel ITEModel MgrModel ApiModel GraphModel AssocModel StoreInv MInv ApiProof ApiOps ApiVar ReorderModel
  ReorderCover BFReorderModel BFReorderMgr BFSiftModel BFSiftMgr SpecMem BFReorderMem SpecApi SpecAssoc WorldProof Client ApiLemmas ApiFacts AssocProof AssocWorld AssocFacts SpecReorder ReorderFacts.
Open Scope N_scope.

Lemma W_reorder_window w lim fuel m' : reachable w -> ready_to_reorder (wm w) (wh w) -> reorder_window lim fuel (wm w) = Ok m' ->
  reachable (World m' (wh w)) /\
  (forall h F, In h (wh w) -> means (wm w) h F -> means m' h F) /\
  (forall j S, assoc_means (wm w) j S -> assoc_means m' j S) /\
  (forall S, temp_means (wm w) S -> temp_means m' S) /\
  (forall f g F G, In f (wh w) -> In g (wh w) -> means m' f F -> means m' g G -> (cal_isequal f g = true <-> same F G)) /\
  Permutation (ord (mo (wm w))) (ord (mo m')).
Proof.
  intros R Rd H. destruct w as [m hs]. cbn [wm wh] in *.
  assert (R' : reachable (World m' hs)) by (eapply re_call; [exact R|]; eapply st_reorder_window; eauto).
  destruct (reachable_inv _ R) as [D I]. cbn [wm wh] in I.
  destruct (ready_spec m hs D I Rd) as [Ha Hs]. destruct (reorder_window_spec m hs D lim fuel m' I Ha Hs H) as (D' & I' & X & P).
  split; [exact R'|]. split; [|split; [|split; [|split]]].
  - intros h F Ih Mn. apply (proj2 (means_hv m' hs lk0 D' h F I' Ih)). intros rho. rewrite (mx_h _ _ _ _ _ X h Ih).
    exact (proj1 (means_hv m hs lk0 D h F I Ih) Mn rho).
  - intros j S (a & Ia & Ej & St). destruct (Forall2_in_l _ _ _ _ (mx_as _ _ _ _ _ X) Ia) as (a' & Ia' & Ra).
    exists a'. split; auto. split; [rewrite <- Ej; apply Ra|]. exact (stands_arel m hs D m' D' a a' S I I' (or_intror Ia) (or_intror Ia') Ra St).
  - intros S St. exact (stands_arel m hs D m' D' _ _ S I I' (or_introl eq_refl) (or_introl eq_refl) (mx_tmp _ _ _ _ _ X) St).
  - intros f g F G. exact (W_canonical (World m' hs) R' f g F G).
  - now apply Permutation_sym.
Qed.

Lemma W_reorder_sift w lim maxv maxs grow m' : reachable w -> ready_to_reorder (wm w) (wh w) -> reorder_sift lim maxv maxs grow (wm w) = Ok m' ->
  reachable (World m' (wh w)) /\
  (forall h F, In h (wh w) -> means (wm w) h F -> means m' h F) /\
  (forall j S, assoc_means (wm w) j S -> assoc_means m' j S) /\
  (forall S, temp_means (wm w) S -> temp_means m' S) /\
  (forall f g F G, In f (wh w) -> In g (wh w) -> means m' f F -> means m' g G -> (cal_isequal f g = true <-> same F G)) /\
  Permutation (ord (mo (wm w))) (ord (mo m')).
Proof.
  intros R Rd H. destruct w as [m hs]. cbn [wm wh] in *.
  assert (R' : reachable (World m' hs)) by (eapply re_call; [exact R|]; eapply st_reorder_sift; eauto).
  destruct (reachable_inv _ R) as [D I]. cbn [wm wh] in I.
  destruct (ready_spec m hs D I Rd) as [Ha Hs]. destruct (reorder_sift_spec m hs D lim maxv maxs grow m' I Ha Hs H) as (D' & I' & X & P).
  split; [exact R'|]. split; [|split; [|split; [|split]]].
  - intros h F Ih Mn. apply (proj2 (means_hv m' hs lk0 D' h F I' Ih)). intros rho. rewrite (mx_h _ _ _ _ _ X h Ih).
    exact (proj1 (means_hv m hs lk0 D h F I Ih) Mn rho).
  - intros j S (a & Ia & Ej & St). destruct (Forall2_in_l _ _ _ _ (mx_as _ _ _ _ _ X) Ia) as (a' & Ia' & Ra).
    exists a'. split; auto. split; [rewrite <- Ej; apply Ra|]. exact (stands_arel m hs D m' D' a a' S I I' (or_intror Ia) (or_intror Ia') Ra St).
  - intros S St. exact (stands_arel m hs D m' D' _ _ S I I' (or_introl eq_refl) (or_introl eq_refl) (mx_tmp _ _ _ _ _ X) St).
  - intros f g F G. exact (W_canonical (World m' hs) R' f g F G).
  - now apply Permutation_sym.
Qed.

(** A world in which the order changes, and nodes disappear. *)
Definition window_report (lim : N) (fuel : nat) (w : world) : option (list N * bool) :=
  match reorder_window lim fuel (wm w) with
  | Ok m' => Some (ord (mo m'), nn (st (me m')) <? nn (st (me (wm w))))
  | _ => None
  end.
Lemma window_report_ok lim fuel w l : window_report lim fuel w = Some (l, true) ->
  exists m', reorder_window lim fuel (wm w) = Ok m' /\ ord (mo m') = l /\ (nn (st (me m')) <? nn (st (me (wm w)))) = true.
Proof.
  unfold window_report. destruct (reorder_window lim fuel (wm w)) as [m'| |]; try discriminate. intros [= E1 E2].
  exists m'. split; [exact eq_refl|]. split; [exact E1|exact E2].
Qed.
Lemma aworld_window : exists m', reorder_window 1000 20 (wm aworld) = Ok m' /\ ord (mo m') = [3; 4; 1; 2] /\ (nn (st (me m')) <? nn (st (me (wm aworld)))) = true.
Proof. apply window_report_ok. vm_compute. exact eq_refl. Qed.

(** The same for sifting; and a cell which is lost. *)
Definition in_table (m : mgr) (a : N) : bool := existsb (fun v => existsb (N.eqb a) (ut (st (me m)) v)) (0 :: ord (mo m)).
Definition in_free (m : mgr) (a : N) : bool := existsb (fun v => existsb (N.eqb a) (fl (st (me m)) v)) (0 :: ord (mo m)).
Lemma in_table_iff m a : in_table m a = true <-> holds_node m a.
Proof.
  unfold in_table, holds_node. rewrite existsb_exists. split; intros (v & Iv & H); exists v; split; auto.
  - apply existsb_exists in H as (b & Ib & E). apply N.eqb_eq in E. congruence.
  - apply existsb_exists. exists a. split; auto. apply N.eqb_refl.
Qed.
Lemma in_free_iff m a : in_free m a = true <-> free_cell m a.
Proof.
  unfold in_free, free_cell. rewrite existsb_exists. split; intros (v & Iv & H); exists v; split; auto.
  - apply existsb_exists in H as (b & Ib & E). apply N.eqb_eq in E. congruence.
  - apply existsb_exists. exists a. split; auto. apply N.eqb_refl.
Qed.
Definition sift_report (lim maxv maxs : N) (grow : N -> N) (a : N) (w : world) : option (list N * bool * (bool * (bool * bool))) :=
  match reorder_sift lim maxv maxs grow (wm w) with
  | Ok m' => Some (ord (mo m'), nn (st (me m')) <? nn (st (me (wm w))), (in_table (wm w) a, (in_table m' a, in_free m' a)))
  | _ => None
  end.
Lemma sift_report_ok lim maxv maxs grow a w l : sift_report lim maxv maxs grow a w = Some (l, true, (true, (false, false))) ->
  exists m', reorder_sift lim maxv maxs grow (wm w) = Ok m' /\ ord (mo m') = l /\ (nn (st (me m')) <? nn (st (me (wm w)))) = true /\
    holds_node (wm w) a /\ ~ holds_node m' a /\ ~ free_cell m' a.
Proof.
  unfold sift_report. destruct (reorder_sift lim maxv maxs grow (wm w)) as [m'| |]; try discriminate. intros [= E1 E2 E3 E4 E5].
  exists m'. split; [exact eq_refl|]. split; [exact E1|]. split; [exact E2|]. split; [apply in_table_iff; exact E3|]. split.
  - intros Q. apply in_table_iff in Q. rewrite Q in E4. discriminate.
  - intros Q. apply in_free_iff in Q. rewrite Q in E5. discriminate.
Qed.
Definition doubled (n : N) : N := 2 * n.
Lemma aworld_sift : exists m', reorder_sift 1000 1000 1000000 doubled (wm aworld) = Ok m' /\ ord (mo m') = [3; 4; 1; 2] /\
  (nn (st (me m')) <? nn (st (me (wm aworld)))) = true /\ holds_node (wm aworld) 12 /\ ~ holds_node m' 12 /\ ~ free_cell m' 12.
Proof. apply sift_report_ok. vm_compute. exact eq_refl. Qed.
Lemma sift_loses : exists w lim maxv maxs grow m', reachable w /\ ready_to_reorder (wm w) (wh w) /\ reorder_sift lim maxv maxs grow (wm w) = Ok m' /\
  exists a, holds_node (wm w) a /\ ~ holds_node m' a /\ ~ free_cell m' a.
Proof.
  destruct aworld_sift as (m' & H & _ & _ & L). exists aworld, 1000, 1000, 1000000, doubled, m'.
  split; [exact aworld_reachable|]. split; [exact aworld_ready|]. split; [exact H|]. exists 12. exact L.
Qed.
