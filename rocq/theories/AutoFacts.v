(** * Automatic reordering: what a client sees, and a concrete run. *)
From Coq Require Import NArith ZArith List Bool Lia Permutation.
From Verif Require Import Base BFModel ITEModel MgrModel ApiModel GraphModel AssocModel StoreInv MInv ApiProof ApiOps ApiVar ReorderModel
  ReorderCover BFReorderModel BFReorderMgr BFSiftModel BFSiftMgr AutoModel AutoProof SpecApi SpecAssoc WorldProof Client ApiLemmas ApiFacts AssocProof AssocWorld AssocFacts
  SpecReorder ReorderFacts BFReorderFacts.
Import ListNotations.
Open Scope N_scope.

Lemma auto_over d thr t m ov m' : post_auto d thr t m = Ok (ov, m') ->
  (ov = true -> mov m' = true /\ mnl m' <> 0 /\ mnl m' < nn (st (me m'))) /\
  (ov = false -> d_chk d = false -> mlim m < nn (st (me m)) -> mnl m' = 0 \/ nn (st (me m')) <= mnl m') /\
  (d_chk d = true \/ nn (st (me m)) <= mlim m -> m' = m) /\
  (t = TNone \/ nn (st (me (gc m))) <= thr -> mo m' = mo m).
Proof.
  unfold post_auto. destruct (d_chk d) eqn:Ed.
  { intros [= <- <-]. repeat split; intros; try discriminate. }
  destruct (N.ltb_spec (mlim m) (nn (st (me m)))) as [L|L].
  2:{ intros [= <- <-]. repeat split; intros; try discriminate. lia. }
  cbv zeta. intros H.
  assert (S : t = TNone \/ nn (st (me (gc m))) <= thr -> must_reorder thr t (gc m) = false).
  { intros [->|Q]; unfold must_reorder; cbn [is_none negb]; [apply andb_false_r|]. now rewrite (proj2 (N.ltb_ge _ _) Q). }
  destruct (if must_reorder thr t (gc m) then reorder_now t (gc m) else Ok (gc m)) as [m1| |] eqn:E1; try discriminate.
  cbn [obind] in H.
  assert (Q : t = TNone \/ nn (st (me (gc m))) <= thr -> mo m1 = mo m).
  { intros G. rewrite (S G) in E1. injection E1 as <-. apply (gc_fields m). }
  destruct (negb (mnl (set_gclimit m1) =? 0) && (mnl (set_gclimit m1) <? nn (st (me (set_gclimit m1))))) eqn:O; injection H as <- <-.
  - apply andb_prop in O as [O1 O2]. apply negb_true_iff, N.eqb_neq in O1. apply N.ltb_lt in O2.
    split; [intros _; split; [reflexivity|split; [exact O1|exact O2]]|]. split; [discriminate|]. split; [|exact Q].
    intros [X|X]; [discriminate|lia].
  - split; [discriminate|]. split.
    + intros _ _ _. apply andb_false_iff in O as [O|O].
      * left. apply negb_false_iff, N.eqb_eq in O. exact O.
      * right. apply N.ltb_ge in O. exact O.
    + split; [|exact Q]. intros [X|X]; [discriminate|lia].
Qed.

Lemma W_post_auto w d thr t ov m' : reachable w -> ready_to_reorder (wm w) (wh w) -> post_auto d thr t (wm w) = Ok (ov, m') ->
  reachable (World m' (wh w)) /\
  (forall h F, In h (wh w) -> means (wm w) h F -> means m' h F) /\
  (forall j S, assoc_means (wm w) j S -> assoc_means m' j S) /\
  (forall S, temp_means (wm w) S -> temp_means m' S) /\
  (forall f g F G, In f (wh w) -> In g (wh w) -> means m' f F -> means m' g G -> (cal_isequal f g = true <-> same F G)) /\
  Permutation (ord (mo (wm w))) (ord (mo m')) /\
  (ov = true -> mov m' = true /\ mnl m' <> 0 /\ mnl m' < nn (st (me m'))) /\
  (ov = false -> d_chk d = false -> mlim (wm w) < nn (st (me (wm w))) -> mnl m' = 0 \/ nn (st (me m')) <= mnl m') /\
  (d_chk d = true \/ nn (st (me (wm w))) <= mlim (wm w) -> m' = wm w) /\
  (t = TNone \/ nn (st (me (gc (wm w)))) <= thr -> mo m' = mo (wm w)).
Proof.
  intros R Rd H. destruct w as [m hs]. cbn [wm wh] in *.
  assert (R' : reachable (World m' hs)) by (eapply re_call; [exact R|]; eapply st_post_auto; eauto).
  destruct (reachable_inv _ R) as [D I]. cbn [wm wh] in I.
  destruct (ready_spec m hs D I Rd) as [Ha Hs]. destruct (post_auto_spec m hs D d thr t ov m' I Ha Hs H) as (D' & I' & X & P).
  split; [exact R'|]. split; [|split; [|split; [|split; [|split]]]].
  - intros h F Ih Mn. apply (proj2 (means_hv m' hs lk0 D' h F I' Ih)). intros rho. rewrite (mx_h _ _ _ _ _ X h Ih).
    exact (proj1 (means_hv m hs lk0 D h F I Ih) Mn rho).
  - intros j S (a & Ia & Ej & St). destruct (Forall2_in_l _ _ _ _ (mx_as _ _ _ _ _ X) Ia) as (a' & Ia' & Ra).
    exists a'. split; auto. split; [rewrite <- Ej; apply Ra|]. exact (stands_arel m hs D m' D' a a' S I I' (or_intror Ia) (or_intror Ia') Ra St).
  - intros S St. exact (stands_arel m hs D m' D' _ _ S I I' (or_introl eq_refl) (or_introl eq_refl) (mx_tmp _ _ _ _ _ X) St).
  - intros f g F G. exact (W_canonical (World m' hs) R' f g F G).
  - now apply Permutation_sym.
  - exact (auto_over d thr t m ov m' H).
Qed.

(** [aworld] with a limit of eight nodes, of which it has eleven. *)
Definition limited (z : Z) (w : world) : world := World (snd (cal_nodelimit (wm w) z)) (wh w).
Lemma limit_reach z w : reachable w -> reachable (limited z w).
Proof. intros R. destruct w as [m hs]. eapply re_call; [exact R|]. eapply st_nodelimit. reflexivity. Qed.
Lemma limit_ready z w : ready_to_reorder (wm w) (wh w) -> ready_to_reorder (wm (limited z w)) (wh (limited z w)).
Proof. intros H. destruct w as [m hs]. exact H. Qed.
Notation lworld := (limited 8 aworld).
Lemma lworld_reachable : reachable lworld.
Proof. exact (limit_reach 8 aworld aworld_reachable). Qed.
Lemma lworld_ready : ready_to_reorder (wm lworld) (wh lworld).
Proof. exact (limit_ready 8 aworld aworld_ready). Qed.
Definition auto_report (t : technique) (m : mgr) : option (bool * (list N * (N * N))) :=
  match post_auto dec1 5 t m with Ok (ov, m') => Some (ov, (ord (mo m'), (nn (st (me m')), mlim m'))) | _ => None end.
Lemma auto_report_ok t m ov l n k : auto_report t m = Some (ov, (l, (n, k))) ->
  exists m', post_auto dec1 5 t m = Ok (ov, m') /\ ord (mo m') = l /\ nn (st (me m')) = n /\ mlim m' = k.
Proof.
  unfold auto_report. destruct (post_auto dec1 5 t m) as [[ov' m']| |]; try discriminate. intros [= -> E1 E2 E3].
  exists m'. split; [exact eq_refl|]. split; [exact E1|]. split; [exact E2|exact E3].
Qed.
Lemma lworld_window : exists m', post_auto dec1 5 (TWindow 1000 20) (wm lworld) = Ok (false, m') /\ ord (mo m') = [3; 4; 1; 2] /\
  nn (st (me m')) = 7 /\ mlim m' = 8.
Proof. apply auto_report_ok. vm_compute. exact eq_refl. Qed.
Lemma lworld_sift : exists m', post_auto dec1 5 (TSift 1000 1000 1000000 doubled) (wm lworld) = Ok (false, m') /\ ord (mo m') = [3; 4; 1; 2] /\
  nn (st (me m')) = 7 /\ mlim m' = 8.
Proof. apply auto_report_ok. vm_compute. exact eq_refl. Qed.
Lemma lworld_none : exists m', post_auto dec1 5 TNone (wm lworld) = Ok (true, m') /\ ord (mo m') = [1; 4; 2; 3] /\
  nn (st (me m')) = 11 /\ mlim m' = 8.
Proof. apply auto_report_ok. vm_compute. exact eq_refl. Qed.
