(** * Variable blocks: proofs. *)
From Coq Require Import ZArith List Lia Permutation.
From Verif Require Import Base BFModel BlockModel SpecBlock.
Import ListNotations.
Open Scope Z_scope.

Scheme wf_ind2 := Induction for wf Sort Prop with tiles_ind2 := Induction for tiles Sort Prop.
Combined Scheme wf_tiles_ind from wf_ind2, tiles_ind2.
Lemma block_rect2 (P : block -> Prop) : (forall r f l ch, (forall c, In c ch -> P c) -> P (Blk r f l ch)) -> forall b, P b.
Proof.
  intros H. fix IH 1. intros [r f l ch]. apply H. induction ch as [|c ch IHc]; intros x Hx; [destruct Hx|].
  destruct Hx as [E|Hx]; [exact (eq_ind c P (IH c) x E)|]. now apply IHc.
Qed.

Lemma wf_le0 : (forall lo hi b, wf lo hi b -> lo <= hi) /\ (forall lo hi ch, tiles lo hi ch -> lo - 1 <= hi /\ (ch <> [] -> lo <= hi)).
Proof.
  apply wf_tiles_ind; intros.
  - lia.
  - destruct H as [_ H]. now apply H.
  - split; [lia|congruence].
  - split; intros; lia.
Qed.
Lemma wf_le : (forall lo hi b, wf lo hi b -> lo <= hi) /\ (forall lo hi ch, tiles lo hi ch -> lo - 1 <= hi).
Proof. split; [exact (proj1 wf_le0)|]. intros lo hi ch T. exact (proj1 (proj2 wf_le0 lo hi ch T)). Qed.
Lemma wf_bounds lo hi b : wf lo hi b -> bfirst b = lo /\ blast b = hi.
Proof. destruct 1; auto. Qed.
Lemma tiles_app lo hi l1 l2 : tiles lo hi (l1 ++ l2) <-> exists mid, tiles lo (mid - 1) l1 /\ tiles mid hi l2.
Proof.
  revert lo. induction l1 as [|b l1 IH]; intros lo; simpl.
  - split.
    + intros H. exists lo. split; auto. constructor.
    + intros (mid & H1 & H2). inversion H1; subst. replace lo with mid by lia. exact H2.
  - split.
    + intros H. inversion H as [|? m1 ? ? ? W T]; subst. apply IH in T as (mid & T1 & T2). exists mid. split; auto. econstructor; eauto.
    + intros (mid & H1 & H2). inversion H1 as [|? m1 ? ? ? W T]; subst. econstructor; eauto. apply IH. eauto.
Qed.
Lemma tiles_nth lo hi ch k c : tiles lo hi ch -> nth_error ch k = Some c ->
  lo <= bfirst c /\ bfirst c <= blast c /\ blast c <= hi /\ wf (bfirst c) (blast c) c.
Proof.
  intros T H. apply nth_error_split in H as (l1 & l2 & -> & _). apply tiles_app in T as (mid & T1 & T2).
  inversion T2 as [|? m1 ? ? ? W T3]; subst. destruct (wf_bounds _ _ _ W) as [-> ->].
  pose proof (proj2 wf_le _ _ _ T1). pose proof (proj1 wf_le _ _ _ W). pose proof (proj2 wf_le _ _ _ T3). repeat split; try lia. exact W.
Qed.
Lemma tiles_lt lo hi ch j k c d : tiles lo hi ch -> nth_error ch j = Some c -> nth_error ch k = Some d -> (j < k)%nat -> blast c < bfirst d.
Proof.
  intros T H H2 L. apply nth_error_split in H as (l1 & l2 & -> & E). apply tiles_app in T as (mid & T1 & T2).
  inversion T2 as [|? m1 ? ? ? W T3]; subst. destruct (wf_bounds _ _ _ W) as [_ ->].
  rewrite nth_error_app2 in H2 by lia. replace (k - length l1)%nat with (S (k - length l1 - 1)) in H2 by lia. simpl in H2.
  apply (tiles_nth _ _ _ _ _ T3) in H2. lia.
Qed.

(** ** Binary search *)
Definition below (ch : list block) (x : Z) (i : Z) : Prop := forall k c, nth_error ch k = Some c -> Z.of_nat k < i -> blast c < x.
Definition above (ch : list block) (x : Z) (j : Z) : Prop := forall k c, nth_error ch k = Some c -> j < Z.of_nat k -> x < bfirst c.
Lemma find_loop_spec lo hi ch x : tiles lo hi ch -> forall fuel i j, 0 <= i -> i <= j + 1 -> j < Z.of_nat (length ch) ->
  j - i + 1 < Z.of_nat fuel -> below ch x i -> above ch x j ->
  exists r, find_loop fuel ch x i j = Some r /\
    ((exists c, 0 <= r /\ nth_error ch (Z.to_nat r) = Some c /\ bfirst c <= x <= blast c) \/
     (0 <= r <= Z.of_nat (length ch) /\ below ch x r /\ above ch x (r - 1))).
Proof.
  intros T. induction fuel as [|fuel IH]; intros i j Hi Hij Hj Hf B A; [lia|]. cbn [find_loop].
  destruct (Z.ltb_spec j i) as [L|L].
  - exists i. split; auto. right. split; [lia|]. split; auto. now replace (i - 1) with j by lia.
  - set (k := (i + j) / 2). assert (Hk : i <= k <= j) by (unfold k; split; [apply Z.div_le_lower_bound|apply Z.div_le_upper_bound]; lia).
    destruct (Z.ltb_spec k 0); [lia|]. destruct (nth_error ch (Z.to_nat k)) as [c|] eqn:E; [|apply nth_error_None in E; lia].
    destruct (Z.leb_spec (bfirst c) x), (Z.leb_spec x (blast c)); cbn [andb].
    + exists k. split; auto. left. exists c. auto.
    + destruct (Z.ltb_spec x (bfirst c)); [lia|]. apply IH; auto; try lia.
      intros p d Hp Lp. destruct (Z.eq_dec (Z.of_nat p) k) as [Ep|Np].
      * replace p with (Z.to_nat k) in Hp by lia. assert (d = c) by congruence. subst d. lia.
      * pose proof (tiles_lt _ _ _ p (Z.to_nat k) d c T Hp E). destruct (tiles_nth _ _ _ _ _ T E). lia.
    + destruct (Z.ltb_spec x (bfirst c)); [|lia]. apply IH; auto; try lia.
      intros p d Hp Lp. destruct (Z.eq_dec (Z.of_nat p) k) as [Ep|Np].
      * replace p with (Z.to_nat k) in Hp by lia. assert (d = c) by congruence. subst d. lia.
      * pose proof (tiles_lt _ _ _ (Z.to_nat k) p c d T E Hp). destruct (tiles_nth _ _ _ _ _ T E). lia.
    + destruct (tiles_nth _ _ _ _ _ T E). lia.
Qed.
Lemma find_spec lo hi ch x : tiles lo hi ch -> lo <= x <= hi ->
  exists l1 c l2, ch = l1 ++ c :: l2 /\ find_block ch x = Some (Z.of_nat (length l1)) /\ bfirst c <= x <= blast c.
Proof.
  intros T Hx. unfold find_block.
  destruct (find_loop_spec lo hi ch x T (S (length ch)) 0 (Z.of_nat (length ch) - 1)) as (r & -> & [(c & Hr & E & Hc)|(Hr & B & A)]); try lia.
  - intros k c H1 H2. lia.
  - intros k c H1 H2. assert (k < length ch)%nat by (apply nth_error_Some; congruence). lia.
  - apply nth_error_split in E as (l1 & l2 & -> & El). exists l1, c, l2. split; auto. split; auto. f_equal. lia.
  - exfalso. set (k := Z.to_nat r) in *. assert (Er : r = Z.of_nat k) by lia. clearbody k. subst r. clear Hr.
    revert lo k T Hx A B. induction ch as [|c ch IH]; intros lo k T Hx A B.
    + inversion T; subst. lia.
    + inversion T as [|? m1 ? ? ? W T3]; subst. destruct (wf_bounds _ _ _ W) as [E1 E2]. destruct k as [|k].
      * specialize (A 0%nat c eq_refl). lia.
      * pose proof (B 0%nat c eq_refl). apply (IH (m1 + 1) k T3); [lia| |].
        -- intros p d Hp Lp. apply (A (S p) d Hp). lia.
        -- intros p d Hp Lp. apply (B (S p) d Hp). lia.
Qed.
Lemma find_end lo hi ch : tiles lo hi ch -> find_block ch (hi + 1) = Some (Z.of_nat (length ch)).
Proof.
  intros T. unfold find_block.
  destruct (find_loop_spec lo hi ch (hi + 1) T (S (length ch)) 0 (Z.of_nat (length ch) - 1)) as (r & -> & [(c & Hr & E & Hc)|(Hr & B & A)]); try lia.
  - intros k c H1 H2. lia.
  - intros k c H1 H2. assert (k < length ch)%nat by (apply nth_error_Some; congruence). lia.
  - destruct (tiles_nth _ _ _ _ _ T E). lia.
  - f_equal. destruct (Z.eq_dec r (Z.of_nat (length ch))); auto. destruct (nth_error ch (Z.to_nat r)) as [c|] eqn:E; [|apply nth_error_None in E; lia].
    pose proof (A _ _ E). destruct (tiles_nth _ _ _ _ _ T E). lia.
Qed.

(** ** Moving whole blocks *)
Lemma delta_wf d : (forall lo hi b, wf lo hi b -> wf (lo + d) (hi + d) (block_delta d b)) /\
  (forall lo hi ch, tiles lo hi ch -> tiles (lo + d) (hi + d) (map (block_delta d) ch)).
Proof.
  apply wf_tiles_ind; simpl; intros.
  - constructor.
  - now constructor.
  - replace (lo - 1 + d) with (lo + d - 1) by lia. constructor.
  - econstructor; eauto. now replace (mid + d + 1) with (mid + 1 + d) by lia.
Qed.
Lemma flat_map_map {A B C} (f : A -> B) (g : B -> list C) l : flat_map g (map f l) = flat_map (fun x => g (f x)) l.
Proof. induction l; simpl; congruence. Qed.
Lemma map_flat_map {A B C} (f : A -> list B) (g : B -> C) l : map g (flat_map f l) = flat_map (fun x => map g (f x)) l.
Proof. induction l; simpl; auto. now rewrite map_app, IHl. Qed.
Lemma flat_map_ext_in' {A B} (f g : A -> list B) l : (forall x, In x l -> f x = g x) -> flat_map f l = flat_map g l.
Proof. induction l; simpl; intros H; auto. rewrite H by auto. rewrite IHl; auto. Qed.
Definition plus (d : Z) (r : bool * Z * Z) : bool * Z * Z := let '(re, f, l) := r in (re, f + d, l + d).
Lemma delta_ranges d b : ranges (block_delta d b) = map (plus d) (ranges b).
Proof.
  induction b as [r f l ch IH] using block_rect2. simpl. f_equal. rewrite flat_map_map, map_flat_map. now apply flat_map_ext_in'.
Qed.
Lemma ranges_in : (forall lo hi b, wf lo hi b -> forall re f l, In (re, f, l) (ranges b) -> lo <= f <= l /\ l <= hi) /\
  (forall lo hi ch, tiles lo hi ch -> forall re f l, In (re, f, l) (flat_map ranges ch) -> lo <= f <= l /\ l <= hi).
Proof.
  apply wf_tiles_ind; simpl.
  - intros re k re' f l [H|[]]. injection H as _ <- <-. lia.
  - intros re lo hi b ch T IH re' f l [H|H]; [|now apply (IH re')]. injection H as _ <- <-. pose proof (proj2 wf_le _ _ _ T).
    inversion T as [|? m1 ? ? ? W T3]; subst. pose proof (proj1 wf_le _ _ _ W). pose proof (proj2 wf_le _ _ _ T3). lia.
  - intros lo re f l [].
  - intros lo mid hi b ch W IHW T IHT re f l H. pose proof (proj1 wf_le _ _ _ W). pose proof (proj2 wf_le _ _ _ T).
    apply in_app_or in H as [H|H]; [apply IHW in H|apply IHT in H]; lia.
Qed.

(** ** Creating a variable *)
Definition shifted (index : Z) (cs : list block) : option (list block) :=
  fold_right (fun c r => match shift_block index c, r with Some c', Some cs' => Some (c' :: cs') | _, _ => None end) (Some []) cs.
Lemma go_shift index (i : Z) cs : forall k,
  (fix go (k : Z) (cs : list block) : option (list block) :=
     match cs with
     | [] => Some []
     | c :: cs => match (if k <? i then Some c else shift_block index c), go (k + 1) cs with
                  | Some c', Some cs' => Some (c' :: cs') | _, _ => None end
     end) k cs =
  match shifted index (skipn (Z.to_nat (i - k)) cs) with Some cs' => Some (firstn (Z.to_nat (i - k)) cs ++ cs') | None => None end.
Proof.
  induction cs as [|c cs IH]; intros k.
  - now rewrite skipn_nil, firstn_nil.
  - destruct (Z.ltb_spec k i) as [L|L].
    + rewrite IH. replace (Z.to_nat (i - k)) with (S (Z.to_nat (i - (k + 1)))) by lia. cbn [skipn firstn]. now destruct (shifted _ _).
    + rewrite IH. replace (Z.to_nat (i - (k + 1))) with 0%nat by lia. replace (Z.to_nat (i - k)) with 0%nat by lia. cbn [skipn firstn app shifted fold_right].
      destruct (shift_block index c); auto. now destruct (shifted index cs) eqn:E; unfold shifted in *; rewrite E.
Qed.

Lemma shift_right index : forall lo hi ch, tiles lo hi ch -> index <= lo -> shifted index ch = Some (map (block_delta 1) ch).
Proof.
  intros lo hi ch. revert lo. induction ch as [|c ch IH]; intros lo T L; auto. inversion T as [|? m1 ? ? ? W T3]; subst.
  cbn [shifted fold_right]. fold (shifted index ch). pose proof (proj1 wf_le _ _ _ W).
  rewrite (IH (m1 + 1)) by (auto; lia). destruct (wf_bounds _ _ _ W) as [E1 E2]. destruct c as [r f l cs]. simpl in E1, E2. subst f l.
  simpl. destruct (Z.leb_spec index lo); [reflexivity|lia].
Qed.
Lemma moved_right k r f l : k <= f -> moved k (r, f, l) = plus 1 (r, f, l).
Proof. intros H. simpl. destruct (Z.leb_spec k f); [auto|lia]. Qed.
Lemma moved_left k r f l : l < k -> f <= l -> moved k (r, f, l) = (r, f, l).
Proof. intros H H1. simpl. destruct (Z.leb_spec k f); [lia|]. destruct (Z.ltb_spec l k); [auto|lia]. Qed.
Lemma map_moved_right lo hi ch k : tiles lo hi ch -> k <= lo -> map (moved k) (flat_map ranges ch) = map (plus 1) (flat_map ranges ch).
Proof. intros T H. apply map_ext_in. intros [[r f] l] Hi. apply (proj2 ranges_in _ _ _ T) in Hi. apply moved_right. lia. Qed.
Lemma map_moved_left lo hi ch k : tiles lo hi ch -> hi < k -> map (moved k) (flat_map ranges ch) = flat_map ranges ch.
Proof. intros T H. rewrite <- map_id. apply map_ext_in. intros [[r f] l] Hi. apply (proj2 ranges_in _ _ _ T) in Hi. apply moved_left; lia. Qed.
Lemma delta_list d ch : flat_map ranges (map (block_delta d) ch) = map (plus d) (flat_map ranges ch).
Proof. rewrite flat_map_map, map_flat_map. apply flat_map_ext_in'. intros b _. apply delta_ranges. Qed.

(** The body of the function on the list of children. *)
Definition shift_children (index : Z) (ch : list block) : option (list block) :=
  match find_block ch index with
  | None => None
  | Some i =>
      match shifted index (skipn (Z.to_nat i) ch) with
      | None => None
      | Some cs =>
          let ch' := firstn (Z.to_nat i) ch ++ cs in
          let fresh := (i =? Z.of_nat (length ch)) ||
                       match nth_error ch (Z.to_nat i) with Some c => bfirst c =? index | None => false end in
          Some (if fresh then firstn (Z.to_nat i) ch' ++ Blk false index index [] :: skipn (Z.to_nat i) ch' else ch')
      end
  end.
Lemma shift_eq index r f l ch : shift_block index (Blk r f l ch) =
  if index <=? f then Some (block_delta 1 (Blk r f l ch)) else if l <? index then Some (Blk r f l ch)
  else match shift_children index ch with None => None | Some ch' => Some (Blk r f (l + 1) ch') end.
Proof.
  cbn [shift_block]. destruct (index <=? f); auto. destruct (l <? index); auto. unfold shift_children.
  destruct (find_block ch index) as [i|]; auto. rewrite go_shift. rewrite Z.sub_0_r. now destruct (shifted index (skipn (Z.to_nat i) ch)).
Qed.

Definition Pwf (index : Z) (lo hi : Z) (b : block) : Prop := lo < index <= hi ->
  exists b', shift_block index b = Some b' /\ wf lo (hi + 1) b' /\
    Permutation (ranges b') ((false, index, index) :: map (moved index) (ranges b)).
Definition Pch (index : Z) (lo hi : Z) (ch : list block) : Prop := lo <= index <= hi + 1 ->
  exists ch', shift_children index ch = Some ch' /\ tiles lo (hi + 1) ch' /\
    Permutation (flat_map ranges ch') ((false, index, index) :: map (moved index) (flat_map ranges ch)).

Lemma shift_children_spec index lo hi ch : tiles lo hi ch -> (forall c, In c ch -> Pwf index (bfirst c) (blast c) c) -> Pch index lo hi ch.
Proof.
  intros T Hc Hx. unfold shift_children. destruct (Z.eq_dec index (hi + 1)) as [->|Nx].
  - rewrite (find_end _ _ _ T). rewrite Z.eqb_refl. cbn [orb]. rewrite Nat2Z.id, skipn_all, firstn_all. cbn [shifted fold_right]. rewrite app_nil_r, skipn_all, firstn_all.
    eexists. split; [reflexivity|]. split.
    + apply tiles_app. exists (hi + 1). split; [now replace (hi + 1 - 1) with hi by lia|]. econstructor; [constructor|]. replace (hi + 1) with (hi + 1 + 1 - 1) at 2 by lia. constructor.
    + rewrite flat_map_app. simpl. rewrite (map_moved_left _ _ _ _ T) by lia. symmetry. apply Permutation_cons_append.
  - destruct (find_spec _ _ _ index T) as (l1 & c & l2 & -> & -> & Hcx); [lia|].
    apply tiles_app in T as (mid & T1 & T2). inversion T2 as [|? m1 ? ? ? W T3]; subst. destruct (wf_bounds _ _ _ W) as [E1 E2]. rewrite E1, E2 in Hcx.
    rewrite Nat2Z.id, skipn_app, skipn_all, Nat.sub_diag, firstn_app, firstn_all, Nat.sub_diag. cbn [skipn firstn app]. rewrite app_nil_r.
    rewrite nth_error_app2, Nat.sub_diag by lia. cbn [nth_error].
    destruct (Z.eqb_spec (Z.of_nat (length l1)) (Z.of_nat (length (l1 ++ c :: l2)))) as [E|_]; [rewrite app_length in E; simpl in E; lia|]. cbn [orb].
    rewrite E1. destruct (Z.eqb_spec mid index) as [->|Nm].
    + rewrite (shift_right index index hi) by (auto; lia). eexists. split; [reflexivity|].
      rewrite firstn_app, firstn_all, Nat.sub_diag, skipn_app, skipn_all, Nat.sub_diag. cbn [firstn skipn app]. rewrite app_nil_r.
      split.
      * apply tiles_app. exists index. split; auto. econstructor; [constructor|]. now apply (proj2 (delta_wf 1)).
      * rewrite flat_map_app. cbn [flat_map ranges app]. rewrite delta_list. rewrite flat_map_app, map_app.
        rewrite (map_moved_left _ _ _ _ T1) by lia. rewrite (map_moved_right _ _ _ _ T2) by lia.
        rewrite Permutation_middle. apply Permutation_app_head. reflexivity.
    + cbn [shifted fold_right]. fold (shifted index l2). destruct (Hc c) as (c' & Ec & Wc & Pc); [apply in_elt|lia|]. rewrite Ec. rewrite E1, E2 in Wc.
      rewrite (shift_right index (m1 + 1) hi) by (auto; lia). eexists. split; [reflexivity|]. split.
      * apply tiles_app. exists mid. split; auto. econstructor; [exact Wc|]. now apply (proj2 (delta_wf 1)).
      * rewrite !flat_map_app. cbn [flat_map]. rewrite !map_app, delta_list. rewrite (map_moved_left _ _ _ _ T1) by lia.
        rewrite (map_moved_right _ _ _ _ T3) by lia. rewrite Pc. cbn [app]. symmetry. rewrite Permutation_middle. reflexivity.
Qed.
Lemma shift_wf index b : forall lo hi, wf lo hi b -> Pwf index lo hi b.
Proof.
  induction b as [r f l ch IH] using block_rect2. intros lo hi W Hx.
  destruct (wf_bounds _ _ _ W) as [E1 E2]. simpl in E1, E2. subst f l. rewrite shift_eq. destruct (Z.leb_spec index lo); [lia|]. destruct (Z.ltb_spec hi index); [lia|].
  inversion W as [|? ? ? b ch0 T]; subst; [lia|].
  destruct (shift_children_spec index lo hi (b :: ch0) T) as (ch' & -> & T' & P'); [|lia|].
  - intros c Ic. apply IH; auto. apply In_nth_error in Ic as [k Ek]. now apply (tiles_nth _ _ _ _ _ T) in Ek as (_ & _ & _ & ?).
  - eexists. split; [reflexivity|]. split.
    + destruct ch' as [|b' ch']; [inversion T'; subst; lia|]. now constructor.
    + cbn [ranges]. rewrite P'. cbn [map]. replace (moved index (r, lo, hi)) with (r, lo, hi + 1); [constructor|].
      simpl. destruct (Z.leb_spec index lo); [lia|]. destruct (Z.ltb_spec hi index); [lia|reflexivity].
Qed.
Theorem new_variable_spec n s index : 0 <= n -> wf_super n s -> 0 <= index <= n ->
  exists s', shift_block index s = Some s' /\ wf_super (n + 1) s' /\ bre s' = bre s /\
    Permutation (inner s') ((false, index, index) :: map (moved index) (inner s)).
Proof.
  intros Hn (E1 & E2 & T) Hx. destruct s as [r f l ch]. simpl in E1, E2, T. subst f l. rewrite shift_eq.
  destruct (Z.leb_spec index (-1)); [lia|]. destruct (Z.ltb_spec n index); [lia|].
  destruct (shift_children_spec index 0 (n - 1) ch T) as (ch' & -> & T' & P'); [|lia|].
  - intros c Ic. apply shift_wf. apply In_nth_error in Ic as [k Ek]. now apply (tiles_nth _ _ _ _ _ T) in Ek as (_ & _ & _ & ?).
  - eexists. split; [reflexivity|]. split; [|split; auto]. split; [auto|]. split; [reflexivity|]. simpl. now replace (n + 1 - 1) with (n - 1 + 1) by lia.
Qed.

(** ** Creating a block *)
Lemma fits_app f l a b : fits f l (a ++ b) <-> fits f l a /\ fits f l b.
Proof. unfold fits. setoid_rewrite in_app_iff. split; [intros H; split; intros; eapply H; eauto|intros [H1 H2] re x y [H|H]; eauto]. Qed.
Lemma fits_out f l lo hi ch : tiles lo hi ch -> hi < f \/ l < lo -> fits f l (flat_map ranges ch).
Proof. intros T H re a b Hi. apply (proj2 ranges_in _ _ _ T) in Hi. unfold nested. simpl. lia. Qed.
Lemma fits_out1 f l lo hi b : wf lo hi b -> hi < f \/ l < lo -> fits f l (ranges b).
Proof. intros T H re x y Hi. apply (proj1 ranges_in _ _ _ T) in Hi. unfold nested. simpl. lia. Qed.

Definition go_add (f l i : Z) := fix go (k : Z) (cs : list block) : outcome (list block) :=
  match cs with
  | [] => Ok []
  | c :: cs =>
      if k =? i then match add_block f l c with Ok c' => Ok (c' :: cs) | Fatal => Fatal | Undefined => Undefined end
      else match go (k + 1) cs with Ok cs' => Ok (c :: cs') | Fatal => Fatal | Undefined => Undefined end
  end.
Lemma go_add_spec f l l1 c l2 : forall k, go_add f l (k + Z.of_nat (length l1)) k (l1 ++ c :: l2) =
  match add_block f l c with Ok c' => Ok (l1 ++ c' :: l2) | Fatal => Fatal | Undefined => Undefined end.
Proof.
  induction l1 as [|b l1 IH]; intros k; cbn [app length].
  - cbn [go_add]. rewrite Z.add_0_r, Z.eqb_refl. reflexivity.
  - cbn [go_add]. destruct (Z.eqb_spec k (k + Z.of_nat (S (length l1)))); [lia|].
    fold (go_add f l (k + Z.of_nat (S (length l1)))). replace (k + Z.of_nat (S (length l1))) with (k + 1 + Z.of_nat (length l1)) by lia. rewrite IH.
    now destruct (add_block f l c).
Qed.

Definition add_spec (f l : Z) (rs : list (bool * Z * Z)) {A} (r : outcome A) (good : A -> Prop) : Prop :=
  (fits f l rs -> exists a, r = Ok a /\ good a) /\ (~ fits f l rs -> r = Fatal).

Definition wrap (r1 : bool) (f1 l1 : Z) (r : outcome (list block)) : outcome block :=
  match r with Ok ch => Ok (Blk r1 f1 l1 ch) | Fatal => Fatal | Undefined => Undefined end.
Definition add_children (f l : Z) (ch : list block) : outcome (list block) :=
  match ch with
  | [] => Ok [Blk false f l []]
  | _ =>
      match find_block ch f, find_block ch l with
      | Some i, Some j =>
          if (0 <=? i) && (i <? Z.of_nat (length ch)) && (0 <=? j) && (j <? Z.of_nat (length ch)) then
            if i =? j then go_add f l i 0 ch
            else
              match nth_error ch (Z.to_nat i), nth_error ch (Z.to_nat j) with
              | Some start, Some end_ =>
                  if negb (bfirst start =? f) || negb (blast end_ =? l) then Fatal
                  else Ok (firstn (Z.to_nat i) ch ++
                         Blk false f l (firstn (Z.to_nat (j - i + 1)) (skipn (Z.to_nat i) ch)) :: skipn (Z.to_nat (j + 1)) ch)
              | _, _ => Undefined
              end
          else Undefined
      | _, _ => Undefined
      end
  end.
Lemma add_eq f l r1 f1 l1 ch : add_block f l (Blk r1 f1 l1 ch) = wrap r1 f1 l1 (add_children f l ch).
Proof.
  cbn [add_block]. unfold add_children. destruct ch as [|c ch]; auto. destruct (find_block (c :: ch) f) as [i|]; auto. destruct (find_block (c :: ch) l) as [j|]; auto.
  destruct ((0 <=? i) && (i <? Z.of_nat (length (c :: ch))) && (0 <=? j) && (j <? Z.of_nat (length (c :: ch)))); auto.
  destruct (i =? j); [reflexivity|]. destruct (nth_error (c :: ch) (Z.to_nat i)); auto. destruct (nth_error (c :: ch) (Z.to_nat j)); auto.
  now destruct (_ || _).
Qed.

(** Two positions of a list of children. *)
Lemma two_splits {A} (l1 l2 l3 l4 : list A) c d : l1 ++ c :: l2 = l3 ++ d :: l4 -> (length l1 < length l3)%nat ->
  exists m, l3 = l1 ++ c :: m /\ l2 = m ++ d :: l4.
Proof.
  revert l3. induction l1 as [|a l1 IH]; intros [|b l3] E L; simpl in *; try lia.
  - injection E as <- ->. exists l3. auto.
  - injection E as <- E. destruct (IH l3 E) as (m & -> & ->); [lia|]. exists m. auto.
Qed.
Lemma split_same {A} (l1 l2 l3 l4 : list A) c d : l1 ++ c :: l2 = l3 ++ d :: l4 -> length l1 = length l3 -> l1 = l3 /\ c = d /\ l2 = l4.
Proof.
  revert l3. induction l1 as [|a l1 IH]; intros [|b l3] E L; simpl in *; try lia.
  - now injection E.
  - injection E as <- E. destruct (IH l3 E) as (-> & -> & ->); auto.
Qed.
Lemma in_range r f l b : (r, f, l) = (bre b, bfirst b, blast b) -> In (r, f, l) (ranges b).
Proof. destruct b as [r0 f0 l0 ch]. simpl. intros ->. now left. Qed.

Lemma add_children_spec f l lo hi ch : ch <> [] -> tiles lo hi ch -> lo <= f <= l -> l <= hi ->
  (forall c, In c ch -> bfirst c <= f <= l -> l <= blast c ->
     add_spec f l (ranges c) (add_block f l c) (fun c' => wf (bfirst c) (blast c) c' /\ Permutation (ranges c') ((false, f, l) :: ranges c))) ->
  add_spec f l (flat_map ranges ch) (add_children f l ch)
    (fun ch' => tiles lo hi ch' /\ ch' <> [] /\ Permutation (flat_map ranges ch') ((false, f, l) :: flat_map ranges ch)).
Proof.
  intros Ne T Hf Hl Hc. unfold add_children. destruct ch as [|c0 ch0] eqn:Ech; [congruence|]. rewrite <- Ech in *. clear Ech c0 ch0.
  destruct (find_spec _ _ _ f T) as (l1 & c & l2 & E1 & -> & Hcf); [lia|]. destruct (find_spec _ _ _ l T) as (l3 & d & l4 & E2 & -> & Hdl); [lia|].
  assert (L1 : (length l1 < length ch)%nat) by (rewrite E1, app_length; simpl; lia).
  assert (L3 : (length l3 < length ch)%nat) by (rewrite E2, app_length; simpl; lia).
  destruct (Z.leb_spec 0 (Z.of_nat (length l1))); [|lia]. destruct (Z.ltb_spec (Z.of_nat (length l1)) (Z.of_nat (length ch))); [|lia].
  destruct (Z.leb_spec 0 (Z.of_nat (length l3))); [|lia]. destruct (Z.ltb_spec (Z.of_nat (length l3)) (Z.of_nat (length ch))); [|lia]. cbn [andb].
  pose proof T as T0. rewrite E1 in T. apply tiles_app in T as (mid & T1 & T2). assert (exists m1, wf mid m1 c /\ tiles (m1 + 1) hi l2) as (m1 & W & T3) by (inversion T2; eauto).
  destruct (wf_bounds _ _ _ W) as [B1 B2]. rewrite B1, B2 in Hcf.
  destruct (Z.eqb_spec (Z.of_nat (length l1)) (Z.of_nat (length l3))) as [Eij|Nij].
  - (* inside one child *)
    destruct (split_same l1 l2 l3 l4 c d) as (-> & -> & ->); [congruence|lia|]. rename l3 into l1. rename l4 into l2. rename d into c. rewrite B2 in Hdl.
    rewrite E1. change (go_add f l (Z.of_nat (length l1)) 0 (l1 ++ c :: l2)) with (go_add f l (0 + Z.of_nat (length l1)) 0 (l1 ++ c :: l2)).
    rewrite go_add_spec. destruct (Hc c) as [H1' H2']; [rewrite E1; apply in_elt|lia|lia|]. rewrite B1, B2 in H1'.
    rewrite !flat_map_app. cbn [flat_map].
    assert (F1 : fits f l (flat_map ranges l1)) by (apply (fits_out f l _ _ _ T1); lia).
    assert (F3 : fits f l (flat_map ranges l2)) by (apply (fits_out f l _ _ _ T3); lia). split.
    + rewrite !fits_app. intros (_ & F2 & _). destruct (H1' F2) as (c' & -> & Wc & Pc). eexists. split; [reflexivity|]. split; [|split].
      * apply tiles_app. exists mid. split; auto. econstructor; eauto.
      * now destruct l1.
      * rewrite flat_map_app. cbn [flat_map]. rewrite Pc. cbn [app]. symmetry. apply Permutation_middle.
    + rewrite !fits_app. intros NF. rewrite H2'; [reflexivity|]. intros F2. apply NF. auto.
  - assert (Hlen : (length l1 < length l3)%nat).
    { destruct (Nat.lt_ge_cases (length l1) (length l3)) as [|C]; auto. exfalso. assert (Hlt : (length l3 < length l1)%nat) by lia.
      assert (blast d < bfirst c); [|lia]. eapply (tiles_lt lo hi ch (length l3) (length l1)); eauto.
      - rewrite E2, nth_error_app2, Nat.sub_diag by lia. reflexivity.
      - rewrite E1, nth_error_app2, Nat.sub_diag by lia. reflexivity. }
    destruct (two_splits l1 l2 l3 l4 c d) as (m & -> & ->); [congruence|auto|].
    assert (N1 : nth_error ch (length l1) = Some c) by (rewrite E1, nth_error_app2, Nat.sub_diag by lia; reflexivity).
    assert (N2 : nth_error ch (length (l1 ++ c :: m)) = Some d) by (rewrite E2, nth_error_app2, Nat.sub_diag by lia; reflexivity).
    rewrite !Nat2Z.id, N1, N2.
    apply tiles_app in T3 as (mid2 & T3 & T4). assert (exists m2, wf mid2 m2 d /\ tiles (m2 + 1) hi l4) as (m2 & W2 & T5) by (inversion T4; eauto).
    destruct (wf_bounds _ _ _ W2) as [B3 B4]. rewrite B3, B4 in Hdl. rewrite B1, B4.
    pose proof (proj2 wf_le _ _ _ T3). pose proof (proj1 wf_le _ _ _ W). pose proof (proj1 wf_le _ _ _ W2).
    destruct (Z.eqb_spec mid f) as [Em|Nm], (Z.eqb_spec m2 l) as [Em2|Nm2]; cbn [negb orb]; split.
    + intros _. eexists. split; [reflexivity|].
      replace (Z.to_nat (Z.of_nat (length (l1 ++ c :: m)) - Z.of_nat (length l1) + 1)) with (S (S (length m))) by (rewrite app_length; simpl; lia).
      replace (Z.to_nat (Z.of_nat (length (l1 ++ c :: m)) + 1)) with (length l1 + S (S (length m)))%nat by (rewrite app_length; simpl; lia).
      rewrite E1. rewrite firstn_app, firstn_all, Nat.sub_diag, firstn_O, app_nil_r, (skipn_app (length l1)), skipn_all, Nat.sub_diag, skipn_O, app_nil_l.
      assert (E3 : firstn (S (S (length m))) (c :: m ++ d :: l4) = c :: m ++ [d]).
      { rewrite firstn_cons. f_equal. rewrite firstn_app. rewrite firstn_all2 by lia. replace (S (length m) - length m)%nat with 1%nat by lia. reflexivity. }
      assert (E4 : skipn (length l1 + S (S (length m))) (l1 ++ c :: m ++ d :: l4) = l4).
      { rewrite skipn_app. rewrite skipn_all2 by lia. replace (length l1 + S (S (length m)) - length l1)%nat with (S (S (length m))) by lia. rewrite skipn_cons. cbn [app].
        rewrite skipn_app. rewrite skipn_all2 by lia. now replace (S (length m) - length m)%nat with 1%nat by lia. }
      rewrite E3, E4, <- Em, <- Em2. split; [|split].
      * apply tiles_app. exists mid. split; auto. econstructor; [|exact T5]. constructor. econstructor; [exact W|]. apply tiles_app. exists mid2. split; auto.
        econstructor; [exact W2|]. replace m2 with (m2 + 1 - 1) at 2 by lia. constructor.
      * now destruct l1.
      * rewrite flat_map_app. cbn [flat_map ranges]. rewrite !flat_map_app. cbn [flat_map]. rewrite flat_map_app. cbn [flat_map]. rewrite app_nil_r.
        cbn [app]. rewrite <- !app_assoc. symmetry. apply Permutation_middle.
    + intros NF. exfalso. apply NF. rewrite E1. intros re a b Hi. rewrite flat_map_app in Hi. cbn [flat_map] in Hi. rewrite flat_map_app in Hi. cbn [flat_map] in Hi.
      unfold nested. simpl. apply in_app_or in Hi as [Hi|Hi]; [apply (proj2 ranges_in _ _ _ T1) in Hi; lia|].
      apply in_app_or in Hi as [Hi|Hi]; [apply (proj1 ranges_in _ _ _ W) in Hi; lia|].
      apply in_app_or in Hi as [Hi|Hi]; [apply (proj2 ranges_in _ _ _ T3) in Hi; lia|].
      apply in_app_or in Hi as [Hi|Hi]; [apply (proj1 ranges_in _ _ _ W2) in Hi; lia|].
      apply (proj2 ranges_in _ _ _ T5) in Hi. lia.
    + intros F. exfalso. specialize (F (bre d) mid2 m2). unfold nested in F. simpl in F. cut (In (bre d, mid2, m2) (flat_map ranges ch)); [intros I; apply F in I; lia|].
      apply in_flat_map. exists d. split; [rewrite E2; apply in_elt|]. apply in_range. congruence.
    + reflexivity.
    + intros F. exfalso. specialize (F (bre c) mid m1). unfold nested in F. simpl in F. cut (In (bre c, mid, m1) (flat_map ranges ch)); [intros I; apply F in I; lia|].
      apply in_flat_map. exists c. split; [rewrite E1; apply in_elt|]. apply in_range. congruence.
    + reflexivity.
    + intros F. exfalso. specialize (F (bre c) mid m1). unfold nested in F. simpl in F. cut (In (bre c, mid, m1) (flat_map ranges ch)); [intros I; apply F in I; lia|].
      apply in_flat_map. exists c. split; [rewrite E1; apply in_elt|]. apply in_range. congruence.
    + reflexivity.
Qed.

Lemma add_wf f l b : forall lo hi, wf lo hi b -> lo <= f <= l -> l <= hi ->
  add_spec f l (ranges b) (add_block f l b) (fun b' => wf lo hi b' /\ Permutation (ranges b') ((false, f, l) :: ranges b)).
Proof.
  induction b as [r f1 l1 ch IH] using block_rect2. intros lo hi W Hf Hl. destruct (wf_bounds _ _ _ W) as [E1 E2]. simpl in E1, E2. subst f1 l1. rewrite add_eq.
  destruct ch as [|b ch0].
  - assert (hi = lo) by (inversion W; lia). subst hi. assert (f = lo /\ l = lo) as [-> ->] by lia. split.
    + intros _. eexists. split; [reflexivity|]. split; [|simpl; apply perm_swap].
      constructor. econstructor; [constructor|]. replace lo with (lo + 1 - 1) at 2 by lia. constructor.
    + intros NF. exfalso. apply NF. intros re a c [H|[]]. injection H as _ <- <-. unfold nested. simpl. lia.
  - assert (T : tiles lo hi (b :: ch0)) by (now inversion W). assert (Ne : b :: ch0 <> []) by discriminate.
    destruct (add_children_spec f l lo hi (b :: ch0) Ne T Hf Hl) as [G1 G2].
    { intros c Ic Hc1 Hc2. apply IH; auto. apply In_nth_error in Ic as [k Ek]. now apply (tiles_nth _ _ _ _ _ T) in Ek as (_ & _ & _ & ?). }
    split.
    + intros F. destruct G1 as (ch' & -> & T' & Ne' & P'); [intros re x y H; apply (F re x y); now right|].
      eexists. split; [reflexivity|]. split.
      * destruct ch' as [|b' ch']; [congruence|]. now constructor.
      * cbn [ranges]. rewrite P'. apply perm_swap.
    + intros NF. rewrite G2; auto. intros F. apply NF. intros re x y [H|H]; [|now apply (F re)]. injection H as _ <- <-. unfold nested. simpl. lia.
Qed.

(** The range a call asks for. *)
Theorem new_block_spec n s index length : wf_super n s -> 0 <= index < n ->
  let last := asked_last n index length in
  (fits index last (inner s) ->
     exists s', new_var_block n s index length = Ok s' /\ wf_super n s' /\ bre s' = bre s /\ Permutation (inner s') ((false, index, last) :: inner s)) /\
  (~ fits index last (inner s) -> new_var_block n s index length = Fatal).
Proof.
  intros (E1 & E2 & T) Hx. destruct s as [r f l ch]. simpl in E1, E2, T. subst f l. cbv zeta. unfold new_var_block.
  set (len := if length <=? 0 then 1 else length). assert (El : len = Z.max length 1) by (unfold len; destruct (Z.leb_spec length 0); lia).
  set (last := if n <=? index + len - 1 then n - 1 else index + len - 1). replace last with (asked_last n index length).
  2:{ unfold last, asked_last. rewrite <- El. destruct (Z.leb_spec n (index + len - 1)); lia. }
  assert (Hl : index <= asked_last n index length <= n - 1) by (unfold asked_last; lia). clear last.
  set (last := asked_last n index length) in *. clearbody last. rewrite add_eq. unfold inner. cbn [bchildren].
  assert (Ne : ch <> []) by (intros ->; inversion T; lia).
  destruct (add_children_spec index last 0 (n - 1) ch Ne T) as [G1 G2]; [lia|lia| |].
  { intros c Ic Hc1 Hc2. apply add_wf; auto. apply In_nth_error in Ic as [k Ek]. now apply (tiles_nth _ _ _ _ _ T) in Ek as (_ & _ & _ & ?). }
  split.
  - intros F. destruct (G1 F) as (ch' & -> & T' & Ne' & P'). eexists. split; [reflexivity|]. split; [|split; auto]. split; auto.
  - intros NF. now rewrite G2.
Qed.
Lemma super0_wf : wf_super 0 super0.
Proof. split; [reflexivity|]. split; [reflexivity|]. apply (t_nil 0). Qed.
