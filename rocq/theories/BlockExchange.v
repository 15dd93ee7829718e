(** * Exchanging two neighbouring blocks of variables. *)
From Coq Require Import ZArith List Lia Permutation.
From Verif Require Import Base BFModel BlockModel SpecBlock BlockProof.
Import ListNotations.
Open Scope Z_scope.

Lemma zrange_fold {A} (f : A -> Z -> A) (P : Z -> A -> Prop) : forall (n : nat) a b s, Z.to_nat (b - a + 1) = n -> a <= b + 1 ->
  P a s -> (forall k s, a <= k <= b -> P k s -> P (k + 1) (f s k)) -> P (b + 1) (fold_left f (zrange a b) s).
Proof.
  induction n as [|n IH]; intros a b s Hn Hab H0 HS.
  - unfold zrange. rewrite Hn. simpl. now replace (b + 1) with a by lia.
  - unfold zrange. rewrite Hn. cbn [seq map fold_left]. rewrite <- seq_shift, map_map.
    replace (map (fun x => a + Z.of_nat (S x)) (seq 0 n)) with (zrange (a + 1) b).
    + apply IH; try lia.
      * change (Z.of_nat 0) with 0. rewrite Z.add_0_r. apply HS; [lia|exact H0].
      * intros k s' Hk. apply HS. lia.
    + unfold zrange. replace (Z.to_nat (b - (a + 1) + 1)) with n by lia. apply map_ext. intros. lia.
Qed.
Lemma fold_flat_map {A B C} (f : A -> C -> A) (g : B -> list C) l : forall s,
  fold_left f (flat_map g l) s = fold_left (fun s b => fold_left f (g b) s) l s.
Proof. induction l as [|b l IH]; intros s; simpl; auto. now rewrite fold_left_app, IH. Qed.
Lemma fold_map {A B C} (f : A -> C -> A) (g : B -> C) l : forall s, fold_left f (map g l) s = fold_left (fun s b => f s (g b)) l s.
Proof. induction l as [|b l IH]; intros s; simpl; auto. Qed.

Section Exchange.
Variables (o : Z -> N) (F w1 w2 : Z).
Hypotheses (H1 : 0 <= w1) (H2 : 0 <= w2).
Definition cl (a m : Z) : Z := Z.max 0 (Z.min a m).
Definition cb (i J j : Z) : Z := cl ((if j <? J then i + 1 else i) - j) (w1 + 1).
Definition ca (i J p : Z) : Z := cl ((if i - p <? J then i + 1 else i) - p) (w2 + 1).
Definition I (i J : Z) (o' : Z -> N) : Prop :=
  (forall j, 0 <= j <= w2 -> o' (F + j - cb i J j) = o (F + j)) /\
  (forall p, 0 <= p <= w1 -> o' (F - 1 - p + ca i J p) = o (F - 1 - p)) /\
  (forall x, x < F - 1 - w1 \/ F + w2 < x -> o' x = o x).

Lemma swap_lo (q : Z -> N) k x : x = k -> swap_at q k x = q (k + 1).
Proof. intros ->. unfold swap_at. now rewrite Z.eqb_refl. Qed.
Lemma swap_hi (q : Z -> N) k x : x = k + 1 -> swap_at q k x = q k.
Proof. intros ->. unfold swap_at. rewrite Z.eqb_refl. destruct (Z.eqb_spec (k + 1) k); [lia|reflexivity]. Qed.
Lemma swap_other (q : Z -> N) k x : x <> k -> x <> k + 1 -> swap_at q k x = q x.
Proof. intros A B. unfold swap_at. destruct (Z.eqb_spec x k); [lia|]. destruct (Z.eqb_spec x (k + 1)); [lia|reflexivity]. Qed.

Lemma step_I i J o' : 0 <= i <= w1 + w2 -> jlow w1 i <= J <= jhigh w2 i -> I i J o' -> I i (J + 1) (swap_at o' (F + J - i + J - 1)).
Proof.
  intros Hi HJ (A & B & C). unfold jlow, jhigh in HJ. rewrite Z.gtb_ltb in HJ.
  assert (HJ' : 0 <= J <= i /\ i - w1 <= J /\ J <= w2) by (destruct (Z.ltb_spec (i - w1) 0), (Z.ltb_spec w2 i); lia). clear HJ.
  split; [|split].
  - intros j Hj. specialize (A j Hj). unfold cb, cl in *. destruct (Z.eq_dec j J) as [->|Nj].
    + destruct (Z.ltb_spec J (J + 1)); [|lia]. destruct (Z.ltb_spec J J); [lia|]. rewrite swap_lo by lia. rewrite <- A. f_equal. lia.
    + replace (j <? J + 1) with (j <? J) by (destruct (Z.ltb_spec j J), (Z.ltb_spec j (J + 1)); auto; lia).
      rewrite swap_other; auto; destruct (Z.ltb_spec j J); lia.
  - intros p Hp. specialize (B p Hp). unfold ca, cl in *. destruct (Z.eq_dec (i - p) J) as [Ej|Nj].
    + destruct (Z.ltb_spec (i - p) (J + 1)); [|lia]. destruct (Z.ltb_spec (i - p) J); [lia|]. rewrite swap_hi by lia. rewrite <- B. f_equal. lia.
    + replace (i - p <? J + 1) with (i - p <? J) by (destruct (Z.ltb_spec (i - p) J), (Z.ltb_spec (i - p) (J + 1)); auto; lia).
      rewrite swap_other; auto; destruct (Z.ltb_spec (i - p) J); lia.
  - intros x Hx. rewrite swap_other by lia. auto.
Qed.
Lemma diag_I i o' : 0 <= i <= w1 + w2 -> I i (jlow w1 i) o' ->
  I (i + 1) (jlow w1 (i + 1)) (fold_left (fun q j => swap_at q (F + j - i + j - 1)) (zrange (jlow w1 i) (jhigh w2 i)) o').
Proof.
  intros Hi H0.
  assert (Hlh : jlow w1 i <= jhigh w2 i + 1) by (unfold jlow, jhigh; rewrite Z.gtb_ltb; destruct (Z.ltb_spec (i - w1) 0), (Z.ltb_spec w2 i); lia).
  pose proof (zrange_fold (fun q j => swap_at q (F + j - i + j - 1)) (I i) _ (jlow w1 i) (jhigh w2 i) o' eq_refl Hlh H0) as H.
  destruct H as (A & B & C); [intros k q Hk Hq; now apply step_I|].
  unfold jlow, jhigh in *. rewrite Z.gtb_ltb in *. split; [|split]; auto.
  - intros j Hj. specialize (A j Hj). rewrite <- A. f_equal. unfold cb, cl.
    destruct (Z.ltb_spec (i - w1) 0), (Z.ltb_spec w2 i), (Z.ltb_spec (i + 1 - w1) 0); repeat match goal with |- context [?a <? ?b] => destruct (Z.ltb_spec a b) end; lia.
  - intros p Hp. specialize (B p Hp). rewrite <- B. f_equal. unfold ca, cl.
    destruct (Z.ltb_spec (i - w1) 0), (Z.ltb_spec w2 i), (Z.ltb_spec (i + 1 - w1) 0); repeat match goal with |- context [?a <? ?b] => destruct (Z.ltb_spec a b) end; lia.
Qed.
Theorem exchange_order_spec x : exchange_order o F w1 w2 x =
  if (F - 1 - w1 <=? x) && (x <=? F - 1 - w1 + w2) then o (x + w1 + 1)
  else if (F - w1 + w2 <=? x) && (x <=? F + w2) then o (x - w2 - 1) else o x.
Proof.
  assert (H0 : I 0 (jlow w1 0) o).
  { unfold I, jlow. split; [|split]; auto.
    - intros j Hj. f_equal. unfold cb, cl. destruct (Z.ltb_spec (0 - w1) 0); repeat match goal with |- context [?a <? ?b] => destruct (Z.ltb_spec a b) end; lia.
    - intros p Hp. f_equal. unfold ca, cl. destruct (Z.ltb_spec (0 - w1) 0); repeat match goal with |- context [?a <? ?b] => destruct (Z.ltb_spec a b) end; lia. }
  unfold exchange_order, exchange_positions. rewrite fold_flat_map.
  pose proof (zrange_fold (fun q i => fold_left (fun q j => swap_at q (F + j - i + j - 1)) (zrange (jlow w1 i) (jhigh w2 i)) q) (fun i => I i (jlow w1 i)) _ 0 (w1 + w2) o eq_refl ltac:(lia) H0) as H.
  destruct H as (A & B & C); [intros k q Hk Hq; now apply diag_I|].
  assert (E : fold_left (fun s b => fold_left swap_at (map (fun j => F + j - b + j - 1) (zrange (jlow w1 b) (jhigh w2 b))) s) (zrange 0 (w1 + w2)) o =
    fold_left (fun q i => fold_left (fun q j => swap_at q (F + j - i + j - 1)) (zrange (jlow w1 i) (jhigh w2 i)) q) (zrange 0 (w1 + w2)) o).
  { generalize (zrange 0 (w1 + w2)) as l. intros l. clear. generalize o as q. induction l as [|i l IH]; intros q; simpl; auto. rewrite fold_map. apply IH. }
  rewrite E. set (R := fold_left _ _ _) in *. clearbody R. unfold jlow in A, B. destruct (Z.ltb_spec (w1 + w2 + 1 - w1) 0); [lia|].
  destruct (Z.leb_spec (F - 1 - w1) x), (Z.leb_spec x (F - 1 - w1 + w2)); cbn [andb]; [|destruct (Z.leb_spec (F - w1 + w2) x), (Z.leb_spec x (F + w2)); cbn [andb]; try lia..].
  - replace (x + w1 + 1) with (F + (x + w1 + 1 - F)) by lia. rewrite <- A by lia. f_equal. unfold cb, cl. destruct (Z.ltb_spec (x + w1 + 1 - F) (w1 + w2 + 1 - w1)); lia.
  - replace (x - w2 - 1) with (F - 1 - (F + w2 - x)) by lia. rewrite <- B by lia. f_equal. unfold ca, cl. destruct (Z.ltb_spec (w1 + w2 + 1 - (F + w2 - x)) (w1 + w2 + 1 - w1)); lia.
  - apply C. lia.
  - apply C. lia.
Qed.
End Exchange.

Lemma zrange_shift (o o' : Z -> N) f l d : (forall x, f <= x <= l -> o' (x + d) = o x) -> map o' (zrange (f + d) (l + d)) = map o (zrange f l).
Proof.
  intros H. unfold zrange. replace (l + d - (f + d) + 1) with (l - f + 1) by lia. rewrite !map_map. apply map_ext_in. intros k Ik. apply in_seq in Ik.
  rewrite <- H by lia. f_equal. lia.
Qed.
Lemma members_plus o o' d rs lo hi : (forall re f l, In (re, f, l) rs -> lo <= f /\ l <= hi) -> (forall x, lo <= x <= hi -> o' (x + d) = o x) ->
  members o' (map (plus d) rs) = members o rs.
Proof.
  intros Hr Ho. unfold members. rewrite map_map. apply map_ext_in. intros [[re f] l] Hi. apply Hr in Hi. simpl. f_equal. apply zrange_shift. intros x Hx. apply Ho. lia.
Qed.
Lemma members_same o o' rs lo hi : (forall re f l, In (re, f, l) rs -> lo <= f /\ l <= hi) -> (forall x, lo <= x <= hi -> o' x = o x) ->
  members o' rs = members o rs.
Proof.
  intros Hr Ho. rewrite <- (members_plus o o' 0 rs lo hi Hr).
  - f_equal. rewrite <- (map_id rs) at 1. apply map_ext. intros [[re f] l]. simpl. now rewrite !Z.add_0_r.
  - intros x Hx. rewrite Z.add_0_r. auto.
Qed.
Lemma members_app o a b : members o (a ++ b) = members o a ++ members o b.
Proof. apply map_app. Qed.

Theorem exchange_blocks_spec o lo hi ch k : tiles lo hi ch -> (S k < length ch)%nat ->
  exists o' ch', exchange_blocks o ch k = Some (o', ch') /\ tiles lo hi ch' /\ length ch' = length ch /\
    Permutation (members o' (flat_map ranges ch')) (members o (flat_map ranges ch)) /\
    (forall x, x < lo \/ hi < x -> o' x = o x) /\
    Permutation (map o' (zrange lo hi)) (map o (zrange lo hi)).
Proof.
  intros T L. unfold exchange_blocks.
  destruct (nth_error ch k) as [b1|] eqn:N1; [|apply nth_error_None in N1; lia]. destruct (nth_error ch (S k)) as [b2|] eqn:N2; [|apply nth_error_None in N2; lia].
  apply nth_error_split in N1 as (l1 & l2 & -> & El). rewrite nth_error_app2 in N2 by lia. replace (S k - length l1)%nat with 1%nat in N2 by lia.
  destruct l2 as [|b l2]; [discriminate|]. injection N2 as ->.
  apply tiles_app in T as (m1 & T1 & T2). assert (exists m2, wf m1 m2 b1 /\ tiles (m2 + 1) hi (b2 :: l2)) as (m2 & W1 & T3) by (inversion T2; eauto).
  assert (exists m3, wf (m2 + 1) m3 b2 /\ tiles (m3 + 1) hi l2) as (m3 & W2 & T4) by (inversion T3; eauto).
  destruct (wf_bounds _ _ _ W1) as [-> ->]. destruct (wf_bounds _ _ _ W2) as [-> ->].
  pose proof (proj1 wf_le _ _ _ W1). pose proof (proj1 wf_le _ _ _ W2). pose proof (proj2 wf_le _ _ _ T1). pose proof (proj2 wf_le _ _ _ T4).
  set (w1 := m2 - m1). set (w2 := m3 - (m2 + 1)).
  pose proof (exchange_order_spec o (m2 + 1) w1 w2 ltac:(lia) ltac:(lia)) as X. set (o' := exchange_order o (m2 + 1) w1 w2) in *.
  assert (X1 : forall x, m2 + 1 <= x <= m3 -> o' (x + - (w1 + 1)) = o x).
  { intros x Hx. rewrite X. destruct (Z.leb_spec (m2 + 1 - 1 - w1) (x + - (w1 + 1))), (Z.leb_spec (x + - (w1 + 1)) (m2 + 1 - 1 - w1 + w2)); cbn [andb]; try lia. f_equal. lia. }
  assert (X2 : forall x, m1 <= x <= m2 -> o' (x + (w2 + 1)) = o x).
  { intros x Hx. rewrite X. destruct (Z.leb_spec (m2 + 1 - 1 - w1) (x + (w2 + 1))), (Z.leb_spec (x + (w2 + 1)) (m2 + 1 - 1 - w1 + w2)); cbn [andb]; try lia.
    destruct (Z.leb_spec (m2 + 1 - w1 + w2) (x + (w2 + 1))), (Z.leb_spec (x + (w2 + 1)) (m2 + 1 + w2)); cbn [andb]; try lia. f_equal. lia. }
  assert (X3 : forall x, x < m1 \/ m3 < x -> o' x = o x).
  { intros x Hx. rewrite X. destruct (Z.leb_spec (m2 + 1 - 1 - w1) x), (Z.leb_spec x (m2 + 1 - 1 - w1 + w2)); cbn [andb]; try lia;
    destruct (Z.leb_spec (m2 + 1 - w1 + w2) x), (Z.leb_spec x (m2 + 1 + w2)); cbn [andb]; try lia; reflexivity. }
  clearbody o'. clear X.
  rewrite firstn_app, firstn_all2 by lia. replace (k - length l1)%nat with 0%nat by lia. rewrite firstn_O, app_nil_r.
  rewrite skipn_app, skipn_all2 by lia. replace (S (S k) - length l1)%nat with 2%nat by lia. cbn [skipn app].
  eexists. eexists. split; [reflexivity|].
  pose proof (proj1 (delta_wf (- (w1 + 1))) _ _ _ W2) as W2'. pose proof (proj1 (delta_wf (w2 + 1)) _ _ _ W1) as W1'.
  split; [|split; [|split; [|split]]].
  - apply tiles_app. exists m1. split; auto. replace (m2 + 1 + - (w1 + 1)) with m1 in W2' by lia. econstructor; [exact W2'|].
    replace (m3 + - (w1 + 1) + 1) with (m1 + (w2 + 1)) by lia. econstructor; [exact W1'|]. now replace (m2 + (w2 + 1) + 1) with (m3 + 1) by lia.
  - rewrite !app_length. reflexivity.
  - rewrite !flat_map_app. cbn [flat_map]. rewrite !members_app, !delta_ranges.
    rewrite (members_same o o' (flat_map ranges l1) lo (m1 - 1)); [|intros re f l Hi; apply (proj2 ranges_in _ _ _ T1) in Hi; lia|intros x Hx; apply X3; lia].
    rewrite (members_same o o' (flat_map ranges l2) (m3 + 1) hi); [|intros re f l Hi; apply (proj2 ranges_in _ _ _ T4) in Hi; lia|intros x Hx; apply X3; lia].
    rewrite (members_plus o o' (- (w1 + 1)) (ranges b2) (m2 + 1) m3); [|intros re f l Hi; apply (proj1 ranges_in _ _ _ W2) in Hi; lia|exact X1].
    rewrite (members_plus o o' (w2 + 1) (ranges b1) m1 m2); [|intros re f l Hi; apply (proj1 ranges_in _ _ _ W1) in Hi; lia|exact X2].
    apply Permutation_app_head. rewrite !app_assoc. apply Permutation_app_tail, Permutation_app_comm.
  - intros x Hx. apply X3. lia.
  - assert (Zs : forall a b c, a <= b + 1 -> b <= c -> zrange a c = zrange a b ++ zrange (b + 1) c).
    { intros a b c Ha Hb. unfold zrange. replace (Z.to_nat (c - a + 1)) with (Z.to_nat (b - a + 1) + Z.to_nat (c - (b + 1) + 1))%nat by lia.
      rewrite seq_app, map_app. f_equal. simpl. rewrite <- (Nat.add_0_r (Z.to_nat (b - a + 1))) at 1. generalize 0%nat as q. generalize (Z.to_nat (c - (b + 1) + 1)) as n.
      induction n as [|n IH]; intros q; simpl; auto. f_equal; [lia|]. rewrite <- Nat.add_succ_r. apply IH. }
    rewrite (Zs lo (m1 - 1) hi), (Zs (m1 - 1 + 1) m3 hi) by lia. replace (m1 - 1 + 1) with m1 by lia. rewrite !map_app.
    rewrite (map_ext_in o' o (zrange lo (m1 - 1))), (map_ext_in o' o (zrange (m3 + 1) hi)).
    + apply Permutation_app_head, Permutation_app_tail. 
      assert (Y1 : map o (zrange m1 m3) = map o (zrange m1 m2) ++ map o (zrange (m2 + 1) m3)) by (rewrite (Zs m1 m2 m3), map_app by lia; reflexivity).
      assert (Y2 : map o' (zrange m1 m3) = map o' (zrange m1 (m1 + w2)) ++ map o' (zrange (m1 + w2 + 1) m3)) by (rewrite (Zs m1 (m1 + w2) m3), map_app by lia; reflexivity).
      rewrite Y1, Y2, Permutation_app_comm. apply Permutation_app.
      * replace (m1 + w2 + 1) with (m1 + (w2 + 1)) by lia. replace m3 with (m2 + (w2 + 1)) by lia. rewrite (zrange_shift o o'); auto.
      * pose proof (zrange_shift o o' (m2 + 1) m3 (- (w1 + 1)) X1) as Z1. rewrite <- Z1. replace (m2 + 1 + - (w1 + 1)) with m1 by lia. now replace (m3 + - (w1 + 1)) with (m1 + w2) by lia.
    + intros x Hx. apply X3. unfold zrange in Hx. apply in_map_iff in Hx as (q & <- & Hq). apply in_seq in Hq. lia.
    + intros x Hx. apply X3. unfold zrange in Hx. apply in_map_iff in Hx as (q & <- & Hq). apply in_seq in Hq. lia.
Qed.


Lemma same_blocks_members o rs o' rs' : Permutation (members o' rs') (members o rs) -> same_blocks o rs o' rs'.
Proof.
  intros P. unfold members in P. set (g := fun o r => let '(re, f, l) := r in (re : bool, map (o : Z -> N) (zrange f l))) in *.
  change (Permutation (map (g o') rs') (map (g o) rs)) in P.
  apply Permutation_sym in P. apply Permutation_map_inv in P. destruct P as (q & E & P). exists q. split; [now apply Permutation_sym in P; apply Permutation_sym|].
  revert q E P. clear. intros q E _. revert q E. induction rs as [|[[re f] l] rs IH]; intros [|[[re' f'] l'] q] E; try discriminate; [constructor|].
  cbn [map] in E. injection E as E1 E2 E3. constructor; auto. split; [auto|]. rewrite E2. auto.
Qed.
Lemma same_blocks_app o o' a a' b b' : same_blocks o a o' a' -> same_blocks o b o' b' -> same_blocks o (a ++ b) o' (a' ++ b').
Proof. intros (q1 & P1 & F1) (q2 & P2 & F2). exists (q1 ++ q2). split; [now apply Permutation_app|now apply Forall2_app]. Qed.
Lemma same_blocks_cons o o' re f l a a' : Permutation (map o' (zrange f l)) (map o (zrange f l)) -> same_blocks o a o' a' ->
  same_blocks o ((re, f, l) :: a) o' ((re, f, l) :: a').
Proof. intros H (q1 & P1 & F1). exists ((re, f, l) :: q1). split; [auto|]. constructor; auto. Qed.
Lemma zrange_cut a b c : a <= b + 1 -> b <= c -> zrange a c = zrange a b ++ zrange (b + 1) c.
Proof.
  intros Ha Hb. unfold zrange. replace (Z.to_nat (c - a + 1)) with (Z.to_nat (b - a + 1) + Z.to_nat (c - (b + 1) + 1))%nat by lia.
  rewrite seq_app, map_app. f_equal. simpl. rewrite <- (Nat.add_0_r (Z.to_nat (b - a + 1))) at 1. generalize 0%nat as q. generalize (Z.to_nat (c - (b + 1) + 1)) as n.
  induction n as [|n IH]; intros q; simpl; auto. f_equal; [lia|]. rewrite <- Nat.add_succ_r. apply IH.
Qed.
Lemma in_zrange a b x : In x (zrange a b) <-> a <= x <= b.
Proof.
  unfold zrange. rewrite in_map_iff. split.
  - intros (q & <- & Hq). apply in_seq in Hq. lia.
  - intros H. exists (Z.to_nat (x - a)). split; [lia|]. apply in_seq. lia.
Qed.
Lemma perm_widen (o o' : Z -> N) lo hi a b : lo <= a -> a <= b + 1 -> b <= hi -> (forall x, x < a \/ b < x -> o' x = o x) ->
  Permutation (map o' (zrange a b)) (map o (zrange a b)) -> Permutation (map o' (zrange lo hi)) (map o (zrange lo hi)).
Proof.
  intros H1 H2 H3 H4 P. rewrite (zrange_cut lo (a - 1) hi), (zrange_cut (a - 1 + 1) b hi) by lia. replace (a - 1 + 1) with a by lia. rewrite !map_app.
  apply Permutation_app; [|apply Permutation_app; auto].
  - rewrite (map_ext_in o' o); auto. intros x Hx. apply in_zrange in Hx. apply H4. lia.
  - rewrite (map_ext_in o' o); auto. intros x Hx. apply in_zrange in Hx. apply H4. lia.
Qed.
Definition kept (o : Z -> N) (lo hi : Z) (rs : list (bool * Z * Z)) (o' : Z -> N) (rs' : list (bool * Z * Z)) : Prop :=
  same_blocks o rs o' rs' /\ (forall x, x < lo \/ hi < x -> o' x = o x) /\ Permutation (map o' (zrange lo hi)) (map o (zrange lo hi)).
Lemma exchanged_spec o b o' b' : exchanged o b o' b' ->
  (forall lo hi, tiles lo hi (bchildren b) -> tiles lo hi (bchildren b') /\ kept o lo hi (inner b) o' (inner b')) /\
  bre b' = bre b /\ bfirst b' = bfirst b /\ blast b' = blast b /\ bchildren b' <> [] /\ bchildren b <> [].
Proof.
  induction 1 as [re f l ch k o' ch' E|re f l c1 c c2 o' c' H (IHw & R1 & R2 & R3 & R4 & R5)]; cbn [bre bfirst blast bchildren inner] in *.
  - assert (L : (S k < length ch)%nat).
    { unfold exchange_blocks in E. destruct (nth_error ch k); [|discriminate]. destruct (nth_error ch (S k)) eqn:N; [|discriminate]. apply nth_error_Some. congruence. }
    split; [|split; [auto|split; [auto|split; [auto|split]]]].
    + intros lo hi T. destruct (exchange_blocks_spec o lo hi ch k T L) as (o2 & ch2 & E2 & T2 & R2 & R3 & R4 & R5). rewrite E in E2. injection E2 as <- <-.
      split; auto. split; [now apply same_blocks_members|auto].
    + unfold exchange_blocks in E. destruct (nth_error ch k) as [b1|] eqn:N1; [|discriminate]. destruct (nth_error ch (S k)) as [b2|] eqn:N; [|discriminate].
      injection E as _ <-. intros E. apply app_eq_nil in E as [_ E]. discriminate.
    + intros ->. simpl in L. lia.
  - split; [|split; [auto|split; [auto|split; [auto|split]]]].
    + intros lo hi T. apply tiles_app in T as (m1 & T1 & T2). assert (exists m2, wf m1 m2 c /\ tiles (m2 + 1) hi c2) as (m2 & W & T3) by (inversion T2; eauto).
      destruct (wf_bounds _ _ _ W) as [B1 B2]. destruct c as [re1 f1 l1 ch1]. destruct c' as [re2 f2 l2 ch2]. cbn [bre bfirst blast bchildren inner] in *. subst re2 f2 l2 f1 l1.
      assert (T0 : tiles m1 m2 ch1) by (inversion W; subst; auto; congruence). destruct (IHw m1 m2 T0) as (T0' & K1 & K2 & K3).
      pose proof (proj1 wf_le _ _ _ W). pose proof (proj2 wf_le _ _ _ T1). pose proof (proj2 wf_le _ _ _ T3).
      split; [|split; [|split]].
      * apply tiles_app. exists m1. split; auto. econstructor; [|exact T3]. destruct ch2 as [|b0 ch2]; [congruence|]. now constructor.
      * unfold inner. cbn [bchildren]. rewrite !flat_map_app. cbn [flat_map ranges].
        apply same_blocks_app; [apply same_blocks_members; rewrite (members_same o o' _ lo (m1 - 1)); auto; [intros re0 f0 l0 Hi; apply (proj2 ranges_in _ _ _ T1) in Hi; lia|intros x Hx; apply K2; lia]|].
        apply same_blocks_app; [|apply same_blocks_members; rewrite (members_same o o' _ (m2 + 1) hi); auto; [intros re0 f0 l0 Hi; apply (proj2 ranges_in _ _ _ T3) in Hi; lia|intros x Hx; apply K2; lia]].
        apply same_blocks_cons; auto.
      * intros x Hx. apply K2. lia.
      * apply (perm_widen o o' lo hi m1 m2); auto; lia.
    + intros E. apply app_eq_nil in E as [_ E]. discriminate.
    + intros E. apply app_eq_nil in E as [_ E]. discriminate.
Qed.
Lemma exchanged_super n o s o' s' : wf_super n s -> exchanged o s o' s' -> wf_super n s' /\ kept o 0 (n - 1) (inner s) o' (inner s').
Proof.
  intros (E1 & E2 & T) H. destruct (exchanged_spec o s o' s' H) as (G & R1 & R2 & R3 & _). destruct (G 0 (n - 1) T) as [G1 G2].
  split; auto. unfold wf_super. rewrite R2, R3. auto.
Qed.
Theorem history_wf n s : block_history n s -> 0 <= n /\ wf_super n s.
Proof.
  induction 1 as [|n s index s' H [Hn W] Hx E|n s index length s' H [Hn W] Hx E|n s o o' s' H [Hn W] E].
  - split; [lia|apply super0_wf].
  - destruct (new_variable_spec n s index Hn W Hx) as (s1 & E1 & W1 & _). rewrite E in E1. injection E1 as <-. split; [lia|auto].
  - split; auto. destruct (new_block_spec n s index length W Hx) as [G1 G2].
    assert (Hd : fits index (asked_last n index length) (inner s) \/ ~ fits index (asked_last n index length) (inner s)).
    { assert (D : forall rs, fits index (asked_last n index length) rs \/ ~ fits index (asked_last n index length) rs).
      { induction rs as [|[[re a] b] rs IH]; [left; intros ? ? ? []|].
        assert (Dn : nested (index, asked_last n index length) (a, b) \/ ~ nested (index, asked_last n index length) (a, b)) by (unfold nested; simpl; lia).
        destruct Dn as [Dn|Dn]; [destruct IH as [IH|IH]; [left|right]|right].
        - intros re' x y [Hi|Hi]; [injection Hi as <- <- <-; auto|eapply IH; eauto].
        - intros F. apply IH. intros re' x y Hi. apply (F re'). now right.
        - intros F. apply Dn. apply (F re). now left. }
      apply D. }
    destruct Hd as [Hd|Hd]; [|rewrite (G2 Hd) in E; discriminate]. destruct (G1 Hd) as (s2 & E2 & W2 & _). rewrite E in E2. injection E2 as ->. exact W2.
  - split; auto. now apply (exchanged_super n o s o' s' W E).
Qed.
Theorem find_child n s index : block_history n s -> 0 <= index < n ->
  exists k c, find_block (bchildren s) index = Some (Z.of_nat k) /\ nth_error (bchildren s) k = Some c /\ bfirst c <= index <= blast c /\
    forall j d, nth_error (bchildren s) j = Some d -> bfirst d <= index <= blast d -> j = k.
Proof.
  intros H Hx. destruct (history_wf n s H) as [Hn (_ & _ & T)]. destruct (find_spec _ _ _ index T) as (l1 & c & l2 & E & F & Hc); [lia|].
  exists (length l1), c. split; auto. assert (Nc : nth_error (bchildren s) (length l1) = Some c) by (rewrite E, nth_error_app2, Nat.sub_diag by lia; reflexivity).
  split; auto. split; auto. intros j d Hd Hj. destruct (Nat.lt_trichotomy j (length l1)) as [L|[L|L]]; auto.
  - pose proof (tiles_lt _ _ _ _ _ _ _ T Hd Nc L). lia.
  - pose proof (tiles_lt _ _ _ _ _ _ _ T Nc Hd L). lia.
Qed.

Definition ex_tree : block := Blk true (-1) 4 [Blk false 0 0 []; Blk false 1 2 [Blk false 1 1 []; Blk false 2 2 []]; Blk false 3 3 []].
Lemma ex_tree_history : block_history 4 ex_tree.
Proof.
  assert (H : exists s0 s1 s2 s, shift_block 0 super0 = Some s0 /\ shift_block 1 s0 = Some s1 /\ shift_block 1 s1 = Some s2 /\ shift_block 3 s2 = Some s /\
    new_var_block 4 s 1 2 = Ok ex_tree).
  { do 4 eexists. do 4 (split; [vm_compute; reflexivity|]). vm_compute. reflexivity. }
  destruct H as (s0 & s1 & s2 & s & E0 & E1 & E2 & E3 & E4). apply (bh_block 4 s 1 2); [|lia|exact E4].
  apply (bh_variable 3 s2 3 s); [|lia|exact E3]. apply (bh_variable 2 s1 1 s2); [|lia|exact E2]. apply (bh_variable 1 s0 1 s1); [|lia|exact E1].
  apply (bh_variable 0 super0 0 s0); [constructor|lia|exact E0].
Qed.
Lemma blocks_example : block_history 4 ex_tree /\ inner ex_tree = [(false, 0, 0); (false, 1, 2); (false, 1, 1); (false, 2, 2); (false, 3, 3)] /\
  (exists s, new_var_block 4 ex_tree 0 3 = Ok s) /\ new_var_block 4 ex_tree 0 2 = Fatal.
Proof. split; [exact ex_tree_history|]. split; [reflexivity|]. split; [eexists; vm_compute; reflexivity|vm_compute; reflexivity]. Qed.
Definition ex_order (x : Z) : N := Z.to_N (x + 1).
Lemma exchange_example : exists o' s', exchanged ex_order ex_tree o' s' /\
  members ex_order (inner ex_tree) = [(false, [1]); (false, [2; 3]); (false, [2]); (false, [3]); (false, [4])]%N /\
  members o' (inner s') = [(false, [2; 3]); (false, [2]); (false, [3]); (false, [1]); (false, [4])]%N.
Proof.
  assert (H : exists o' ch', exchange_blocks ex_order (bchildren ex_tree) 0 = Some (o', ch')) by (do 2 eexists; reflexivity).
  destruct H as (o' & ch' & E). exists o', (Blk true (-1) 4 ch'). split; [constructor 1 with (k := 0%nat); exact E|]. split; [vm_compute; reflexivity|].
  unfold exchange_blocks in E. simpl nth_error in E. injection E as <- <-. vm_compute. reflexivity.
Qed.
Theorem block_contiguous n s re f l : block_history n s -> In (re, f, l) (inner s) -> 0 <= f <= l /\ l < n.
Proof. intros H Hi. destruct (history_wf n s H) as (Hn & _ & _ & T). apply (proj2 ranges_in _ _ _ T) in Hi. lia. Qed.
Lemma ranges_nested : (forall lo hi b, wf lo hi b -> fits lo hi (ranges b) /\ forall re f l, In (re, f, l) (ranges b) -> fits f l (ranges b)) /\
  (forall lo hi ch, tiles lo hi ch -> forall re f l, In (re, f, l) (flat_map ranges ch) -> fits f l (flat_map ranges ch)).
Proof.
  apply wf_tiles_ind.
  - intros re k. simpl. split; [intros re' a b [H|[]]; injection H as _ <- <-; unfold nested; simpl; lia|].
    intros re' f l [H|[]] re2 a b [H2|[]]. injection H as _ <- <-. injection H2 as _ <- <-. unfold nested. simpl. lia.
  - intros re lo hi b ch T IH. assert (A : fits lo hi (ranges (Blk re lo hi (b :: ch)))).
    { intros re' a c Hi. cbn [ranges] in Hi. destruct Hi as [H|H]; [injection H as _ <- <-; unfold nested; simpl; lia|]. apply (proj2 ranges_in _ _ _ T) in H. unfold nested. simpl. lia. }
    split; auto. intros re' f l [H|H]; [injection H as _ <- <-; exact A|]. intros re2 a c [H2|H2].
    + injection H2 as _ <- <-. apply (proj2 ranges_in _ _ _ T) in H. unfold nested. simpl. lia.
    + exact (IH re' f l H re2 a c H2).
  - intros lo re f l [].
  - intros lo mid hi b ch W [_ IH] T IH2 re f l Hi. cbn [flat_map] in *. apply in_app_iff in Hi as [Hi|Hi]; apply fits_app; split.
    + exact (IH re f l Hi).
    + apply (proj1 ranges_in _ _ _ W) in Hi. apply (fits_out f l _ _ _ T). lia.
    + apply (proj2 ranges_in _ _ _ T) in Hi. apply (fits_out1 f l _ _ _ W). lia.
    + exact (IH2 re f l Hi).
Qed.
Theorem blocks_nested n s re f l re' f' l' : block_history n s -> In (re, f, l) (inner s) -> In (re', f', l') (inner s) -> nested (f, l) (f', l').
Proof. intros H H1 H2. destruct (history_wf n s H) as (Hn & _ & _ & T). exact (proj2 ranges_nested _ _ _ T re f l H1 re' f' l' H2). Qed.
Theorem history_variable n s index : block_history n s -> 0 <= index <= n ->
  exists s', shift_block index s = Some s' /\ Permutation (inner s') ((false, index, index) :: map (moved index) (inner s)).
Proof. intros H Hx. destruct (history_wf n s H) as (Hn & W). destruct (new_variable_spec n s index Hn W Hx) as (s' & E & _ & _ & P). eauto. Qed.
Theorem history_block n s index length : block_history n s -> 0 <= index < n ->
  let last := asked_last n index length in
  (fits index last (inner s) -> exists s', new_var_block n s index length = Ok s' /\ Permutation (inner s') ((false, index, last) :: inner s)) /\
  (~ fits index last (inner s) -> new_var_block n s index length = Fatal).
Proof.
  intros H Hx. destruct (history_wf n s H) as (Hn & W). destruct (new_block_spec n s index length W Hx) as [G1 G2]. split; auto.
  intros F. destruct (G1 F) as (s' & E & _ & _ & P). eauto.
Qed.
Theorem history_exchange n s o o' s' : block_history n s -> exchanged o s o' s' ->
  same_blocks o (inner s) o' (inner s') /\ Permutation (map o' (zrange 0 (n - 1))) (map o (zrange 0 (n - 1))).
Proof. intros H E. destruct (history_wf n s H) as (Hn & W). destruct (exchanged_super n o s o' s' W E) as (_ & G1 & _ & G2). auto. Qed.
Theorem smallest_child lo hi ch index : tiles lo hi ch -> lo <= index <= hi ->
  exists k c, find_block ch index = Some (Z.of_nat k) /\ nth_error ch k = Some c /\ bfirst c <= index <= blast c /\
    forall j d, nth_error ch j = Some d -> bfirst d <= index <= blast d -> j = k.
Proof.
  intros T Hx. destruct (find_spec _ _ _ index T) as (l1 & c & l2 & E & F & Hc); [lia|].
  exists (length l1), c. split; auto. assert (Nc : nth_error ch (length l1) = Some c) by (rewrite E, nth_error_app2, Nat.sub_diag by lia; reflexivity).
  split; auto. split; auto. intros j d Hd Hj. destruct (Nat.lt_trichotomy j (length l1)) as [L|[L|L]]; auto.
  - pose proof (tiles_lt _ _ _ _ _ _ _ T Hd Nc L). lia.
  - pose proof (tiles_lt _ _ _ _ _ _ _ T Nc Hd L). lia.
Qed.
