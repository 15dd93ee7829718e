(** * Breadth-first window reordering loses no cell. *)
From Coq Require Import NArith ZArith List Bool Lia Permutation.
From Verif Require Import Base BFModel StoreInv MgrModel ApiModel ReorderModel ReorderStep PackModel BFReorderModel BFReorderFree SpecMem.
Import ListNotations.
Open Scope N_scope.

Section Mem.
Variable O : N -> Prop.
Definition acc (s : store) (w : N -> list N) (a : N) : Prop := exists v, O v /\ (In a (ut s v) \/ In a (fl s v) \/ In a (w v)).
Record grow (s : store) (w : N -> list N) (s' : store) (w' : N -> list N) : Prop := {
  g_old : forall a, acc s w a -> acc s' w' a;
  g_nx : nx s <= nx s';
  g_new : forall a, nx s <= a < nx s' -> acc s' w' a
}.
Lemma grow_same s w s' : ut s' = ut s -> fl s' = fl s -> nx s' = nx s -> grow s w s' w.
Proof. intros A B C. constructor; [|lia|lia]. intros a. unfold acc. now rewrite A, B. Qed.
Lemma grow_trans s w s1 w1 s2 w2 : grow s w s1 w1 -> grow s1 w1 s2 w2 -> grow s w s2 w2.
Proof.
  intros [A1 A2 A3] [B1 B2 B3]. constructor; auto; [lia|]. intros a Ha. destruct (N.lt_ge_cases a (nx s1)) as [L|L]; [apply B1, A3|apply B3]; lia.
Qed.
Lemma grow_push s w i n s1 s2 : O i -> alloc s i = (n, s1) -> ut s2 = upd (ut s1) i (n :: ut s1 i) -> fl s2 = fl s1 -> nx s2 = nx s1 -> grow s w s2 w.
Proof.
  intros Oi A U F X. unfold alloc in A.
  assert (Un : In n (ut s2 i)) by (rewrite U; unfold upd; rewrite N.eqb_refl; now left).
  assert (Uo : forall a v, In a (ut s1 v) -> In a (ut s2 v)).
  { intros a v Ia. rewrite U. unfold upd. destruct (N.eqb_spec v i) as [Ev|_]; auto. right. congruence. }
  destruct (fl s i) as [|c r] eqn:Fi; injection A as <- <-; cbn [ut fl nx] in *; constructor; try lia.
  - intros a (v & Ov & [H|[H|H]]); exists v; split; auto. right. left. now rewrite F.
  - intros a Ha. exists i. split; auto. left. assert (Ea : a = nx s) by (destruct Ha; lia). rewrite Ea. exact Un.
  - intros a (v & Ov & [H|[H|H]]); [exists v; auto| |exists v; auto].
    destruct (N.eq_dec v i) as [->|Nv].
    + rewrite Fi in H. destruct H as [<-|H]; [exists i; auto|]. exists i. split; auto. right. left. rewrite F. unfold upd. now rewrite N.eqb_refl.
    + exists v. split; auto. right. left. rewrite F. unfold upd. destruct (N.eqb_spec v i); [congruence|exact H].
Qed.
Lemma grow_uniq s w i t e : O i -> grow s w (snd (uniq_add s i t e)) w.
Proof.
  intros Oi. unfold uniq_add, tfindadd. destruct (tfind (mem s) (ut s i) t e) as [a|].
  - cbn [snd]. constructor; [|apply N.le_refl|intros b Hb; change (nx s <= b < nx s) in Hb; lia]. intros b (v & Ov & H). exists v. split; auto. cbn [ut fl set_nn set_ut].
    destruct H as [H|H]; [left|right; exact H]. unfold upd. destruct (N.eqb_spec v i) as [Ev|_]; auto. congruence.
  - destruct (alloc s i) as [a s1] eqn:A. cbn [snd]. eapply grow_push; [exact Oi|exact A| | |]; try reflexivity.
    assert (E : ut s1 = ut s) by (unfold alloc in A; destruct (fl s i); injection A as _ <-; reflexivity).
    cbn [set_nn set_ut ut put set_mem]. now rewrite E.
Qed.
Lemma grow_find s w i t e : O i -> grow s w (snd (find_or_add s i t e)) w.
Proof.
  intros Oi. unfold find_or_add. destruct (eeq t e); [now apply grow_same|]. destruct (eneg t); [|now apply grow_uniq].
  pose proof (grow_uniq s w i (enot t) (enot e) Oi) as Q. destruct (uniq_add s i (enot t) (enot e)) as [[a b] c]. exact Q.
Qed.
Lemma grow_swap1 o k i j s w f s' w' : O i -> O j -> swap1 o k i j (Ok (s, w)) f = Ok (s', w') -> grow s w s' w' /\ acc s' w' f.
Proof.
  intros Oi Oj H. unfold swap1 in H. cbn [obind] in H.
  destruct (bcof o k (mem s) (ce (mem s f))) as [f01 f00]. destruct (bcof o k (mem s) (ct (mem s f))) as [f11 f10].
  destruct (_ || _ || _ || _); [discriminate|].
  assert (Q0 : grow s w (snd (if eeq f10 f00 then (f00, true, s) else find_or_add s i f10 f00)) w).
  { destruct (eeq f10 f00); [now apply grow_same|now apply grow_find]. }
  destruct (if eeq f10 f00 then (f00, true, s) else find_or_add s i f10 f00) as [[n0 found0] s1]. cbn [snd] in Q0.
  assert (Q1 : grow s1 w (snd (if eeq f11 f01 then (f01, true, icr s1 n0) else find_or_add (icr s1 n0) i f11 f01)) w).
  { destruct (eeq f11 f01); [now apply grow_same|]. eapply grow_trans; [|now apply grow_find]. now apply grow_same. }
  destruct (if eeq f11 f01 then (f01, true, icr s1 n0) else find_or_add (icr s1 n0) i f11 f01) as [[n1 found1] s3]. cbn [snd] in Q1.
  match type of H with (let '(n, s8) := alloc ?z j in _) = _ => set (s7 := z) in * end.
  assert (Q7 : grow s3 w s7 w) by (unfold s7; destruct found0, found1; now apply grow_same).
  destruct (alloc s7 j) as [n s8] eqn:A. injection H as <- <-.
  assert (Ow : acc s8 (upd w i (f :: w i)) f).
  { exists i. split; auto. right. right. unfold upd. rewrite N.eqb_refl. now left. }
  split.
  - eapply grow_trans; [exact Q0|]. eapply grow_trans; [exact Q1|]. eapply grow_trans; [exact Q7|].
    eapply grow_trans; [apply (grow_push s7 w j n s8 (set_nn (set_ut (put s8 n (C n1 n0 0)) (upd (ut s8) j (n :: ut s8 j))) (nn s8 + 1)) Oj A); reflexivity|].
    constructor; [|apply N.le_refl|intros a Ha; exfalso; cbn [nx addref put set_mem set_nn set_ut] in Ha; lia].
    intros a (v & Ov & H). exists v. split; auto. destruct H as [H|[H|H]]; [now left|right; now left|].
    right. right. unfold upd. destruct (N.eqb_spec v i) as [Ev|_]; auto. right. congruence.
  - exists i. split; auto. right. right. unfold upd. rewrite N.eqb_refl. now left.
Qed.
Lemma grow_swaps o k i j : O i -> O j -> forall l s w s' w', fold_left (swap1 o k i j) l (Ok (s, w)) = Ok (s', w') ->
  grow s w s' w' /\ forall a, In a l -> acc s' w' a.
Proof.
  intros Oi Oj. induction l as [|f l IH]; intros s w s' w' H; cbn [fold_left] in H.
  - injection H as <- <-. split; [now apply grow_same|intros a []].
  - destruct (swap1 o k i j (Ok (s, w)) f) as [[s1 w1]| |] eqn:E.
    + destruct (grow_swap1 _ _ _ _ _ _ _ _ _ Oi Oj E) as [A B]. destruct (IH _ _ _ _ H) as [A' B'].
      split; [eapply grow_trans; eauto|]. intros a [<-|Ia]; auto. now apply (g_old _ _ _ _ A').
    + rewrite swap1_stuck in H by congruence. discriminate.
    + rewrite swap1_stuck in H by congruence. discriminate.
Qed.
(** A node goes from a table to the free list. *)
Lemma grow_free s w j a s' : O j -> ut s' = upd (ut s) j (remove N.eq_dec a (ut s j)) -> fl s' = upd (fl s) j (a :: fl s j) -> nx s' = nx s -> grow s w s' w.
Proof.
  intros Oj U F X. constructor; [|lia|lia]. intros b (v & Ov & H).
  assert (Fo : forall c u, In c (fl s u) -> In c (fl s' u)).
  { intros c u Ic. rewrite F. unfold upd. destruct (N.eqb_spec u j) as [Eu|_]; auto. right. congruence. }
  destruct H as [H|[H|H]]; [|exists v; auto|exists v; auto].
  destruct (N.eq_dec v j) as [->|Nv].
  - destruct (N.eq_dec b a) as [->|Nb].
    + exists j. split; auto. right. left. rewrite F. unfold upd. rewrite N.eqb_refl. now left.
    + exists j. split; auto. left. rewrite U. unfold upd. rewrite N.eqb_refl. now apply in_in_remove.
  - exists v. split; auto. left. rewrite U. unfold upd. destruct (N.eqb_spec v j); [congruence|exact H].
Qed.
Lemma grow_sweep1 w j s a s' : O j -> bsweep1 j (Ok s) a = Ok s' -> grow s w s' w.
Proof.
  intros Oj H. unfold bsweep1 in H. cbn [obind] in H. destruct (cr (mem s a) =? 0); [|injection H as <-; now apply grow_same].
  destruct (clean (mem s) a); [|discriminate]. injection H as <-. eapply (grow_free s w j a); auto; reflexivity.
Qed.
Lemma grow_sweeps w j : O j -> forall l s s', fold_left (bsweep1 j) l (Ok s) = Ok s' -> grow s w s' w.
Proof.
  intros Oj. induction l as [|f l IH]; intros s s' H; cbn [fold_left] in H; [injection H as <-; now apply grow_same|].
  destruct (bsweep1 j (Ok s) f) as [s1| |] eqn:E.
  - eapply grow_trans; [eapply grow_sweep1; eauto|eauto].
  - rewrite bsweep1_stuck in H by congruence. discriminate.
  - rewrite bsweep1_stuck in H by congruence. discriminate.
Qed.
Lemma grow_gc1 w i p a : O i -> grow (fst p) w (fst (gc1 i p a)) w.
Proof.
  intros Oi. destruct p as [s fr]. unfold gc1. cbn [fst]. destruct (cr (mem s a) =? 0); cbn [fst]; [|now apply grow_same].
  eapply (grow_free s w i a); auto; reflexivity.
Qed.
Lemma grow_gcs w i : O i -> forall l p, grow (fst p) w (fst (fold_left (gc1 i) l p)) w.
Proof.
  intros Oi. induction l as [|a l IH]; intros p; cbn [fold_left]; [now apply grow_same|].
  eapply grow_trans; [now apply (grow_gc1 w i p a)|apply IH].
Qed.
Lemma grow_gc w : forall l p, (forall i, In i l -> O i) -> grow (fst p) w (fst (fold_left gc_table l p)) w.
Proof.
  induction l as [|i l IH]; intros p Hl; cbn [fold_left]; [now apply grow_same|].
  eapply grow_trans; [|apply IH; intros; apply Hl; now right]. unfold gc_table. apply grow_gcs. apply Hl. now left.
Qed.

Variable b0 : bst.
Hypothesis HO : forall v, In v (ord (bo b0)) -> O v.
Definition P (b : bst) : Prop := grow (bs b0) (bw b0) (bs b) (bw b) /\ Permutation (ord (bo b)) (ord (bo b0)).
Lemma P_bswap Mx b k flag b' : P b -> bswap Mx k flag b = Ok b' -> P b'.
Proof.
  intros [G V0] H. unfold bswap in H. assert (V : forall v, In v (ord (bo b)) -> O v) by (intros v Iv; apply HO; eapply Permutation_in; eauto).
  destruct (nth_error (ord (bo b)) (N.to_nat k)) as [i|] eqn:Hi; [|injection H as <-; now split].
  destruct (nth_error (ord (bo b)) (S (N.to_nat k))) as [j|] eqn:Hj; [|injection H as <-; now split].
  pose proof (V i (nth_error_In _ _ Hi)) as Oi. pose proof (V j (nth_error_In _ _ Hj)) as Oj.
  cbv zeta in H. apply obind_ok in H as ([s' w'] & Ex & H). injection H as <-. split; cbn [bo bs bw fst snd].
  2:{ eapply Permutation_trans; [apply swap_list_perm|exact V0]. }
  eapply grow_trans; [exact G|]. destruct (Mx i j); [|injection Ex as <- <-; now apply grow_same].
  match type of Ex with (if ?z then _ else _) = _ => destruct z; [|discriminate] end.
  apply obind_ok in Ex as ([s2 w2] & E2 & Ex). apply obind_ok in Ex as (s3 & E3 & Ex). cbn [fst snd] in E3, Ex. injection Ex as <- <-.
  eapply grow_trans; [|eapply grow_sweeps; eauto].
  destruct (grow_swaps _ _ _ _ Oi Oj _ _ _ _ _ E2) as [[A1 A2 A3] A4]. cbn [nx set_nn set_ut set_mem] in A2, A3.
  constructor; auto. intros a (v & Ov & Ha).
  set (m1 := if flag then fold_left fix1 (ut (bs b) i) (mem (bs b)) else mem (bs b)) in *.
  destruct Ha as [Ha|Ha]; [|apply A1; exists v; split; auto].
  destruct (N.eq_dec v i) as [->|Nv].
  - destruct (btouch (bo b) k m1 a) eqn:T.
    + apply A4. apply -> in_rev. apply filter_In. auto.
    + apply A1. exists i. split; auto. left. cbn [ut set_nn set_ut set_mem]. unfold upd. rewrite N.eqb_refl. apply filter_In. now rewrite T.
  - apply A1. exists v. split; auto. left. cbn [ut set_nn set_ut set_mem]. unfold upd. destruct (N.eqb_spec v i); [congruence|exact Ha].
Qed.
Lemma P_swaps Mx l b b' : P b -> swaps Mx l b = Ok b' -> P b'.
Proof.
  unfold swaps. revert b. induction l as [|p l IH]; intros b B H; cbn [fold_left] in H; [now injection H as <-|].
  cbn [obind] in H. destruct (bswap Mx (fst p) (snd p) b) as [b1| |] eqn:E.
  - eapply IH; [|exact H]. eapply P_bswap; eauto.
  - exfalso. clear - H. induction l as [|q l IH]; cbn [fold_left obind] in H; [discriminate|auto].
  - exfalso. clear - H. induction l as [|q l IH]; cbn [fold_left obind] in H; [discriminate|auto].
Qed.
Lemma P_straighten ids b b' : P b -> straighten ids b = Ok b' -> P b'.
Proof. intros B H. unfold straighten in H. apply obind_ok in H as (m & _ & H). injection H as <-. destruct B as [[G1 G2 G3] V]. split; auto. now constructor. Qed.
Lemma P_cof b i b' : P b -> fix_cofactors b i = Ok b' -> P b'.
Proof. intros B H. unfold fix_cofactors in H. cbv zeta in H. destruct (forallb _ _); [|discriminate]. injection H as <-. destruct B as [[G1 G2 G3] V]. split; auto. now constructor. Qed.
Lemma P_finish b b' : P b -> finish_pass b = Ok b' -> P b' /\ bw b' = fun _ => [].
Proof.
  intros B H. unfold finish_pass in H. apply obind_ok in H as (b1 & F & H).
  assert (B1 : P b1).
  { revert B F. generalize (rev (ord (bo b))) as l. intros l. revert b. induction l as [|i l IH]; intros b B F; cbn [fold_left] in F; [now injection F as <-|].
    cbn [obind] in F. destruct (fix_cofactors b i) as [b2| |] eqn:E.
    - eapply IH; [eapply P_cof; eauto|exact F].
    - exfalso. clear - F. induction l as [|q l IH]; cbn [fold_left obind] in F; [discriminate|auto].
    - exfalso. clear - F. induction l as [|q l IH]; cbn [fold_left obind] in F; [discriminate|auto]. }
  cbv zeta in H. match type of H with (if ?z then _ else _) = _ => destruct z; [|discriminate] end. injection H as <-.
  destruct B1 as [G V]. split; [|reflexivity]. split; [|exact V]. eapply grow_trans; [exact G|]. cbn [bs bw].
  constructor; [|apply N.le_refl|intros c Hc; change (nx (bs b1) <= c < nx (bs b1)) in Hc; lia]. intros a (v & Ov & Ha). exists v. split; auto. cbn [ut fl set_fl set_mem].
  destruct Ha as [Ha|[Ha|Ha]]; auto; right; left; apply in_or_app; auto.
Qed.
Lemma P_window2 Mx k b q : P b -> window2 Mx k b = Ok q -> P (fst q).
Proof.
  intros B H. unfold window2 in H. cbv zeta in H. apply obind_ok in H as (b1 & H1 & H).
  pose proof (P_bswap _ _ _ _ _ B H1) as B1. apply obind_ok in H as (b2 & H2 & H).
  assert (B2 : P b2).
  { destruct (bsize b <? bsize b1); [exact (P_bswap _ _ _ _ _ B1 H2)|injection H2 as <-; exact B1]. }
  apply obind_ok in H as (b3 & H3 & H). injection H as <-. cbn [fst]. exact (P_straighten _ _ _ B2 H3).
Qed.
Lemma P_window3 Mx k b q : P b -> window3 Mx k b = Ok q -> P (fst q).
Proof.
  intros B H. unfold window3 in H. cbv zeta in H. apply obind_ok in H as (b1 & H1 & H).
  pose proof (P_bswap _ _ _ _ _ B H1) as B1. destruct (if bsize b1 <? bsize b then (1, bsize b1) else (0, bsize b)) as [t1 z1].
  apply obind_ok in H as (b2 & H2 & H). pose proof (P_bswap _ _ _ _ _ B1 H2) as B2. destruct (if bsize b2 <? z1 then _ else _) as [t2 z2].
  apply obind_ok in H as (b3 & H3 & H). pose proof (P_bswap _ _ _ _ _ B2 H3) as B3. destruct (if bsize b3 <=? z2 then _ else _) as [t3 z3].
  apply obind_ok in H as (b4 & H4 & H). pose proof (P_bswap _ _ _ _ _ B3 H4) as B4. destruct (if bsize b4 <=? z3 then _ else _) as [t4 z4].
  apply obind_ok in H as (b5 & H5 & H). pose proof (P_bswap _ _ _ _ _ B4 H5) as B5. destruct (if bsize b5 <=? z4 then _ else _) as [t5 z5].
  apply obind_ok in H as (b6 & H6 & H). pose proof (P_swaps _ _ _ _ B5 H6) as B6.
  apply obind_ok in H as (b7 & H7 & H).
  assert (B7 : P b7).
  { destruct ((t5 =? 0) || (t5 =? 3)); [|injection H7 as <-; exact B6].
    destruct (nth_error (ord (bo b6)) k) as [i|] eqn:Ei; [|injection H7 as <-; exact B6].
    exact (P_cof _ _ _ B6 H7). }
  apply obind_ok in H as (b8 & H8 & H). injection H as <-. cbn [fst]. exact (P_straighten _ _ _ B7 H8).
Qed.
Definition P_3 (q : pst3) : Prop := P (fst (fst q)).
Lemma P_one_window Mx lim k q q' : P_3 q -> one_window Mx lim (Ok q) k = Ok q' -> P_3 q'.
Proof.
  destruct q as [[b lv] any]. unfold P_3. cbn [fst]. intros B H. unfold one_window in H. cbn [obind] in H.
  destruct (lv k); [|injection H as <-; exact B].
  apply obind_ok in H as ([b1 moved] & H1 & H).
  assert (B1 : P b1).
  { destruct (k <? length (ord (bo b)) - 2)%nat.
    - apply obind_ok in H1 as (q & Hq & H1). destruct (lim <? _); [discriminate|]. injection H1 as ->. exact (P_window3 _ _ _ _ B Hq).
    - exact (P_window2 _ _ _ _ B H1). }
  destruct moved; injection H as <-; exact B1.
Qed.
Lemma window_stuck Mx lim l (q : outcome pst3) : (forall p, q <> Ok p) -> fold_left (one_window Mx lim) l q = q.
Proof. intros H. induction l as [|a l IH]; cbn [fold_left]; auto. destruct q as [p| |]; [destruct (H p); auto| |]; exact IH. Qed.
Lemma P_windows Mx lim : forall l q q', P_3 q -> fold_left (one_window Mx lim) l (Ok q) = Ok q' -> P_3 q'.
Proof.
  induction l as [|k l IH]; intros q q' B H; cbn [fold_left] in H; [injection H as <-; exact B|].
  destruct (one_window Mx lim (Ok q) k) as [q1| |] eqn:E.
  - eapply IH; [eapply P_one_window; eauto|exact H].
  - rewrite window_stuck in H by congruence. discriminate.
  - rewrite window_stuck in H by congruence. discriminate.
Qed.
Lemma P_pass Mx lim b lv q : P b -> one_pass Mx lim b lv = Ok q -> P (fst (fst q)) /\ bw (fst (fst q)) = fun _ => [].
Proof.
  intros B H. unfold one_pass in H. apply obind_ok in H as ([[b1 lv1] any] & H1 & H).
  assert (B1 : P b1) by exact (P_windows Mx lim _ (b, lv, false) (b1, lv1, any) B H1).
  apply obind_ok in H as (b2 & H2 & H). injection H as <-. cbn [fst]. exact (P_finish _ _ B1 H2).
Qed.
Theorem P_passes Mx lim : forall n b lv b', P b -> passes n Mx lim b lv = Ok b' -> P b' /\ bw b' = fun _ => [].
Proof.
  induction n as [|n IH]; intros b lv b' B H; cbn [passes] in H; [discriminate|].
  apply obind_ok in H as ([[b1 lv1] any] & H1 & H). pose proof (P_pass _ _ _ _ _ B H1) as Q. cbn [fst] in Q.
  destruct any; [|injection H as <-; exact Q]. eapply IH; [|exact H]. exact (proj1 Q).
Qed.
End Mem.

Theorem window_keeps_cells lim fuel m m' : reorder_window lim fuel m = Ok m' -> no_cell_lost m m'.
Proof.
  intros H. unfold reorder_window in H. cbv zeta in H. apply obind_ok in H as (b & HP & H).
  set (O := fun v => In v (0 :: ord (mo m))). set (m1 := gc (set_mca m (fun _ => None))) in *.
  assert (Eo : mo m1 = mo m).
  { unfold m1, gc. cbn [mo me set_mca]. destruct (gc_store (mo m) (st (me m))). reflexivity. }
  assert (G1 : grow O (st (me m)) (fun _ => []) (st (me m1)) (fun _ => [])).
  { replace (st (me m1)) with (fst (gc_store (mo m) (st (me m)))).
    - exact (grow_gc O (fun _ => []) (0 :: ord (mo m)) (st (me m), []) (fun i Ii => Ii)).
    - unfold m1, gc. cbn [mo me set_mca]. destruct (gc_store (mo m) (st (me m))). reflexivity. }
  assert (P0 : P O (bf_start m1) (bf_start m1)).
  { split; [now apply grow_same|apply Permutation_refl]. }
  assert (HO : forall v, In v (ord (bo (bf_start m1))) -> O v) by (intros v Iv; right; cbn [bf_start bo] in Iv; now rewrite Eo in Iv).
  destruct (P_passes O (bf_start m1) HO _ _ _ _ _ _ P0 HP) as [[G V] W]. injection H as <-. cbn [bf_start bo] in V. rewrite Eo in V.
  pose proof (grow_trans _ _ _ _ _ _ _ G1 G) as [A1 A2 A3]. rewrite W in *.
  assert (Q : forall a, acc O (bs b) (fun _ => []) a -> holds_node (bf_end m1 b) a \/ free_cell (bf_end m1 b) a).
  { intros a (v & Ov & Ha).
    assert (Iv : In v (0 :: ord (mo (bf_end m1 b)))) by (destruct Ov as [Ov|Ov]; [now left|right; eapply Permutation_in; [apply Permutation_sym; exact V|exact Ov]]).
    destruct Ha as [Ha|[Ha|[]]]; [left|right]; exists v; split; auto. }
  intros a [(v & Ov & Ha)|[(v & Ov & Ha)|Ha]]; apply Q; [apply A1; exists v; auto|apply A1; exists v; auto|apply A3; exact Ha].
Qed.
