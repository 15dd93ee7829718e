(** * The searches end at the best order they have seen (proofs). *)
From Coq Require Import ZArith List Bool Lia Permutation.
From Verif Require Import SearchModel.
Import ListNotations.
Open Scope Z_scope.

Lemma bindp_some {A B} (x : option A) (f : A -> option B) a : x = Some a -> bindp x f = f a.
Proof. intros ->. reflexivity. Qed.
Lemma foldp_app {A B} (f : B -> A -> option B) a b x : foldp f (a ++ b) x = bindp (foldp f a x) (foldp f b).
Proof. revert x. induction a as [|e a IH]; intros x; simpl; auto. destruct (f x e); simpl; auto. Qed.

(** ** The item [x] at position [p] among the others. *)
Definition ins {A} (p : nat) (x : A) (r : list A) : list A := firstn p r ++ x :: skipn p r.
Lemma ins_length {A} p (x : A) r : length (ins p x r) = S (length r).
Proof. unfold ins. rewrite app_length. cbn [length]. rewrite firstn_length, skipn_length. lia. Qed.
Lemma swap_right {A} (x : A) : forall p r, (p < length r)%nat -> swap_nth p (ins p x r) = Some (ins (S p) x r).
Proof.
  induction p as [|p IH]; intros [|a r] H; simpl in H; try lia; [reflexivity|].
  unfold ins. rewrite !firstn_cons, !skipn_cons. cbn [app swap_nth]. fold (ins p x r). rewrite IH by lia. reflexivity.
Qed.
Lemma swap_left {A} (x : A) : forall p r, (p < length r)%nat -> swap_nth p (ins (S p) x r) = Some (ins p x r).
Proof.
  induction p as [|p IH]; intros [|a r] H; simpl in H; try lia; [reflexivity|].
  unfold ins. rewrite (firstn_cons (S p)), (skipn_cons (S p)), (firstn_cons p), (skipn_cons p). cbn [app swap_nth].
  fold (ins (S p) x r). rewrite IH by lia. reflexivity.
Qed.
Lemma as_ins {A} (l : list A) p : (p < length l)%nat -> exists x r, l = ins p x r /\ length l = S (length r).
Proof.
  intros H. destruct (nth_error l p) as [x|] eqn:E; [|apply nth_error_None in E; lia].
  apply nth_error_split in E as (l1 & l2 & -> & <-). exists x, (l1 ++ l2). split.
  - unfold ins. rewrite firstn_app, Nat.sub_diag, firstn_O, firstn_all, app_nil_r, skipn_app, Nat.sub_diag, skipn_all, skipn_O. reflexivity.
  - rewrite !app_length. simpl. lia.
Qed.
Lemma ins_perm {A} p q (x : A) r : Permutation (ins p x r) (ins q x r).
Proof.
  assert (H : forall p, Permutation (ins p x r) (x :: r)).
  { intros p0. unfold ins. rewrite <- Permutation_middle. now rewrite firstn_skipn. }
  rewrite H. symmetry. apply H.
Qed.
Lemma set_nth_some {A} k (x : A) l : (k < length l)%nat -> exists l', set_nth k x l = Some l' /\ length l' = length l.
Proof.
  revert k. induction l as [|a l IH]; intros k H; simpl in H; [lia|]. destruct k; simpl; [eauto|].
  destruct (IH k) as (l' & -> & E); [lia|]. simpl. eexists. split; eauto. simpl. lia.
Qed.
Lemma set_all_some {A} (x : A) ks l : (forall k, In k ks -> (k < length l)%nat) ->
  exists l', foldp (fun lv k => set_nth k x lv) ks l = Some l' /\ length l' = length l.
Proof.
  revert l. induction ks as [|k ks IH]; intros l H; simpl; [eauto|]. destruct (set_nth_some k x l) as (l' & -> & E); [apply H; now left|].
  simpl. destruct (IH l') as (l2 & E2 & E3); [intros j Hj; rewrite E; apply H; now right|]. rewrite E2. eexists. split; eauto. lia.
Qed.

Section Search.
  Variable A : Type.
  Variable size : list A -> Z.
  Hypothesis size_nonneg : forall l, 0 <= size l.
  Notation st := (st A).
  Notation exchange := (exchange A).
  Notation numNodes := (numNodes A size).

  (** The order is one of those seen, none of those seen is better, and all of them are orders of the same items. *)
  Definition best_seen (l0 : list A) (s : st) : Prop :=
    In (fst s) (snd s) /\ (forall o, In o (snd s) -> size (fst s) <= size o) /\ (forall o, In o (snd s) -> Permutation l0 o).
  Definition improves (s s' : st) : Prop := size (fst s') <= size (fst s).
  Lemma best_start l : best_seen l (l, [l]).
  Proof. unfold best_seen. simpl. split; auto. split; intros o [<-|[]]; [lia|auto]. Qed.
  Lemma best_perm l s : best_seen l s -> Permutation l (fst s).
  Proof. intros (H1 & _ & H). auto. Qed.
  Lemma best_len l s : best_seen l s -> length (fst s) = length l.
  Proof. intros H. symmetry. apply Permutation_length, best_perm, H. Qed.

  Lemma exchange_right x r p seen : (p < length r)%nat -> exchange (ins p x r, seen) p = Some (ins (S p) x r, ins (S p) x r :: seen).
  Proof. intros H. unfold SearchModel.exchange. simpl fst. rewrite swap_right by auto. reflexivity. Qed.
  Lemma exchange_left x r p seen : (p < length r)%nat -> exchange (ins (S p) x r, seen) p = Some (ins p x r, ins p x r :: seen).
  Proof. intros H. unfold SearchModel.exchange. simpl fst. rewrite swap_left by auto. reflexivity. Qed.

  (** ** Sifting *)
  Section One.
    Variable x : A.
    Variable r : list A.
    Notation sz p := (size (ins p x r)).
    Notation n1 := (length r).
    Variable l0 : list A.
    Hypothesis perm0 : Permutation l0 (ins 0 x r).
    Definition minimal (b : nat * Z) (seen : list (list A)) : Prop :=
      snd b = sz (fst b) /\ In (ins (fst b) x r) seen /\ (forall o, In o seen -> snd b <= size o) /\ (forall o, In o seen -> Permutation l0 o).
    Lemma min_note lt p b seen : minimal b seen -> minimal (note lt p (sz p) b) (ins p x r :: seen).
    Proof.
      intros (H1 & H2 & H3 & H4).
      assert (P : forall o, In o (ins p x r :: seen) -> Permutation l0 o) by (intros o [<-|Ho]; auto; rewrite perm0; apply ins_perm).
      unfold note. destruct (if lt then sz p <? snd b else sz p <=? snd b) eqn:E.
      - assert (sz p <= snd b) by (destruct lt; [apply Z.ltb_lt in E; lia|apply Z.leb_le in E; lia]).
        unfold minimal. simpl. split; auto. split; auto. split; auto. intros o [<-|Ho]; [lia|]. apply H3 in Ho. lia.
      - assert (snd b <= sz p) by (destruct lt; [apply Z.ltb_ge in E; lia|apply Z.leb_gt in E; lia]).
        split; auto. split; [now right|]. split; auto. intros o [<-|Ho]; auto.
    Qed.
    Lemma min_more p b seen : minimal b seen -> snd b <= sz p -> minimal b (ins p x r :: seen).
    Proof.
      intros (H1 & H2 & H3 & H4) H. split; auto. split; [now right|].
      split; (intros o [<-|Ho]; auto). rewrite perm0. apply ins_perm.
    Qed.
    Lemma note_pos lt p c b : fst (note lt p c b) = p \/ fst (note lt p c b) = fst b.
    Proof. unfold note. destruct (if lt then _ else _); auto. Qed.
    Variable sb : Z -> bool.
    Variables sr sl : Z -> Z -> bool.
    Hypothesis sr_ok : forall b c, 0 <= b -> sr b c = true -> b <= c.
    Variable M : Z.
    Hypothesis sl_ok : forall b c, b <= M -> sl b c = true -> b <= c.
    Lemma note_le lt p c b : snd (note lt p c b) <= snd b.
    Proof. unfold note. destruct (if lt then c <? snd b else c <=? snd b) eqn:E; simpl; [|lia]. destruct lt; [apply Z.ltb_lt in E|apply Z.leb_le in E]; lia. Qed.
    Definition covered (seen : list (list A)) (a b : nat) : Prop := forall p, (a <= p <= b)%nat -> In (ins p x r) seen.
    Lemma walk_right lt : forall k cur c b seen, (cur + k <= n1)%nat -> minimal b seen -> In (ins cur x r) seen ->
      exists cur' b' seen', walk A size sb true lt sr k cur c b (ins cur x r, seen) = Some (cur', b', (ins cur' x r, seen')) /\
        (cur <= cur' <= n1)%nat /\ minimal b' seen' /\ incl seen seen' /\ snd b' <= snd b /\ (fst b' = fst b \/ cur <= fst b' <= cur')%nat /\
        covered seen' cur cur'.
    Proof.
      assert (H0 : forall k cur (b : nat * Z) seen, (cur + k <= n1)%nat -> minimal b seen -> In (ins cur x r) seen ->
        exists cur' b' seen', Some (cur, b, (ins cur x r, seen)) = Some (cur', b', (ins cur' x r, seen')) /\
        (cur <= cur' <= n1)%nat /\ minimal b' seen' /\ incl seen seen' /\ snd b' <= snd b /\ (fst b' = fst b \/ cur <= fst b' <= cur')%nat /\ covered seen' cur cur').
      { intros k cur b seen Hk Hm Hs. exists cur, b, seen. split; auto. split; [lia|]. split; auto. split; [intros o; auto|]. split; [lia|]. split; [now left|].
        intros p Hp. now replace p with cur by lia. }
      induction k as [|k IH]; intros cur c b seen Hk Hm Hs; cbn [walk]; [now apply (H0 0%nat)|].
      destruct (sb c); [now apply (H0 (S k))|].
      rewrite exchange_right by lia. cbn [bindp fst snd]. unfold SearchModel.numNodes. cbn [fst]. replace (cur + 1)%nat with (S cur) by lia.
      destruct (sr (snd b) (sz (S cur))) eqn:E.
      - assert (0 <= snd b) by (destruct Hm as (-> & _); auto). apply sr_ok in E; auto.
        exists (S cur), b, (ins (S cur) x r :: seen). split; auto. split; [lia|]. split; [now apply min_more|]. split; [intros o; now right|]. split; [lia|]. split; [now left|].
        intros p Hp. assert (p = cur \/ p = S cur) as [->| ->] by lia; [now right|now left].
      - destruct (IH (S cur) (sz (S cur)) (note lt (S cur) (sz (S cur)) b) (ins (S cur) x r :: seen)) as (cur' & b' & seen' & E1 & L & Hm' & I & Hle & Hp & Hc); [lia|now apply min_note|now left|].
        exists cur', b', seen'. split; auto. split; [lia|]. split; auto. split; [intros o Ho; apply I; now right|].
        split; [pose proof (note_le lt (S cur) (sz (S cur)) b); lia|]. split.
        + destruct (note_pos lt (S cur) (sz (S cur)) b) as [X|X]; rewrite X in Hp; lia.
        + intros p Hq. assert (p = cur \/ S cur <= p)%nat as [->|] by lia; [apply I; now right|apply Hc; lia].
    Qed.
    Lemma walk_left lt : forall k cur c b seen, (k <= cur)%nat -> (cur <= n1)%nat -> minimal b seen -> snd b <= M -> In (ins cur x r) seen ->
      exists cur' b' seen', walk A size sb false lt sl k cur c b (ins cur x r, seen) = Some (cur', b', (ins cur' x r, seen')) /\
        (cur' <= cur)%nat /\ minimal b' seen' /\ incl seen seen' /\ snd b' <= snd b /\ (fst b' = fst b \/ cur' <= fst b' <= cur)%nat /\
        covered seen' cur' cur.
    Proof.
      assert (H0 : forall cur (b : nat * Z) seen, minimal b seen -> In (ins cur x r) seen ->
        exists cur' b' seen', Some (cur, b, (ins cur x r, seen)) = Some (cur', b', (ins cur' x r, seen')) /\
        (cur' <= cur)%nat /\ minimal b' seen' /\ incl seen seen' /\ snd b' <= snd b /\ (fst b' = fst b \/ cur' <= fst b' <= cur)%nat /\ covered seen' cur' cur).
      { intros cur b seen Hm Hs. exists cur, b, seen. split; auto. split; [lia|]. split; auto. split; [intros o; auto|]. split; [lia|]. split; [now left|].
        intros p Hp. now replace p with cur by lia. }
      induction k as [|k IH]; intros cur c b seen Hk Hc Hm HM Hs; cbn [walk]; [now apply H0|].
      destruct (sb c); [now apply H0|].
      destruct cur as [|cur]; [lia|]. replace (S cur - 1)%nat with cur by lia.
      rewrite exchange_left by lia. cbn [bindp fst snd]. unfold SearchModel.numNodes. cbn [fst].
      destruct (sl (snd b) (sz cur)) eqn:E.
      - apply sl_ok in E; auto.
        exists cur, b, (ins cur x r :: seen). split; auto. split; [lia|]. split; [now apply min_more|]. split; [intros o; now right|]. split; [lia|]. split; [now left|].
        intros p Hp. assert (p = cur \/ p = S cur) as [->| ->] by lia; [now left|now right].
      - pose proof (note_le lt cur (sz cur) b).
        destruct (IH cur (sz cur) (note lt cur (sz cur) b) (ins cur x r :: seen)) as (cur' & b' & seen' & E1 & L & Hm' & I & Hle & Hp & Hcv); [lia|lia|now apply min_note|lia|now left|].
        exists cur', b', seen'. split; auto. split; [lia|]. split; auto. split; [intros o Ho; apply I; now right|].
        split; [lia|]. split.
        + destruct (note_pos lt cur (sz cur) b) as [X|X]; rewrite X in Hp; lia.
        + intros p Hq. assert (p = S cur \/ p <= cur)%nat as [->|] by lia; [apply I; now right|apply Hcv; lia].
    Qed.
    (** Nothing stops the walks. *)
    Definition free : Prop := (forall p, (p <= n1)%nat -> sb (sz p) = false) /\
      (forall p q, (p <= n1)%nat -> (q <= n1)%nat -> sr (sz q) (sz p) = false /\ sl (sz q) (sz p) = false).
    Lemma note_sz lt p b : (p <= n1)%nat -> (fst b <= n1)%nat -> snd b = sz (fst b) ->
      (fst (note lt p (sz p) b) <= n1)%nat /\ snd (note lt p (sz p) b) = sz (fst (note lt p (sz p) b)).
    Proof. unfold note. destruct (if lt then _ else _); auto. Qed.
    Lemma walk_right_full lt : free -> forall k cur b s cur' b' s', (cur + k <= n1)%nat -> (fst b <= n1)%nat -> snd b = sz (fst b) -> fst s = ins cur x r ->
      walk A size sb true lt sr k cur (sz cur) b s = Some (cur', b', s') -> cur' = (cur + k)%nat.
    Proof.
      intros [F1 F2]. induction k as [|k IH]; intros cur b s cur' b' s' Hk Hb Eb Es; cbn [walk].
      - intros [= <- <- <-]. lia.
      - rewrite F1 by lia. destruct s as [o seen]. cbn [fst] in Es. subst o. rewrite exchange_right by lia. cbn [bindp]. unfold SearchModel.numNodes. cbn [fst].
        replace (cur + 1)%nat with (S cur) by lia. rewrite Eb. rewrite (proj1 (F2 (S cur) (fst b) ltac:(lia) Hb)). intros E.
        destruct (note_sz lt (S cur) b ltac:(lia) Hb Eb) as [N1 N2]. apply IH in E; auto; lia.
    Qed.
    Lemma walk_left_full lt : free -> forall k cur b s cur' b' s', (k <= cur)%nat -> (cur <= n1)%nat -> (fst b <= n1)%nat -> snd b = sz (fst b) -> fst s = ins cur x r ->
      walk A size sb false lt sl k cur (sz cur) b s = Some (cur', b', s') -> cur' = (cur - k)%nat.
    Proof.
      intros [F1 F2]. induction k as [|k IH]; intros cur b s cur' b' s' Hk Hc Hb Eb Es; cbn [walk].
      - intros [= <- <- <-]. lia.
      - rewrite F1 by lia. destruct s as [o seen]. cbn [fst] in Es. subst o. destruct cur as [|cur]; [lia|]. replace (S cur - 1)%nat with cur by lia.
        rewrite exchange_left by lia. cbn [bindp]. unfold SearchModel.numNodes. cbn [fst].
        rewrite Eb. rewrite (proj2 (F2 cur (fst b) ltac:(lia) Hb)). intros E.
        destruct (note_sz lt cur b ltac:(lia) Hb Eb) as [N1 N2]. apply IH in E; auto; lia.
    Qed.
    Definition along (seen seen' : list (list A)) (a b : nat) : Prop :=
      forall o, In o seen' -> In o seen \/ exists p, (a <= p <= b)%nat /\ o = ins p x r.
    Lemma go_right_ok : forall k cur seen, (cur + k <= n1)%nat ->
      exists seen', foldp exchange (seq cur k) (ins cur x r, seen) = Some (ins (cur + k) x r, seen') /\ incl seen seen' /\ along seen seen' cur (cur + k).
    Proof.
      induction k as [|k IH]; intros cur seen H; simpl seq; cbn [foldp].
      - rewrite Nat.add_0_r. exists seen. split; auto. split; [intros o; auto|intros o; auto].
      - rewrite exchange_right by lia. cbn [bindp]. destruct (IH (S cur) (ins (S cur) x r :: seen)) as (seen' & E & I & L); [lia|]. rewrite E.
        replace (S cur + k)%nat with (cur + S k)%nat by lia. exists seen'. split; auto. split; [intros o Ho; apply I; now right|].
        intros o Ho. apply L in Ho as [[<-|Ho]|(p & Hp & ->)]; auto; right; [exists (S cur)|exists p]; (split; [lia|reflexivity]).
    Qed.
    Lemma go_left_ok : forall k goal seen, (goal + k <= n1)%nat ->
      exists seen', foldp exchange (rev (seq goal k)) (ins (goal + k) x r, seen) = Some (ins goal x r, seen') /\ incl seen seen' /\ along seen seen' goal (goal + k).
    Proof.
      induction k as [|k IH]; intros goal seen H.
      - simpl. rewrite Nat.add_0_r. exists seen. split; auto. split; [intros o; auto|intros o; auto].
      - rewrite seq_S, rev_app_distr. simpl rev. cbn [app foldp]. replace (goal + S k)%nat with (S (goal + k)) by lia.
        rewrite exchange_left by lia. cbn [bindp]. destruct (IH goal (ins (goal + k) x r :: seen)) as (seen' & E & I & L); [lia|]. rewrite E.
        exists seen'. split; auto. split; [intros o Ho; apply I; now right|].
        intros o Ho. apply L in Ho as [[<-|Ho]|(p & Hp & ->)]; auto; right; [exists (goal + k)%nat|exists p]; (split; [lia|reflexivity]).
    Qed.
    Lemma min_along b seen seen' a c : minimal b seen -> incl seen seen' -> along seen seen' a c -> covered seen a c -> minimal b seen'.
    Proof.
      intros (H1 & H2 & H3 & H4) I L C. split; auto. split; [now apply I|]. split; intros o Ho; apply L in Ho as [Ho|(p & Hp & ->)]; auto.
    Qed.
    Lemma min_best b seen : minimal b seen -> best_seen l0 (ins (fst b) x r, seen).
    Proof. intros (H1 & H2 & H3 & H4). unfold best_seen. cbn [fst snd]. rewrite <- H1. auto. Qed.
    Lemma sift_with_ok rf start seen : (start <= n1)%nat -> best_seen l0 (ins start x r, seen) -> sz start <= M ->
      exists s', sift_with A size sb rf sr sl start (ins start x r, seen) = Some s' /\ best_seen l0 s' /\ incl seen (snd s') /\
        (free -> forall p, (p <= n1)%nat -> In (ins p x r) (snd s')).
    Proof.
      intros Hs (B1 & B2 & B3) HM. cbn [fst snd] in *. assert (Hm : minimal (start, sz start) seen) by (split; auto).
      unfold sift_with. cbn [fst]. rewrite ins_length. replace (S n1 - 1 - start)%nat with (n1 - start)%nat by lia. unfold SearchModel.numNodes. cbn [fst]. destruct rf.
      - destruct (walk_right true (n1 - start) start (sz start) _ seen ltac:(lia) Hm B1) as (c1 & b1 & s1 & W1 &  L1 & M1 & I1 & Le1 & P1 & C1). rewrite W1. cbn [bindp fst snd] in *.
        unfold go_left. destruct (Nat.ltb_spec c1 start); [lia|]. assert (Ec : ins c1 x r = ins (start + (c1 - start)) x r) by (f_equal; lia). rewrite Ec.
        destruct (go_left_ok (c1 - start) start s1 ltac:(lia)) as (s2 & E2 & I2 & A2). rewrite E2. clear E2. replace (start + (c1 - start))%nat with c1 in A2 by lia.
        assert (M2 : minimal b1 s2) by (apply (min_along b1 s1 s2 start c1); auto). cbn [bindp].
        destruct (walk_left false start start (sz start) b1 s2 ltac:(lia) Hs M2 ltac:(lia) ltac:(auto)) as (c3 & b3 & s3 & W3 & L3 & M3 & I3 & Le3 & P3 & C3). rewrite W3. cbn [bindp].
        unfold go_right. destruct (Nat.ltb_spec (fst b3) c3); [lia|].
        destruct (go_right_ok (fst b3 - c3) c3 s3 ltac:(lia)) as (s4 & -> & I4 & A4). replace (c3 + (fst b3 - c3))%nat with (fst b3) in * by lia.
        assert (B4 : (fst b1 <= n1)%nat) by lia.
        eexists. split; [reflexivity|]. split; [|split; [intros o Ho; apply I4, I3, I2, I1, Ho|]].
        + apply min_best. apply (min_along b3 s3 s4 c3 (fst b3)); auto.
          intros p Hp. destruct (Nat.le_gt_cases p start); [apply C3; lia|]. apply I3, I2, C1. lia.
        + intros F p Hp. cbn [snd]. apply I4. apply (walk_right_full true F) in W1; [|lia|auto|auto|auto]. apply (walk_left_full false F) in W3; [|lia|lia|lia|apply M2|auto].
          destruct (Nat.le_gt_cases p start); [apply C3; lia|]. apply I3, I2, C1. lia.
      - destruct (walk_left true start start (sz start) _ seen ltac:(lia) Hs Hm ltac:(auto) B1) as (c1 & b1 & s1 & W1 & L1 & M1 & I1 & Le1 & P1 & C1). rewrite W1. cbn [bindp fst snd] in *.
        unfold go_right. destruct (Nat.ltb_spec start c1); [lia|].
        destruct (go_right_ok (start - c1) c1 s1 ltac:(lia)) as (s2 & -> & I2 & A2). replace (c1 + (start - c1))%nat with start in * by lia.
        assert (M2 : minimal b1 s2) by (apply (min_along b1 s1 s2 c1 start); auto). cbn [bindp].
        destruct (walk_right false (n1 - start) start (sz start) b1 s2 ltac:(lia) M2 ltac:(auto)) as (c3 & b3 & s3 & W3 & L3 & M3 & I3 & Le3 & P3 & C3). rewrite W3. cbn [bindp].
        unfold go_left. destruct (Nat.ltb_spec c3 (fst b3)); [lia|]. assert (Ec : ins c3 x r = ins (fst b3 + (c3 - fst b3)) x r) by (f_equal; lia). rewrite Ec.
        destruct (go_left_ok (c3 - fst b3) (fst b3) s3 ltac:(lia)) as (s4 & E4 & I4 & A4). rewrite E4. clear E4. replace (fst b3 + (c3 - fst b3))%nat with c3 in A4 by lia.
        assert (B4 : (fst b1 <= n1)%nat) by lia.
        eexists. split; [reflexivity|]. split; [|split; [intros o Ho; apply I4, I3, I2, I1, Ho|]].
        + apply min_best. apply (min_along b3 s3 s4 (fst b3) c3); auto.
          intros p Hp. destruct (Nat.le_gt_cases p start); [apply I3, I2, C1; lia|]. apply C3. lia.
        + intros F p Hp. cbn [snd]. apply I4. apply (walk_left_full true F) in W1; [|lia|lia|auto|auto|auto]. apply (walk_right_full false F) in W3; [|lia|lia|apply M2|auto].
          destruct (Nat.le_gt_cases p start); [apply I3, I2, C1; lia|]. apply C3. lia.
    Qed.
  End One.

  (** One item, both variants.  [elsewhere l a o]: the order [o] is [l] with the item at position [a] moved to some place. *)
  Definition elsewhere (l : list A) (a : nat) (o : list A) : Prop := exists p x r, (p <= length r)%nat /\ l = ins a x r /\ o = ins p x r.
  Lemma ins_inj p (x y : A) r t : (p <= length r)%nat -> length r = length t -> ins p x r = ins p y t -> x = y /\ r = t.
  Proof.
    intros Hp Hl E. unfold ins in E. assert (L : length (firstn p r) = length (firstn p t)) by (rewrite !firstn_length; lia).
    assert (E1 : firstn p r = firstn p t /\ x :: skipn p r = y :: skipn p t).
    { revert E L. generalize (firstn p r), (firstn p t). intros u. induction u as [|a u IH]; intros [|b v] E L; simpl in L; try lia; auto.
      simpl in E. injection E as -> E. destruct (IH v E) as [-> X]; [lia|]. auto. }
    destruct E1 as [E1 E2]. injection E2 as -> E2. split; auto. rewrite <- (firstn_skipn p r), <- (firstn_skipn p t). congruence.
  Qed.
  Lemma df_sift_full limit l0 start s : best_seen l0 s -> (start < length l0)%nat ->
    exists s', df_sift_block A size limit start s = Some s' /\ best_seen l0 s' /\ incl (snd s) (snd s') /\
      ((forall o, elsewhere (fst s) start o -> size o <= 2 * size (fst s) /\ (limit = 0 \/ size o <= limit)) -> forall o, elsewhere (fst s) start o -> In o (snd s')).
  Proof.
    intros B H. pose proof (best_len _ _ B) as L. destruct (as_ins (fst s) start ltac:(lia)) as (x & r & E & Er). destruct s as [o seen]. cbn [fst snd] in *. subst o.
    unfold df_sift_block. cbv zeta.
    edestruct (sift_with_ok x r l0) with (M := size (ins start x r)) as (s' & E' & B' & I' & F'); [..|exists s'; split; [exact E'|]; split; [exact B'|]; split; [exact I'|]]; auto; try discriminate; try lia.
    - rewrite (best_perm _ _ B). apply ins_perm.
    - intros Hf o (p & y & t & Hp & Ey & ->).
      assert (Lt : length r = length t) by (apply (f_equal (@length A)) in Ey; rewrite !ins_length in Ey; lia).
      apply ins_inj in Ey as [<- <-]; [|lia|auto]. apply F'; auto. split; [|auto].
      intros q Hq. apply negb_false_iff, Z.leb_le. unfold SearchModel.numNodes. cbn [fst].
      destruct (Hf (ins q x r)) as [G1 G2]; [exists q, x, r; auto|]. destruct (Z.eqb_spec limit 0); cbn [negb andb]; [lia|].
      destruct (Z.ltb_spec limit (2 * size (ins start x r))); lia.
  Qed.
  Lemma bf_sift_full l0 start s : best_seen l0 s -> (start < length l0)%nat ->
    exists s', bf_sift_block A size start s = Some s' /\ best_seen l0 s' /\ incl (snd s) (snd s') /\
      ((forall o o', elsewhere (fst s) start o -> elsewhere (fst s) start o' -> size o < 2 * size o') -> forall o, elsewhere (fst s) start o -> In o (snd s')).
  Proof.
    intros B H. pose proof (best_len _ _ B) as L. destruct (as_ins (fst s) start ltac:(lia)) as (x & r & E & Er). destruct s as [o seen]. cbn [fst snd] in *. subst o.
    unfold bf_sift_block. cbv zeta.
    edestruct (sift_with_ok x r l0) with (M := 2 * size (ins start x r)) as (s' & E' & B' & I' & F'); [..|exists s'; split; [exact E'|]; split; [exact B'|]; split; [exact I'|]]; auto; try lia.
    - rewrite (best_perm _ _ B). apply ins_perm.
    - intros b c Hb E. cbn beta in E. apply Z.leb_le in E. lia.
    - intros b c Hb E. cbn beta in E. apply Z.ltb_lt in E. unfold SearchModel.numNodes in E. cbn [fst] in E. lia.
    - specialize (size_nonneg (ins start x r)). lia.
    - intros Hf o (p & y & t & Hp & Ey & ->).
      assert (Lt : length r = length t) by (apply (f_equal (@length A)) in Ey; rewrite !ins_length in Ey; lia).
      apply ins_inj in Ey as [<- <-]; [|lia|auto]. apply F'; auto. split; [auto|].
      intros q q' Hq Hq'. assert (G : forall a b, (a <= length r)%nat -> (b <= length r)%nat -> size (ins a x r) < 2 * size (ins b x r)).
      { intros a b Ha Hb. apply Hf; [exists a, x, r|exists b, x, r]; auto. }
      split; [apply Z.leb_gt, G; auto|]. apply Z.ltb_ge. unfold SearchModel.numNodes. cbn [fst]. specialize (G q start Hq ltac:(lia)). lia.
  Qed.
  Lemma df_sift_ok limit l0 start s : best_seen l0 s -> (start < length l0)%nat ->
    exists s', df_sift_block A size limit start s = Some s' /\ best_seen l0 s' /\ incl (snd s) (snd s').
  Proof. intros B H. destruct (df_sift_full limit l0 start s B H) as (s' & E & B' & I & _). eauto. Qed.
  Lemma bf_sift_ok l0 start s : best_seen l0 s -> (start < length l0)%nat ->
    exists s', bf_sift_block A size start s = Some s' /\ best_seen l0 s' /\ incl (snd s) (snd s').
  Proof. intros B H. destruct (bf_sift_full l0 start s B H) as (s' & E & B' & I & _). eauto. Qed.

  (** ** Windows *)
  Lemma swap_app (p q : list A) a b : swap_nth (length p) (p ++ a :: b :: q) = Some (p ++ b :: a :: q).
  Proof. induction p as [|c p IH]; simpl; auto. now rewrite IH. Qed.
  Lemma ex0 p q a b c seen : exchange (p ++ a :: b :: c :: q, seen) (length p) = Some (p ++ b :: a :: c :: q, (p ++ b :: a :: c :: q) :: seen).
  Proof. unfold SearchModel.exchange. cbn [fst]. rewrite swap_app. reflexivity. Qed.
  Lemma ex1 p q a b c seen : exchange (p ++ a :: b :: c :: q, seen) (S (length p)) = Some (p ++ a :: c :: b :: q, (p ++ a :: c :: b :: q) :: seen).
  Proof.
    unfold SearchModel.exchange. cbn [fst]. pose proof (swap_app (p ++ [a]) q b c) as H. rewrite app_length, <- !app_assoc in H. simpl in H.
    replace (length p + 1)%nat with (S (length p)) in H by lia. rewrite H. reflexivity.
  Qed.
  (** Another order of the [w] items from position [i] on. *)
  Definition rearranged (w i : nat) (l o : list A) : Prop :=
    exists p m m' q, l = p ++ m ++ q /\ o = p ++ m' ++ q /\ length p = i /\ length m = w /\ Permutation m m'.
  Lemma rearranged2 p a b q o : rearranged 2 (length p) (p ++ a :: b :: q) o -> o = p ++ a :: b :: q \/ o = p ++ b :: a :: q.
  Proof.
    intros (p' & m & m' & q' & E & -> & Lp & Lm & P). assert (p' = p /\ m = [a; b] /\ q' = q) as (-> & -> & ->).
    { destruct m as [|x [|y [|z m]]]; simpl in Lm; try lia. clear P. revert p' E Lp. induction p as [|e p IH]; intros [|e' p'] E Lp; simpl in Lp; try lia; simpl in E.
      - injection E as -> -> ->. auto.
      - injection E as -> E. destruct (IH p' E) as (-> & -> & ->); [lia|]. auto. }
    apply Permutation_length_2_inv in P as [->| ->]; auto.
  Qed.
  Lemma rearranged3 p a b c q o : rearranged 3 (length p) (p ++ a :: b :: c :: q) o ->
    In o [p ++ a :: b :: c :: q; p ++ b :: a :: c :: q; p ++ b :: c :: a :: q; p ++ c :: b :: a :: q; p ++ c :: a :: b :: q; p ++ a :: c :: b :: q].
  Proof.
    intros (p' & m & m' & q' & E & -> & Lp & Lm & P). assert (p' = p /\ m = [a; b; c] /\ q' = q) as (-> & -> & ->).
    { destruct m as [|x [|y [|z [|t m]]]]; simpl in Lm; try lia. clear P. revert p' E Lp. induction p as [|e p IH]; intros [|e' p'] E Lp; simpl in Lp; try lia; simpl in E.
      - injection E as -> -> -> ->. auto.
      - injection E as -> E. destruct (IH p' E) as (-> & -> & ->); [lia|]. auto. }
    destruct m' as [|x m2]; [apply Permutation_length in P; discriminate|].
    assert (I : In x [a; b; c]) by (apply (Permutation_in x (Permutation_sym P)); now left). destruct I as [<-|[<-|[<-|[]]]].
    - apply Permutation_cons_inv in P. apply Permutation_length_2_inv in P as [->| ->]; simpl; tauto.
    - rewrite perm_swap in P. apply Permutation_cons_inv in P. apply Permutation_length_2_inv in P as [->| ->]; simpl; tauto.
    - assert (P2 : Permutation (c :: [a; b]) (c :: m2)) by (rewrite <- P; transitivity (a :: c :: [b]); [apply perm_swap|apply perm_skip, perm_swap]).
      apply Permutation_cons_inv in P2. apply Permutation_length_2_inv in P2 as [->| ->]; simpl; tauto.
  Qed.
  Definition step_ok (w : nat) (l0 : list A) (i : nat) (win : nat -> st -> option (bool * st)) : Prop :=
    forall s, best_seen l0 s -> exists moved s', win i s = Some (moved, s') /\ best_seen l0 s' /\ incl (snd s) (snd s') /\
      size (fst s') <= size (fst s) /\ (moved = true -> size (fst s') < size (fst s)) /\ (forall o, rearranged w i (fst s) o -> In o (snd s')).
  Lemma split2 (l : list A) i : (i + 1 < length l)%nat -> exists p a b q, l = p ++ a :: b :: q /\ i = length p.
  Proof.
    intros H. exists (firstn i l). destruct (skipn i l) as [|a [|b q]] eqn:E.
    - apply (f_equal (@length A)) in E. rewrite skipn_length in E. simpl in E. lia.
    - apply (f_equal (@length A)) in E. rewrite skipn_length in E. simpl in E. lia.
    - exists a, b, q. rewrite <- E, firstn_skipn, firstn_length. split; auto. lia.
  Qed.
  Lemma more_seen l0 (o : list A) s s' : best_seen l0 s -> (forall o', In o' s' -> o' = o \/ In o' (snd s) \/ (Permutation l0 o' /\ size o <= size o')) ->
    In o s' -> Permutation l0 o -> size o <= size (fst s) -> best_seen l0 (o, s').
  Proof.
    intros (B1 & B2 & B3) H Ho P Hs. unfold best_seen. cbn [fst snd]. split; auto. split.
    - intros o' H'. apply H in H' as [->|[H'|[_ H']]]; [lia| |auto]. apply B2 in H'. lia.
    - intros o' H'. apply H in H' as [->|[H'|[H' _]]]; auto.
  Qed.
  Lemma df_window2_ok l0 i : (i + 1 < length l0)%nat -> step_ok 2 l0 i (df_window2 A size).
  Proof.
    intros H s B. pose proof (best_len _ _ B) as L. destruct (split2 (fst s) i ltac:(lia)) as (p & a & b & q & E & ->). destruct s as [o seen]. cbn [fst snd] in *. subst o.
    pose proof (best_perm _ _ B) as P0. cbn [fst] in P0. assert (P1 : Permutation l0 (p ++ b :: a :: q)) by (rewrite P0; apply Permutation_app_head, perm_swap).
    unfold df_window2, SearchModel.exchange, SearchModel.numNodes. cbn [fst snd]. rewrite swap_app. cbn [bindp fst snd].
    destruct (Z.ltb_spec (size (p ++ b :: a :: q)) (size (p ++ a :: b :: q))) as [X|X].
    - eexists true, _. split; [reflexivity|]. cbn [fst snd]. split; [|split; [intros o Ho; now right|split; [lia|split; [auto|intros o Ho; apply rearranged2 in Ho as [->| ->]; [right; apply B|now left]]]]].
      apply (more_seen l0 _ _ _ B); [intros o' [<-|Ho']; auto|now left|auto|cbn [fst]; lia].
    - rewrite swap_app. cbn [bindp]. eexists false, _. split; [reflexivity|]. cbn [fst snd]. split; [|split; [intros o Ho; right; now right|split; [lia|split; [discriminate|intros o Ho; apply rearranged2 in Ho as [->| ->]; [now left|right; now left]]]]].
      apply (more_seen l0 _ _ _ B); [intros o' [<-|[<-|Ho']]; auto|now left|auto|cbn [fst]; lia].
  Qed.
  Lemma bf_window2_ok l0 i : (i + 1 < length l0)%nat -> step_ok 2 l0 i (bf_window2 A size).
  Proof.
    intros H s B. pose proof (best_len _ _ B) as L. destruct (split2 (fst s) i ltac:(lia)) as (p & a & b & q & E & ->). destruct s as [o seen]. cbn [fst snd] in *. subst o.
    pose proof (best_perm _ _ B) as P0. cbn [fst] in P0. assert (P1 : Permutation l0 (p ++ b :: a :: q)) by (rewrite P0; apply Permutation_app_head, perm_swap).
    unfold bf_window2, SearchModel.exchange, SearchModel.numNodes. cbn [fst snd]. rewrite swap_app. cbn [bindp fst snd].
    destruct (Z.ltb_spec (size (p ++ a :: b :: q)) (size (p ++ b :: a :: q))) as [X|X].
    - rewrite swap_app. cbn [bindp]. eexists _, _. split; [reflexivity|]. cbn [fst snd]. split; [|split; [intros o Ho; right; now right|split; [lia|split; [intros E; apply Z.ltb_lt in E; lia|intros o Ho; apply rearranged2 in Ho as [->| ->]; [now left|right; now left]]]]].
      apply (more_seen l0 _ _ _ B); [intros o' [<-|[<-|Ho']]; auto; right; right; split; auto; lia|now left|auto|cbn [fst]; lia].
    - cbn [bindp]. eexists _, _. split; [reflexivity|]. cbn [fst snd]. split; [|split; [intros o Ho; now right|split; [lia|split; [intros E; apply Z.ltb_lt in E; lia|intros o Ho; apply rearranged2 in Ho as [->| ->]; [right; apply B|now left]]]]].
      apply (more_seen l0 _ _ _ B); [intros o' [<-|Ho']; auto|now left|auto|cbn [fst]; lia].
  Qed.
  Lemma note_cases lt k cur b : (cur <= snd b /\ note lt k cur b = (k, cur)) \/ (snd b <= cur /\ note lt k cur b = b).
  Proof. unfold note. destruct lt; [destruct (Z.ltb_spec cur (snd b))|destruct (Z.leb_spec cur (snd b))]; auto. left. split; auto; lia. right. split; auto; lia. Qed.
  Lemma window3_ok back2 l0 i : (i + 2 < length l0)%nat ->
    (forall p q (a b c : A) seen, length p = i -> exists seen', foldp exchange (back2 i) (p ++ a :: c :: b :: q, seen) = Some (p ++ b :: c :: a :: q, seen') /\
       incl seen seen' /\ In (p ++ b :: c :: a :: q) seen' /\ forall o, In o seen' -> In o seen \/ In o [p ++ a :: b :: c :: q; p ++ b :: a :: c :: q; p ++ b :: c :: a :: q; p ++ c :: b :: a :: q; p ++ c :: a :: b :: q; p ++ a :: c :: b :: q]) ->
    step_ok 3 l0 i (window3 A size back2).
  Proof.
    intros H Hb s B. pose proof (best_len _ _ B) as L.
    destruct (split2 (fst s) i ltac:(lia)) as (p & a & b & q & E & Ei). destruct q as [|c q].
    { rewrite E, app_length in L. simpl in L. lia. }
    destruct s as [o seen]. cbn [fst snd] in *. subst o. pose proof (best_perm _ _ B) as P0. cbn [fst] in P0.
    specialize (Hb p q a b c).
    set (o0 := p ++ a :: b :: c :: q) in *. set (o1 := p ++ b :: a :: c :: q). set (o2 := p ++ b :: c :: a :: q) in *.
    set (o3 := p ++ c :: b :: a :: q) in *. set (o4 := p ++ c :: a :: b :: q) in *. set (o5 := p ++ a :: c :: b :: q) in *.
    assert (P : forall o, In o [o0; o1; o2; o3; o4; o5] -> Permutation l0 o).
    { intros o Ho. rewrite P0. unfold o0, o1, o2, o3, o4, o5 in *. clear - Ho.
      repeat (destruct Ho as [<-|Ho]); [..|destruct Ho]; apply Permutation_app_head.
      - reflexivity.
      - apply perm_swap.
      - transitivity (b :: a :: c :: q); [apply perm_swap|apply perm_skip, perm_swap].
      - transitivity (b :: a :: c :: q); [apply perm_swap|]. transitivity (b :: c :: a :: q); [apply perm_skip, perm_swap|apply perm_swap].
      - transitivity (a :: c :: b :: q); [apply perm_skip, perm_swap|apply perm_swap].
      - apply perm_skip, perm_swap. }
    unfold window3, SearchModel.numNodes. cbn [fst].
    assert (X1 : forall sn, exchange (o0, sn) i = Some (o1, o1 :: sn)) by (intros; rewrite Ei; apply ex0).
    assert (X2 : forall sn, exchange (o1, sn) (S i) = Some (o2, o2 :: sn)) by (intros; rewrite Ei; apply ex1).
    assert (X3 : forall sn, exchange (o2, sn) i = Some (o3, o3 :: sn)) by (intros; rewrite Ei; apply ex0).
    assert (X4 : forall sn, exchange (o3, sn) (S i) = Some (o4, o4 :: sn)) by (intros; rewrite Ei; apply ex1).
    assert (X5 : forall sn, exchange (o4, sn) i = Some (o5, o5 :: sn)) by (intros; rewrite Ei; apply ex0).
    assert (Y5 : forall sn, exchange (o5, sn) i = Some (o4, o4 :: sn)) by (intros; rewrite Ei; apply ex0).
    assert (Y4 : forall sn, exchange (o4, sn) (S i) = Some (o3, o3 :: sn)) by (intros; rewrite Ei; apply ex1).
    assert (Y0 : forall sn, exchange (o5, sn) (S i) = Some (o0, o0 :: sn)) by (intros; rewrite Ei; apply ex1).
    rewrite X1. cbn [bindp fst]. rewrite X2. cbn [bindp fst]. rewrite X3. cbn [bindp fst]. rewrite X4. cbn [bindp fst]. rewrite X5. cbn [bindp fst].
    set (sn := o5 :: o4 :: o3 :: o2 :: o1 :: seen).
    assert (Hsn : forall o, In o sn -> In o seen \/ In o [o0; o1; o2; o3; o4; o5]).
    { unfold sn. intros o Ho. simpl in Ho. simpl. tauto. }
    set (b1 := note true 1 (size o1) (0%nat, size o0)). set (b2 := note true 2 (size o2) b1). set (b3 := note false 3 (size o3) b2).
    set (b4 := note false 4 (size o4) b3). set (b5 := note false 5 (size o5) b4).
    assert (Hb5 : snd b5 <= size o0 /\ snd b5 <= size o1 /\ snd b5 <= size o2 /\ snd b5 <= size o3 /\ snd b5 <= size o4 /\ snd b5 <= size o5 /\
      (b5 = (0%nat, size o0) \/ b5 = (1%nat, size o1) \/ b5 = (2%nat, size o2) \/ b5 = (3%nat, size o3) \/ b5 = (4%nat, size o4) \/ b5 = (5%nat, size o5))).
    { unfold b5, b4, b3, b2, b1.
      destruct (note_cases true 1 (size o1) (0%nat, size o0)) as [[Z1 ->]|[Z1 ->]]; cbn [snd] in Z1;
      match goal with |- context [note true 2 ?s ?b] => destruct (note_cases true 2 s b) as [[Z2 ->]|[Z2 ->]] end; cbn [snd] in Z2;
      match goal with |- context [note false 3 ?s ?b] => destruct (note_cases false 3 s b) as [[Z3 ->]|[Z3 ->]] end; cbn [snd] in Z3;
      match goal with |- context [note false 4 ?s ?b] => destruct (note_cases false 4 s b) as [[Z4 ->]|[Z4 ->]] end; cbn [snd] in Z4;
      match goal with |- context [note false 5 ?s ?b] => destruct (note_cases false 5 s b) as [[Z5 ->]|[Z5 ->]] end; cbn [snd] in *;
      (do 6 (split; [lia|])); tauto. }
    clearbody b5. clear b1 b2 b3 b4. destruct Hb5 as (Q0 & Q1 & Q2 & Q3 & Q4 & Q5 & Q).
    assert (G : exists o s', foldp exchange (match fst b5 with 0 => [S i] | 1 => [S i; i] | 2 => back2 i | 3 => [i; S i] | 4 => [i] | _ => [] end%nat) (o5, sn) = Some (o, s') /\
      size o = snd b5 /\ In o [o0; o1; o2; o3; o4; o5] /\ In o s' /\ incl sn s' /\ forall o', In o' s' -> In o' seen \/ In o' [o0; o1; o2; o3; o4; o5]).
    { destruct Q as [->|[->|[->|[->|[->| ->]]]]]; cbn [fst snd foldp bindp].
      - rewrite Y0. cbn [bindp]. do 2 eexists. split; [reflexivity|]. split; auto. split; [simpl; tauto|]. split; [now left|]. split; [intros o Ho; now right|].
        intros o' [<-|Ho']; auto. right. simpl. tauto.
      - rewrite Y0. cbn [bindp]. rewrite X1. cbn [bindp]. do 2 eexists. split; [reflexivity|]. split; auto. split; [simpl; tauto|]. split; [now left|].
        split; [intros o Ho; right; now right|]. intros o' [<-|[<-|Ho']]; auto; right; simpl; tauto.
      - destruct (Hb sn (eq_sym Ei)) as (s' & E1 & E2 & E3 & E4). rewrite E1. do 2 eexists. split; [reflexivity|]. split; auto. split; [simpl; tauto|]. split; auto. split; auto.
        intros o' Ho'. apply E4 in Ho' as [Ho'|Ho']; auto.
      - rewrite Y5. cbn [bindp]. rewrite Y4. cbn [bindp]. do 2 eexists. split; [reflexivity|]. split; auto. split; [simpl; tauto|]. split; [now left|].
        split; [intros o Ho; right; now right|]. intros o' [<-|[<-|Ho']]; auto; right; simpl; tauto.
      - rewrite Y5. cbn [bindp]. do 2 eexists. split; [reflexivity|]. split; auto. split; [simpl; tauto|]. split; [now left|]. split; [intros o Ho; now right|].
        intros o' [<-|Ho']; auto. right. simpl. tauto.
      - do 2 eexists. split; [reflexivity|]. split; auto. split; [simpl; tauto|]. split; [now left|]. split; [intros o Ho; auto|]. exact Hsn. }
    destruct G as (o & s' & -> & So & Io & Is & Ii & Ia). cbn [bindp]. eexists _, _. split; [reflexivity|]. cbn [fst snd]. split; [|split; [|split; [lia|split]]].
    - apply (more_seen l0 o (o0, seen) s'); auto; [|cbn [fst]; lia]. intros o' Ho'. apply Ia in Ho' as [Ho'|Ho']; auto. right. right. split; auto.
      rewrite So. simpl in Ho'. destruct Ho' as [<-|[<-|[<-|[<-|[<-|[<-|[]]]]]]]; auto.
    - intros o' Ho'. apply Ii. unfold sn. simpl. tauto.
    - intros E. apply andb_true_iff in E as [_ E]. apply Z.ltb_lt in E. lia.
    - intros o' Ho'. rewrite Ei in Ho'. apply rearranged3 in Ho'. fold o0 o1 o2 o3 o4 o5 in Ho'. apply Ii. unfold sn. destruct B as (B & _). cbn [fst snd] in B. simpl in Ho'. simpl.
      destruct Ho' as [<-|[<-|[<-|[<-|[<-|[<-|[]]]]]]]; tauto.
  Qed.
  Lemma df_window3_ok l0 i : (i + 2 < length l0)%nat -> step_ok 3 l0 i (df_window3 A size).
  Proof.
    intros H. apply window3_ok; auto. intros p q a b c seen <-. cbn [foldp]. rewrite ex1. cbn [bindp]. rewrite ex0. cbn [bindp]. rewrite ex1. cbn [bindp].
    eexists. split; [reflexivity|]. split; [intros o Ho; right; right; now right|]. split; [now left|]. intros o [<-|[<-|[<-|Ho]]]; auto; right; simpl; tauto.
  Qed.
  Lemma bf_window3_ok l0 i : (i + 2 < length l0)%nat -> step_ok 3 l0 i (bf_window3 A size).
  Proof.
    intros H. apply window3_ok; auto. intros p q a b c seen <-. cbn [foldp]. rewrite ex0. cbn [bindp]. rewrite ex1. cbn [bindp]. rewrite ex0. cbn [bindp].
    eexists. split; [reflexivity|]. split; [intros o Ho; right; right; now right|]. split; [now left|]. intros o [<-|[<-|[<-|Ho]]]; auto; right; simpl; tauto.
  Qed.
  Lemma marks_lt n i : (i + 1 < n)%nat -> forall k, In k (marks n i) -> (k < n)%nat.
  Proof.
    intros H k Hk. unfold marks in Hk. rewrite !in_app_iff in Hk. destruct Hk as [Hk|[Hk|Hk]].
    - destruct (0 <? i)%nat; [|destruct Hk]. apply in_app_iff in Hk as [[<-|[]]|Hk]; [lia|]. destruct (1 <? i)%nat; [|destruct Hk]. destruct Hk as [<-|[]]. lia.
    - simpl in Hk. lia.
    - destruct (Nat.ltb_spec (i + 2) n); [|destruct Hk]. apply in_app_iff in Hk as [[<-|[]]|Hk]; [lia|]. destruct (Nat.ltb_spec (i + 3) n); [|destruct Hk].
      apply in_app_iff in Hk as [[<-|[]]|Hk]; [lia|]. destruct (Nat.ltb_spec (i + 4) n); [|destruct Hk]. destruct Hk as [<-|[]]. lia.
  Qed.
  Section Windows.
    Variables win2 win3 : nat -> st -> option (bool * st).
    Variable l0 : list A.
    Notation n := (length l0).
    Hypothesis win2_ok : forall i, (i + 1 < n)%nat -> step_ok 2 l0 i win2.
    Hypothesis win3_ok : forall i, (i + 2 < n)%nat -> step_ok 3 l0 i win3.
    Lemma pass_ok nv : (n <= nv)%nat -> forall is s levels any, (forall i, In i is -> (i + 1 < n)%nat) -> length levels = nv -> best_seen l0 s ->
      exists s' levels' any', foldp (pass_step A win2 win3 n) is (s, levels, any) = Some (s', levels', any') /\ length levels' = nv /\
        best_seen l0 s' /\ incl (snd s) (snd s') /\ size (fst s') <= size (fst s) /\ (any' = true -> any = true \/ size (fst s') < size (fst s)).
    Proof.
      intros Hn. induction is as [|i is IH]; intros s levels any Hi Hl B; cbn [foldp].
      - exists s, levels, any. split; auto. split; auto. split; auto. split; [intros o; auto|]. split; [lia|auto].
      - assert (Hi0 : (i + 1 < n)%nat) by (apply Hi; now left). unfold pass_step at 1.
        destruct (nth_error levels i) as [[|]|] eqn:El; cbn [bindp]; [| |apply nth_error_None in El; lia].
        + assert (G : exists moved s', (if (i + 2 <? n)%nat then win3 i s else win2 i s) = Some (moved, s') /\ best_seen l0 s' /\ incl (snd s) (snd s') /\
            size (fst s') <= size (fst s) /\ (moved = true -> size (fst s') < size (fst s))).
          { destruct (Nat.ltb_spec (i + 2) n); [destruct (win3_ok i ltac:(lia) s B) as (mv & s' & Q1 & Q2 & Q3 & Q4 & Q5 & _)|destruct (win2_ok i ltac:(lia) s B) as (mv & s' & Q1 & Q2 & Q3 & Q4 & Q5 & _)]; exists mv, s'; auto. }
          destruct G as (moved & s' & -> & B' & I' & L' & M'). cbn [bindp]. destruct moved.
          * destruct (set_all_some true (marks n i) levels) as (lv & -> & Elv); [intros k Hk; apply marks_lt in Hk; auto; lia|]. cbn [bindp].
            destruct (IH s' lv true) as (s2 & lv2 & any2 & -> & El2 & B2 & I2 & L2 & M2); auto; [intros j Hj; apply Hi; now right|lia|].
            exists s2, lv2, any2. split; auto. split; auto. split; auto. split; [intros o Ho; auto|]. split; [lia|]. intros _. right. specialize (M' eq_refl). lia.
          * destruct (set_nth_some i false levels) as (lv & -> & Elv); [lia|]. cbn [bindp].
            destruct (IH s' lv any) as (s2 & lv2 & any2 & -> & El2 & B2 & I2 & L2 & M2); auto; [intros j Hj; apply Hi; now right|lia|].
            exists s2, lv2, any2. split; auto. split; auto. split; auto. split; [intros o Ho; auto|]. split; [lia|]. intros X. apply M2 in X as [X|X]; [now left|right; lia].
        + destruct (IH s levels any) as (s2 & lv2 & any2 & -> & El2 & B2 & I2 & L2 & M2); auto; [intros j Hj; apply Hi; now right|].
          exists s2, lv2, any2. split; [reflexivity|]. do 4 (split; [assumption|]). assumption.
    Qed.
    Lemma window_loop_ok nv : (n <= nv)%nat -> forall fuel s levels, size (fst s) < Z.of_nat fuel -> length levels = nv -> best_seen l0 s ->
      exists s', window_loop A win2 win3 fuel n s levels = Some s' /\ best_seen l0 s' /\ incl (snd s) (snd s').
    Proof.
      intros Hn. induction fuel as [|fuel IH]; intros s levels Hf Hl B; [specialize (size_nonneg (fst s)); lia|]. cbn [window_loop].
      destruct (pass_ok nv Hn (seq 0 (n - 1)) s levels false) as (s1 & lv1 & any1 & -> & El1 & B1 & I1 & L1 & M1); auto; [intros i Hi; apply in_seq in Hi; lia|]. cbn [bindp].
      destruct any1; [|eauto]. destruct (M1 eq_refl) as [X|X]; [discriminate|]. destruct (IH s1 lv1) as (s2 & -> & B2 & I2); auto; [lia|].
      exists s2. split; auto. split; auto. intros o Ho. auto.
    Qed.
    Theorem windows_ok nv : (n <= nv)%nat -> exists s', windows A size win2 win3 nv l0 = Some s' /\ best_seen l0 s' /\ In l0 (snd s').
    Proof.
      intros Hn. unfold windows. destruct (set_all_some true (seq 0 (n - 1)) (repeat false nv)) as (lv & -> & El); [intros k Hk; apply in_seq in Hk; rewrite repeat_length; lia|].
      cbn [bindp]. rewrite repeat_length in El. destruct (window_loop_ok nv Hn (S (Z.to_nat (size l0))) (l0, [l0]) lv) as (s' & E & B & I); auto.
      - cbn [fst]. specialize (size_nonneg l0). lia.
      - apply best_start.
      - exists s'. split; auto. split; auto. apply I. now left.
    Qed.
  End Windows.

  (** ** All items in turn *)
  Section SiftAll.
    Variable sift_block : nat -> st -> option st.
    Variable width : list A -> A -> Z.
    Variable proceed : nat -> st -> bool.
    Variable eqb : A -> A -> bool.
    Hypothesis eqb_refl : forall a, eqb a a = true.
    Variable l0 : list A.
    Hypothesis block_ok : forall start s, best_seen l0 s -> (start < length l0)%nat ->
      exists s', sift_block start s = Some s' /\ best_seen l0 s' /\ incl (snd s) (snd s').
    Lemma widest_in order items : forall j b, widest A width order j items b = b \/ (j <= fst (widest A width order j items b) < j + length items)%nat.
    Proof.
      induction items as [|a items IH]; intros j b; cbn [widest]; auto. simpl length.
      destruct (snd b <? width order a).
      - right. destruct (IH (S j) (j, width order a)) as [->|X]; cbn [fst] in *; lia.
      - destruct (IH (S j) b) as [X|X]; [now left|right; lia].
    Qed.
    Lemma position_in a l : In a l -> exists j, position A eqb a l = Some j /\ (j < length l)%nat.
    Proof.
      induction l as [|b l IH]; [intros []|]. intros H. cbn [position]. destruct (eqb b a) eqn:E; [exists 0%nat; split; auto; simpl; lia|].
      destruct H as [->|H]; [rewrite eqb_refl in E; discriminate|]. destruct (IH H) as (j & -> & L). exists (S j). split; auto. simpl. lia.
    Qed.
    Lemma set_nth_in k (x : A) : forall l l', set_nth k x l = Some l' -> forall y, In y l' -> y = x \/ In y l.
    Proof.
      induction k as [|k IH]; intros [|a l] l' E y Hy; simpl in E; try discriminate.
      - injection E as <-. destruct Hy as [->|Hy]; auto. right. now right.
      - destruct (set_nth k x l) as [l2|] eqn:E2; [|discriminate]. simpl in E. injection E as <-. destruct Hy as [->|Hy]; [right; now left|].
        apply (IH l l2 E2) in Hy as [->|Hy]; auto. right. now right.
    Qed.
    Lemma sift_loop_ok : forall i shifted toSift s, (i <= length toSift)%nat -> incl toSift l0 -> best_seen l0 s ->
      exists s', sift_loop A sift_block width proceed eqb i shifted toSift s = Some s' /\ best_seen l0 s' /\ incl (snd s) (snd s').
    Proof.
      induction i as [|i IH]; intros shifted toSift s Hi Ht B; cbn [sift_loop]; [exists s; split; auto; split; auto; intros o; auto|].
      assert (H0 : exists s', Some s = Some s' /\ best_seen l0 s' /\ incl (snd s) (snd s')) by (exists s; split; auto; split; auto; intros o; auto).
      destruct (proceed shifted s); auto. destruct (widest A width (fst s) 0 (firstn (S i) toSift) (0%nat, 0)) as [w m] eqn:Ew.
      destruct (Z.ltb_spec 1 m); auto.
      assert (Hw : (w < S i)%nat).
      { destruct (widest_in (fst s) (firstn (S i) toSift) 0 (0%nat, 0)) as [X|X]; rewrite Ew in X.
        - injection X as _ ->. lia.
        - cbn [fst] in X. rewrite firstn_length in X. lia. }
      destruct (nth_error toSift w) as [a|] eqn:Ea; [|apply nth_error_None in Ea; lia]. cbn [bindp].
      assert (Ia : In a (fst s)) by (apply (Permutation_in a (best_perm _ _ B)), Ht, (nth_error_In _ _ Ea)).
      destruct (position_in a (fst s) Ia) as (j & -> & Lj). cbn [bindp]. rewrite (best_len _ _ B) in Lj.
      destruct (block_ok j s B Lj) as (s1 & -> & B1 & I1). cbn [bindp].
      destruct (nth_error toSift i) as [z|] eqn:Ez; [|apply nth_error_None in Ez; lia]. cbn [bindp].
      destruct (set_nth_some w z toSift) as (t2 & E2 & L2); [lia|]. rewrite E2. cbn [bindp].
      destruct (IH (S shifted) t2 s1) as (s2 & -> & B2 & I2); auto; [lia| |].
      - intros y Hy. apply (set_nth_in w z toSift t2 E2) in Hy as [->|Hy]; [apply Ht, (nth_error_In _ _ Ez)|auto].
      - exists s2. split; auto. split; auto. intros o Ho. auto.
    Qed.
    Theorem sift_ok : exists s', sift A sift_block width proceed eqb l0 = Some s' /\ best_seen l0 s' /\ In l0 (snd s').
    Proof.
      unfold sift. destruct (sift_loop_ok (length l0) 0 l0 (l0, [l0])) as (s' & -> & B & I); auto; [intros o; auto|apply best_start|].
      exists s'. split; auto. split; auto. apply I. now left.
    Qed.
  End SiftAll.
End Search.
