(** * The block allocator: its functions keep the invariant. *)
From Verif Require Import Base BFModel ApiModel BuddyModel SpecBuddy BuddyArith BuddyProof.
Open Scope N_scope.

Record Inv (s : bst) (bk : blocks) : Prop := { iv_s : SI s; iv_t : TI s bk; iv_h : HI 0 s bk }.

Lemma Inv_max s bk a k u : Inv s bk -> bk a = Some (k, u) -> 6 <= k <= 62.
Proof. intros [HS _ HH] E. destruct (hi_hd _ _ _ HH a k u E) as (L & h & _ & _ & _ & P). split; auto. exact (placed_max s HS _ _ _ P). Qed.

Lemma add_Inv s bk b k : Inv s bk -> bk b = Some (k, true) -> exists s', AddToFreeList s b = Ok s' /\ segeq s s' /\ Inv s' (upd bk b (Some (k, false))).
Proof.
  intros [HS HT HH] E. destruct (add_spec s bk b k HS (HI_weak b s bk HS HH) E) as (s' & A & B & C & _). exists s'. split; auto. split; auto.
  constructor; [exact (SI_eq s s' B HS)| |exact C]. apply (TI_eq s s' _ B). exact (TI_used s bk b k true false E HT).
Qed.
Lemma rem_Inv s bk b k : Inv s bk -> bk b = Some (k, false) -> exists s', RemoveFromFreeList s b = Ok s' /\ segeq s s' /\ Inv s' (upd bk b (Some (k, true))).
Proof.
  intros [HS HT HH] E. destruct (rem_spec s bk b k HS HH E) as (s' & A & B & C). exists s'. split; auto. split; auto.
  constructor; [exact (SI_eq s s' B HS)| |exact C]. apply (TI_eq s s' _ B). exact (TI_used s bk b k false true E HT).
Qed.

(** TrimToSize *)
Lemma trim_spec fuel : forall s bk b K k, Inv s bk -> bk b = Some (K, true) -> 6 <= k -> k <= K <= k + N.of_nat fuel ->
  exists s' bk', TrimToSize fuel s b k = Ok s' /\ segeq s s' /\ Inv s' bk' /\ bk' b = Some (k, true) /\ uframe b bk bk' /\ (GM s bk -> GM s' bk').
Proof.
  induction fuel as [|fuel IH]; intros s bk b K k HI0 E L6 L; pose proof HI0 as [HS HT HH]; destruct (hi_hd _ _ _ HH b K true E) as (_ & h & E1 & E2 & U & P).
  - cbn [TrimToSize]. unfold oget, obind. rewrite E1, E2. change (N.of_nat 0) with 0 in L. destruct (N.ltb_spec k K); [lia|]. assert (K = k) by lia. subst K.
    exists s, bk. split; [reflexivity|]. split; [apply segeq_refl|]. split; auto. split; [congruence|]. split; [apply uframe_refl|auto].
  - cbn [TrimToSize]. unfold oget at 1, obind at 1. rewrite E1, E2. destruct (N.ltb_spec k K) as [C|C].
    2:{ assert (K = k) by lia. subst K. exists s, bk. split; [reflexivity|]. split; [apply segeq_refl|]. split; auto. split; [congruence|]. split; [apply uframe_refl|auto]. }
    assert (Ek : bk b = Some (K - 1 + 1, true)) by (replace (K - 1 + 1) with K by lia; congruence).
    destruct (split_spec s bk b (K - 1) h HS HT HH ltac:(lia) Ek E1) as (B1 & B2 & B3 & B4 & B5).
    rewrite (wr_ok s b _ h E1). cbn [obind]. rewrite B1. cbn [obind].
    set (s1 := brand _ _ _ _) in *. set (bb := b + 2 ^ (K - 1)) in *. set (bk1 := upd (upd bk b (Some (K - 1, true))) bb (Some (K - 1, true))) in *.
    assert (Eb : bk1 bb = Some (K - 1, true)) by (unfold bk1; rewrite upd_eq, N.eqb_refl; reflexivity).
    pose proof (SI_eq s s1 B2 HS) as HS1. pose proof (TI_eq s s1 bk1 B2 B3) as HT1. pose proof (pow_pos (K - 1)) as Pk.
    destruct (add_spec s1 bk1 bb (K - 1) HS1 B4 Eb) as (s2 & D1 & D2 & D3 & _). rewrite D1. cbn [obind].
    set (bk2 := upd bk1 bb (Some (K - 1, false))) in *.
    assert (I2 : Inv s2 bk2). { constructor; [exact (SI_eq _ _ D2 HS1)| |exact D3]. apply (TI_eq s1 s2 _ D2). exact (TI_used s1 bk1 bb (K - 1) true false Eb HT1). }
    assert (Nbb : b <> bb) by (unfold bb; lia).
    assert (E3 : bk2 b = Some (K - 1, true)). { unfold bk2, bk1. rewrite !upd_eq, N.eqb_refl. destruct (N.eqb_spec b bb); congruence. }
    destruct (IH s2 bk2 b (K - 1) k I2 E3 L6 ltac:(lia)) as (s' & bk' & X1 & X2 & X3 & X4 & X5 & X6).
    exists s', bk'. split; [exact X1|]. pose proof (segeq_trans _ _ _ B2 D2) as Q. split; [exact (segeq_trans _ _ _ Q X2)|]. split; auto. split; auto. split.
    + apply (uframe_trans b bk bk2 bk'); auto. intros a j Na. unfold bk2, bk1. rewrite !upd_eq. destruct (N.eqb_spec a bb) as [->|]; [split; [intros C'; rewrite B5 in C'; discriminate|discriminate]|].
      destruct (N.eqb_spec a b); [congruence|reflexivity].
    + intros Gm. apply X6. apply (GM_eq s s2 bk2 Q). unfold bk2. apply (GM_add s bk1 bb (K - 1)).
      * apply (GM_sub s bk bk1); auto. intros a j. unfold bk1. rewrite !upd_eq. destruct (a =? bb); [discriminate|]. destruct (a =? b); [discriminate|auto].
      * destruct P as (I1 & c & l & off & G & Eo & D & Lm). intros g c' l' off' J1 G' D' Lm'.
        assert (Kp : 2 ^ K = 2 * 2 ^ (K - 1)) by (rewrite <- pow_S; f_equal; lia). rewrite Kp in *.
        split; intros Q1; intros Q2.
        -- (* bb would be the lower half *)
           unfold bb in Q1. assert (hseg h = g) as <- by (apply (same_seg s HS _ _ c l c' l' (b + 2 ^ (K - 1)) I1 J1 G G'); lia).
           assert (c' = c) by congruence. subst c'. assert (off' = off + 2 ^ (K - 1)) by lia. subst off'. apply (div2_not (K - 1)). apply (N.divide_add_cancel_r _ _ _ D D').
        -- (* bb is the upper half of the pair of b *)
           assert (c' + off' = b) by (unfold bb in Q1; lia). rewrite H in Q2. unfold bk1 in Q2. rewrite !upd_eq, N.eqb_refl in Q2. destruct (N.eqb_spec b bb); [congruence|discriminate].
Qed.

(** The buddy is the other half of every pair a block belongs to. *)
Lemma buddy_pair s bk b k u bb : Inv s bk -> bk b = Some (k, u) -> Buddy s b = Ok bb -> forall g c l off, In g (segl s) -> sg s g = Some (c, l) -> (2 * 2 ^ k | off) -> off + 2 * 2 ^ k <= l ->
  (b = c + off -> bb = c + off + 2 ^ k) /\ (b = c + off + 2 ^ k -> bb = c + off).
Proof.
  intros [HS HT HH] E B g c l off I1 G D Lm. destruct (hi_hd _ _ _ HH b k u E) as (_ & h & E1 & E2 & _ & P). destruct P as (J1 & c' & l' & off' & G' & Eo & D' & Lm').
  unfold Buddy, oget, obind in B. rewrite E1, G', E2 in B. replace (b - c') with off' in B by lia. pose proof (pow_pos k) as Pk. pose proof (buddy_up off k D) as Bu.
  split; intros Eb.
  - assert (hseg h = g) as Eg by (apply (same_seg s HS _ _ c' l' c l b J1 I1 G' G); lia). rewrite Eg in *. assert (c' = c) by congruence. assert (l' = l) by congruence. subst c' l'.
    assert (off' = off) by lia. subst off'. rewrite Bu in B. destruct (N.ltb_spec (off + 2 ^ k) l); [|lia]. injection B as <-. lia.
  - assert (hseg h = g) as Eg by (apply (same_seg s HS _ _ c' l' c l b J1 I1 G' G); lia). rewrite Eg in *. assert (c' = c) by congruence. assert (l' = l) by congruence. subst c' l'.
    assert (off' = off + 2 ^ k) by lia. subst off'. assert (X : N.lxor (off + 2 ^ k) (2 ^ k) = off) by (rewrite <- Bu, N.lxor_assoc, N.lxor_nilpotent, N.lxor_0_r; reflexivity).
    rewrite X in B. destruct (N.ltb_spec off l); [|lia]. injection B as <-. reflexivity.
Qed.

Lemma put_spec s bk b k bb : Inv s bk -> bk b = Some (k, true) -> Buddy s b = Ok bb -> bk bb <> Some (k, false) ->
  exists s' bk', AddToFreeList s b = Ok s' /\ segeq s s' /\ Inv s' bk' /\ (forall a j, bk' a = Some (j, true) <-> bk a = Some (j, true) /\ a <> b) /\ (GM s bk -> GM s' bk').
Proof.
  intros HI0 E B N. destruct (add_Inv s bk b k HI0 E) as (s' & A1 & A2 & A3). exists s', (upd bk b (Some (k, false))). do 3 (split; [auto|]). split.
  - intros a j. rewrite upd_eq. destruct (N.eqb_spec a b) as [->|Na]; [split; [discriminate|tauto]|tauto].
  - intros Gm. apply (GM_eq s s' _ A2). apply GM_add; auto. intros g c l off I1 G D Lm. destruct (buddy_pair s bk b k true bb HI0 E B g c l off I1 G D Lm) as [X1 X2].
    split; intros Q; [rewrite Q; rewrite <- (X1 Q)|rewrite <- (X2 Q)]; exact N.
Qed.

(** One round of merging: the free buddy is taken and joined. *)
Lemma join_spec s bk b k bb : Inv s bk -> bk b = Some (k, true) -> Buddy s b = Ok bb -> bk bb = Some (k, false) ->
  let lo := if bb <? b then bb else b in
  exists s1 h s2 bk2, RemoveFromFreeList s bb = Ok s1 /\ hd s1 lo = Some h /\ hidx h = k /\ wr s1 lo (sidx (k + 1)) = Ok s2 /\ segeq s s2 /\ Inv s2 bk2 /\ bk2 lo = Some (k + 1, true) /\
    (forall a j, a <> lo -> (bk2 a = Some (j, true) <-> bk a = Some (j, true) /\ a <> b)) /\ (GM s bk -> GM s2 bk2).
Proof.
  intros HI0 E B Ebb lo. pose proof HI0 as [HS HT HH]. destruct (rem_Inv s bk bb k HI0 Ebb) as (s1 & A1 & A2 & A3).
  destruct (buddy_spec s HS bk 0 HT HH b k true E) as (bb' & B' & W). rewrite B in B'. injection B' as <-.
  assert (Nb : bb <> b) by congruence.
  destruct W as [W|(g & c & l & off & j & v & I1 & G & Ej & Lj & D & Pb & Pbb & W)]; [pose proof (bk_pos s HS bk 0 HH bb _ _ Ebb); lia|].
  assert (j = k) by congruence. subst j. pose proof (pow_pos k) as Pk.
  set (bk1 := upd bk bb (Some (k, true))) in *. pose proof A3 as [HS1 HT1 HH1].
  assert (E1 : bk1 b = Some (k, true)) by (unfold bk1; rewrite upd_eq; destruct (N.eqb_spec b bb); congruence).
  assert (E2 : bk1 bb = Some (k, true)) by (unfold bk1; rewrite upd_eq, N.eqb_refl; reflexivity).
  assert (Lo : lo = c + off) by (unfold lo; destruct (N.ltb_spec bb b); lia).
  assert (El : bk1 (c + off) = Some (k, true)) by (destruct W as [[<- _]|[<- _]]; auto).
  assert (Eh : bk1 (c + off + 2 ^ k) = Some (k, true)) by (destruct W as [[_ <-]|[_ <-]]; auto).
  destruct (hi_hd _ _ _ HH1 _ _ _ El) as (_ & h & H1 & H2 & _ & _).
  assert (Pl : placed s1 g (c + off) k) by (apply (placed_eq s s1 _ _ _ A2); destruct W as [[<- _]|[<- _]]; auto).
  assert (Ph : placed s1 g (c + off + 2 ^ k) k) by (apply (placed_eq s s1 _ _ _ A2); destruct W as [[_ <-]|[_ <-]]; auto).
  assert (I1' : In g (segl s1)) by (destruct A2 as (_ & _ & _ & _ & ->); auto). assert (G' : sg s1 g = Some (c, l)) by (destruct A2 as (-> & _); auto).
  destruct (merge_spec s1 bk1 g c l off k h HS1 HT1 HH1 I1' G' D El Eh Pl Ph H1) as [M1 M2].
  set (s2 := with_hd s1 _) in *. set (bk2 := upd _ _ None) in *. assert (Sq : segeq s1 s2) by (repeat split).
  exists s1, h, s2, bk2. rewrite Lo. split; auto. split; auto. split; auto. split; [apply wr_ok; exact H1|]. split; [exact (segeq_trans _ _ _ A2 Sq)|].
  split; [constructor; auto; exact (SI_eq _ _ Sq HS1)|]. split; [unfold bk2; rewrite !upd_eq, N.eqb_refl; destruct (N.eqb_spec (c + off) (c + off + 2 ^ k)); [lia|reflexivity]|]. split.
  - intros a i Na. unfold bk2, bk1. rewrite !upd_eq. destruct (N.eqb_spec a (c + off + 2 ^ k)) as [Q|Q].
    + split; [discriminate|]. intros [Q1 Q2]. exfalso. subst a. destruct W as [[W1 W2]|[W1 W2]]; [rewrite <- W2 in Q1; congruence|congruence].
    + destruct (N.eqb_spec a (c + off)); [congruence|]. destruct (N.eqb_spec a bb); [exfalso; lia|]. split; [|tauto]. intros Q1. split; auto. lia.
  - intros Gm. apply (GM_eq s s2 bk2 (segeq_trans _ _ _ A2 Sq)). apply (GM_sub s bk bk2); auto. intros a i. unfold bk2, bk1. rewrite !upd_eq.
    destruct (a =? c + off + 2 ^ k); [discriminate|]. destruct (a =? c + off); [discriminate|]. destruct (a =? bb); [discriminate|auto].
Qed.

Lemma merge_loop fuel : forall s bk b k, Inv s bk -> bk b = Some (k, true) -> 63 <= k + N.of_nat fuel ->
  exists s' bk', MergeAndFree fuel s b = Ok s' /\ segeq s s' /\ Inv s' bk' /\ (forall a j, bk' a = Some (j, true) <-> bk a = Some (j, true) /\ a <> b) /\ (GM s bk -> GM s' bk').
Proof.
  induction fuel as [|fuel IH]; intros s bk b k HI0 E L; pose proof (Inv_max s bk b k true HI0 E) as Lk; [change (N.of_nat 0) with 0 in L; lia|].
  pose proof HI0 as [HS HT HH]. destruct (buddy_spec s HS bk 0 HT HH b k true E) as (bb & B & W). cbn [MergeAndFree]. rewrite B. cbn [obind].
  destruct (N.eqb_spec bb 0) as [->|Nz].
  - apply (put_spec s bk b k 0 HI0 E B). rewrite (bk_0 s HS bk 0 HH). discriminate.
  - destruct W as [W|(g & c & l & off & j & v & I1 & G & Ej & Lj & D & Pb & Pbb & W)]; [congruence|].
    destruct (hi_hd _ _ _ HH _ _ _ E) as (_ & h & H1 & H2 & _ & _). destruct (hi_hd _ _ _ HH _ _ _ Ej) as (_ & hb & J1 & J2 & J3 & _).
    unfold oget at 1. rewrite H1. cbn [obind]. unfold oget at 1. rewrite J1. cbn [obind]. rewrite (J3 Nz), J2, H2. 
    destruct v; cbn [negb andb].
    + apply (put_spec s bk b k bb HI0 E B). congruence.
    + destruct (N.eqb_spec j k) as [->|Nj]; [|apply (put_spec s bk b k bb HI0 E B); congruence].
      destruct (join_spec s bk b k bb HI0 E B Ej) as (s1 & h1 & s2 & bk2 & Q1 & Q2 & Q3 & Q4 & Q5 & Q6 & Q7 & Q8 & Q9).
      rewrite Q1. cbn [obind]. set (lo := if bb <? b then bb else b) in *. unfold oget at 1. rewrite Q2. cbn [obind]. rewrite Q3, Q4. cbn [obind].
      destruct (IH s2 bk2 lo (k + 1) Q6 Q7 ltac:(lia)) as (s' & bk' & X1 & X2 & X3 & X4 & X5). exists s', bk'. split; [exact X1|]. split; [exact (segeq_trans _ _ _ Q5 X2)|]. split; auto. split; [|auto].
      intros a i. rewrite X4. destruct (N.eq_dec a lo) as [->|Na].
      * split; [tauto|]. intros [Y1 Y2]. exfalso. unfold lo in *. destruct (bb <? b); congruence.
      * rewrite (Q8 a i Na). tauto.
Qed.

Lemma grow_spec fuel : forall s bk b K k, Inv s bk -> bk b = Some (K, true) -> K < k -> 63 <= K + N.of_nat fuel ->
  exists d s' bk' K', grow fuel s b k = Ok (d, s') /\ segeq s s' /\ Inv s' bk' /\ bk' b = Some (K', true) /\ (d = true -> K' = k) /\ K <= K' /\ uframe b bk bk' /\ (GM s bk -> GM s' bk').
Proof.
  induction fuel as [|fuel IH]; intros s bk b K k HI0 E Lk L; pose proof (Inv_max s bk b K true HI0 E) as Lm; [change (N.of_nat 0) with 0 in L; lia|].
  pose proof HI0 as [HS HT HH]. destruct (buddy_spec s HS bk 0 HT HH b K true E) as (bb & B & W). cbn [grow]. rewrite B. cbn [obind].
  assert (Stop : exists d s' bk' K', Ok (false, s) = Ok (d, s') /\ segeq s s' /\ Inv s' bk' /\ bk' b = Some (K', true) /\ (d = true -> K' = k) /\ K <= K' /\ uframe b bk bk' /\ (GM s bk -> GM s' bk')).
  { exists false, s, bk, K. split; [reflexivity|]. split; [apply segeq_refl|]. do 2 (split; [auto|]). split; [discriminate|]. split; [lia|]. split; [apply uframe_refl|auto]. }
  destruct (N.eqb_spec bb 0) as [->|Nz]; [exact Stop|].
  destruct W as [W|(g & c & l & off & j & v & I1 & G & Ej & Lj & D & Pb & Pbb & W)]; [congruence|].
  destruct (hi_hd _ _ _ HH _ _ _ E) as (_ & h & H1 & H2 & _ & _). destruct (hi_hd _ _ _ HH _ _ _ Ej) as (_ & hb & J1 & J2 & J3 & _).
  unfold oget at 1. rewrite H1. cbn [obind]. unfold oget at 1. rewrite J1. cbn [obind]. rewrite (J3 Nz), J2, H2.
  destruct (N.ltb_spec b bb) as [Lb|Lb]; cbn [andb]; [|exact Stop]. destruct v; cbn [negb andb]; [exact Stop|]. destruct (N.eqb_spec j K) as [->|Nj]; [|exact Stop].
  destruct (join_spec s bk b K bb HI0 E B Ej) as (s1 & h1 & s2 & bk2 & Q1 & Q2 & Q3 & Q4 & Q5 & Q6 & Q7 & Q8 & Q9).
  destruct (N.ltb_spec bb b) as [|_]; [lia|]. rewrite Q1. cbn [obind]. rewrite Q4. cbn [obind].
  assert (U : uframe b bk bk2). { intros a i Na. rewrite (Q8 a i Na). tauto. }
  destruct (N.eqb_spec (K + 1) k) as [Ek|Nk].
  - exists true, s2, bk2, (K + 1). split; [reflexivity|]. do 3 (split; [auto|]). split; [auto|]. split; [lia|]. auto.
  - destruct (IH s2 bk2 b (K + 1) k Q6 Q7 ltac:(lia) ltac:(lia)) as (d & s' & bk' & K' & X1 & X2 & X3 & X4 & X5 & X6 & X7 & X8). exists d, s', bk', K'.
    split; [exact X1|]. split; [exact (segeq_trans _ _ _ Q5 X2)|]. do 3 (split; [auto|]). split; [lia|]. split; [exact (uframe_trans _ _ _ _ U X7)|auto].
Qed.

(** AddToFreeList does not read the segments. *)
Definition setseg (s : bst) f c r g := B (hd s) f c (avl s) (brk s) r g.
Lemma wr_setseg s f c r g a w s' : wr s a w = Ok s' -> wr (setseg s f c r g) a w = Ok (setseg s' f c r g).
Proof. unfold wr, oget, obind. cbn [hd setseg]. destruct (hd s a); [|discriminate]. intros Q. injection Q as <-. reflexivity. Qed.
Lemma add_setseg s f c r g b s' : AddToFreeList s b = Ok s' -> AddToFreeList (setseg s f c r g) b = Ok (setseg s' f c r g).
Proof.
  unfold AddToFreeList. cbn [hd avl setseg]. destruct (hd s b) as [h|]; [|discriminate]. cbn [oget obind]. destruct (avl s (hidx h) =? 0).
  - destruct (wr s b (snext b)) as [s1| |] eqn:E1; try discriminate. rewrite (wr_setseg _ _ _ _ _ _ _ _ E1). cbn [obind].
    destruct (wr s1 b (sprev b)) as [s2| |] eqn:E2; try discriminate. rewrite (wr_setseg _ _ _ _ _ _ _ _ E2). cbn [obind]. intros E3. exact (wr_setseg _ f c r g _ _ _ E3).
  - destruct (hd s (avl s (hidx h))) as [ha|]; [|discriminate]. cbn [oget obind].
    destruct (wr s b (snext (hnext ha))) as [s1| |] eqn:E1; try discriminate. rewrite (wr_setseg _ _ _ _ _ _ _ _ E1). cbn [obind].
    destruct (wr s1 (hnext ha) (sprev b)) as [s2| |] eqn:E2; try discriminate. rewrite (wr_setseg _ _ _ _ _ _ _ _ E2). cbn [obind].
    destruct (wr s2 (avl s (hidx h)) (snext b)) as [s3| |] eqn:E3; try discriminate. rewrite (wr_setseg _ _ _ _ _ _ _ _ E3). cbn [obind].
    destruct (wr s3 b (sprev (avl s (hidx h)))) as [s4| |] eqn:E4; try discriminate. rewrite (wr_setseg _ _ _ _ _ _ _ _ E4). cbn [obind]. intros E5. exact (wr_setseg _ f c r g _ _ _ E5).
Qed.

(** One new block at the end of the current segment. *)
Lemma extend_spec s bk l j : Inv s bk -> In (cur s) (segl s) -> sg s (cur s) = Some (cur s + 16, l) -> 15 <= j -> (2 ^ j | l) -> l + 2 ^ j <= MAXSEG ->
  cur s + 16 + l + 2 ^ j <= brk s -> (forall g b m, In g (segl s) -> g <> cur s -> sg s g = Some (b, m) -> b + m <= cur s) ->
  (forall a, cur s + 16 + l <= a < cur s + 16 + l + 2 ^ j -> obtained s a) ->
  let b := cur s + 16 + l in
  exists s1, AddToFreeList (brand s b j (cur s)) b = Ok s1 /\ avl s1 j <> 0 /\
    sg s1 = sg s /\ cur s1 = cur s /\ brk s1 = brk s /\ ranges s1 = ranges s /\ segl s1 = segl s /\
    Inv (with_sg s1 (cur s1) (cur s + 16) (l + 2 ^ j)) (upd bk b (Some (j, false))) /\ bk b = None.
Proof.
  intros HI0 Ic G L15 D Lm Lb Top Ob b. pose proof HI0 as [HS HT HH]. pose proof (pow_pos j) as Pj.
  set (f := upd (sg s) (cur s) (Some (cur s + 16, l + 2 ^ j))).
  set (t := setseg (brand s b j (cur s)) f (cur s) (ranges s) (segl s)).
  assert (Fc : f (cur s) = Some (cur s + 16, l + 2 ^ j)) by (unfold f; rewrite upd_eq, N.eqb_refl; reflexivity).
  assert (Fo : forall g, g <> cur s -> f g = sg s g) by (intros g Ng; unfold f; rewrite upd_eq; destruct (N.eqb_spec g (cur s)); congruence).
  assert (HSt : SI t).
  { constructor; cbn [segl sg cur brk ranges t setseg brand with_hd].
    - intros g Ig. destruct (N.eq_dec g (cur s)) as [->|Ng].
      + exists (l + 2 ^ j). rewrite Fc. split; auto. destruct (si_seg s HS _ Ic) as (l' & E' & A1 & A2 & A3 & A4 & A5). assert (l' = l) by congruence. subst l'.
        split; auto. split; auto. split; [apply N.divide_add_r; auto; apply pow_div; lia|]. split; auto. lia.
      + rewrite (Fo g Ng). exact (si_seg s HS g Ig).
    - intros g b1 l1 g' b2 l2 I1 I2 E1 E2 N. destruct (N.eq_dec g (cur s)) as [->|Ng]; destruct (N.eq_dec g' (cur s)) as [->|Ng']; try congruence.
      + rewrite (Fo _ Ng') in E2. right. exact (Top g' b2 l2 I2 Ng' E2).
      + rewrite (Fo _ Ng) in E1. left. exact (Top g b1 l1 I1 Ng E1).
      + rewrite (Fo _ Ng) in E1. rewrite (Fo _ Ng') in E2. exact (si_dis s HS _ _ _ _ _ _ I1 I2 E1 E2 N).
    - right. exact Ic.
    - exact (si_brk s HS).
    - intros g m a I1 E1 La. change (obtained s a). destruct (N.eq_dec g (cur s)) as [->|Ng].
      + rewrite Fc in E1. assert (m = l + 2 ^ j) by congruence. subst m. destruct (N.ltb_spec a (cur s + 16 + l)); [|apply Ob; lia]. apply (si_rng s HS (cur s) l a Ic G). lia.
      + rewrite (Fo _ Ng) in E1. exact (si_rng s HS g m a I1 E1 La). }
  assert (Below : forall a k u, bk a = Some (k, u) -> a + 2 ^ k <= b).
  { intros a k u E. destruct (hi_hd _ _ _ HH a k u E) as (_ & h & _ & _ & _ & P). destruct P as (I1 & c & m & off & G' & Eo & _ & Lo). unfold b.
    destruct (N.eq_dec (hseg h) (cur s)) as [Q|Q]; [rewrite Q in *; assert (c = cur s + 16) by congruence; assert (m = l) by congruence; subst; lia|]. pose proof (Top _ _ _ I1 Q G'). lia. }
  assert (Nb : bk b = None). { destruct (bk b) as [[k u]|] eqn:E; auto. pose proof (Below _ _ _ E). pose proof (pow_pos k). lia. }
  set (bk1 := upd bk b (Some (j, true))).
  assert (Eb : bk1 b = Some (j, true)) by (unfold bk1; rewrite upd_eq, N.eqb_refl; reflexivity).
  assert (Bx : forall a, a <> b -> bk1 a = bk a) by (intros a Na; unfold bk1; rewrite upd_eq; destruct (N.eqb_spec a b); congruence).
  assert (HTt : TI t bk1).
  { constructor; cbn [segl sg t setseg].
    - intros a k u a' k' u' E1 E2 Na. destruct (N.eq_dec a b) as [->|N1]; [|destruct (N.eq_dec a' b) as [->|N2]].
      + rewrite Bx in E2 by auto. right. exact (Below _ _ _ E2).
      + rewrite Bx in E1 by auto. left. exact (Below _ _ _ E1).
      + rewrite Bx in E1, E2 by auto. exact (ti_dis _ _ HT _ _ _ _ _ _ E1 E2 Na).
    - intros g c m off I1 G' Lo. assert (Old : (exists a k u, bk a = Some (k, u) /\ a <= c + off < a + 2 ^ k) -> exists a k u, bk1 a = Some (k, u) /\ a <= c + off < a + 2 ^ k).
      { intros (a & k & u & E & La). exists a, k, u. rewrite Bx; auto. congruence. }
      destruct (N.eq_dec g (cur s)) as [->|Ng].
      + rewrite Fc in G'. assert (c = cur s + 16) by congruence. assert (m = l + 2 ^ j) by congruence. subst c m. destruct (N.ltb_spec off l) as [C|C].
        * apply Old. exact (ti_cov _ _ HT (cur s) _ l off Ic G C).
        * exists b, j, true. split; auto. unfold b. lia.
      + rewrite (Fo _ Ng) in G'. apply Old. exact (ti_cov _ _ HT g c m off I1 G' Lo). }
  assert (Hbt : exists h, hd t b = Some h /\ hidx h = j /\ hseg h = cur s).
  { unfold t, brand. cbn [hd setseg with_hd]. rewrite upd_eq, N.eqb_refl. eexists. split; [reflexivity|]. destruct (hd s b); auto. }
  assert (Hd : forall a, a <> b -> hd t a = hd s a) by (intros a Na; unfold t, brand; cbn [hd setseg with_hd]; rewrite upd_eq; destruct (N.eqb_spec a b); congruence).
  assert (HHt : HI b t bk1).
  { constructor.
    - intros a k u. destruct (N.eq_dec a b) as [->|Na].
      + rewrite Eb. intros [= <- <-]. split; [lia|]. destruct Hbt as (h & X1 & X2 & X3). exists h. do 2 (split; [auto|]). split; [congruence|]. rewrite X3. split; [exact Ic|].
        exists (cur s + 16), (l + 2 ^ j), l. split; [exact Fc|]. split; [reflexivity|]. split; [auto|lia].
      + rewrite Bx by auto. intros E. pose proof (bk_pos s HS bk 0 HH a _ _ E) as Pa. destruct (hi_hd _ _ _ HH a k u E) as (L & h & X1 & X2 & X3 & X4). split; auto. exists h. rewrite Hd by auto. do 2 (split; [auto|]). split; [intros _; apply X3; lia|].
        destruct X4 as (I1 & c & m & off & G' & Eo & Do & Lo). split; [exact I1|]. destruct (N.eq_dec (hseg h) (cur s)) as [Q|Q].
        * rewrite Q in *. exists c, (l + 2 ^ j), off. assert (c = cur s + 16) by congruence. assert (m = l) by congruence. subst c m. split; [exact Fc|]. split; [auto|]. split; [auto|lia].
        * exists c, m, off. split; [exact (eq_trans (Fo _ Q) G')|]. auto.
    - intros a k. destruct (N.eq_dec a b) as [->|Na]; [rewrite Eb; discriminate|]. rewrite Bx by auto. intros E. destruct (hi_nx _ _ _ HH a k E) as [A1 A2]. assert (nx s a <> b) by congruence.
      assert (Q : nx t a = nx s a) by (unfold nx; rewrite Hd by auto; reflexivity). rewrite Q, Bx by auto. split; auto. unfold pv. rewrite Hd by auto. exact A2.
    - intros a k. destruct (N.eq_dec a b) as [->|Na]; [rewrite Eb; discriminate|]. rewrite Bx by auto. intros E. destruct (hi_pv _ _ _ HH a k E) as [A1 A2]. assert (pv s a <> b) by congruence.
      assert (Q : pv t a = pv s a) by (unfold pv; rewrite Hd by auto; reflexivity). rewrite Q, Bx by auto. split; auto. unfold nx. rewrite Hd by auto. exact A2.
    - intros k A. change (avl t k) with (avl s k) in *. pose proof (hi_avl _ _ _ HH k A) as A1. rewrite Bx; auto. congruence. }
  destruct (add_spec t bk1 b j HSt HHt Eb) as (t' & A1 & A2 & A3 & A4).
  apply (add_setseg t (sg s) (cur s) (ranges s) (segl s)) in A1.
  change (setseg t (sg s) (cur s) (ranges s) (segl s)) with (setseg (brand s b j (cur s)) (sg s) (cur s) (ranges s) (segl s)) in A1.
  assert (Q : setseg (brand s b j (cur s)) (sg s) (cur s) (ranges s) (segl s) = brand s b j (cur s)) by reflexivity. rewrite Q in A1.
  eexists. split; [exact A1|]. cbn [avl setseg sg cur brk ranges segl]. destruct A2 as (Y1 & Y2 & Y3 & Y4 & Y5).
  split; [exact A4|]. split; [auto|]. split; [auto|]. split; [exact Y3|]. split; [auto|]. split; [auto|]. split; [|exact Nb].
  assert (R : with_sg (setseg t' (sg s) (cur s) (ranges s) (segl s)) (cur s) (cur s + 16) (l + 2 ^ j) = t').
  { unfold with_sg, setseg. cbn [hd sg cur avl brk ranges segl]. destruct t' as [u1 u2 u3 u4 u5 u6 u7]. cbn [hd sg cur avl brk ranges segl] in *. subst. reflexivity. }
  rewrite R. assert (Sq : segeq t t') by (repeat split; auto). constructor; [exact (SI_eq _ _ Sq HSt)| |].
  - apply (TI_eq t t' _ Sq). assert (T : TI t (upd bk1 b (Some (j, false)))) by exact (TI_used t bk1 b j true false Eb HTt).
    destruct T as [T1 T2]. constructor.
    + intros a k u a' k' u' E1 E2. apply (T1 a k u a' k' u'); unfold bk1; rewrite !upd_eq in *; [destruct (a =? b); auto|destruct (a' =? b); auto].
    + intros g c m off I1 G' Lo. destruct (T2 g c m off I1 G' Lo) as (a & k & u & E1 & E2). exists a, k, u. split; auto. unfold bk1 in E1. rewrite !upd_eq in *. destruct (a =? b); auto.
  - assert (Ext : forall a, upd bk1 b (Some (j, false)) a = upd bk b (Some (j, false)) a) by (intros a; unfold bk1; rewrite !upd_eq; destruct (a =? b); auto).
    destruct A3 as [Z1 Z2 Z3 Z4]. constructor; intros *; rewrite <- !Ext; auto.
Qed.

Lemma low_spec p : p <> 0 -> exists j, p - N.land p (p - 1) = 2 ^ j /\ (2 ^ j | p) /\ ~ (2 ^ (j + 1) | p).
Proof. destruct p as [|p]; [congruence|]. intros _. apply low_bit. Qed.

(** The new storage: 2^a bytes after [pad] bytes that bring the segment to a multiple of 2^a. *)
Lemma carve_spec fuel : forall s bk l a pad j0, Inv s bk -> In (cur s) (segl s) -> sg s (cur s) = Some (cur s + 16, l) -> 15 <= a <= 62 -> pad < 2 ^ a ->
  (2 ^ a | l + pad) -> (2 ^ 15 | pad) -> (2 ^ j0 | pad) -> j0 <= a -> a + 1 <= j0 + N.of_nat fuel -> l + (2 ^ a + pad) <= MAXSEG ->
  cur s + 16 + l + (2 ^ a + pad) <= brk s -> (forall g b m, In g (segl s) -> g <> cur s -> sg s g = Some (b, m) -> b + m <= cur s) ->
  (forall x, cur s + 16 + l <= x < cur s + 16 + l + (2 ^ a + pad) -> obtained s x) ->
  exists s' bk', carve fuel s (2 ^ a + pad) = Ok s' /\ Inv s' bk' /\ cur s' = cur s /\ brk s' = brk s /\ ranges s' = ranges s /\ segl s' = segl s /\
    sg s' (cur s) = Some (cur s + 16, l + (2 ^ a + pad)) /\ (forall g, g <> cur s -> sg s' g = sg s g) /\ avl s' a <> 0 /\
    (forall x k, bk' x = Some (k, true) <-> bk x = Some (k, true)) /\
    (pad = 0 -> forall x, bk' x = upd bk (cur s + 16 + l) (Some (a, false)) x).
Proof.
  induction fuel as [|fuel IH]; intros s bk l a pad j0 HI0 Ic G La Lp Dl D15 Dj Lj Lf Lm Lb Top Ob; [change (N.of_nat 0) with 0 in Lf; lia|].
  pose proof (pow_pos a) as Pa. cbn [carve]. destruct (N.eqb_spec (2 ^ a + pad) 0); [lia|].
  destruct (low_spec (2 ^ a + pad) ltac:(lia)) as (j & E & D1 & D2). rewrite E. pose proof (pow_pos j) as Pj.
  assert (P2 : 2 ^ (a + 1) = 2 * 2 ^ a) by apply pow_S.
  assert (Ja : j <= a). { apply N.divide_pos_le in D1; [|lia]. assert (2 ^ j < 2 ^ (a + 1)) by lia. apply pow_lt in H. lia. }
  assert (Dp : (2 ^ j | pad)). { apply (N.divide_add_cancel_r _ (2 ^ a)); auto. apply pow_div; lia. }
  assert (D0 : (2 ^ j | l)). { apply (N.divide_add_cancel_r _ pad); auto. rewrite N.add_comm. eapply N.divide_trans; [apply pow_div, Ja|exact Dl]. }
  assert (J15 : 15 <= j). { apply N.nlt_ge. intros C. apply D2. apply N.divide_add_r; [apply pow_div; lia|]. eapply N.divide_trans; [apply (pow_div (j + 1) 15); lia|exact D15]. }
  assert (J0 : j0 <= j). { apply N.nlt_ge. intros C. apply D2. apply N.divide_add_r; [apply pow_div; lia|]. eapply N.divide_trans; [apply (pow_div (j + 1) j0); lia|exact Dj]. }
  assert (Le : 2 ^ j <= 2 ^ a) by (apply pow_mono, Ja).
  unfold oget at 1. rewrite G. cbn [obind]. rewrite (CeilingLog2_pow j) by lia. cbn [obind].
  destruct (extend_spec s bk l j HI0 Ic G J15 D0 ltac:(lia) ltac:(lia) Top) as (s1 & A1 & A2 & A3 & A4 & A5 & A6 & A7 & A8 & A9). { intros x Lx. apply Ob. lia. }
  rewrite A1. cbn [obind]. set (s2 := with_sg s1 (cur s1) (cur s + 16) (l + 2 ^ j)) in *. set (b := cur s + 16 + l) in *.
  assert (C2 : cur s2 = cur s) by exact A4. assert (G2 : sg s2 (cur s2) = Some (cur s2 + 16, l + 2 ^ j)). { rewrite C2. unfold s2. cbn [sg with_sg]. rewrite A4, upd_eq, N.eqb_refl. reflexivity. }
  assert (Go : forall g, g <> cur s -> sg s2 g = sg s g). { intros g Ng. unfold s2. cbn [sg with_sg]. rewrite A4, upd_eq, A3. destruct (N.eqb_spec g (cur s)); congruence. }
  assert (S2 : segl s2 = segl s) by exact A7. assert (B2 : brk s2 = brk s) by exact A5. assert (R2 : ranges s2 = ranges s) by exact A6.
  assert (Bu : forall x k, upd bk b (Some (j, false)) x = Some (k, true) <-> bk x = Some (k, true)).
  { intros x k. rewrite upd_eq. destruct (N.eqb_spec x b) as [->|]; [|reflexivity]. rewrite A9. split; discriminate. }
  destruct (N.eq_dec pad 0) as [->|Np].
  - assert (j = a). { apply N.le_antisymm; auto. apply N.nlt_ge. intros C. apply D2. rewrite N.add_0_r. apply pow_div. lia. } subst j.
    replace (2 ^ a + 0 - 2 ^ a) with 0 by lia. exists s2, (upd bk b (Some (a, false))). split; [destruct fuel; reflexivity|].
    split; [exact A8|]. do 4 (split; [auto|]). split; [rewrite <- C2 at 1; rewrite G2, C2; do 2 f_equal; lia|]. split; [exact Go|]. split; [exact A2|]. split; [exact Bu|]. intros _ x. reflexivity.
  - assert (Lt : 2 ^ j <= pad) by (apply N.divide_pos_le; [lia|exact Dp]).
    assert (Jlt : j < a). { apply pow_lt. lia. }
    replace (2 ^ a + pad - 2 ^ j) with (2 ^ a + (pad - 2 ^ j)) by lia.
    destruct (IH s2 (upd bk b (Some (j, false))) (l + 2 ^ j) a (pad - 2 ^ j) (j + 1) A8) as (s' & bk' & X1 & X2 & X3 & X4 & X5 & X6 & X7 & X8 & X9 & X10 & X11); try lia.
    + rewrite C2, S2. exact Ic.
    + exact G2.
    + replace (l + 2 ^ j + (pad - 2 ^ j)) with (l + pad) by lia. exact Dl.
    + apply N.divide_sub_r; [exact D15|apply pow_div; lia].
    + destruct Dp as [q Eq]. assert (q <> 0) by (intros ->; lia). destruct (N.even q) eqn:Ev.
      * exfalso. apply D2. apply N.even_spec in Ev as [c Ec]. apply N.divide_add_r; [apply pow_div; lia|]. exists c. rewrite pow_S. subst. lia.
      * assert (O : N.odd q = true) by (rewrite <- N.negb_even, Ev; reflexivity). apply N.odd_spec in O as [c Ec]. exists c. rewrite pow_S. subst. nia.
    + intros g m y I1 N1 E1. rewrite C2 in *. rewrite S2 in I1. rewrite (Go g N1) in E1. exact (Top g m y I1 N1 E1).
    + intros x Lx. rewrite C2 in Lx. destruct (Ob x ltac:(lia)) as (r & Ir & Lr). exists r. rewrite R2. auto.
    + exists s', bk'. split; [exact X1|]. split; [exact X2|]. split; [congruence|]. split; [congruence|]. split; [congruence|]. split; [congruence|].
      rewrite C2 in *. split; [rewrite X7; do 2 f_equal; lia|]. split; [intros g Ng; rewrite X8 by auto; auto|]. split; [exact X9|]. split; [intros x k; rewrite X10; apply Bu|]. congruence.
Qed.


(** Getting more storage. *)
Lemma more_spec r s bk k : Inv s bk -> 6 <= k <= 62 ->
  more r s k = Fatal /\ (r = true \/ TOP < brk s + (2 * 2 ^ k + 2 ^ 16 + 32)) \/ exists s' bk' a, more r s k = Ok s' /\ Inv s' bk' /\ (forall x j, bk' x = Some (j, true) <-> bk x = Some (j, true)) /\ k <= a <= 62 /\ avl s' a <> 0 /\
    (forall g, In g (segl s) -> In g (segl s')) /\
    ((forall g, In g (segl s) -> sg s' g = sg s g) -> GM s bk -> GM s' bk') /\ ((forall g, In g (segl s) -> sg s' g = sg s g) -> exists g, In g (segl s') /\ segl s' = segl s ++ [g] /\ sg s' g = Some (g + 16, 2 ^ a)).
Proof.
  intros HI0 Lk. pose proof HI0 as [HS HT HH]. unfold more. set (a := if k <? MINIDX then MINIDX else k).
  assert (La : 15 <= a <= 62 /\ k <= a) by (unfold a, MINIDX; destruct (N.ltb_spec k 15); lia). destruct La as [La Lka].
  assert (Lz : 2 * 2 ^ a <= 2 * 2 ^ k + 2 ^ 16) by (unfold a, MINIDX; destruct (N.ltb_spec k 15); [change (2 ^ 16) with (2 * 2 ^ 15)|]; lia). clearbody a. pose proof (pow_pos a) as Pa.
  assert (Cur : exists base limit, sg s (cur s) = Some (base, limit) /\ (2 ^ 15 | limit) /\ limit <= MAXSEG /\ base + limit <= brk s /\ (In (cur s) (segl s) /\ base = cur s + 16 \/ base = 0 /\ limit = 0)).
  { destruct (si_cur s HS) as [[-> Q]|Ic]; [exists 0, 0; split; auto; split; [exists 0; reflexivity|]; split; [unfold MAXSEG; lia|]; split; [lia|auto]|].
    destruct (si_seg s HS _ Ic) as (l & E & _ & _ & A1 & A2 & A3). exists (cur s + 16), l. do 4 (split; [auto|]). left. auto. }
  destruct Cur as (base & limit & G & D15 & Lm & Lb & Cs). unfold oget. rewrite G. cbn [obind].
  rewrite ldiff_round. destruct (round_up limit (2 ^ a) Pa) as [Ru Du]. set (up := (limit + 2 ^ a - 1) / 2 ^ a * 2 ^ a) in *. clearbody up. set (pad := up - limit).
  assert (A62 : 2 ^ a <= 2 ^ 62) by (apply pow_mono; lia).
  destruct (negb (brk s =? base + limit) || (MAXSEG <? 2 ^ a + pad + limit)) eqn:New; unfold sbrk.
  - (* a new segment *)
    set (ask := ROUNDUP (brk s) - brk s + (2 ^ a + ROUNDUP SEGREC)). destruct (ROUNDUP_ok (brk s)) as [R1 R2].
    destruct (r || (TOP <? brk s + ask)) eqn:Rf; [left; split; [reflexivity|]; apply orb_true_iff in Rf as [Rf|Rf]; [now left|right; apply N.ltb_lt in Rf; unfold ask in Rf; change (ROUNDUP SEGREC) with 16 in Rf; lia]|]. right.
    apply orb_false_iff in Rf as [_ Rf]. apply N.ltb_ge in Rf. change (ROUNDUP SEGREC) with 16 in *. set (g := ROUNDUP (brk s)) in *. clearbody g.
    set (s0 := B (hd s) (upd (sg s) g (Some (g + 16, 0))) g (avl s) (brk s + ask) (ranges s ++ [(brk s, ask)]) (segl s ++ [g])).
    destruct (si_brk s HS) as [Bp _].
    assert (Ng : ~ In g (segl s)). { intros I1. destruct (si_seg s HS g I1) as (l & _ & _ & _ & _ & _ & L). lia. }
    assert (Gg : sg s0 g = Some (g + 16, 0)) by (cbn [sg s0]; rewrite upd_eq, N.eqb_refl; reflexivity).
    assert (Go : forall x, x <> g -> sg s0 x = sg s x) by (intros x Nx; cbn [sg s0]; rewrite upd_eq; destruct (N.eqb_spec x g); congruence).
    assert (In0 : forall x, In x (segl s0) -> x = g \/ (x <> g /\ In x (segl s))). { intros x Ix. cbn [segl s0] in Ix. apply in_app_or in Ix as [Ix|[<-|[]]]; auto. right. split; auto. congruence. }
    assert (End : forall x b m, In x (segl s) -> sg s x = Some (b, m) -> b + m <= g). { intros x b m Ix Ex. destruct (si_seg s HS x Ix) as (l & El & _ & _ & _ & _ & L). assert (b = x + 16) by congruence. assert (m = l) by congruence. lia. }
    assert (HS0 : SI s0).
    { constructor.
      - intros x Ix. apply In0 in Ix as [->|[Nx Ix]].
        + exists 0. rewrite Gg. split; auto. split; [lia|]. split; auto. split; [exists 0; reflexivity|]. split; [unfold MAXSEG; lia|]. cbn [brk s0]. unfold ask. lia.
        + rewrite (Go x Nx). destruct (si_seg s HS x Ix) as (l & A1 & A2 & A3 & A4 & A5 & A6). exists l. do 5 (split; [auto|]). cbn [brk s0]. lia.
      - intros x b1 l1 x' b2 l2 I1 I2 E1 E2 Nx. apply In0 in I1. apply In0 in I2. destruct I1 as [->|[N1 I1]]; destruct I2 as [->|[N2 I2]]; try congruence.
        + rewrite (Go _ N2) in E2. right. exact (End _ _ _ I2 E2).
        + rewrite (Go _ N1) in E1. left. exact (End _ _ _ I1 E1).
        + rewrite (Go _ N1) in E1. rewrite (Go _ N2) in E2. exact (si_dis s HS _ _ _ _ _ _ I1 I2 E1 E2 Nx).
      - right. cbn [cur segl s0]. apply in_or_app. right. now left.
      - cbn [brk s0]. lia.
      - intros x l y I1 E1 Ly. apply In0 in I1 as [->|[N1 I1]].
        + rewrite Gg in E1. assert (l = 0) by congruence. lia.
        + rewrite (Go _ N1) in E1. destruct (si_rng s HS x l y I1 E1 Ly) as (q & Iq & Lq). exists q. split; auto. cbn [ranges s0]. apply in_or_app. now left. }
    assert (Pl : forall x y z, placed s x y z -> placed s0 x y z).
    { intros x y z (I1 & c & l & off & E1 & Q). assert (x <> g) by congruence. split; [cbn [segl s0]; apply in_or_app; now left|]. exists c, l, off. rewrite Go; auto. }
    assert (HI1 : Inv s0 bk).
    { constructor; auto.
      - constructor; [exact (ti_dis _ _ HT)|]. intros x c l off I1 E1 Lo. apply In0 in I1 as [->|[N1 I1]]; [rewrite Gg in E1; assert (l = 0) by congruence; lia|]. rewrite (Go _ N1) in E1. exact (ti_cov _ _ HT x c l off I1 E1 Lo).
      - destruct HH as [Z1 Z2 Z3 Z4]. constructor; auto. intros x y z E. destruct (Z1 x y z E) as (L & h & Q1 & Q2 & Q3 & Q4). split; auto. exists h. auto. }
    destruct (carve_spec 64 s0 bk 0 a 0 0 HI1) as (s' & bk' & X1 & X2 & X3 & X4 & X5 & X6 & X7 & X8 & X9 & X10 & X11).
    + cbn [cur segl s0]. apply in_or_app. right. now left.
    + exact Gg.
    + lia.
    + lia.
    + exists 0. reflexivity.
    + exists 0. reflexivity.
    + exists 0. reflexivity.
    + lia.
    + change (N.of_nat 64) with 64. lia.
    + unfold MAXSEG, MAXIDX. lia.
    + cbn [cur brk s0]. unfold ask. lia.
    + intros x b m I1 N1 E1. cbn [cur s0] in *. apply In0 in I1 as [->|[_ I1]]; [congruence|]. rewrite (Go _ N1) in E1. exact (End _ _ _ I1 E1).
    + intros x Lx. cbn [cur s0] in Lx. exists (brk s, ask). split; [cbn [ranges s0]; apply in_or_app; right; now left|]. cbn [fst snd]. unfold ask. lia.
    + rewrite N.add_0_r in X1. exists s', bk', a. split; [exact X1|]. split; [exact X2|]. split; [exact X10|]. split; [lia|]. split; [exact X9|].
      rewrite X6. split; [intros x Ix; cbn [segl s0]; apply in_or_app; now left|]. cbn [cur s0] in *. rewrite !N.add_0_l, !N.add_0_r in *. split.
      * intros _ Gm x c l off j I1 E1 D1 Lm1 F1 F2. rewrite (X11 eq_refl) in F1, F2. rewrite X6 in I1. pose proof (pow_pos j) as Pj. rewrite !upd_eq in F1, F2.
        assert (Cx : forall z u v, bk z = Some (u, v) -> z + 2 ^ u <= g).
        { intros z u v Ez. destruct (hi_hd _ _ _ HH z u v Ez) as (_ & h & _ & _ & _ & P). destruct P as (J1 & c1 & l1 & o1 & G1 & Eo & _ & Lo). pose proof (End _ _ _ J1 G1). lia. }
        apply In0 in I1 as [->|[N1 I1]].
        -- rewrite X7 in E1. assert (c = g + 16) by congruence. subst c.
           destruct (N.eqb_spec (g + 16 + off + 2 ^ j) (g + 16)); [lia|]. apply Cx in F2. lia.
        -- rewrite (X8 _ N1), (Go _ N1) in E1. pose proof (End _ _ _ I1 E1). destruct (N.eqb_spec (c + off) (g + 16)); [lia|]. destruct (N.eqb_spec (c + off + 2 ^ j) (g + 16)); [lia|].
           exact (Gm x c l off j I1 E1 D1 Lm1 F1 F2).
      * intros _. exists g. split; [cbn [segl s0]; apply in_or_app; right; now left|]. split; [reflexivity|]. exact X7.
  - (* the current segment grows *)
    apply orb_false_iff in New as [New1 New2]. apply negb_false_iff, N.eqb_eq in New1. apply N.ltb_ge in New2.
    destruct (r || (TOP <? brk s + (2 ^ a + pad))) eqn:Rf; [left; split; [reflexivity|]; apply orb_true_iff in Rf as [Rf|Rf]; [now left|right; apply N.ltb_lt in Rf; unfold pad in Rf; lia]|]. right. apply orb_false_iff in Rf as [_ Rf]. apply N.ltb_ge in Rf.
    destruct (si_brk s HS) as [Bp _].
    destruct Cs as [[Ic Eb]|[-> ->]]; [|lia].
    set (ask := 2 ^ a + pad). set (s0 := B (hd s) (sg s) (cur s) (avl s) (brk s + ask) (ranges s ++ [(brk s, ask)]) (segl s)).
    assert (HS0 : SI s0).
    { destruct HS as [Z1 Z2 Z3 Z4 Z5]. constructor; auto.
      - intros x Ix. destruct (Z1 x Ix) as (l & A1 & A2 & A3 & A4 & A5 & A6). exists l. do 5 (split; [auto|]). cbn [brk s0]. lia.
      - cbn [brk s0]. unfold ask. lia.
      - intros x l y I1 E1 Ly. destruct (Z5 x l y I1 E1 Ly) as (q & Iq & Lq). exists q. split; auto. cbn [ranges s0]. apply in_or_app. now left. }
    assert (HI1 : Inv s0 bk).
    { constructor; auto; [destruct HT as [Z1 Z2]; constructor; auto|]. destruct HH as [Z1 Z2 Z3 Z4]. constructor; auto. }
    assert (Top : forall x b m, In x (segl s) -> x <> cur s -> sg s x = Some (b, m) -> b + m <= cur s).
    { intros x b m I1 N1 E1. destruct (si_dis s HS x b m (cur s) base limit I1 Ic E1 G N1) as [|C]; auto. exfalso. destruct (si_seg s HS x I1) as (l & _ & _ & _ & _ & _ & L). lia. }
    destruct (carve_spec 64 s0 bk limit a pad 0 HI1) as (s' & bk' & X1 & X2 & X3 & X4 & X5 & X6 & X7 & X8 & X9 & X10 & X11).
    + exact Ic.
    + change (cur s0) with (cur s); rewrite <- Eb; exact G.
    + lia.
    + unfold pad. lia.
    + unfold pad. replace (limit + (up - limit)) with up by lia. exact Du.
    + unfold pad. apply N.divide_sub_r; auto. eapply N.divide_trans; [apply (pow_div 15 a); lia|exact Du].
    + exists pad. rewrite N.pow_0_r. lia.
    + lia.
    + change (N.of_nat 64) with 64. lia.
    + lia.
    + cbn [cur brk s0]. unfold ask. lia.
    + exact Top.
    + intros x Lx. cbn [cur s0] in Lx. exists (brk s, ask). split; [cbn [ranges s0]; apply in_or_app; right; now left|]. cbn [fst snd]. unfold ask. lia.
    + exists s', bk', a. split; [exact X1|]. split; [exact X2|]. split; [exact X10|]. split; [lia|]. split; [exact X9|]. rewrite X6. split; [auto|].
      assert (Cn : ~ (forall g, In g (segl s) -> sg s' g = sg s g)). { intros C. specialize (C _ Ic). change (cur s0) with (cur s) in X7. rewrite X7, G in C. injection C as _ C. lia. }
      split; intros C; elim (Cn C).
Qed.

Lemma find_spec fuel : forall s i, match find fuel s i with Some j => i <= j < i + N.of_nat fuel /\ avl s j <> 0 | None => forall j, i <= j < i + N.of_nat fuel -> avl s j = 0 end.
Proof.
  induction fuel as [|fuel IH]; intros s i; cbn [find]; [intros j L; change (N.of_nat 0) with 0 in L; lia|].
  destruct (N.eqb_spec (avl s i) 0) as [E|E]; [|split; [lia|exact E]]. specialize (IH s (i + 1)). destruct (find fuel s (i + 1)); [split; [lia|tauto]|].
  intros j L. destruct (N.eq_dec j i) as [->|]; [exact E|]. apply IH. lia.
Qed.
Lemma find_from_spec s i : i <= 62 -> match find_from s i with Some j => i <= j <= 62 /\ avl s j <> 0 | None => forall j, i <= j <= 62 -> avl s j = 0 end.
Proof.
  intros L. unfold find_from, MAXIDX. pose proof (find_spec (N.to_nat (62 + 1 - i)) s i) as H. destruct (find _ s i); [split; [lia|tauto]|]. intros j Lj. apply H. lia.
Qed.

Lemma index_spec n : 0 < n -> BlockSizeIndex n = Fatal /\ MAXSEG - HEADER < n \/ exists k, BlockSizeIndex n = Ok (Some k) /\ 6 <= k <= 62 /\ n + HEADER <= 2 ^ k /\ 2 ^ k < 2 * (n + HEADER).
Proof.
  intros P. unfold BlockSizeIndex. destruct (N.ltb_spec n 1); [lia|]. destruct (N.ltb_spec (MAXSEG - HEADER) n) as [C|C]; [now left|]. right.
  unfold MAXSEG, MAXIDX, HEADER in *. pose proof (pow_mono 62 63 ltac:(lia)) as M. destruct (CeilingLog2_ok (n + 40)) as (k & E & L1 & L2); [lia|]. rewrite E. exists k. split; [reflexivity|].
  assert (L6 : 6 <= k). { apply N.nlt_ge. intros Q. assert (Q' : k <= 5) by lia. apply pow_mono in Q'. change (2 ^ 5) with 32 in Q'. lia. }
  destruct L2 as [->|L2]; [lia|]. split; [|split; [exact L1|]].
  - split; auto. assert (2 ^ (k - 1) < 2 ^ 62) by lia. apply pow_lt in H0. lia.
  - replace (2 ^ k) with (2 * 2 ^ (k - 1)) by (rewrite <- pow_S; f_equal; lia). lia.
Qed.

Definition unchanged (s s' : bst) : Prop := forall g, In g (segl s) -> sg s' g = sg s g.
Definition pow2 (s : bst) : Prop := forall g, In g (segl s) -> exists a, sg s g = Some (g + 16, 2 ^ a).
(** What an operation does to the segments and, when no old segment grows, to the absence of pairs. *)
Definition tidy (s : bst) (bk : blocks) (s' : bst) (bk' : blocks) : Prop :=
  (forall g, In g (segl s) -> In g (segl s')) /\ (unchanged s s' -> GM s bk -> GM s' bk') /\ (unchanged s s' -> pow2 s -> pow2 s').
Lemma tidy_eq s bk s' bk' : segeq s s' -> (GM s bk -> GM s' bk') -> tidy s bk s' bk'.
Proof.
  intros (A1 & A2 & A3 & A4 & A5) G. split; [intros g; rewrite A5; auto|]. split; [auto|]. intros _ P g. rewrite A5, A1. apply P.
Qed.
Lemma tidy_l s bk s1 bk1 s2 bk2 : segeq s s1 -> (GM s bk -> GM s1 bk1) -> tidy s1 bk1 s2 bk2 -> tidy s bk s2 bk2.
Proof.
  intros Sq G (T1 & T2 & T3). pose proof Sq as (A1 & A2 & A3 & A4 & A5). assert (U : unchanged s s2 -> unchanged s1 s2) by (intros U g; rewrite A5, A1; apply U).
  split; [intros g Ig; apply T1; rewrite A5; auto|]. split; [auto|]. intros U1 P. apply T3; auto. intros g. rewrite A5, A1. apply P.
Qed.
Lemma tidy_r s bk s1 bk1 s2 bk2 : tidy s bk s1 bk1 -> segeq s1 s2 -> (GM s1 bk1 -> GM s2 bk2) -> tidy s bk s2 bk2.
Proof.
  intros (T1 & T2 & T3) Sq G. pose proof Sq as (A1 & A2 & A3 & A4 & A5). assert (U : unchanged s s2 -> unchanged s s1) by (intros U g Ig; rewrite <- A1; auto).
  split; [intros g Ig; rewrite A5; auto|]. split; [auto|]. intros U1 P g. rewrite A5, A1. apply T3; auto.
Qed.

(** Cal_MemGetBlock *)
Lemma get_spec r s bk n : Inv s bk -> 0 < n ->
  GetBlock r s n = Fatal /\ (MAXSEG - HEADER < n \/ r = true \/ TOP < brk s + 4 * n + 2 ^ 17) \/
  exists b s' bk' k, GetBlock r s n = Ok (b + HEADER, s') /\ Inv s' bk' /\ bk' b = Some (k, true) /\ n + HEADER <= 2 ^ k /\ (forall j, bk b <> Some (j, true)) /\ uframe b bk bk' /\ tidy s bk s' bk'.
Proof.
  intros HI0 Pn. unfold GetBlock. destruct (index_spec n Pn) as [[-> C]|(k & -> & Lk & L1 & L2)]; [left; split; [reflexivity|auto]|]. cbn [obind].
  assert (Take : forall s bk i, Inv s bk -> k <= i <= 62 -> avl s i <> 0 ->
    exists s2 bk2 s1, RemoveFromFreeList s (avl s i) = Ok s1 /\ TrimToSize 64 s1 (avl s i) k = Ok s2 /\ Inv s2 bk2 /\ segeq s s2 /\ bk2 (avl s i) = Some (k, true) /\ bk (avl s i) = Some (i, false) /\ uframe (avl s i) bk bk2 /\ (GM s bk -> GM s2 bk2)).
  { clear s bk HI0. intros s bk i HI0 Li Na. pose proof (hi_avl _ _ _ (iv_h _ _ HI0) i Na) as E. destruct (rem_Inv s bk _ i HI0 E) as (s1 & A1 & A2 & A3).
    destruct (trim_spec 64 s1 _ (avl s i) i k A3) as (s2 & bk2 & B1 & B2 & B3 & B4 & B5 & B6); [rewrite upd_eq, N.eqb_refl; reflexivity|lia|change (N.of_nat 64) with 64; lia|].
    exists s2, bk2, s1. do 3 (split; [auto|]). split; [exact (segeq_trans _ _ _ A2 B2)|]. split; [auto|]. split; [auto|]. split.
    - intros a j Nj. rewrite <- (B5 a j Nj), upd_eq. destruct (N.eqb_spec a (avl s i)); [congruence|reflexivity].
    - intros G. apply B6. apply (GM_eq s s1 _ A2). apply (GM_sub s bk); auto. intros a j. rewrite upd_eq. destruct (a =? avl s i); [discriminate|auto]. }
  pose proof (find_from_spec s k ltac:(lia)) as F. destruct (find_from s k) as [i|].
  - right. cbn [obind]. destruct F as [F1 F2]. destruct (Take s bk i HI0 F1 F2) as (s2 & bk2 & s1 & B1 & B2 & B3 & B4 & B5 & B6 & B7 & B8). rewrite B1. cbn [obind]. rewrite B2. cbn [obind].
    exists (avl s i), s2, bk2, k. split; [reflexivity|]. do 3 (split; [auto|]). split; [intros j; congruence|]. split; auto. exact (tidy_eq _ _ _ _ B4 B8).
  - destruct (more_spec r s bk k HI0 Lk) as [[-> C]|(s0 & bk0 & a & -> & M1 & M2 & M3 & M4 & M5 & M6 & M7)].
    { left. split; [reflexivity|]. unfold HEADER in *. right. destruct C as [C|C]; [auto|]. right. change (2 ^ 17) with (2 * 2 ^ 16). change (2 ^ 16) with 65536 in *. lia. }
    right. cbn [obind]. pose proof (find_from_spec s0 k ltac:(lia)) as F'. destruct (find_from s0 k) as [i|]; [|exfalso; apply M4, F'; lia]. cbn [oget obind].
    destruct F' as [F1 F2]. destruct (Take s0 bk0 i M1 F1 F2) as (s2 & bk2 & s1 & B1 & B2 & B3 & B4 & B5 & B6 & B7 & B8). rewrite B1. cbn [obind]. rewrite B2. cbn [obind].
    exists (avl s0 i), s2, bk2, k. split; [reflexivity|]. do 3 (split; [auto|]). split; [intros j C; apply M2 in C; congruence|]. split.
    + intros x j Nx. rewrite <- (B7 x j Nx). symmetry. apply M2.
    + apply (tidy_r s bk s0 bk0 s2 bk2); auto. split; [auto|]. split; [exact M6|]. intros U P g. destruct (M7 U) as (g0 & _ & -> & G0). intros Ig. apply in_app_or in Ig as [Ig|[<-|[]]]; [|eauto]. rewrite U by auto. auto.
Qed.

(** Cal_MemFreeBlock *)
Lemma free_spec s bk b k : Inv s bk -> bk b = Some (k, true) ->
  exists s' bk', FreeBlock s (b + HEADER) = Ok s' /\ Inv s' bk' /\ (forall a j, bk' a = Some (j, true) <-> bk a = Some (j, true) /\ a <> b) /\ segeq s s' /\ (GM s bk -> GM s' bk').
Proof.
  intros HI0 E. unfold FreeBlock, HEADER. destruct (N.eqb_spec (b + 40) 0); [lia|]. replace (b + 40 - 40) with b by lia. pose proof (Inv_max _ _ _ _ _ HI0 E) as L.
  pose proof HI0 as [HS HT HH]. pose proof (bk_pos s HS bk 0 HH b _ _ E) as Pb. destruct (hi_hd _ _ _ HH _ _ _ E) as (_ & h & H1 & H2 & H3 & _). unfold oget. rewrite H1. cbn [obind]. rewrite (H3 ltac:(lia)), H2.
  unfold MAXIDX. destruct (N.ltb_spec 62 k); [lia|]. cbn [negb]. destruct (merge_loop 64 s bk b k HI0 E) as (s' & bk' & A1 & A2 & A3 & A4 & A5); [change (N.of_nat 64) with 64; lia|].
  exists s', bk'. auto.
Qed.

(** Cal_MemResizeBlock *)
Lemma resize_spec r s bk b k n : Inv s bk -> bk b = Some (k, true) -> 0 < n ->
  ResizeBlock r s (b + HEADER) n = Fatal /\ (MAXSEG - HEADER < n \/ r = true \/ TOP < brk s + 4 * n + 2 ^ 17) \/
  exists c s' bk' k', ResizeBlock r s (b + HEADER) n = Ok (c + HEADER, s') /\ Inv s' bk' /\ bk' c = Some (k', true) /\ n + HEADER <= 2 ^ k' /\
    (c = b \/ forall j, bk c <> Some (j, true)) /\ (forall a j, a <> c -> (bk' a = Some (j, true) <-> bk a = Some (j, true) /\ a <> b)) /\ tidy s bk s' bk'.
Proof.
  intros HI0 E Pn. unfold ResizeBlock. assert (Nz : b + HEADER =? 0 = false) by (apply N.eqb_neq; unfold HEADER; lia). rewrite Nz. replace (b + HEADER - HEADER) with b by lia.
  pose proof (Inv_max _ _ _ _ _ HI0 E) as L. pose proof HI0 as [HS HT HH]. pose proof (bk_pos s HS bk 0 HH b _ _ E) as Pb. destruct (hi_hd _ _ _ HH _ _ _ E) as (_ & h & H1 & H2 & H3 & _).
  unfold oget. rewrite H1. cbn [obind]. rewrite (H3 ltac:(lia)), H2. unfold MAXIDX. destruct (N.ltb_spec 62 k); [lia|]. cbn [negb].
  destruct (index_spec n Pn) as [[-> C]|(k1 & -> & Lk & L1 & L2)]; [left; split; [reflexivity|auto]|]. cbn [obind].
  destruct (N.leb_spec k1 k) as [C|C].
  - right. destruct (trim_spec 64 s bk b k k1 HI0 E ltac:(lia)) as (s' & bk' & A1 & A2 & A3 & A4 & A5 & A6); [change (N.of_nat 64) with 64; lia|]. rewrite A1. cbn [obind].
    exists b, s', bk', k1. split; [reflexivity|]. do 3 (split; [auto|]). split; [now left|]. split; [intros a j Na; rewrite <- (A5 a j Na); tauto|]. exact (tidy_eq _ _ _ _ A2 A6).
  - destruct (grow_spec 64 s bk b k k1 HI0 E C) as (d & s1 & bk1 & K' & A1 & A2 & A3 & A4 & A5 & A6 & A7 & A8); [change (N.of_nat 64) with 64; lia|]. rewrite A1. cbn [obind]. destruct d.
    + right. exists b, s1, bk1, K'. split; [reflexivity|]. do 2 (split; [auto|]). rewrite (A5 eq_refl). split; [auto|]. split; [now left|]. split; [intros a j Na; rewrite <- (A7 a j Na); tauto|]. exact (tidy_eq _ _ _ _ A2 A8).
    + assert (Bk : brk s1 = brk s) by apply A2. destruct (get_spec r s1 bk1 n A3 Pn) as [[-> F]|(c & s2 & bk2 & k2 & -> & B1 & B2 & B3 & B4 & B5 & B6)]; [left; split; [reflexivity|]; rewrite <- Bk; exact F|].
      right. cbn [obind]. assert (Nc : c <> b) by congruence. assert (Eb : bk2 b = Some (K', true)) by (apply (B5 b K'); auto).
      destruct (merge_loop 64 s2 bk2 b K' B1 Eb) as (s3 & bk3 & D1 & D2 & D3 & D4 & D5). { pose proof (Inv_max _ _ _ _ _ B1 Eb). change (N.of_nat 64) with 64. lia. }
      rewrite D1. cbn [obind]. exists c, s3, bk3, k2. split; [reflexivity|]. split; [auto|]. split; [apply D4; auto|]. split; [auto|]. split.
      * right. intros j Q. apply (B4 j). apply (A7 c j Nc). exact Q.
      * split.
        -- intros a j Na. rewrite D4. split; intros [Q1 Q2]; split; auto.
           ++ apply (A7 a j Q2). apply (B5 a j Na). exact Q1.
           ++ apply (B5 a j Na). apply (A7 a j Q2). exact Q1.
        -- apply (tidy_l s bk s1 bk1 s3 bk3 A2 A8). exact (tidy_r _ _ _ _ _ _ B6 D2 D5).
Qed.
Lemma drop_spec r s bk b k : Inv s bk -> bk b = Some (k, true) ->
  exists s' bk', ResizeBlock r s (b + HEADER) 0 = Ok (0, s') /\ Inv s' bk' /\ (forall a j, bk' a = Some (j, true) <-> bk a = Some (j, true) /\ a <> b) /\ segeq s s' /\ (GM s bk -> GM s' bk').
Proof.
  intros HI0 E. unfold ResizeBlock. assert (Nz : b + HEADER =? 0 = false) by (apply N.eqb_neq; unfold HEADER; lia). rewrite Nz. replace (b + HEADER - HEADER) with b by lia.
  pose proof (Inv_max _ _ _ _ _ HI0 E) as L. pose proof HI0 as [HS HT HH]. pose proof (bk_pos s HS bk 0 HH b _ _ E) as Pb. destruct (hi_hd _ _ _ HH _ _ _ E) as (_ & h & H1 & H2 & H3 & _).
  unfold oget. rewrite H1. cbn [obind]. rewrite (H3 ltac:(lia)), H2. unfold MAXIDX. destruct (N.ltb_spec 62 k); [lia|]. cbn [negb]. change (BlockSizeIndex 0) with (Ok (@None N)). cbn [obind].
  destruct (free_spec s bk b k HI0 E) as (s' & bk' & A1 & A2). rewrite A1. cbn [obind]. exists s', bk'. auto.
Qed.
