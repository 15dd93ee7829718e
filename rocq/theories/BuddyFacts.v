(** * The block allocator: worlds and the facts stated in PropsBuddy. *)
From Verif Require Import Base BFModel ApiModel BuddyModel SpecBuddy BuddyArith BuddyProof BuddyOps.
Open Scope N_scope.

Record WInv (w : bworld) (bk : blocks) : Prop := {
  w_inv : Inv (bs w) bk;
  w_nd : NoDup (map fst (held w));
  w_in : forall p n, In (p, n) (held w) -> exists b k, p = b + HEADER /\ bk b = Some (k, true) /\ n + HEADER <= 2 ^ k;
  w_out : forall b k, bk b = Some (k, true) -> In (b + HEADER) (map fst (held w)) }.

Lemma init_WInv b : 0 < b <= TOP -> WInv (BW (bst0 b) []) (fun _ => None).
Proof.
  intros L. constructor; cbn [bs held].
  - constructor.
    + constructor; cbn; try (intros; contradiction); auto.
    + constructor; [discriminate|]. cbn. intros; contradiction.
    + constructor; try discriminate. intros k C. cbn in C. congruence.
  - constructor.
  - intros p n [].
  - discriminate.
Qed.

Lemma nd_mid {A} (l1 l2 : list (N * A)) p n : NoDup (map fst (l1 ++ (p, n) :: l2)) -> NoDup (map fst (l1 ++ l2)) /\ ~ In p (map fst (l1 ++ l2)).
Proof. rewrite !map_app. cbn [map fst]. intros H. apply NoDup_remove in H. exact H. Qed.
Lemma mid_in {A} (l1 l2 : list A) (x y : A) : In y (l1 ++ l2) -> In y (l1 ++ x :: l2).
Proof. intros H. apply in_app_or in H as [H|H]; apply in_or_app; [now left|right; now right]. Qed.
Lemma fst_mid (l1 l2 : list (N * N)) p n q : In q (map fst (l1 ++ (p, n) :: l2)) -> q = p \/ In q (map fst (l1 ++ l2)).
Proof. rewrite !map_app. cbn [map fst]. intros H. apply in_app_or in H as [H|[H|H]]; [right|now left|right]; apply in_or_app; auto. Qed.
Lemma fst_mid' (l1 l2 : list (N * N)) p n q : In q (map fst (l1 ++ l2)) -> In q (map fst (l1 ++ (p, n) :: l2)).
Proof. rewrite !map_app. cbn [map fst]. intros H. apply in_app_or in H as [H|H]; apply in_or_app; [now left|right; now right]. Qed.

(** The block [b] goes. *)
Lemma drop_WInv s l1 l2 b n bk s' bk' : WInv (BW s (l1 ++ (b + HEADER, n) :: l2)) bk -> Inv s' bk' ->
  (forall a j, bk' a = Some (j, true) <-> bk a = Some (j, true) /\ a <> b) -> WInv (BW s' (l1 ++ l2)) bk'.
Proof.
  intros [W1 W2 W3 W4] I1 U. cbn [bs held] in *. destruct (nd_mid _ _ _ _ W2) as [D1 D2]. constructor; cbn [bs held]; auto.
  - intros p m Ip. destruct (W3 p m) as (c & k & -> & E & L). { apply mid_in, Ip. } exists c, k. split; auto. split; auto. apply U. split; auto. intros ->. apply D2. apply (in_map fst) in Ip. exact Ip.
  - intros c k E. apply U in E as [E Nc]. apply W4 in E. apply fst_mid in E as [E|E]; auto. unfold HEADER in E. lia.
Qed.
Lemma hole (l1 l2 : list (N * N)) : forall p n, In (p, n) (l1 ++ (p, n) :: l2).
Proof. intros. apply in_or_app. right. now left. Qed.

Lemma scribble_Inv s bk b k s' : Inv s bk -> bk b = Some (k, true) -> scribble s (b + HEADER) (2 ^ k - HEADER) s' -> Inv s' bk /\ segeq (B (hd s) (sg s') (cur s) (avl s) (brk s) (ranges s) (segl s)) s' /\ unchanged s s'.
Proof.
  intros [HS HT HH] E (H1 & H2 & H3 & H4 & H5 & H6 & H7). pose proof (bk_pos s HS bk 0 HH b _ _ E) as Pb. unfold HEADER, SEGREC in *.
  destruct (hi_hd _ _ _ HH _ _ _ E) as (L6 & h & E1 & E2 & _ & P). assert (L64 : 2 ^ 6 <= 2 ^ k) by (apply pow_mono, L6). change (2 ^ 6) with 64 in L64.
  assert (Hd : forall a j u, bk a = Some (j, u) -> hd s' a = hd s a).
  { intros a j u Ea. apply H1. destruct (N.eq_dec a b) as [->|Na]; [left; lia|]. destruct (hi_hd _ _ _ HH _ _ _ Ea) as (L6' & _). assert (L64' : 2 ^ 6 <= 2 ^ j) by (apply pow_mono, L6'). change (2 ^ 6) with 64 in L64'.
    destruct (ti_dis _ _ HT _ _ _ _ _ _ Ea E Na); [left|right]; lia. }
  assert (Sg : unchanged s s').
  { intros g Ig. apply H2. destruct P as (I1 & c & l & off & G & Eo & _ & Lo). destruct (si_seg s HS _ I1) as (m & G' & _). assert (c = hseg h + 16) by congruence. assert (m = l) by congruence. subst c m.
    destruct (N.eq_dec g (hseg h)) as [->|Ng]; [left; lia|]. destruct (si_seg s HS _ Ig) as (m & G2 & _). destruct (si_dis s HS _ _ _ _ _ _ Ig I1 G2 G Ng); [left|right]; lia. }
  assert (S0 : sg s' 0 = sg s 0) by (apply H2; left; lia).
  assert (Pl : forall g a j, placed s g a j -> placed s' g a j). { intros g a j (I1 & c & l & off & G & Q). split; [rewrite H7; auto|]. exists c, l, off. rewrite Sg; auto. }
  split; [|split; [repeat split; auto|exact Sg]]. constructor.
  - destruct HS as [Z1 Z2 Z3 Z4 Z5]. constructor; rewrite ?H3, ?H5, ?H7.
    + intros g Ig. rewrite (Sg g Ig). auto.
    + intros g c l g' c' l' I1 I2. rewrite (Sg g I1), (Sg g' I2). apply Z2; auto.
    + rewrite S0. exact Z3.
    + exact Z4.
    + intros g l a Ig. rewrite (Sg g Ig). intros G La. destruct (Z5 g l a Ig G La) as (r & Ir & Lr). exists r. rewrite H6. auto.
  - destruct HT as [Z1 Z2]. constructor; auto. intros g c l off. rewrite H7. intros Ig. rewrite (Sg g Ig). apply Z2; auto.
  - assert (Nx : forall a j u, bk a = Some (j, u) -> nx s' a = nx s a) by (intros a j u Ea; unfold nx; rewrite (Hd _ _ _ Ea); reflexivity).
    assert (Pv : forall a j u, bk a = Some (j, u) -> pv s' a = pv s a) by (intros a j u Ea; unfold pv; rewrite (Hd _ _ _ Ea); reflexivity).
    destruct HH as [Z1 Z2 Z3 Z4]. constructor.
    + intros a j u Ea. destruct (Z1 a j u Ea) as (L & ha & Q1 & Q2 & Q3 & Q4). split; auto. exists ha. rewrite (Hd _ _ _ Ea). auto.
    + intros a j Ea. destruct (Z2 a j Ea) as [Q1 Q2]. rewrite (Nx _ _ _ Ea), (Pv _ _ _ Q1). auto.
    + intros a j Ea. destruct (Z3 a j Ea) as [Q1 Q2]. rewrite (Pv _ _ _ Ea), (Nx _ _ _ Q1). auto.
    + intros j. rewrite H4. apply Z4.
Qed.

Lemma break_Inv s bk b : Inv s bk -> brk s <= b <= TOP -> Inv (B (hd s) (sg s) (cur s) (avl s) b (ranges s) (segl s)) bk.
Proof.
  intros [[Z1 Z2 Z3 Z4 Z5] HT HH] L. constructor.
  - constructor; cbn [segl sg cur brk]; auto; [|lia]. intros g Ig. destruct (Z1 g Ig) as (l & A1 & A2 & A3 & A4 & A5 & A6). exists l. do 5 (split; [auto|]). lia.
  - destruct HT. constructor; auto.
  - destruct HH. constructor; auto.
Qed.

Lemma step_WInv w w' bk : bstep w w' -> WInv w bk -> exists bk', WInv w' bk' /\ tidy (bs w) bk (bs w') bk'.
Proof.
  intros St W. destruct St as [r s l n p s' Pn E|s l1 l2 p n s' E|r s l1 l2 p n m q s' Pm E|r s l1 l2 p n q s' E|s l b L|s l p n k s' Ip X Sc]; cbn [bs held] in *; pose proof W as [W1 W2 W3 W4]; cbn [bs held] in *.
  - destruct (get_spec r s bk n W1 Pn) as [[E' _]|(b & s0 & bk0 & k & E' & A1 & A2 & A3 & A4 & A5 & A6)]; rewrite E' in E; [discriminate|]. injection E as <- <-. exists bk0. split; [|auto]. constructor; cbn [bs held]; auto.
    + cbn [map fst]. constructor; auto. intros C. apply in_map_iff in C as ([p m] & Q & C). cbn [fst] in Q. subst p. destruct (W3 _ _ C) as (c & j & Q & E & _). assert (c = b) by (unfold HEADER in Q; lia). subst c. exact (A4 j E).
    + intros p m [[= <- <-]|Ip]; [exists b, k; auto|]. destruct (W3 p m Ip) as (c & j & -> & E & L). exists c, j. split; auto. split; auto. apply (A5 c j); auto. intros ->. exact (A4 j E).
    + intros c j E. cbn [map fst]. destruct (N.eq_dec c b) as [->|Nc]; [now left|]. right. apply (W4 c j). apply (A5 c j Nc). exact E.
  - destruct (W3 p n (hole _ _ _ _)) as (b & k & -> & Eb & Ln). destruct (free_spec s bk b k W1 Eb) as (s0 & bk0 & E' & A1 & A2 & A3 & A4). rewrite E' in E. injection E as <-.
    exists bk0. split; [exact (drop_WInv _ _ _ _ _ _ _ _ W A1 A2)|exact (tidy_eq _ _ _ _ A3 A4)].
  - destruct (W3 p n (hole _ _ _ _)) as (b & k & -> & Eb & Ln). destruct (resize_spec r s bk b k m W1 Eb Pm) as [[E' _]|(c & s0 & bk0 & k' & E' & A1 & A2 & A3 & A4 & A5 & A6)]; rewrite E' in E; [discriminate|]. injection E as <- <-.
    exists bk0. split; [|auto]. destruct (nd_mid _ _ _ _ W2) as [D1 D2].
    assert (Nc : ~ In (c + HEADER) (map fst (l1 ++ l2))).
    { destruct A4 as [->|A4]; auto. intros C. apply in_map_iff in C as ([p x] & Q & C). cbn [fst] in Q. subst p. destruct (W3 _ _ (mid_in _ _ (b + HEADER, n) _ C)) as (d & j & Q & E & _). assert (d = c) by (unfold HEADER in Q; lia). subst d. exact (A4 j E). }
    constructor; cbn [bs held]; auto.
    + rewrite map_app. cbn [map fst]. rewrite map_app in D1, Nc. apply NoDup_Add with (a := c + HEADER) (l := map fst l1 ++ map fst l2); [apply Add_app|]. auto.
    + intros p x Ip. apply in_app_or in Ip as [Ip|[[= <- <-]|Ip]].
      * assert (Jp : In (p, x) (l1 ++ l2)) by (apply in_or_app; now left). destruct (W3 p x (mid_in _ _ _ _ Jp)) as (d & j & -> & E & L). exists d, j. split; auto. split; auto. apply (A5 d j); [intros ->; apply Nc; apply (in_map fst) in Jp; exact Jp|]. split; auto. intros ->. apply D2. apply (in_map fst) in Jp. exact Jp.
      * exists c, k'. auto.
      * assert (Jp : In (p, x) (l1 ++ l2)) by (apply in_or_app; now right). destruct (W3 p x (mid_in _ _ _ _ Jp)) as (d & j & -> & E & L). exists d, j. split; auto. split; auto. apply (A5 d j); [intros ->; apply Nc; apply (in_map fst) in Jp; exact Jp|]. split; auto. intros ->. apply D2. apply (in_map fst) in Jp. exact Jp.
    + intros d j E. destruct (N.eq_dec d c) as [->|Nd]; [apply (in_map fst (l1 ++ (c + HEADER, m) :: l2) (c + HEADER, m)), hole|]. apply (A5 d j Nd) in E as [E Nb]. apply W4 in E. apply fst_mid in E as [E|E]; [unfold HEADER in E; lia|]. apply fst_mid'. exact E.
  - destruct (W3 p n (hole _ _ _ _)) as (b & k & -> & Eb & Ln). destruct (drop_spec r s bk b k W1 Eb) as (s0 & bk0 & E' & A1 & A2 & A3 & A4). rewrite E' in E. injection E as <- <-.
    exists bk0. split; [exact (drop_WInv _ _ _ _ _ _ _ _ W A1 A2)|exact (tidy_eq _ _ _ _ A3 A4)].
  - exists bk. split; [constructor; cbn [bs held]; auto; exact (break_Inv s bk b W1 L)|]. split; [auto|]. split; auto.
  - destruct (W3 p n Ip) as (b & j & -> & Eb & Ln). destruct X as (h & X1 & X2). replace (b + HEADER - HEADER) with b in X1 by lia. destruct (hi_hd _ _ _ (iv_h _ _ W1) _ _ _ Eb) as (_ & h' & Y1 & Y2 & _). assert (h' = h) by congruence. subst h' j k.
    destruct (scribble_Inv s bk b _ s' W1 Eb Sc) as (A1 & A2 & A3). destruct Sc as (_ & _ & _ & _ & _ & _ & S7). exists bk. split; [constructor; cbn [bs held]; auto|]. split; [intros g; rewrite S7; auto|]. split.
    + intros _ G g c lx off i. rewrite S7. intros Ig. rewrite (A3 g Ig). apply G; auto.
    + intros _ G g. rewrite S7. intros Ig. rewrite (A3 g Ig). auto.
Qed.

Lemma breach_inv w : breach w -> exists bk, WInv w bk.
Proof. induction 1 as [b L|w w' R [bk IH] St]; [eexists; apply init_WInv, L|]. destruct (step_WInv w w' bk St IH) as (bk' & W & _). eauto. Qed.
Lemma bfresh_inv w : bfresh w -> exists bk, WInv w bk /\ GM (bs w) bk /\ pow2 (bs w).
Proof.
  induction 1 as [b L|w w' R (bk & IH & G & P) St U].
  - eexists. split; [apply init_WInv, L|]. split; [intros g c l off k []|intros g []].
  - destruct (step_WInv w w' bk St IH) as (bk' & W & (_ & T2 & T3)). exists bk'. split; auto.
Qed.
Lemma bfresh_breach w : bfresh w -> breach w.
Proof. induction 1; [constructor; auto|econstructor; eauto]. Qed.

Lemma W_blocks w l1 l2 p n : breach w -> held w = l1 ++ (p, n) :: l2 ->
  p <> 0 /\ (8 | p) /\ (forall a, p <= a < p + n -> obtained (bs w) a) /\ forall y, In y (l1 ++ l2) -> apart (p, n) y.
Proof.
  intros R E. destruct (breach_inv w R) as (bk & [W1 W2 W3 W4]). rewrite E in *. destruct (W3 p n (hole _ _ _ _)) as (b & k & -> & Eb & Ln). destruct (nd_mid _ _ _ _ W2) as [_ D2].
  pose proof W1 as [HS HT HH]. destruct (hi_hd _ _ _ HH _ _ _ Eb) as (L6 & h & _ & _ & _ & P). destruct (placed_base _ HS _ _ _ P) as (l & off & G & Eo & D & Lo). destruct P as (Ig & _). unfold HEADER in *.
  split; [lia|]. split.
  - destruct (si_seg _ HS _ Ig) as (_ & _ & _ & D8 & _). subst b. apply N.divide_add_r; [|exists 5; reflexivity]. apply N.divide_add_r; [apply N.divide_add_r; [exact D8|exists 2; reflexivity]|].
    eapply N.divide_trans; [|exact D]. change 8 with (2 ^ 3). apply pow_div. lia.
  - split; [intros a La; apply (si_rng _ HS _ _ _ Ig G); lia|]. intros [q m] Iq. destruct (W3 q m (mid_in _ _ _ _ Iq)) as (c & j & -> & Ec & Lm). unfold apart. cbn [fst snd].
    assert (Nc : b <> c). { intros ->. apply D2. apply (in_map fst) in Iq. exact Iq. } destruct (ti_dis _ _ HT _ _ _ _ _ _ Eb Ec Nc); lia.
Qed.

(** Calls with valid arguments return, or end the program for want of memory. *)
Definition no_memory (r : bool) (s : bst) (n : N) : Prop := 2 ^ 62 - 40 < n \/ r = true \/ TOP < brk s + 4 * n + 2 ^ 17.
Lemma W_get w r n : breach w -> 0 < n -> GetBlock r (bs w) n = Fatal /\ no_memory r (bs w) n \/ exists p s', GetBlock r (bs w) n = Ok (p, s') /\ p <> 0.
Proof.
  intros R P. destruct (breach_inv w R) as (bk & W). destruct (get_spec r (bs w) bk n (w_inv _ _ W) P) as [E|(b & s' & _ & k & E & _)]; [left; exact E|]. right. exists (b + HEADER), s'. split; auto. unfold HEADER. lia.
Qed.
Lemma W_free w p n : breach w -> In (p, n) (held w) -> exists s', FreeBlock (bs w) p = Ok s'.
Proof.
  intros R Ip. destruct (breach_inv w R) as (bk & W). destruct (w_in _ _ W p n Ip) as (b & k & -> & E & _). destruct (free_spec (bs w) bk b k (w_inv _ _ W) E) as (s' & _ & A & _). eauto.
Qed.
Lemma W_resize w r p n m : breach w -> In (p, n) (held w) -> ResizeBlock r (bs w) p m = Fatal /\ no_memory r (bs w) m \/ exists q s', ResizeBlock r (bs w) p m = Ok (q, s') /\ (q = 0 <-> m = 0).
Proof.
  intros R Ip. destruct (breach_inv w R) as (bk & W). destruct (w_in _ _ W p n Ip) as (b & k & -> & E & _). destruct (N.eq_dec m 0) as [->|Nm].
  - right. destruct (drop_spec r (bs w) bk b k (w_inv _ _ W) E) as (s' & _ & A & _). exists 0, s'. split; auto. tauto.
  - destruct (resize_spec r (bs w) bk b k m (w_inv _ _ W) E ltac:(lia)) as [A|(c & s' & _ & k' & A & _)]; [left; exact A|]. right. exists (c + HEADER), s'. split; auto. unfold HEADER. lia.
Qed.

(** Coalescing *)
Lemma W_coalesce w g : bfresh w -> held w = [] -> In g (segl (bs w)) -> one_free_block (bs w) g.
Proof.
  intros R Hh Ig. destruct (bfresh_inv w R) as (bk & [W1 W2 W3 W4] & G & P). rewrite Hh in *. pose proof W1 as [HS HT HH]. destruct (P g Ig) as (a & Eg). pose proof (pow_pos a) as Pa.
  assert (Free : forall b k u, bk b = Some (k, u) -> u = false). { intros b k [|] E; auto. destruct (W4 b k E). }
  assert (None_small : forall k, k < a -> forall off u, bk (g + 16 + off) = Some (k, u) -> off < 2 ^ a -> False).
  { intros k. induction k as [k IH] using (well_founded_induction N.lt_wf_0). intros Lk off u E Lo. pose proof (Free _ _ _ E) as ->.
    destruct (buddy_spec (bs w) HS bk 0 HT HH _ _ _ E) as (bb & B & _). pose proof (pow_pos k) as Pk.
    destruct (hi_hd _ _ _ HH _ _ _ E) as (_ & h & _ & _ & _ & Pl). destruct Pl as (I1 & c & l & o & G1 & Eo & Do & Lo1).
    assert (hseg h = g) as Q by (apply (same_seg _ HS _ _ c l (g + 16) (2 ^ a) (g + 16 + off) I1 Ig G1 Eg); lia). rewrite Q in *. assert (c = g + 16) by congruence. assert (l = 2 ^ a) by congruence. subst c l. assert (o = off) by lia. subst o.
    (* the other half *)
    assert (W : exists lo, (2 * 2 ^ k | lo) /\ lo + 2 * 2 ^ k <= 2 ^ a /\ exists oo, (2 ^ k | oo) /\ (off = lo /\ oo = lo + 2 ^ k \/ oo = lo /\ off = lo + 2 ^ k)).
    { assert (Dw : forall lo, (2 * 2 ^ k | lo) -> lo < 2 ^ a -> lo + 2 * 2 ^ k <= 2 ^ a).
      { intros lo D L. rewrite <- pow_S in *. destruct (nested a (k + 1) 0 lo lo); [lia|exists 0; reflexivity|exact D|lia| |lia]. pose proof (pow_pos (k + 1)). lia. }
      assert (Dk : forall lo, (2 * 2 ^ k | lo) -> (2 ^ k | lo)) by (intros lo D; eapply N.divide_trans; [|exact D]; exists 2; lia).
      destruct (lxor_pow off k Do) as [[D1 D2]|[D1 D2]].
      - exists off. split; auto. split; [apply Dw; auto|]. exists (off + 2 ^ k). split; [apply N.divide_add_r; auto; exists 1; lia|]. now left.
      - exists (N.lxor off (2 ^ k)). split; auto. split; [apply Dw; auto; lia|]. exists (N.lxor off (2 ^ k)). split; [auto|]. right. auto. }
    destruct W as (lo & D1 & D2 & oo & D3 & W). destruct (ti_cov _ _ HT g (g + 16) (2 ^ a) oo Ig Eg ltac:(lia)) as (x & j & v & Ex & Lx).
    destruct (hi_hd _ _ _ HH _ _ _ Ex) as (_ & hx & _ & _ & _ & Px). destruct Px as (I2 & c & l & o & G2 & Eo2 & Do2 & Lo2).
    assert (hseg hx = g) as Qx by (apply (same_seg _ HS _ _ c l (g + 16) (2 ^ a) (g + 16 + oo) I2 Ig G2 Eg); lia). rewrite Qx in *. assert (c = g + 16) by congruence. assert (l = 2 ^ a) by congruence. subst c l.
    assert (Lj : j <= k).
    { apply N.nlt_ge. intros C. assert (C' : k + 1 <= j) by lia. rewrite <- pow_S in D1. destruct (nested j (k + 1) o lo oo C' Do2 D1) as [N1 N2]; [lia|rewrite pow_S; lia|].
      rewrite pow_S in N2. assert (Nx : x <> g + 16 + off) by (intros Qq; rewrite Qq in Ex; assert (j = k) by congruence; lia). destruct (ti_dis _ _ HT _ _ _ _ _ _ Ex E Nx); lia. }
    assert (o = oo) by (apply (same_start j k o oo Lj Do2 D3); lia). subst o. subst x. pose proof (Free _ _ _ Ex) as ->.
    destruct (N.eq_dec j k) as [->|Nj]; [|exact (IH j ltac:(lia) ltac:(lia) oo false Ex ltac:(lia))].
    destruct W as [[-> ->]|[-> ->]]; [apply (G g (g + 16) (2 ^ a) lo k Ig Eg D1 D2 E); rewrite <- N.add_assoc; exact Ex|apply (G g (g + 16) (2 ^ a) lo k Ig Eg D1 D2 Ex); rewrite <- N.add_assoc; exact E]. }
  destruct (ti_cov _ _ HT g (g + 16) (2 ^ a) 0 Ig Eg Pa) as (x & j & v & Ex & Lx). destruct (hi_hd _ _ _ HH _ _ _ Ex) as (_ & hx & F1 & F2 & F3 & Px). pose proof (bk_pos _ HS bk 0 HH _ _ _ Ex) as Px0. destruct Px as (I2 & c & l & o & G2 & Eo2 & Do2 & Lo2).
  assert (hseg hx = g) as Qx by (apply (same_seg _ HS _ _ c l (g + 16) (2 ^ a) (g + 16 + 0) I2 Ig G2 Eg); lia). rewrite Qx in *. assert (c = g + 16) by congruence. assert (l = 2 ^ a) by congruence. subst c l.
  assert (o = 0) by lia. subst o. assert (Ja : j = a). { destruct (N.lt_trichotomy j a) as [C|[C|C]]; auto; exfalso; [exact (None_small j C 0 v ltac:(rewrite <- Eo2; exact Ex) Pa)|]. assert (C' : a + 1 <= j) by lia. apply pow_mono in C'. rewrite pow_S in C'. lia. }
  rewrite Ja in *. exists (g + 16), (2 ^ a), hx. split; auto. rewrite N.add_0_r in Eo2. rewrite <- Eo2. split; auto. split; [rewrite F3 by lia; exact (Free _ _ _ Ex)|]. rewrite F2. reflexivity.
Qed.

(** ** Examples *)
Inductive bcmd := BGet (n : N) | BFree (i : nat) | BResize (i : nat) (n : N) | BBreak (n : N).
Definition bexec1 (w : bworld) (c : bcmd) : option bworld :=
  match c with
  | BGet n => if n =? 0 then None else match GetBlock false (bs w) n with Ok (p, s') => Some (BW s' ((p, n) :: held w)) | _ => None end
  | BFree i => match nth_error (held w) i with
               | Some (p, _) => match FreeBlock (bs w) p with Ok s' => Some (BW s' (firstn i (held w) ++ skipn (S i) (held w))) | _ => None end
               | None => None end
  | BResize i n => match nth_error (held w) i with
               | Some (p, _) => if n =? 0 then None else match ResizeBlock false (bs w) p n with Ok (q, s') => Some (BW s' (firstn i (held w) ++ (q, n) :: skipn (S i) (held w))) | _ => None end
               | None => None end
  | BBreak n => if brk (bs w) + n <=? TOP then Some (BW (B (hd (bs w)) (sg (bs w)) (cur (bs w)) (avl (bs w)) (brk (bs w) + n) (ranges (bs w)) (segl (bs w))) (held w)) else None
  end.
Lemma nth_split' {A} (l : list A) i x : nth_error l i = Some x -> l = firstn i l ++ x :: skipn (S i) l.
Proof. revert i. induction l as [|y l IH]; intros [|i] E; try discriminate; [injection E as <-; reflexivity|]. change (firstn (S i) (y :: l)) with (y :: firstn i l). change (skipn (S (S i)) (y :: l)) with (skipn (S i) l). cbn [app]. f_equal. apply IH, E. Qed.
Lemma bexec1_step w c w' : bexec1 w c = Some w' -> bstep w w'.
Proof.
  destruct w as [s l]. destruct c as [n|i|i n|n]; cbn [bexec1 bs held].
  - destruct (N.eqb_spec n 0); [discriminate|]. destruct (GetBlock false s n) as [[p s']| |] eqn:E; try discriminate. intros [= <-]. apply (bs_get false); auto. lia.
  - destruct (nth_error l i) as [[p n]|] eqn:En; [|discriminate]. destruct (FreeBlock s p) as [s'| |] eqn:E; try discriminate. intros [= <-]. rewrite (nth_split' _ _ _ En) at 1. apply bs_free. exact E.
  - destruct (nth_error l i) as [[p n0]|] eqn:En; [|discriminate]. destruct (N.eqb_spec n 0); [discriminate|]. destruct (ResizeBlock false s p n) as [[q s']| |] eqn:E; try discriminate. intros [= <-]. rewrite (nth_split' _ _ _ En) at 1. apply (bs_resize false); auto. lia.
  - destruct (N.leb_spec (brk s + n) TOP); [|discriminate]. intros [= <-]. apply bs_break. lia.
Qed.
Fixpoint bexec (w : bworld) (cs : list bcmd) : option bworld :=
  match cs with [] => Some w | c :: cs => match bexec1 w c with Some w => bexec w cs | None => None end end.
Lemma bexec_reach cs : forall w w', breach w -> bexec w cs = Some w' -> breach w'.
Proof. induction cs as [|c cs IH]; intros w w' R E; cbn [bexec] in E; [injection E as <-; auto|]. destruct (bexec1 w c) as [w1|] eqn:E1; [|discriminate]. apply (IH w1); auto. econstructor; [exact R|]. apply (bexec1_step w c w1 E1). Qed.
Definition same_segs (s s' : bst) : bool := forallb (fun g => match sg s g, sg s' g with Some (b, l), Some (b', l') => (b =? b') && (l =? l') | _, _ => false end) (segl s).
Lemma same_segs_ok s s' : same_segs s s' = true -> unchanged s s'.
Proof.
  intros H g Ig. unfold same_segs in H. rewrite forallb_forall in H. specialize (H g Ig). cbv beta in H. destruct (sg s g) as [[b l]|]; [|discriminate]. destruct (sg s' g) as [[b' l']|]; [|discriminate].
  apply andb_true_iff in H as [H1 H2]. apply N.eqb_eq in H1, H2. congruence.
Qed.
Fixpoint bexecf (w : bworld) (cs : list bcmd) : option bworld :=
  match cs with [] => Some w | c :: cs => match bexec1 w c with Some w1 => if same_segs (bs w) (bs w1) then bexecf w1 cs else None | None => None end end.
Lemma bexecf_fresh cs : forall w w', bfresh w -> bexecf w cs = Some w' -> bfresh w'.
Proof. induction cs as [|c cs IH]; intros w w' R E; cbn [bexecf] in E; [injection E as <-; auto|]. destruct (bexec1 w c) as [w1|] eqn:E1; [|discriminate]. destruct (same_segs (bs w) (bs w1)) eqn:Es; [|discriminate]. apply (IH w1); auto. econstructor; [exact R|exact (bexec1_step w c w1 E1)|exact (same_segs_ok _ _ Es)]. Qed.
Definition start : bworld := BW (bst0 4100) [].
Lemma start_reach : breach start.
Proof. apply br_init. unfold TOP. split; [reflexivity|discriminate]. Qed.
Lemma start_fresh : bfresh start.
Proof. apply bf_init. unfold TOP. split; [reflexivity|discriminate]. Qed.
Definition orstart (o : option bworld) : bworld := match o with Some w => w | None => start end.
(** Three blocks, one of them moved by growing, one given back; somebody else moves the break, and a large block starts a second segment. *)
Definition busy : bworld := orstart (bexec start [BGet 100; BGet 5000; BGet 20; BResize 2 9000; BFree 0; BGet 300; BBreak 12345; BGet 70000]).
Definition done_with : bworld := orstart (bexecf start [BGet 100; BGet 5000; BGet 20; BResize 2 9000; BFree 0; BGet 300; BBreak 12345; BGet 70000; BFree 2; BFree 0; BFree 0; BFree 0]).
(** A block of 32 KB given back, then one of 64 KB, which makes the segment grow. *)
Definition cracked : bworld := orstart (bexec start [BGet 32000; BFree 0; BGet 65000; BFree 0]).
Lemma busy_reach : breach busy.
Proof. apply (bexec_reach [BGet 100; BGet 5000; BGet 20; BResize 2 9000; BFree 0; BGet 300; BBreak 12345; BGet 70000] start busy start_reach). vm_compute. reflexivity. Qed.
Lemma done_fresh : bfresh done_with.
Proof. apply (bexecf_fresh [BGet 100; BGet 5000; BGet 20; BResize 2 9000; BFree 0; BGet 300; BBreak 12345; BGet 70000; BFree 2; BFree 0; BFree 0; BFree 0] start done_with start_fresh). vm_compute. reflexivity. Qed.
Lemma cracked_reach : breach cracked.
Proof. apply (bexec_reach [BGet 32000; BFree 0; BGet 65000; BFree 0] start cracked start_reach). vm_compute. reflexivity. Qed.
Lemma coalesce_refuted : exists w g, breach w /\ held w = [] /\ In g (segl (bs w)) /\ split_pair (bs w) g.
Proof.
  exists cracked, 4104. split; [exact cracked_reach|]. split; [vm_compute; reflexivity|]. split; [vm_compute; left; reflexivity|].
  exists 4120, 131072, 0, 15, (H false 15 36888 36888 4104), (H false 15 4120 4120 4104).
  split; [vm_compute; reflexivity|]. split; [vm_compute; reflexivity|]. split; [vm_compute; reflexivity|]. split; [exists 0; reflexivity|]. split; [vm_compute; discriminate|].
  do 4 (split; [reflexivity|]). split; [exists 0%nat; vm_compute; reflexivity|exists 1%nat; vm_compute; reflexivity].
Qed.
