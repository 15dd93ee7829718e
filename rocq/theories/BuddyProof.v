(** * The block allocator keeps its blocks apart. *)
From Verif Require Import Base BFModel ApiModel BuddyModel SpecBuddy BuddyArith.
Open Scope N_scope.

Definition nx (s : bst) a := match hd s a with Some h => hnext h | None => 0 end.
Definition pv (s : bst) a := match hd s a with Some h => hprev h | None => 0 end.

(** Segments. *)
Record SI (s : bst) : Prop := {
  si_seg : forall g, In g (segl s) -> exists l, sg s g = Some (g + 16, l) /\ 0 < g /\ (8 | g) /\ (2 ^ 15 | l) /\ l <= MAXSEG /\ g + 16 + l <= brk s;
  si_dis : forall g b l g' b' l', In g (segl s) -> In g' (segl s) -> sg s g = Some (b, l) -> sg s g' = Some (b', l') -> g <> g' -> b + l <= g' \/ b' + l' <= g;
  si_cur : (cur s = 0 /\ sg s 0 = Some (0, 0)) \/ In (cur s) (segl s);
  si_brk : 0 < brk s <= TOP;
  si_rng : forall g l a, In g (segl s) -> sg s g = Some (g + 16, l) -> g + 16 <= a < g + 16 + l -> obtained s a }.

(** [bk]: the blocks, with their index and whether they are in use. *)
Definition blocks := N -> option (N * bool).
Record TI (s : bst) (bk : blocks) : Prop := {
  ti_dis : forall a k u a' k' u', bk a = Some (k, u) -> bk a' = Some (k', u') -> a <> a' -> a + 2 ^ k <= a' \/ a' + 2 ^ k' <= a;
  ti_cov : forall g b l off, In g (segl s) -> sg s g = Some (b, l) -> off < l -> exists a k u, bk a = Some (k, u) /\ a <= b + off < a + 2 ^ k }.

Definition placed (s : bst) (g a k : N) : Prop :=
  In g (segl s) /\ exists b l off, sg s g = Some (b, l) /\ a = b + off /\ (2 ^ k | off) /\ off + 2 ^ k <= l.
(** Headers and free lists; the flag of block [x] has not been written yet. *)
Record HI (x : N) (s : bst) (bk : blocks) : Prop := {
  hi_hd : forall a k u, bk a = Some (k, u) -> 6 <= k /\ exists h, hd s a = Some h /\ hidx h = k /\ (a <> x -> hused h = u) /\ placed s (hseg h) a k;
  hi_nx : forall a k, bk a = Some (k, false) -> bk (nx s a) = Some (k, false) /\ pv s (nx s a) = a;
  hi_pv : forall a k, bk a = Some (k, false) -> bk (pv s a) = Some (k, false) /\ nx s (pv s a) = a;
  hi_avl : forall k, avl s k <> 0 -> bk (avl s k) = Some (k, false) }.

Definition segeq (s s' : bst) : Prop := sg s' = sg s /\ cur s' = cur s /\ brk s' = brk s /\ ranges s' = ranges s /\ segl s' = segl s.
Lemma segeq_refl s : segeq s s.
Proof. repeat split. Qed.
Lemma segeq_trans s t u : segeq s t -> segeq t u -> segeq s u.
Proof. intros (A1 & A2 & A3 & A4 & A5) (B1 & B2 & B3 & B4 & B5). repeat split; congruence. Qed.
Lemma SI_eq s s' : segeq s s' -> SI s -> SI s'.
Proof.
  intros (A1 & A2 & A3 & A4 & A5) H. destruct H as [P1 P2 P3 P4 P5]. constructor; rewrite ?A1, ?A2, ?A3, ?A5; auto.
  intros g l a I1 I2 I3. destruct (P5 g l a I1 I2 I3) as (r & Ir & L). exists r. rewrite A4. auto.
Qed.
Lemma placed_eq s s' g a k : segeq s s' -> placed s g a k -> placed s' g a k.
Proof. intros (A1 & A2 & A3 & A4 & A5) (I1 & H). split; [rewrite A5; auto|]. rewrite A1. auto. Qed.
Lemma TI_eq s s' bk : segeq s s' -> TI s bk -> TI s' bk.
Proof. intros (A1 & A2 & A3 & A4 & A5) [P1 P2]. constructor; auto. rewrite A1, A5. auto. Qed.
Lemma upd_eq {A} (f : N -> A) a v b : upd f a v b = if b =? a then v else f b.
Proof. unfold upd. rewrite N.eqb_sym. reflexivity. Qed.
(** Only the flag of a block changes. *)
Lemma TI_used s bk b k u u' : bk b = Some (k, u) -> TI s bk -> TI s (upd bk b (Some (k, u'))).
Proof.
  intros E [P1 P2]. assert (R : forall a j v, upd bk b (Some (k, u')) a = Some (j, v) -> exists w, bk a = Some (j, w)).
  { intros a j v. rewrite upd_eq. destruct (N.eqb_spec a b) as [->|]; [intros Q; assert (j = k) by congruence; subst; eauto|eauto]. }
  constructor.
  - intros a j v a' j' v' H1 H2. apply R in H1 as [w H1]. apply R in H2 as [w' H2]. exact (P1 _ _ _ _ _ _ H1 H2).
  - intros g c l off I1 I2 I3. destruct (P2 g c l off I1 I2 I3) as (a & j & v & H1 & H2). exists a, j. destruct (N.eqb_spec a b) as [Q|Q].
    + exists u'. rewrite upd_eq. destruct (N.eqb_spec a b); [|congruence]. assert (j = k) by congruence. subst. auto.
    + exists v. rewrite upd_eq. destruct (N.eqb_spec a b); [congruence|]. auto.
Qed.
Lemma nx_hd s h a : nx (with_hd s h) a = match h a with Some h => hnext h | None => 0 end.
Proof. reflexivity. Qed.

Section Seg.
Variables (s : bst) (HS : SI s).
Lemma placed_pos g a k : placed s g a k -> 16 < a.
Proof. intros (I1 & b & l & off & E & -> & _). destruct (si_seg s HS g I1) as (l' & E' & P & _). assert (b = g + 16) by congruence. lia. Qed.
Lemma placed_base g a k : placed s g a k -> exists l off, sg s g = Some (g + 16, l) /\ a = g + 16 + off /\ (2 ^ k | off) /\ off + 2 ^ k <= l.
Proof. intros (I1 & b & l & off & E & E2 & D & L). destruct (si_seg s HS g I1) as (l' & E' & _). assert (b = g + 16) by congruence. subst. exists l, off. auto. Qed.
Lemma placed_max g a k : placed s g a k -> k <= 62.
Proof.
  intros (I1 & b & l & off & E & E2 & D & L). destruct (si_seg s HS g I1) as (l' & E' & _ & _ & _ & M & _). assert (l' = l) by congruence. subst.
  apply N.nlt_ge. intros C. assert (C' : 63 <= k) by lia. apply pow_mono in C'. unfold MAXSEG, MAXIDX in M. change (2 ^ 63) with (2 * 2 ^ 62) in C'. pose proof (pow_pos 62). lia.
Qed.
Lemma same_seg g g' b l b' l' x : In g (segl s) -> In g' (segl s) -> sg s g = Some (b, l) -> sg s g' = Some (b', l') -> b <= x < b + l -> b' <= x < b' + l' -> g = g'.
Proof.
  intros I1 I2 E1 E2 H1 H2. destruct (N.eq_dec g g') as [|N]; auto.
  destruct (si_seg s HS g I1) as (m & F1 & _). destruct (si_seg s HS g' I2) as (m' & F2 & _). assert (b = g + 16) by congruence. assert (b' = g' + 16) by congruence.
  destruct (si_dis s HS g b l g' b' l' I1 I2 E1 E2 N); lia.
Qed.

Variables (bk : blocks) (x : N) (HT : TI s bk) (HH : HI x s bk).
Lemma bk_pos a k u : bk a = Some (k, u) -> 16 < a.
Proof. intros E. destruct (hi_hd _ _ _ HH a k u E) as (_ & h & _ & _ & _ & P). exact (placed_pos _ _ _ P). Qed.
Lemma bk_0 : bk 0 = None.
Proof. destruct (bk 0) as [[k u]|] eqn:E; auto. apply bk_pos in E. lia. Qed.

(** The buddy of a block. *)
Lemma buddy_spec b k u : bk b = Some (k, u) -> exists bb, Buddy s b = Ok bb /\
  (bb = 0 \/ exists g base l off j v, In g (segl s) /\ sg s g = Some (base, l) /\ bk bb = Some (j, v) /\ j <= k /\ (2 * 2 ^ k | off) /\ placed s g b k /\ placed s g bb j /\
    ((b = base + off /\ bb = base + off + 2 ^ k) \/ (bb = base + off /\ b = base + off + 2 ^ k))).
Proof.
  intros E. destruct (hi_hd _ _ _ HH b k u E) as (L6 & h & E1 & E2 & _ & P). pose proof P as (I1 & base & l & off & G & Eb & D & Lm).
  unfold Buddy, oget, obind. rewrite E1, G, E2. replace (b - base) with off by lia.
  destruct (N.ltb_spec (N.lxor off (2 ^ k)) l) as [C|C]; [|exists 0; split; [reflexivity|now left]].
  set (o := N.lxor off (2 ^ k)) in *. exists (base + o). split; [reflexivity|]. right.
  destruct (ti_cov _ _ HT (hseg h) base l o I1 G C) as (a & j & v & Ea & La).
  destruct (hi_hd _ _ _ HH a j v Ea) as (_ & ha & F1 & F2 & _ & Q). pose proof Q as (I2 & base' & l' & off' & G' & Eq & D' & Lm').
  assert (hseg ha = hseg h) as S1. { apply (same_seg (hseg ha) (hseg h) base' l' base l (base + o) I2 I1 G' G); lia. }
  rewrite S1 in *. assert (base' = base) by congruence. assert (l' = l) by congruence. subst base' l'.
  assert (W : exists lo, (2 * 2 ^ k | lo) /\ ((off = lo /\ o = lo + 2 ^ k) \/ (o = lo /\ off = lo + 2 ^ k))).
  { destruct (lxor_pow off k D) as [[A1 A2]|[A1 A2]]; [exists off|exists o]; auto. }
  destruct W as (lo & Dl & W). pose proof (pow_pos k) as Pk. pose proof (pow_pos j) as Pj.
  assert (J : j <= k).
  { apply N.nlt_ge. intros J. assert (J' : k + 1 <= j) by lia. rewrite <- pow_S in Dl.
    destruct (nested j (k + 1) off' lo o J' D' Dl) as [N1 N2]; [lia| |]. { rewrite pow_S. lia. }
    rewrite pow_S in N2. destruct (N.eq_dec a b) as [->|Nab]; [assert (j = k) by congruence; lia|].
    destruct (ti_dis _ _ HT a j v b k u Ea E Nab) as [Z|Z]; lia. }
  assert (Dk : (2 ^ k | o)). { destruct W as [[W1 W2]|[W1 W2]]; rewrite W2 || rewrite W1; [apply N.divide_add_r; [eapply N.divide_trans; [|exact Dl]; exists 2; lia|exists 1; lia]|eapply N.divide_trans; [|exact Dl]; exists 2; lia]. }
  assert (Ao : off' = o). { apply (same_start j k off' o J D' Dk). lia. }
  subst off'. assert (a = base + o) by lia. subst a. exists (hseg h), base, l, lo, j, v. do 5 (split; auto). split; [exact P|]. split; [rewrite <- S1; rewrite S1; exact Q|]. lia.
Qed.
End Seg.

Lemma HI_weak x s bk : SI s -> HI 0 s bk -> HI x s bk.
Proof.
  intros HS H. constructor; try apply H. intros a k u E. pose proof (bk_pos s HS bk 0 H a k u E) as P. destruct (hi_hd _ _ _ H a k u E) as (L & h & H1 & H2 & H3 & H4). split; auto.
  exists h. do 2 (split; auto). split; auto. intros _. apply H3. lia.
Qed.
Lemma wr_ok s a f h : hd s a = Some h -> wr s a f = Ok (with_hd s (upd (hd s) a (Some (f h)))).
Proof. intros E. unfold wr. rewrite E. reflexivity. Qed.

(** Taking a block from its list. *)
Lemma rem_spec s bk b k : SI s -> HI 0 s bk -> bk b = Some (k, false) ->
  exists s', RemoveFromFreeList s b = Ok s' /\ segeq s s' /\ HI 0 s' (upd bk b (Some (k, true))).
Proof.
  intros HS HH E. destruct (hi_hd _ _ _ HH b k false E) as (L6 & h & E1 & E2 & U & P).
  destruct (hi_nx _ _ _ HH b k E) as [N1 N2]. destruct (hi_pv _ _ _ HH b k E) as [P1 P2].
  destruct (hi_hd _ _ _ HH _ _ _ N1) as (_ & hn & F1 & F2 & F3 & F4). destruct (hi_hd _ _ _ HH _ _ _ P1) as (_ & hp & G1 & G2 & G3 & G4).
  assert (Xn : nx s b = hnext h) by (unfold nx; rewrite E1; reflexivity). assert (Xp : pv s b = hprev h) by (unfold pv; rewrite E1; reflexivity).
  rewrite Xn, Xp in *. unfold RemoveFromFreeList, obind at 1, oget. rewrite E1, E2.
  destruct (N.eqb_spec (hnext h) b) as [Q|Q].
  - cbn [obind]. rewrite (wr_ok _ _ _ h) by exact E1. eexists. split; [reflexivity|]. split; [repeat split|].
    assert (Hd : forall a, a <> b -> hd (with_hd (with_avl s k 0) (upd (hd (with_avl s k 0)) b (Some (sused true h)))) a = hd s a).
    { intros a Na. cbn [hd with_hd with_avl]. rewrite upd_eq. destruct (N.eqb_spec a b); congruence. }
    set (s' := with_hd _ _) in *.
    assert (Hn : forall a, a <> b -> nx s' a = nx s a) by (intros a Na; unfold nx; rewrite Hd by auto; reflexivity).
    assert (Hv : forall a, a <> b -> pv s' a = pv s a) by (intros a Na; unfold pv; rewrite Hd by auto; reflexivity).
    assert (B' : forall a j, upd bk b (Some (k, true)) a = Some (j, false) -> a <> b /\ bk a = Some (j, false)).
    { intros a j. rewrite upd_eq. destruct (N.eqb_spec a b); [discriminate|auto]. }
    assert (Bx : forall a, a <> b -> upd bk b (Some (k, true)) a = bk a). { intros a Na. rewrite upd_eq. destruct (N.eqb_spec a b); congruence. }
    assert (Hb : pv s b = b) by congruence.
    constructor.
    + intros a j u. rewrite upd_eq. destruct (N.eqb_spec a b) as [->|Na].
      * intros [= <- <-]. split; auto. exists (sused true h). split; [unfold s'; cbn [hd with_hd]; rewrite upd_eq, N.eqb_refl; reflexivity|].
        split; [exact E2|]. split; [reflexivity|]. eapply placed_eq; [|exact P]. repeat split.
      * intros Ea. destruct (hi_hd _ _ _ HH a j u Ea) as (L & ha & A1 & A2 & A3 & A4). split; auto. exists ha. rewrite Hd by auto. split; [auto|]. split; [auto|]. split; [auto|].
        eapply placed_eq; [|exact A4]. repeat split.
    + intros a j Ea. apply B' in Ea as [Na Ea]. destruct (hi_nx _ _ _ HH a j Ea) as [A1 A2].
      assert (Nn : nx s a <> b) by congruence.
      rewrite (Hn a Na), (Hv _ Nn), Bx by auto. auto.
    + intros a j Ea. apply B' in Ea as [Na Ea]. destruct (hi_pv _ _ _ HH a j Ea) as [A1 A2].
      assert (Nn : pv s a <> b) by (intros C; apply Na; rewrite <- A2, C; congruence).
      rewrite (Hv a Na), (Hn _ Nn), Bx by auto. auto.
    + intros j. unfold s'. cbn [avl with_hd with_avl]. rewrite upd_eq. destruct (N.eqb_spec j k) as [->|Nj]; [congruence|]. intros A.
      pose proof (hi_avl _ _ _ HH j A) as A1. rewrite Bx; auto. intros C. rewrite C in A1. congruence.
  - assert (Qp : hprev h <> b). { intros C. rewrite C in *. congruence. }
    rewrite (wr_ok _ _ _ hn) by exact F1. cbn [obind].
    set (s1 := with_hd s _).
    assert (Hp : exists hp', hd s1 (hprev h) = Some hp' /\ hidx hp' = hidx hp /\ hused hp' = hused hp /\ hseg hp' = hseg hp /\ hnext hp' = hnext hp /\ (hprev h = hnext h -> hprev hp' = hprev h) /\ (hprev h <> hnext h -> hprev hp' = hprev hp)).
    { unfold s1. cbn [hd with_hd]. rewrite upd_eq. destruct (N.eqb_spec (hprev h) (hnext h)) as [C|C].
      - exists (sprev (hprev h) hn). rewrite <- C in F1. assert (hn = hp) by congruence. subst. repeat split. congruence.
      - exists hp. repeat split; auto. congruence. }
    destruct Hp as (hp' & H1 & H2 & H3 & H4 & H5 & H6 & H7). rewrite (wr_ok s1 _ _ hp' H1). cbn [obind].
    set (s2 := with_hd s1 _).
    assert (Hb2 : hd s2 b = Some h). { unfold s2, s1. cbn [hd with_hd]. rewrite !upd_eq. destruct (N.eqb_spec b (hprev h)); [congruence|]. destruct (N.eqb_spec b (hnext h)); congruence. }
    assert (Hd2 : forall a, a <> hprev h -> a <> hnext h -> hd s2 a = hd s a).
    { intros a A1 A2. unfold s2, s1. cbn [hd with_hd]. rewrite !upd_eq. destruct (N.eqb_spec a (hprev h)); [congruence|]. destruct (N.eqb_spec a (hnext h)); congruence. }
    assert (Hn2 : forall a, nx s2 a = if a =? hprev h then hnext h else nx s a).
    { intros a. unfold nx, s2, s1. cbn [hd with_hd]. rewrite !upd_eq. destruct (N.eqb_spec a (hprev h)); [reflexivity|]. destruct (N.eqb_spec a (hnext h)) as [->|]; [|reflexivity]. rewrite F1. reflexivity. }
    assert (Hv2 : forall a, pv s2 a = if a =? hnext h then hprev h else pv s a).
    { intros a. unfold pv, s2. cbn [hd with_hd]. rewrite !upd_eq. destruct (N.eqb_spec a (hprev h)) as [Ea|].
      - subst a. destruct (N.eqb_spec (hprev h) (hnext h)) as [C|C]; cbn [hprev snext]; [auto|rewrite G1; auto].
      - unfold s1. cbn [hd with_hd]. rewrite upd_eq. destruct (N.eqb_spec a (hnext h)) as [->|]; reflexivity. }
    assert (Hx2 : forall a ha, hd s a = Some ha -> exists ha', hd s2 a = Some ha' /\ hidx ha' = hidx ha /\ hused ha' = hused ha /\ hseg ha' = hseg ha).
    { intros a ha Ea. unfold s2. cbn [hd with_hd]. rewrite !upd_eq. destruct (N.eqb_spec a (hprev h)) as [->|].
      - exists (snext (hnext h) hp'). assert (ha = hp) by congruence. subst. auto.
      - unfold s1. cbn [hd with_hd]. rewrite upd_eq. destruct (N.eqb_spec a (hnext h)) as [->|]; [|eauto]. exists (sprev (hprev h) hn). assert (ha = hn) by congruence. subst. auto. }
    assert (Sq2 : segeq s s2) by (repeat split). assert (A2 : avl s2 = avl s) by reflexivity. clearbody s2. clear s1 H1 H5 H6 H7.
    set (s3 := if avl s2 k =? b then with_avl s2 k (hnext h) else s2).
    assert (Hd3 : hd s3 = hd s2) by (unfold s3; destruct (avl s2 k =? b); reflexivity).
    assert (Sq3 : segeq s s3) by (unfold s3; destruct (avl s2 k =? b); exact Sq2).
    assert (Av3 : forall j, avl s3 j = if (j =? k) && (avl s k =? b) then hnext h else avl s j).
    { intros j. unfold s3. rewrite A2. destruct (avl s k =? b); cbn [avl with_avl]; rewrite ?upd_eq, A2; destruct (N.eqb_spec j k); reflexivity. }
    rewrite (wr_ok s3 _ _ h) by (rewrite Hd3; exact Hb2). eexists. split; [reflexivity|]. split; [exact Sq3|].
    set (s4 := with_hd s3 _).
    assert (Hd4 : forall a, a <> b -> hd s4 a = hd s2 a). { intros a Na. unfold s4. cbn [hd with_hd]. rewrite upd_eq. destruct (N.eqb_spec a b); congruence. }
    assert (Hn4 : forall a, a <> b -> nx s4 a = if a =? hprev h then hnext h else nx s a). { intros a Na. rewrite <- Hn2. unfold nx. rewrite Hd4; auto. }
    assert (Hv4 : forall a, a <> b -> pv s4 a = if a =? hnext h then hprev h else pv s a). { intros a Na. rewrite <- Hv2. unfold pv. rewrite Hd4; auto. }
    assert (B' : forall a j, upd bk b (Some (k, true)) a = Some (j, false) -> a <> b /\ bk a = Some (j, false)).
    { intros a j. rewrite upd_eq. destruct (N.eqb_spec a b); [discriminate|auto]. }
    assert (Bx : forall a, a <> b -> upd bk b (Some (k, true)) a = bk a). { intros a Na. rewrite upd_eq. destruct (N.eqb_spec a b); congruence. }
    constructor.
    + intros a j u. rewrite upd_eq. destruct (N.eqb_spec a b) as [->|Na].
      * intros [= <- <-]. split; auto. exists (sused true h). split; [unfold s4; cbn [hd with_hd]; rewrite upd_eq, N.eqb_refl; reflexivity|].
        split; [exact E2|]. split; [reflexivity|]. eapply placed_eq; [|exact P]. exact Sq3.
      * intros Ea. destruct (hi_hd _ _ _ HH a j u Ea) as (L & ha & A1 & A3 & A4 & A5). split; auto. destruct (Hx2 a ha A1) as (ha' & X1 & X2 & X3 & X4).
        exists ha'. rewrite Hd4 by auto. split; auto. split; [congruence|]. split; [intros; rewrite X3; auto|]. rewrite X4. exact (placed_eq _ _ _ _ _ Sq3 A5).
    + intros a j Ea. apply B' in Ea as [Na Ea]. destruct (hi_nx _ _ _ HH a j Ea) as [A1 A3].
      rewrite (Hn4 a Na). destruct (N.eqb_spec a (hprev h)) as [->|Np].
      * rewrite Bx by auto. rewrite (Hv4 (hnext h)) by auto. rewrite N.eqb_refl. split; auto. rewrite P1 in Ea. congruence.
      * assert (Nn : nx s a <> b). { intros C. rewrite C in A3. congruence. }
        rewrite Bx by auto. rewrite (Hv4 _ Nn). destruct (N.eqb_spec (nx s a) (hnext h)) as [C|C]; [|auto]. exfalso. rewrite C in A3. congruence.
    + intros a j Ea. apply B' in Ea as [Na Ea]. destruct (hi_pv _ _ _ HH a j Ea) as [A1 A3].
      rewrite (Hv4 a Na). destruct (N.eqb_spec a (hnext h)) as [->|Np].
      * rewrite Bx by auto. rewrite (Hn4 (hprev h)) by auto. rewrite N.eqb_refl. split; auto. rewrite N1 in Ea. congruence.
      * assert (Nn : pv s a <> b). { intros C. rewrite C in A3. congruence. }
        rewrite Bx by auto. rewrite (Hn4 _ Nn). destruct (N.eqb_spec (pv s a) (hprev h)) as [C|C]; [|auto]. exfalso. rewrite C in A3. congruence.
    + intros j. change (avl s4 j) with (avl s3 j). rewrite Av3. destruct (N.eqb_spec j k) as [->|Nj]; cbn [andb].
      * destruct (N.eqb_spec (avl s k) b) as [C|C]; [intros _; rewrite Bx by auto; exact N1|]. intros A. rewrite Bx by auto. exact (hi_avl _ _ _ HH k A).
      * intros A. pose proof (hi_avl _ _ _ HH j A) as A1. rewrite Bx; auto. intros C. rewrite C in A1. congruence.
Qed.

(** Putting a block on its list. *)
Lemma add_spec s bk b k : SI s -> HI b s bk -> bk b = Some (k, true) ->
  exists s', AddToFreeList s b = Ok s' /\ segeq s s' /\ HI 0 s' (upd bk b (Some (k, false))) /\ avl s' k <> 0.
Proof.
  intros HS HH E. destruct (hi_hd _ _ _ HH b k true E) as (L6 & h & E1 & E2 & _ & P). pose proof (bk_pos s HS bk b HH b k true E) as Pb.
  unfold AddToFreeList, obind at 1, oget at 1. rewrite E1, E2.
  assert (Bx : forall a, a <> b -> upd bk b (Some (k, false)) a = bk a). { intros a Na. rewrite upd_eq. destruct (N.eqb_spec a b); congruence. }
  assert (Bb : upd bk b (Some (k, false)) b = Some (k, false)) by (rewrite upd_eq, N.eqb_refl; reflexivity).
  assert (Fb : forall a j, bk a = Some (j, false) -> a <> b) by (intros a j Ea ->; congruence).
  destruct (N.eqb_spec (avl s k) 0) as [Q|Q].
  - rewrite (wr_ok s b _ h E1). cbn [obind]. rewrite (wr_ok _ b _ (snext b h)) by (cbn [hd with_hd]; rewrite upd_eq, N.eqb_refl; reflexivity). cbn [obind].
    rewrite (wr_ok _ b _ (sprev b (snext b h))) by (cbn [hd with_hd with_avl]; rewrite upd_eq, N.eqb_refl; reflexivity).
    eexists. split; [reflexivity|]. split; [repeat split|]. set (s' := with_hd _ _).
    assert (Hb : hd s' b = Some (sused false (sprev b (snext b h)))) by (unfold s'; cbn [hd with_hd]; rewrite upd_eq, N.eqb_refl; reflexivity).
    assert (Hd : forall a, a <> b -> hd s' a = hd s a) by (intros a Na; unfold s'; cbn [hd with_hd with_avl]; rewrite !upd_eq; destruct (N.eqb_spec a b); congruence).
    assert (Hn : forall a, a <> b -> nx s' a = nx s a) by (intros a Na; unfold nx; rewrite Hd by auto; reflexivity).
    assert (Hv : forall a, a <> b -> pv s' a = pv s a) by (intros a Na; unfold pv; rewrite Hd by auto; reflexivity).
    assert (Nb : nx s' b = b) by (unfold nx; rewrite Hb; reflexivity). assert (Vb : pv s' b = b) by (unfold pv; rewrite Hb; reflexivity).
    assert (Av : forall j, avl s' j = if j =? k then b else avl s j) by (intros j; unfold s'; cbn [avl with_hd with_avl]; apply upd_eq).
    split; [|rewrite Av, N.eqb_refl; lia]. constructor.
    + intros a j u. destruct (N.eq_dec a b) as [->|Na].
      * rewrite Bb. intros [= <- <-]. split; auto. eexists. split; [exact Hb|]. split; [exact E2|]. split; [reflexivity|]. exact P.
      * rewrite Bx by auto. intros Ea. destruct (hi_hd _ _ _ HH a j u Ea) as (L & ha & A1 & A2 & A3 & A4). split; auto. exists ha. rewrite Hd by auto.
        split; [auto|]. split; [auto|]. split; [auto|]. exact A4.
    + intros a j. destruct (N.eq_dec a b) as [->|Na]; [rewrite Nb, Vb; auto|]. rewrite Bx by auto. intros Ea. destruct (hi_nx _ _ _ HH a j Ea) as [A1 A2].
      pose proof (Fb _ _ A1) as Nn. rewrite (Hn a Na), (Hv _ Nn), Bx by auto. auto.
    + intros a j. destruct (N.eq_dec a b) as [->|Na]; [rewrite Vb, Nb; auto|]. rewrite Bx by auto. intros Ea. destruct (hi_pv _ _ _ HH a j Ea) as [A1 A2].
      pose proof (Fb _ _ A1) as Nn. rewrite (Hv a Na), (Hn _ Nn), Bx by auto. auto.
    + intros j. rewrite Av. destruct (N.eqb_spec j k) as [->|Nj]; [intros _; exact Bb|]. intros A. pose proof (hi_avl _ _ _ HH j A) as A1. rewrite Bx; eauto.
  - set (a0 := avl s k) in *. pose proof (hi_avl _ _ _ HH k Q) as E0. fold a0 in E0. pose proof (Fb _ _ E0) as N0.
    destruct (hi_hd _ _ _ HH _ _ _ E0) as (_ & ha & A1 & A2 & A3 & A4). destruct (hi_nx _ _ _ HH _ _ E0) as [En Pn]. pose proof (Fb _ _ En) as Nn.
    destruct (hi_hd _ _ _ HH _ _ _ En) as (_ & hn & D1 & D2 & D3 & D4).
    assert (Xn : nx s a0 = hnext ha) by (unfold nx; rewrite A1; reflexivity). rewrite Xn in *. set (n := hnext ha) in *.
    unfold oget at 1. rewrite A1. cbn [obind]. rewrite (wr_ok s b _ h E1). cbn [obind]. fold n. set (s1 := with_hd s _).
    rewrite (wr_ok s1 n _ hn) by (unfold s1; cbn [hd with_hd]; rewrite upd_eq; destruct (N.eqb_spec n b); congruence). cbn [obind]. set (s2 := with_hd s1 _).
    assert (H2 : exists ha', hd s2 a0 = Some ha' /\ hidx ha' = hidx ha /\ hused ha' = hused ha /\ hseg ha' = hseg ha /\ (a0 = n -> hprev ha' = b) /\ (a0 <> n -> hprev ha' = hprev ha)).
    { unfold s2, s1. cbn [hd with_hd]. rewrite !upd_eq. destruct (N.eqb_spec a0 n) as [C|C].
      - exists (sprev b hn). assert (hn = ha) by congruence. subst hn. repeat split; congruence.
      - destruct (N.eqb_spec a0 b); [congruence|]. exists ha. repeat split; auto. congruence. }
    destruct H2 as (ha' & H2 & H3 & H4 & H5 & H6 & H7). rewrite (wr_ok s2 a0 _ ha' H2). cbn [obind]. set (s3 := with_hd s2 _).
    assert (H8 : hd s3 b = Some (snext n h)).
    { unfold s3, s2, s1. cbn [hd with_hd]. rewrite !upd_eq. destruct (N.eqb_spec b a0); [congruence|]. destruct (N.eqb_spec b n); [congruence|]. rewrite N.eqb_refl. reflexivity. }
    rewrite (wr_ok s3 b _ _ H8). cbn [obind]. rewrite (wr_ok _ b _ (sprev a0 (snext n h))) by (cbn [hd with_hd]; rewrite upd_eq, N.eqb_refl; reflexivity).
    eexists. split; [reflexivity|]. split; [repeat split|]. set (s' := with_hd (with_hd s3 _) _).
    assert (Hb : hd s' b = Some (sused false (sprev a0 (snext n h)))) by (unfold s'; cbn [hd with_hd]; rewrite upd_eq, N.eqb_refl; reflexivity).
    assert (Hd : forall a, a <> b -> hd s' a = hd s3 a) by (intros a Na; unfold s'; cbn [hd with_hd]; rewrite !upd_eq; destruct (N.eqb_spec a b); congruence).
    assert (Hn : forall a, a <> b -> nx s' a = if a =? a0 then b else nx s a).
    { intros a Na. unfold nx. rewrite Hd by auto. unfold s3, s2, s1. cbn [hd with_hd]. rewrite !upd_eq. destruct (N.eqb_spec a a0); [reflexivity|].
      destruct (N.eqb_spec a n) as [Ea|]; [subst a; rewrite D1; reflexivity|]. destruct (N.eqb_spec a b); [congruence|reflexivity]. }
    assert (Hv : forall a, a <> b -> pv s' a = if a =? n then b else pv s a).
    { intros a Na. unfold pv. rewrite Hd by auto. unfold s3. cbn [hd with_hd]. rewrite upd_eq. destruct (N.eqb_spec a a0) as [Ea|].
      - subst a. destruct (N.eqb_spec a0 n) as [C|C]; cbn [hprev snext]; [auto|rewrite A1; auto].
      - unfold s2, s1. cbn [hd with_hd]. rewrite !upd_eq. destruct (N.eqb_spec a n); [reflexivity|]. destruct (N.eqb_spec a b); [congruence|reflexivity]. }
    assert (Hx : forall a g, a <> b -> hd s a = Some g -> exists g', hd s' a = Some g' /\ hidx g' = hidx g /\ hused g' = hused g /\ hseg g' = hseg g).
    { intros a g Na Ea. rewrite Hd by auto. unfold s3. cbn [hd with_hd]. rewrite upd_eq. destruct (N.eqb_spec a a0) as [Qa|].
      - exists (snext b ha'). subst a. assert (g = ha) by congruence. subst g. auto.
      - unfold s2, s1. cbn [hd with_hd]. rewrite !upd_eq. destruct (N.eqb_spec a n) as [Qn|]; [exists (sprev b hn); subst a; assert (g = hn) by congruence; subst g; auto|].
        destruct (N.eqb_spec a b); [congruence|eauto]. }
    assert (Nb : nx s' b = n) by (unfold nx; rewrite Hb; reflexivity). assert (Vb : pv s' b = a0) by (unfold pv; rewrite Hb; reflexivity).
    assert (Sq : segeq s s') by (repeat split). assert (Av : avl s' = avl s) by reflexivity. clearbody s'.
    split; [|rewrite Av; exact Q]. constructor.
    + intros a j u. destruct (N.eq_dec a b) as [->|Na].
      * rewrite Bb. intros [= <- <-]. split; auto. eexists. split; [exact Hb|]. split; [exact E2|]. split; [reflexivity|]. exact (placed_eq _ _ _ _ _ Sq P).
      * rewrite Bx by auto. intros Ea. destruct (hi_hd _ _ _ HH a j u Ea) as (L & g & B1 & B2 & B3 & B4). split; auto. destruct (Hx a g Na B1) as (g' & X1 & X2 & X3 & X4).
        exists g'. split; [auto|]. split; [congruence|]. split; [intros; rewrite X3; auto|]. rewrite X4. exact (placed_eq _ _ _ _ _ Sq B4).
    + intros a j. destruct (N.eq_dec a b) as [->|Na].
      * rewrite Bb. intros [= <-]. rewrite Nb, (Hv n Nn), N.eqb_refl, Bx by auto. auto.
      * rewrite Bx by auto. intros Ea. rewrite (Hn a Na). destruct (N.eqb_spec a a0) as [C|C].
        -- rewrite Vb, Bb. subst a. split; congruence.
        -- destruct (hi_nx _ _ _ HH a j Ea) as [B1 B2]. pose proof (Fb _ _ B1) as Nc. rewrite (Hv _ Nc), Bx by auto. destruct (N.eqb_spec (nx s a) n) as [C'|]; auto. rewrite C' in B2. congruence.
    + intros a j. destruct (N.eq_dec a b) as [->|Na].
      * rewrite Bb. intros [= <-]. rewrite Vb, (Hn a0 N0), N.eqb_refl, Bx by auto. auto.
      * rewrite Bx by auto. intros Ea. rewrite (Hv a Na). destruct (N.eqb_spec a n) as [C|C].
        -- rewrite Nb, Bb. subst a. split; congruence.
        -- destruct (hi_pv _ _ _ HH a j Ea) as [B1 B2]. pose proof (Fb _ _ B1) as Nc. rewrite (Hn _ Nc), Bx by auto. destruct (N.eqb_spec (pv s a) a0) as [C'|]; auto. rewrite C' in B2. congruence.
    + intros j. rewrite Av. intros A. pose proof (hi_avl _ _ _ HH j A) as A5. rewrite Bx; eauto.
Qed.

(** No two free blocks could be merged. *)
Definition GM (s : bst) (bk : blocks) : Prop := forall g b l off k, In g (segl s) -> sg s g = Some (b, l) -> (2 * 2 ^ k | off) -> off + 2 * 2 ^ k <= l ->
  bk (b + off) = Some (k, false) -> bk (b + off + 2 ^ k) = Some (k, false) -> False.
Lemma GM_sub s bk bk' : (forall a k, bk' a = Some (k, false) -> bk a = Some (k, false)) -> GM s bk -> GM s bk'.
Proof. intros H G g b l off k I1 E D Lm A B. exact (G g b l off k I1 E D Lm (H _ _ A) (H _ _ B)). Qed.
Lemma GM_eq s s' bk : segeq s s' -> GM s bk -> GM s' bk.
Proof. intros (A1 & A2 & A3 & A4 & A5) G g b l off k. rewrite A1, A5. apply G. Qed.
Lemma GM_add s bk b k : GM s bk ->
  (forall g c l off, In g (segl s) -> sg s g = Some (c, l) -> (2 * 2 ^ k | off) -> off + 2 * 2 ^ k <= l -> (b = c + off -> bk (b + 2 ^ k) <> Some (k, false)) /\ (b = c + off + 2 ^ k -> bk (c + off) <> Some (k, false))) ->
  GM s (upd bk b (Some (k, false))).
Proof.
  intros G N g c l off j I1 E D Lm A B. pose proof (pow_pos j) as P. rewrite !upd_eq in A, B. destruct (N.eqb_spec (c + off) b) as [E1|E1].
  - assert (j = k) by congruence. subst j. destruct (N.eqb_spec (c + off + 2 ^ k) b) as [E2|E2]; [lia|]. destruct (N g c l off I1 E D Lm) as [X _]. apply X; [lia|]. rewrite <- E1. exact B.
  - destruct (N.eqb_spec (c + off + 2 ^ j) b) as [E2|E2].
    + assert (j = k) by congruence. subst j. destruct (N g c l off I1 E D Lm) as [_ X]. apply X; [lia|]. exact A.
    + exact (G g c l off j I1 E D Lm A B).
Qed.

(** Used blocks other than [b] stay. *)
Definition uframe (b : N) (bk bk' : blocks) : Prop := forall a k, a <> b -> (bk a = Some (k, true) <-> bk' a = Some (k, true)).
Lemma uframe_refl b bk : uframe b bk bk.
Proof. intros a k _. reflexivity. Qed.
Lemma uframe_trans b x y z : uframe b x y -> uframe b y z -> uframe b x z.
Proof. intros A B a k N. rewrite (A a k N). apply B, N. Qed.

Lemma div2_not k : ~ (2 * 2 ^ k | 2 ^ k).
Proof. intros [c Ec]. pose proof (pow_pos k). destruct c as [|p]; [lia|]. nia. Qed.
Lemma buddy_up off k : (2 * 2 ^ k | off) -> N.lxor off (2 ^ k) = off + 2 ^ k.
Proof.
  intros D. destruct (lxor_pow off k) as [[_ E]|[D2 E]]; auto. { eapply N.divide_trans; [|exact D]. exists 2. lia. }
  exfalso. rewrite E in D. apply (div2_not k). apply (N.divide_add_cancel_r _ _ _ D2 D).
Qed.

(** Splitting a block in use. *)
Lemma split_spec s bk b k h : SI s -> TI s bk -> HI 0 s bk -> 6 <= k -> bk b = Some (k + 1, true) -> hd s b = Some h ->
  let s1 := with_hd s (upd (hd s) b (Some (sidx k h))) in
  let bb := b + 2 ^ k in
  let bk' := upd (upd bk b (Some (k, true))) bb (Some (k, true)) in
  Buddy s1 b = Ok bb /\ segeq s (brand s1 bb k (hseg h)) /\ TI s bk' /\ HI bb (brand s1 bb k (hseg h)) bk' /\ bk bb = None.
Proof.
  intros HS HT HH L6 E E1 s1 bb bk'. destruct (hi_hd _ _ _ HH b _ _ E) as (_ & h0 & F1 & F2 & F3 & P). assert (h0 = h) by congruence. subst h0.
  pose proof (pow_pos k) as Pk. pose proof P as (I1 & c & l & off & G & Eb & D & Lm). rewrite pow_S in D, Lm.
  assert (Hb : b <> 0) by (pose proof (bk_pos s HS bk 0 HH b _ _ E); lia).
  assert (Nb : bk bb = None).
  { destruct (bk bb) as [[j v]|] eqn:Ej; auto. exfalso. destruct (ti_dis _ _ HT b _ _ bb j v E Ej) as [Z|Z]; [unfold bb; lia|rewrite pow_S in Z; unfold bb in Z; lia|unfold bb in Z; lia]. }
  assert (Nbb : bb <> b) by (unfold bb; lia).
  split; [|split; [|split; [|split; [|exact Nb]]]].
  - unfold Buddy, oget, obind, s1. cbn [hd with_hd sg]. rewrite upd_eq, N.eqb_refl. cbn [hseg sidx hidx]. rewrite G. replace (b - c) with off by lia. rewrite (buddy_up off k D).
    destruct (N.ltb_spec (off + 2 ^ k) l); [|lia]. f_equal. unfold bb. lia.
  - repeat split.
  - assert (W : forall a j v, bk' a = Some (j, v) -> (a = b /\ j = k) \/ (a = bb /\ j = k) \/ (a <> b /\ a <> bb /\ bk a = Some (j, v))).
    { intros a j v. unfold bk'. rewrite !upd_eq. destruct (N.eqb_spec a bb); [intros Q; right; left; split; congruence|]. destruct (N.eqb_spec a b); [intros Q; left; split; congruence|auto]. }
    constructor.
    + intros a j v a' j' v' H1 H2 Na. apply W in H1. apply W in H2. pose proof (pow_S k) as PS.
      assert (Z : forall a j v, a <> b -> bk a = Some (j, v) -> b + 2 * 2 ^ k <= a \/ a + 2 ^ j <= b).
      { intros x y z Nx Ex. destruct (ti_dis _ _ HT b _ _ x y z E Ex) as [Q|Q]; auto. rewrite PS in Q. auto. }
      destruct H1 as [[-> ->]|[[-> ->]|(N1 & N2 & H1)]]; destruct H2 as [[-> ->]|[[-> ->]|(N3 & N4 & H2)]]; try congruence; unfold bb in *; try lia.
      * destruct (Z _ _ _ N3 H2); lia.
      * destruct (Z _ _ _ N3 H2); lia.
      * destruct (Z _ _ _ N1 H1); lia.
      * destruct (Z _ _ _ N1 H1); lia.
      * exact (ti_dis _ _ HT _ _ _ _ _ _ H1 H2 Na).
    + intros g c' l' o J1 J2 J3. destruct (ti_cov _ _ HT g c' l' o J1 J2 J3) as (a & j & v & A1 & A2). destruct (N.eq_dec a b) as [->|Na].
      * assert (j = k + 1) by congruence. subst j. rewrite pow_S in A2. destruct (N.ltb_spec (c' + o) bb) as [C|C].
        -- exists b, k, true. unfold bk'. rewrite !upd_eq, N.eqb_refl. destruct (N.eqb_spec b bb); [congruence|]. split; auto. unfold bb in C. lia.
        -- exists bb, k, true. unfold bk'. rewrite !upd_eq, N.eqb_refl. split; auto. unfold bb in *. lia.
      * exists a, j, v. unfold bk'. rewrite !upd_eq. destruct (N.eqb_spec a bb); [congruence|]. destruct (N.eqb_spec a b); [congruence|]. auto.
  - set (s2 := brand s1 bb k (hseg h)). assert (Sq : segeq s s2) by (repeat split).
    assert (Hb2 : hd s2 b = Some (sidx k h)). { unfold s2, brand, s1. cbn [hd with_hd]. rewrite !upd_eq. destruct (N.eqb_spec b bb); [congruence|]. rewrite N.eqb_refl. reflexivity. }
    assert (Hbb2 : exists h', hd s2 bb = Some h' /\ hidx h' = k /\ hseg h' = hseg h).
    { unfold s2, brand. cbn [hd with_hd]. rewrite upd_eq, N.eqb_refl. eexists. split; [reflexivity|]. match goal with |- context [match ?x with _ => _ end] => destruct x end; auto. }
    assert (Hd2 : forall a, a <> b -> a <> bb -> hd s2 a = hd s a).
    { intros a Na Nc. unfold s2, brand, s1. cbn [hd with_hd]. rewrite !upd_eq. destruct (N.eqb_spec a bb); [congruence|]. destruct (N.eqb_spec a b); congruence. }
    assert (Av : avl s2 = avl s) by reflexivity. clearbody s2.
    assert (W : forall a j, bk' a = Some (j, false) -> a <> b /\ a <> bb /\ bk a = Some (j, false)).
    { intros a j. unfold bk'. rewrite !upd_eq. destruct (N.eqb_spec a bb); [discriminate|]. destruct (N.eqb_spec a b); [discriminate|auto]. }
    assert (W' : forall a j, bk a = Some (j, false) -> a <> b /\ a <> bb /\ bk' a = Some (j, false)).
    { intros a j Ea. assert (a <> b) by congruence. assert (a <> bb) by congruence. unfold bk'. rewrite !upd_eq. destruct (N.eqb_spec a bb); [congruence|]. destruct (N.eqb_spec a b); [congruence|auto]. }
    assert (Hn : forall a, a <> b -> a <> bb -> nx s2 a = nx s a) by (intros; unfold nx; rewrite Hd2 by auto; reflexivity).
    assert (Hv : forall a, a <> b -> a <> bb -> pv s2 a = pv s a) by (intros; unfold pv; rewrite Hd2 by auto; reflexivity).
    constructor.
    + intros a j v. unfold bk'. rewrite !upd_eq. destruct (N.eqb_spec a bb) as [->|N1]; [|destruct (N.eqb_spec a b) as [->|N2]].
      * intros [= <- <-]. split; auto. destruct Hbb2 as (h' & X1 & X2 & X3). exists h'. do 2 (split; [auto|]). split; [congruence|]. apply (placed_eq s s2); auto.
        rewrite X3. split; auto. exists c, l, (off + 2 ^ k). split; auto. split; [unfold bb; lia|]. split; [|lia]. apply N.divide_add_r; [|exists 1; lia]. eapply N.divide_trans; [|exact D]. exists 2. lia.
      * intros [= <- <-]. split; auto. exists (sidx k h). do 2 (split; [auto|]). split; [intros _; apply F3; auto|]. apply (placed_eq s s2); auto.
        split; auto. exists c, l, off. split; auto. split; auto. split; [|lia]. eapply N.divide_trans; [|exact D]. exists 2. lia.
      * intros Ea. pose proof (bk_pos s HS bk 0 HH a _ _ Ea) as Pa. destruct (hi_hd _ _ _ HH a j v Ea) as (L & ha & A1 & A2 & A3 & A4). split; auto. exists ha. rewrite Hd2 by auto.
        split; [auto|]. split; [auto|]. split; [intros _; apply A3; lia|]. exact (placed_eq _ _ _ _ _ Sq A4).
    + intros a j Ea. apply W in Ea as (N1 & N2 & Ea). destruct (hi_nx _ _ _ HH a j Ea) as [A1 A2]. destruct (W' _ _ A1) as (N3 & N4 & A3). rewrite (Hn a), Hv by auto. auto.
    + intros a j Ea. apply W in Ea as (N1 & N2 & Ea). destruct (hi_pv _ _ _ HH a j Ea) as [A1 A2]. destruct (W' _ _ A1) as (N3 & N4 & A3). rewrite (Hv a), Hn by auto. auto.
    + intros j. rewrite Av. intros A. pose proof (hi_avl _ _ _ HH j A) as A1. apply W' in A1. tauto.
Qed.

(** Merging two blocks in use. *)
Lemma merge_spec s bk g c l off k hl : SI s -> TI s bk -> HI 0 s bk -> In g (segl s) -> sg s g = Some (c, l) -> (2 * 2 ^ k | off) ->
  bk (c + off) = Some (k, true) -> bk (c + off + 2 ^ k) = Some (k, true) -> placed s g (c + off) k -> placed s g (c + off + 2 ^ k) k -> hd s (c + off) = Some hl ->
  let lo := c + off in let hi := c + off + 2 ^ k in
  let s' := with_hd s (upd (hd s) lo (Some (sidx (k + 1) hl))) in
  let bk' := upd (upd bk lo (Some (k + 1, true))) hi None in
  TI s' bk' /\ HI 0 s' bk'.
Proof.
  intros HS HT HH I1 G D El Eh Pl Ph Hl lo hi s' bk'. destruct (hi_hd _ _ _ HH lo _ _ El) as (L6 & h0 & F1 & F2 & F3 & P). assert (h0 = hl) by (unfold lo in F1; congruence). subst h0.
  pose proof (pow_pos k) as Pk. assert (Sq : segeq s s') by (repeat split).
  assert (Pos : lo <> 0) by (pose proof (bk_pos s HS bk 0 HH lo _ _ El); lia).
  assert (Lm : off + 2 * 2 ^ k <= l).
  { destruct Ph as (_ & c' & l' & o & G' & Eo & _ & Lo). assert (c' = c) by congruence. assert (l' = l) by congruence. subst. unfold hi in *. lia. }
  assert (Sg : hseg hl = g).
  { destruct P as (J1 & c' & l' & o & G' & Eo & _ & Lo). apply (same_seg s HS (hseg hl) g c' l' c l lo J1 I1 G' G); unfold lo in *; lia. }
  assert (W : forall a j v, bk' a = Some (j, v) -> (a = lo /\ j = k + 1 /\ v = true) \/ (a <> lo /\ a <> hi /\ bk a = Some (j, v))).
  { intros a j v. unfold bk'. rewrite !upd_eq. destruct (N.eqb_spec a hi); [discriminate|]. destruct (N.eqb_spec a lo); [intros Q; left; split; [auto|split; congruence]|auto]. }
  split.
  - constructor.
    + intros a j v a' j' v' H1 H2 Na. apply W in H1. apply W in H2. pose proof (pow_S k) as PS.
      assert (Z : forall a j v, a <> lo -> a <> hi -> bk a = Some (j, v) -> lo + 2 ^ (k + 1) <= a \/ a + 2 ^ j <= lo).
      { intros x y z N1 N2 Ex. pose proof (pow_pos y). destruct (ti_dis _ _ HT lo _ _ x y z El Ex) as [Q|Q]; auto. destruct (ti_dis _ _ HT hi _ _ x y z Eh Ex) as [Q'|Q']; auto; rewrite PS; unfold lo, hi in *; lia. }
      destruct H1 as [(-> & -> & _)|(N1 & N2 & H1)]; destruct H2 as [(-> & -> & _)|(N3 & N4 & H2)]; try congruence.
      * destruct (Z _ _ _ N3 N4 H2); lia.
      * destruct (Z _ _ _ N1 N2 H1); lia.
      * exact (ti_dis _ _ HT _ _ _ _ _ _ H1 H2 Na).
    + intros g' c' l' o J1 J2 J3. destruct (ti_cov _ _ HT g' c' l' o J1 J2 J3) as (a & j & v & A1 & A2).
      destruct (N.eq_dec a lo) as [Ea|Na]; [|destruct (N.eq_dec a hi) as [Ea|Nb]].
      * exists lo, (k + 1), true. unfold bk'. rewrite !upd_eq, N.eqb_refl. destruct (N.eqb_spec lo hi); [unfold lo, hi in *; lia|]. split; auto. subst a. assert (j = k) by (unfold lo in *; congruence). subst j. rewrite pow_S. lia.
      * exists lo, (k + 1), true. unfold bk'. rewrite !upd_eq, N.eqb_refl. destruct (N.eqb_spec lo hi); [unfold lo, hi in *; lia|]. split; auto. subst a. assert (j = k) by (unfold hi in *; congruence). subst j. rewrite pow_S. unfold lo, hi in *. lia.
      * exists a, j, v. unfold bk'. rewrite !upd_eq. destruct (N.eqb_spec a hi); [congruence|]. destruct (N.eqb_spec a lo); [congruence|]. auto.
  - assert (Hlo : hd s' lo = Some (sidx (k + 1) hl)) by (unfold s'; cbn [hd with_hd]; rewrite upd_eq, N.eqb_refl; reflexivity).
    assert (Hd : forall a, a <> lo -> hd s' a = hd s a) by (intros a Na; unfold s'; cbn [hd with_hd]; rewrite upd_eq; destruct (N.eqb_spec a lo); congruence).
    assert (Av : avl s' = avl s) by reflexivity. clearbody s'.
    assert (W1 : forall a j, bk' a = Some (j, false) -> a <> lo /\ bk a = Some (j, false)). { intros a j Ea. apply W in Ea as [(_ & _ & C)|(A & _ & B)]; [discriminate|auto]. }
    assert (W' : forall a j, bk a = Some (j, false) -> a <> lo /\ bk' a = Some (j, false)).
    { intros a j Ea. assert (a <> lo) by (unfold lo in *; congruence). assert (a <> hi) by (unfold hi in *; congruence). unfold bk'. rewrite !upd_eq. destruct (N.eqb_spec a hi); [congruence|]. destruct (N.eqb_spec a lo); [congruence|auto]. }
    assert (Hn : forall a, a <> lo -> nx s' a = nx s a) by (intros; unfold nx; rewrite Hd by auto; reflexivity).
    assert (Hv : forall a, a <> lo -> pv s' a = pv s a) by (intros; unfold pv; rewrite Hd by auto; reflexivity).
    constructor.
    + intros a j v Ea. apply W in Ea as [(-> & -> & ->)|(N1 & N2 & Ea)].
      * split; [lia|]. exists (sidx (k + 1) hl). do 2 (split; [auto|]). split; [intros _; apply F3; auto|]. apply (placed_eq s s'); auto. cbn [hseg sidx]. rewrite Sg.
        split; auto. exists c, l, off. split; auto. split; auto. rewrite pow_S. auto.
      * destruct (hi_hd _ _ _ HH a j v Ea) as (L & ha & A1 & A2 & A3 & A4). split; auto. exists ha. rewrite Hd by auto. do 3 (split; [auto|]). exact (placed_eq _ _ _ _ _ Sq A4).
    + intros a j Ea. apply W1 in Ea as (N1 & Ea). destruct (hi_nx _ _ _ HH a j Ea) as [A1 A2]. destruct (W' _ _ A1) as (N3 & A3). rewrite (Hn a), Hv by auto. auto.
    + intros a j Ea. apply W1 in Ea as (N1 & Ea). destruct (hi_pv _ _ _ HH a j Ea) as [A1 A2]. destruct (W' _ _ A1) as (N3 & A3). rewrite (Hv a), Hn by auto. auto.
    + intros j. rewrite Av. intros A. pose proof (hi_avl _ _ _ HH j A) as A1. apply W' in A1. tauto.
Qed.
