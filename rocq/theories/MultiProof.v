(** * Multiway operations. *)
From Coq Require Import Permutation.
From Verif Require Import Base BFModel StoreInv Own EngInv ApplyProof BinopProof ReduceProof EngineProof OpProof.

(** ** Cells outside all tables *)

Section OX.
Variable o : order.

Lemma mem_put s a c b : mem (put s a c) b = upd (mem s) a c b.
Proof. reflexivity. Qed.

Lemma swf_ne own en i a b : EAcc own en -> own a = OX -> In b (ut (st en) i) -> b <> a.
Proof. intros A Oa Ib ->. apply (acc_node _ _ _ _ A) in Ib. congruence. Qed.

Lemma ox_ne_one own en a : EAcc own en -> own a = OX -> a <> ONE.
Proof. intros A Oa ->. rewrite (acc_one_none _ _ A) in Oa. discriminate. Qed.

Lemma SWF_putX own en a c : EAcc own en -> own a = OX -> SWF o (st en) -> SWF o (put (st en) a c).
Proof.
  intros A Oa. apply SWF_frame; auto.
  - intros i b Ib. unfold sameTE. rewrite mem_put, upd_other; auto. eapply swf_ne; eauto.
  - unfold sameTE. pose proof (ox_ne_one _ _ _ A Oa). rewrite mem_put, upd_other; auto.
  - pose proof (ox_ne_one _ _ _ A Oa). rewrite mem_put, upd_other; auto.
Qed.

Lemma Dok_putX own D en a c : EAcc own en -> own a = OX -> SWF o (st en) -> Dok D (st en) -> Dok D (put (st en) a c).
Proof.
  intros A Oa W K. apply (Dok_frame o D D (st en)); auto.
  intros i b Ib. unfold sameTE. rewrite mem_put, upd_other; auto. eapply swf_ne; eauto.
Qed.

Lemma RC_putX own S rs m L x a c : own a = OX -> RC own S rs m L x -> RC own S rs (upd m a c) L x.
Proof.
  intros Oa R. apply (RC_frame own S rs m); auto.
  - intros b Ib. apply (rc_L _ _ _ _ _ _ R) in Ib. unfold sameTE. rewrite upd_other; auto.
    intros ->. destruct Ib as [(i & E)|(d & i & E & _)]; congruence.
  - intros b Cb. rewrite upd_other; auto. intros ->. destruct Cb as [(i & E)|(d & i & E)]; congruence.
Qed.

Lemma AInv_putX op h own D S en a c :
  own a = OX -> AInv o kstd (PendB o op) h own D S en -> AInv o kstd (PendB o op) h own D S (set_st en (put (st en) a c)).
Proof.
  intros Oa [AC W DK DN Q SS SI]. constructor; auto.
  - exact (SWF_putX _ _ _ _ AC Oa W).
  - exact (Dok_putX _ _ _ _ _ AC Oa W DK).
  - intros d i b Ob. destruct (Q d i b Ob) as [Ii Hst]. split; auto. intros Nh.
    assert (b <> a) by congruence.
    destruct (Hst Nh) as [[Ib [B1 B2 B3 B4 B5]]|[Ib [B1 B2 B3 B4 B5 B6 B7]]]; [left|right]; split; auto;
      constructor; simpl; rewrite ?upd_other by auto; auto.
Qed.

Lemma RState_putX x S own D en a c :
  own a = OX -> RState o kstd x S own D en -> RState o kstd x S own D (set_st en (put (st en) a c)).
Proof.
  intros Oa (rs & L & [AC W DK Q DN NI] & R & [R1 R2] & H1 & H2 & H3). exists rs, L.
  split; [|split; [|split; [|auto]]].
  - constructor; auto.
    + exact (SWF_putX _ _ _ _ AC Oa W).
    + exact (Dok_putX _ _ _ _ _ AC Oa W DK).
    + intros d i b Ob. destruct (Q d i b Ob) as [Ii [B1 B2 B3 B4 B5]]. split; auto.
      assert (b <> a) by congruence. constructor; simpl; rewrite ?upd_other by auto; auto.
    + intros d i b Ob. destruct (DN d i b Ob) as [Ii [B1 B2 B3 B4]]. split; auto.
      assert (b <> a) by congruence. constructor; simpl; rewrite ?upd_other by auto; auto.
  - now apply RC_putX.
  - split; auto. intros b d i Ob. assert (b <> a) by congruence. simpl. rewrite upd_other by auto. eauto.
Qed.

(** Allocation of such a cell while the engine is at rest. *)
Lemma EInv_alloc own D en L x j a s1 c :
  EInv o own D en -> RC own [] idn (mem (st en)) L x -> alloc (st en) j = (a, s1) ->
  let own' := upd own a OX in let en' := set_st en (put s1 a c) in
  freeish (own a) /\ 2 < a /\ x a = 0 /\
  EInv o own' D en' /\ RC own' [] idn (mem (st en')) L x /\
  mem (st en') a = c /\ (forall b, b <> a -> mem (st en') b = mem (st en) b) /\
  (forall i, ut (st en') i = ut (st en) i).
Proof.
  intros [AC W DK Q DN NI] R Al own' en'.
  destruct (alloc_spec own (st en) _ _ j a s1 AC Al) as (Fa & Ra & Rx & A1 & Em & Eu & En).
  assert (Ma : mem (st en') a = c) by (unfold en'; simpl; apply upd_same).
  assert (Mb : forall b, b <> a -> mem (st en') b = mem (st en) b).
  { intros b Nb. unfold en'; simpl. rewrite upd_other, Em, upd_other by auto. auto. }
  assert (Eu' : forall i, ut (st en') i = ut (st en) i) by (intros i; unfold en'; simpl; now rewrite Eu).
  assert (Ob : forall b, b <> a -> own' b = own b) by (intros b Nb; unfold own'; now rewrite upd_other).
  assert (Oa : own' a = OX) by apply upd_same.
  assert (Na : forall i b, In b (ut (st en) i) -> b <> a).
  { intros i b Ib ->. apply (acc_node _ _ _ _ AC) in Ib. rewrite Ib in Fa. destruct (nf_node _ Fa). }
  assert (NL : forall b, counted own b -> b <> a).
  { intros b Cb ->. destruct Cb as [(i & E)|(d & i & E)]; rewrite E in Fa; destruct Fa as [?|[? ?]]; discriminate. }
  assert (Cc : forall b, counted own' b <-> counted own b).
  { intros b. destruct (N.eq_dec b a) as [->|Nb].
    - split; intros Hc; [|destruct (NL _ Hc eq_refl)]. destruct Hc as [(i & E)|(d & i & E)]; congruence.
    - unfold counted. rewrite Ob by auto. tauto. }
  split; auto. split; [lia|]. split; [apply (rc_x _ _ _ _ _ _ R); auto; lia|].
  split; [|split; [|auto]].
  - constructor; auto.
    + eapply (SWF_frame o (st en)); auto.
      * intros i b Ib. unfold sameTE. rewrite Mb; auto. eapply Na; eauto.
      * unfold sameTE. rewrite Mb; auto. unfold ONE; lia.
      * rewrite Mb; auto. unfold ONE; lia.
    + eapply (Dok_frame o D D (st en)); eauto.
      intros i b Ib. unfold sameTE. rewrite Mb; auto. eapply Na; eauto.
    + intros p b Op. destruct (N.eq_dec p a) as [->|Np]; [congruence|]. rewrite Ob in Op by auto. exact (NI _ _ Op).
  - destruct R as [B1 B2 B3 B4 B5 B6].
    assert (Lc : forall b, In b L -> b <> a).
    { intros b Ib. apply NL. apply B2 in Ib as [(i & E)|(d & i & E & _)]; [left|right]; eauto. }
    constructor; auto.
    + intros b. rewrite B2. destruct (N.eq_dec b a) as [->|Nb]; [|rewrite Ob by auto; tauto].
      rewrite Oa. split; [|intros [(i & E)|(d & i & E & _)]; discriminate].
      intros [(i & E)|(d & i & E & _)]; rewrite E in Fa; destruct Fa as [?|[? ?]]; discriminate.
    + intros b Ib. rewrite Mb by auto. destruct (B3 b Ib) as [T1 T2].
      assert (Tt : forall p, tgt own p -> tgt own' p).
      { intros p [Lp|[Cp|(d & i & E)]]; [left; auto|right; left; now apply Cc|].
        right; right. exists d, i. rewrite Ob; auto. intros ->. rewrite E in Fa. destruct (nf_don _ _ Fa). }
      auto.
    + intros b Cb. apply Cc in Cb. rewrite Mb by auto.
      rewrite (occ_frame idn (mem (st en))); [auto|].
      intros p Ip. unfold sameTE. rewrite Mb; auto.
    + intros b Cb. apply Cc in Cb. rewrite Mb by auto. auto.
    + intros b Lb Fb. destruct (N.eq_dec b a) as [->|Nb]; [rewrite Oa in Fb; destruct (nf_ox Fb)|].
      rewrite Ob in Fb by auto. auto.
Qed.

(** Release of such a cell. *)
Lemma EInv_free own D en L x j a :
  EInv o own D en -> RC own [] idn (mem (st en)) L x -> own a = OX -> x a = 0 ->
  let own' := upd own a (OFree j) in let en' := set_st en (free_node (st en) j a) in
  EInv o own' D en' /\ RC own' [] idn (mem (st en')) L x.
Proof.
  intros [AC W DK Q DN NI] R Oa Xa own' en'.
  assert (Ob : forall b, b <> a -> own' b = own b) by (intros b Nb; unfold own'; now rewrite upd_other).
  assert (Oa' : own' a = OFree j) by apply upd_same.
  assert (Cc : forall b, counted own' b <-> counted own b).
  { intros b. destruct (N.eq_dec b a) as [->|Nb].
    - split; intros [(i & E)|(d & i & E)]; congruence.
    - unfold counted. rewrite Ob by auto. tauto. }
  split.
  - constructor; auto.
    + unfold EAcc, own', en'; simpl. apply (acc_give _ _ _ _ (OFree j) a AC); auto.
      * simpl. rewrite upd_same. apply Permutation_refl.
      * intros t Lt Nt. destruct t; simpl; auto. rewrite upd_other; auto. congruence.
    + eapply (SWF_frame o (st en)); auto; intros; split; auto.
    + eapply (Dok_frame o D D (st en)); eauto; intros; split; auto.
    + intros p b Op. destruct (N.eq_dec p a) as [->|Np]; [congruence|]. rewrite Ob in Op by auto. exact (NI _ _ Op).
  - destruct R as [B1 B2 B3 B4 B5 B6]. constructor; auto.
    + intros b. rewrite B2. destruct (N.eq_dec b a) as [->|Nb]; [|rewrite Ob by auto; tauto].
      rewrite Oa, Oa'. split; intros [(i & E)|(d & i & E & _)]; discriminate.
    + intros b Ib. destruct (B3 b Ib) as [T1 T2].
      assert (Tt : forall p, tgt own p -> tgt own' p).
      { intros p [Lp|[Cp|(d & i & E)]]; [left; auto|right; left; now apply Cc|].
        right; right. exists d, i. rewrite Ob; auto. congruence. }
      split; apply Tt; auto.
    + intros b Cb. apply Cc in Cb. exact (B4 b Cb).
    + intros b Cb. apply Cc in Cb. exact (B5 b Cb).
    + intros b Lb Fb. destruct (N.eq_dec b a) as [->|Nb]; auto. rewrite Ob in Fb by auto. auto.
Qed.
End OX.

(** ** Counting *)

Definition chalf (n : nat) : nat := Nat.div2 (S n).

Lemma chalf_bounds n : (n <= 2 * chalf n <= S n)%nat.
Proof. unfold chalf. pose proof (Nat.div2_odd (S n)) as H. destruct (Nat.odd (S n)); simpl Nat.b2n in H; lia. Qed.

Lemma chalf_le n k : (n <= 2 * k)%nat -> (chalf n <= k)%nat.
Proof. pose proof (chalf_bounds n). lia. Qed.
Lemma chalf_gt n k : (2 * k < n)%nat -> (k < chalf n)%nat.
Proof. pose proof (chalf_bounds n). lia. Qed.

Fixpoint chalfs (k n : nat) : nat := match k with O => n | S k => chalfs k (chalf n) end.

Lemma chalfs_bounds k : forall n j, (j * 2 ^ k < n <= S j * 2 ^ k)%nat -> chalfs k n = S j.
Proof.
  induction k as [|k IH]; simpl; intros n j H; [lia|].
  apply IH. split; [apply chalf_gt|apply chalf_le]; nia.
Qed.

Lemma clog2_loop_spec fuel : forall num count,
  num < 2 ^ N.of_nat fuel -> clog2_loop fuel num count = count + N.log2 num.
Proof.
  induction fuel as [|fuel IH]; intros num count H; cbn [clog2_loop].
  - simpl in H. assert (num = 0) by lia. subst. simpl. lia.
  - destruct (N.ltb_spec 1 num).
    + rewrite IH.
      * rewrite N.shiftr_div_pow2. change (2 ^ 1) with 2.
        assert (N.log2 num = 1 + N.log2 (num / 2)).
        { assert (E : num / 2 <> 0) by (intros E; apply N.div_small_iff in E; lia).
          pose proof (N.div_mod num 2 ltac:(lia)) as Hd. pose proof (N.mod_lt num 2 ltac:(lia)).
          remember (num / 2) as q. remember (num mod 2) as r.
          assert (Hm : r = 0 \/ r = 1) by lia. rewrite Hd. destruct Hm as [-> | ->].
          - rewrite N.add_0_r, N.log2_double by lia. lia.
          - rewrite N.log2_succ_double by lia. lia. }
        lia.
      * rewrite N.shiftr_div_pow2. change (2 ^ 1) with 2. apply N.div_lt_upper_bound; [lia|].
        rewrite Nat2N.inj_succ, N.pow_succ_r' in H. lia.
    + assert (Hn : num = 0 \/ num = 1) by lia. destruct Hn as [-> | ->]; simpl; lia.
Qed.

(** [CeilLog2] is the least [c] with [n <= 2^c]. *)
Lemma ceillog2_spec n : 1 <= n -> n <= 2 ^ ceillog2 n /\ (forall c, n <= 2 ^ c -> ceillog2 n <= c).
Proof.
  intros H. unfold ceillog2. rewrite clog2_loop_spec.
  2:{ rewrite N2Nat.id. apply N.size_gt. }
  rewrite N.add_0_l, N.shiftl_1_l. pose proof (N.log2_spec n ltac:(lia)) as [L1 L2].
  destruct (N.eqb_spec (2 ^ N.log2 n) n) as [E|E].
  - split; [lia|]. intros c Hc. apply N.pow_le_mono_r_iff with (a := 2); lia.
  - split; [rewrite N.add_1_r; lia|]. intros c Hc. rewrite N.add_1_r. apply N.le_succ_l.
    apply N.pow_lt_mono_r_iff with (a := 2); lia.
Qed.

Lemma NoDup_app_iff' {A} (l1 l2 : list A) : NoDup l1 -> NoDup l2 -> (forall a, In a l1 -> ~ In a l2) -> NoDup (l1 ++ l2).
Proof.
  intros H1 H2 H. induction H1 as [|a l1 Na H1 IH]; simpl; auto. constructor.
  - rewrite in_app_iff. intros [I|I]; [auto|]. apply (H a); simpl; auto.
  - apply IH. intros b Ib. apply H. now right.
Qed.

Lemma Forall2_len {A B} (R : A -> B -> Prop) l l' : Forall2 R l l' -> length l = length l'.
Proof. induction 1; simpl; auto. Qed.

Lemma NoDup_app_inv' {A} (l1 l2 : list A) : NoDup (l1 ++ l2) -> NoDup l1 /\ NoDup l2 /\ forall a, In a l1 -> ~ In a l2.
Proof.
  induction l1 as [|a l1 IH]; simpl; intros H.
  - split; [constructor|]. split; auto.
  - inversion H as [|? ? Na H']; subst. destruct (IH H') as (H1 & H2 & H3). rewrite in_app_iff in Na.
    split; [constructor; auto|]. split; auto. intros b [<-|Ib] I2; [tauto|]. exact (H3 b Ib I2).
Qed.

Lemma Nat2N_pow2 d : N.of_nat (2 ^ d) = 2 ^ N.of_nat d.
Proof. induction d as [|d IH]; [reflexivity|]. rewrite Nat2N.inj_succ, N.pow_succ_r'. simpl Nat.pow. lia. Qed.

(** ** Sums *)
Section Multi.
Variable o : order.
Hypothesis Wo : wfo o.
Variable enum : memory -> list N -> list N.
Hypothesis enum_perm : forall m l, Permutation (enum m l) l.
Variable op : binop.
Hypothesis Hop : binop_ok op.
Variable u : bool.
Hypothesis op_unit : forall a, bsem op u a = a.
Hypothesis op_assoc : forall a b c, bsem op a (bsem op b c) = bsem op (bsem op a b) c.

Notation val := ((N -> bool) -> bool).

Definition bsum (vs : list val) (rho : N -> bool) : bool := fold_right (fun v b => bsem op (v rho) b) u vs.

Lemma bsum_app vs ws rho : bsum (vs ++ ws) rho = bsem op (bsum vs rho) (bsum ws rho).
Proof using op_unit op_assoc.
  induction vs as [|v vs IH]; simpl; [now rewrite op_unit|]. rewrite IH. apply op_assoc.
Qed.

Lemma bsum_perm vs ws rho : Permutation vs ws -> bsum vs rho = bsum ws rho.
Proof using Hop op_assoc.
  induction 1; simpl; try congruence. rewrite !op_assoc. f_equal. apply (bo_comm op Hop).
Qed.

Lemma set_st_id en : set_st en (st en) = en.
Proof. now destruct en. Qed.

(** ** List cells *)

Definition opd (own : N -> tag) (D : den) (VL : N -> val) (P : N -> Prop) (e : edge) (v : val) : Prop :=
  (vedge (lvl own 0) e /\ forall rho, dv D e rho = v rho) \/
  (P (eptr e) /\ forall rho, v rho = xorb (eneg e) (VL (eptr e) rho)).

Definition cellok (own : N -> tag) (D : den) (VL : N -> val) (P : N -> Prop) (m : memory) (a : N) : Prop :=
  exists v w, opd own D VL P (ct (m a)) v /\ opd own D VL P (ce (m a)) w /\
    forall rho, VL a rho = bsem op (v rho) (w rho).

Fixpoint LOK (own : N -> tag) (D : den) (VL : N -> val) (m : memory) (P : N -> Prop) (lists : list (list N)) : Prop :=
  match lists with
  | [] => True
  | l :: lists => (forall a, In a l -> cellok own D VL P m a) /\ LOK own D VL m (fun a => P a \/ In a l) lists
  end.

Lemma opd_mono own D VL (P : N -> Prop) own' VL' (P' : N -> Prop) e v :
  (forall i a, own a = ONode i -> own' a = ONode i) -> (forall d i a, own a <> OQue d i) ->
  (forall a, P a -> P' a /\ VL' a = VL a) -> opd own D VL P e v -> opd own' D VL' P' e v.
Proof.
  intros Hn Hq HP [[V Ev]|(Hp & Ev)]; [left|right].
  - split; auto. eapply vedge_mono; [|exact V]. intros i a _ [H|(d & Hd & H)]; [left; auto|lia].
  - destruct (HP _ Hp) as [HP' EV]. rewrite EV. auto.
Qed.

Lemma pair_spec : forall n es own D en L x acc VL P vs s' acc' last, (length es <= n)%nat ->
  EInv o own D en -> RC own [] idn (mem (st en)) L x -> Forall2 (opd own D VL P) es vs ->
  (forall a, P a -> own a = OX) ->
  pair_leaves (st en) acc es = (s', acc', last) ->
  exists own' VL' new vl, acc' = new ++ acc /\ EInv o own' D (set_st en s') /\ RC own' [] idn (mem s') L x /\
    (forall a, In a new -> freeish (own a) /\ 2 < a /\ x a = 0 /\ own' a = OX) /\ NoDup new /\
    (forall a, ~ In a new -> own' a = own a /\ mem s' a = mem (st en) a /\ VL' a = VL a) /\
    (forall i, ut s' i = ut (st en) i) /\
    (forall a, In a new -> cellok own' D VL' P (mem s') a) /\
    match last with None => vl = [] | Some e => exists v, opd own' D VL' P e v /\ vl = [v] end /\
    (forall rho, bsum (map VL' new ++ vl) rho = bsum vs rho) /\
    (2 * length new + length vl = length es)%nat.
Proof using Hop op_unit op_assoc.
  induction n as [|n IH]; intros es own D en L x acc VL P vs s' acc' last Hl I R F HP H.
  { destruct es; [|simpl in Hl; lia]. simpl in H. injection H as <- <- <-. inversion F; subst.
    exists own, VL, [], []. rewrite set_st_id. simpl. do 10 (split; [solve [auto|tauto|constructor]|]). lia. }
  destruct es as [|e1 [|e2 es]].
  - simpl in H. injection H as <- <- <-. inversion F; subst.
    exists own, VL, [], []. rewrite set_st_id. simpl. do 10 (split; [solve [auto|tauto|constructor]|]). lia.
  - simpl in H. injection H as <- <- <-. inversion F as [|? v ? ? F1 F2]; subst. inversion F2; subst.
    exists own, VL, [], [v]. rewrite set_st_id. simpl. do 10 (split; [solve [eauto|tauto|constructor]|]). lia.
  - simpl in H. destruct (alloc (st en) 0) as [a s1] eqn:Al.
    inversion F as [|? v1 ? vs1 F1 F2]; subst. inversion F2 as [|? v2 ? vs2 F3 F4]; subst.
    destruct (EInv_alloc o own D en L x 0 a s1 (C e1 e2 0) I R Al) as (Fa & La & Xa & I1 & R1 & Ma & Mb & Eu).
    set (en1 := set_st en (put s1 a (C e1 e2 0))) in *. set (own1 := upd own a OX) in *.
    assert (NP : forall b, P b -> b <> a).
    { intros b Pb ->. apply HP in Pb. rewrite Pb in Fa. destruct (nf_ox Fa). }
    set (VL1 := upd VL a (fun rho => bsem op (v1 rho) (v2 rho))).
    assert (Mo : forall own2 VL2 e v, (forall i b, own b = ONode i -> own2 b = ONode i) ->
        (forall b, P b -> VL2 b = VL b) -> opd own D VL P e v -> opd own2 D VL2 P e v).
    { intros own2 VL2 e v Hn Hv. apply opd_mono; auto. intros d i b. eapply EInv_nq; eauto. }
    assert (On1 : forall i b, own b = ONode i -> own1 b = ONode i).
    { intros i b Ob. unfold own1. rewrite upd_other; auto. intros ->. rewrite Ob in Fa. destruct (nf_node _ Fa). }
    assert (Vn1 : forall b, P b -> VL1 b = VL b) by (intros b Pb; unfold VL1; rewrite upd_other; auto).
    destruct (IH es own1 D en1 L x (a :: acc) VL1 P vs2 s' acc' last) as
      (own' & VL' & new & vl & E1 & I' & R' & New & ND & Old & Ut & Cok & Lst & Sum & Cnt); auto.
    + simpl in Hl; lia.
    + eapply Forall2_impl_in; [|exact F4]. intros e v _. apply Mo; auto.
    + intros b Pb. unfold own1. rewrite upd_other by auto. auto.
    + assert (Na : ~ In a new).
      { intros Ia. destruct (New a Ia) as [Fa' _]. unfold own1 in Fa'. rewrite upd_same in Fa'. destruct (nf_ox Fa'). }
      destruct (Old a Na) as (Oa & Ma' & Va).
      assert (NewP : forall b, P b -> ~ In b new).
      { intros b Pb Ib. destruct (New b Ib) as [Fb _]. unfold own1 in Fb. rewrite upd_other in Fb by auto.
        rewrite (HP _ Pb) in Fb. destruct (nf_ox Fb). }
      assert (VLP : forall b, P b -> VL' b = VL b).
      { intros b Pb. destruct (Old b (NewP b Pb)) as (_ & _ & ->). auto. }
      assert (OnP : forall i b, own b = ONode i -> own' b = ONode i).
      { intros i b Ob. destruct (Old b) as (-> & _ & _); [|auto]. intros Ib. destruct (New b Ib) as [Fb _].
        rewrite (On1 i b Ob) in Fb. destruct (nf_node _ Fb). }
      exists own', VL', (new ++ [a]), vl. rewrite <- app_assoc. split; [exact E1|]. split; [exact I'|]. split; [exact R'|].
      split; [|split; [|split; [|split; [|split; [|split; [|split]]]]]].
      * intros b Ib. apply in_app_iff in Ib as [Ib|[<-|[]]].
        -- destruct (New b Ib) as (Fb & Lb & Xb & Ob). repeat split; auto. unfold own1 in Fb.
           destruct (N.eq_dec b a) as [->|Nb]; [tauto|]. rewrite upd_other in Fb; auto.
        -- repeat split; auto. rewrite Oa. apply upd_same.
      * apply (Permutation_NoDup (l := a :: new)); [apply Permutation_cons_append|]. constructor; auto.
      * intros b Nb. assert (b <> a /\ ~ In b new) as [N1 N2].
        { split; [intros ->; apply Nb; apply in_app_iff; right; now left|intros Ib; apply Nb; apply in_app_iff; auto]. }
        destruct (Old b N2) as (E2 & E3 & E4). rewrite E2, E3, E4. unfold own1, VL1. rewrite !upd_other by auto.
        rewrite Mb by auto. auto.
      * intros i. rewrite Ut. apply Eu.
      * intros b Ib. apply in_app_iff in Ib as [Ib|[<-|[]]]; auto.
        exists v1, v2. rewrite Ma', Ma. simpl. split; [apply Mo; auto|]. split; [apply Mo; auto|].
        intros rho. rewrite Va. unfold VL1. now rewrite upd_same.
      * exact Lst.
      * intros rho. rewrite map_app. simpl. rewrite <- app_assoc.
        rewrite (bsum_perm _ ((VL' a) :: map VL' new ++ vl)).
        2:{ symmetry. apply Permutation_middle. }
        simpl. change (fold_right (fun v b => bsem op (v rho) b) u) with (fun l => bsum l rho). cbv beta.
        rewrite Sum, Va. unfold VL1. rewrite upd_same. symmetry. apply op_assoc.
      * rewrite app_length. simpl. simpl in Cnt. lia.
Qed.

Definition optl {A} (l : option A) : list A := match l with Some a => [a] | None => [] end.
Definition mk (a : N) : edge := E 0 a false.

Lemma pair_nodes_leaves : forall n prev s acc last s' acc' last', (length prev <= n)%nat ->
  pair_nodes s acc prev last = (s', acc', last') ->
  exists last'', pair_leaves s acc (map mk prev ++ optl last) = (s', acc', last'') /\
    (last'' = last' \/ exists a, In a prev /\ last'' = Some (mk a) /\ last' = Some (E 65535 a false)).
Proof.
  induction n as [|n IH]; intros prev s acc last s' acc' last' Hl H.
  { destruct prev; [|simpl in Hl; lia]. simpl in *. injection H as <- <- <-.
    destruct last; simpl; eauto. }
  destruct prev as [|a [|b prev]]; simpl in H.
  - injection H as <- <- <-. destruct last; simpl; eauto.
  - destruct last as [l|]; simpl in *.
    + unfold mk. destruct (alloc s 0) as [c s1]. injection H as <- <- <-. eauto.
    + injection H as <- <- <-. exists (Some (mk a)). split; auto. right. exists a. simpl. auto.
  - simpl. unfold mk at 1 2 3. destruct (alloc s 0) as [c s1] eqn:Al.
    destruct (IH prev _ _ _ _ _ _ ltac:(simpl in Hl; lia) H) as (l2 & E & [A|(d & Id & A)]); exists l2; split; auto.
    right. exists d. simpl. auto.
Qed.

Lemma more_spec : forall n own D en L x VL (P : N -> Prop) prev lst s' ls vs,
  EInv o own D en -> RC own [] idn (mem (st en)) L x ->
  (forall a, P a -> own a = OX) -> (forall a, In a prev -> P a) ->
  Forall2 (opd own D VL P) (optl lst) vs ->
  more_lists n (st en) prev lst = (s', ls) ->
  exists own' VL' vl, EInv o own' D (set_st en s') /\ RC own' [] idn (mem s') L x /\
    (forall a, In a (concat ls) -> freeish (own a) /\ 2 < a /\ x a = 0 /\ own' a = OX) /\ NoDup (concat ls) /\
    (forall a, ~ In a (concat ls) -> own' a = own a /\ mem s' a = mem (st en) a /\ VL' a = VL a) /\
    (forall i, ut s' i = ut (st en) i) /\ LOK own' D VL' (mem s') P ls /\ length ls = n /\
    (length (List.last (prev :: ls) []) + length vl = chalfs n (length prev + length vs))%nat /\
    (length vl <= 1)%nat /\
    (forall rho, bsum (map VL' (List.last (prev :: ls) []) ++ vl) rho = bsum (map VL prev ++ vs) rho) /\
    match n with O => True | S k => (2 * length (List.last (prev :: ls) []) + length vl = chalfs k (length prev + length vs))%nat end.
Proof using Hop op_unit op_assoc.
  induction n as [|n IH]; intros own D en L x VL P prev lst s' ls vs I R HP HPr F H.
  - simpl in H. injection H as <- <-. exists own, VL, vs. rewrite set_st_id. simpl. assert (length vs <= 1)%nat by (pose proof (Forall2_len _ _ _ F); destruct lst; simpl in *; lia).
    do 11 (split; [solve [eauto|tauto|constructor|lia]|]). exact Logic.I.
  - simpl in H. destruct (pair_nodes (st en) [] prev lst) as [[s1 l] lst1] eqn:Pn.
    destruct (more_lists n s1 l lst1) as [s2 ls2] eqn:Ml. injection H as <- <-.
    destruct (pair_nodes_leaves (length prev) prev _ _ _ _ _ _ (le_n _) Pn) as (lst2 & Pl & Adj).
    set (vsp := map VL prev ++ vs).
    assert (Fp : Forall2 (opd own D VL P) (map mk prev ++ optl lst) vsp).
    { apply Forall2_app; auto. revert HPr. clear. induction prev as [|p prev IHp]; simpl; constructor; auto.
      right. split; [simpl; auto|]. intros rho. unfold mk. cbn [eneg eptr]. now rewrite xorb_false_l. }
    destruct (pair_spec _ _ own D en L x [] VL P vsp s1 l lst2 (le_n _) I R Fp HP Pl) as
      (own1 & VL1 & new & vl1 & E1 & I1 & R1 & New & ND & Old & Ut & Cok & Lst & Sum & Cnt).
    rewrite app_nil_r in E1. subst l.
    assert (NP : forall a, P a -> ~ In a new).
    { intros a Pa Ia. destruct (New a Ia) as [Fa _]. rewrite (HP a Pa) in Fa. destruct (nf_ox Fa). }
    set (P1 := fun a => P a \/ In a new).
    assert (NQ1 : forall d i a, own1 a <> OQue d i) by (intros d i a; eapply (EInv_nq o); eauto).
    destruct (IH own1 D (set_st en s1) L x VL1 P1 new lst1 s2 ls2 vl1) as
      (own2 & VL2 & vl & I2 & R2 & New2 & ND2 & Old2 & Ut2 & LK & Len & Cn2 & Lv & Sum2 & Two); auto.
    + intros a [Pa|Ia]; [destruct (Old a (NP a Pa)) as (-> & _); auto|apply New; auto].
    + intros a Ia. right; auto.
    + destruct lst1 as [e|]; simpl.
      * destruct Adj as [->|(a & Ia & -> & E)]; destruct Lst as (v & Ov & ->); constructor; auto.
        -- apply (opd_mono own1 D VL1 P); auto. intros b Pb. split; [left|]; auto.
        -- injection E as ->. right. unfold mk in *. destruct Ov as [[Vv _]|(Pv & Ev)]; cbn [eneg eptr eid] in *.
           ++ destruct Vv as [[_ E2]|[N0 _]]; [|destruct N0; reflexivity]. simpl in E2. subst a.
              pose proof (HP _ (HPr _ Ia)) as Ho. rewrite (acc_one_none _ _ (ei_acc _ _ _ _ I)) in Ho. discriminate.
           ++ split; [left; auto|]. auto.
      * destruct Adj as [->|(a & _ & _ & E)]; [|discriminate]. subst vl1. constructor.
    + simpl in I2, R2, Old2, Ut2.
      assert (NN : forall a, In a new -> ~ In a (concat ls2)).
      { intros a Ia Ia2. destruct (New2 a Ia2) as [Fa _]. destruct (New a Ia) as (_ & _ & _ & Oa). rewrite Oa in Fa. destruct (nf_ox Fa). }
      assert (NP2 : forall a, P a -> ~ In a (concat ls2)).
      { intros a Pa Ia2. destruct (New2 a Ia2) as [Fa _]. destruct (Old a (NP a Pa)) as (Oa & _). rewrite Oa, (HP a Pa) in Fa. destruct (nf_ox Fa). }
      exists own2, VL2, vl. split; [exact I2|]. split; [exact R2|].
      
      assert (Hl : (length vl1 <= 1)%nat).
      { destruct lst1 as [e|]; destruct Adj as [->|(a & _ & -> & E)]; try discriminate E.
        - destruct Lst as (v & _ & ->). simpl. lia.
        - destruct Lst as (v & _ & ->). simpl. lia.
        - subst vl1. simpl. lia. }
      assert (Hc : (length new + length vl1 = chalf (length prev + length vs))%nat).
      { rewrite app_length, map_length in Cnt. rewrite <- (Forall2_len _ _ _ F).
        pose proof (chalf_bounds (length prev + length (optl lst))). lia. }
      split; [|split; [|split; [|split; [|split; [|split; [|split; [|split; [|split]]]]]]]]; auto.
      * intros a Ia. simpl in Ia. apply in_app_iff in Ia as [Ia|Ia].
        -- destruct (New a Ia) as (Fa & La & Xa & Oa). repeat split; auto. destruct (Old2 a (NN a Ia)) as (-> & _). auto.
        -- destruct (New2 a Ia) as (Fa & La & Xa & Oa). repeat split; auto.
           destruct (Old a) as (E & _ & _); [intros Hn; exact (NN a Hn Ia)|]. now rewrite <- E.
      * simpl. apply NoDup_app_iff'; auto.
      * intros a Na. simpl in Na. rewrite in_app_iff in Na.
        destruct (Old2 a ltac:(tauto)) as (E1 & E2 & E3). destruct (Old a ltac:(tauto)) as (E4 & E5 & E6).
        simpl in E2. rewrite E1, E2, E3. auto.
      * intros i. rewrite Ut2. apply Ut.
      * simpl. split; [|exact LK].
        intros a Ia. destruct (Cok a Ia) as (v & w & O1 & O2 & Ev). destruct (Old2 a (NN a Ia)) as (_ & Em & EV).
        simpl in Em. exists v, w. rewrite Em, EV.
        assert (Mo : forall e v, opd own1 D VL1 P e v -> opd own2 D VL2 P e v).
        { intros e v'. apply opd_mono; auto.
          - intros i b Ob. destruct (Old2 b) as (-> & _); auto. intros Ib. destruct (New2 b Ib) as [Fb _].
            rewrite Ob in Fb. destruct (nf_node _ Fb).
          - intros b Pb. split; auto. apply Old2. auto. }
        auto.
      * simpl. now rewrite Len.
      * change (List.last (prev :: new :: ls2) []) with (List.last (new :: ls2) []). rewrite Cn2. simpl. now rewrite Hc.
      * intros rho. change (List.last (prev :: new :: ls2) []) with (List.last (new :: ls2) []). rewrite Sum2, Sum. reflexivity.
      * change (List.last (prev :: new :: ls2) []) with (List.last (new :: ls2) []). destruct n as [|k].
        -- destruct ls2; [|discriminate]. simpl in *. rewrite app_length, map_length in Cnt. rewrite <- (Forall2_len _ _ _ F). lia.
        -- rewrite Two. simpl. now rewrite Hc.
Qed.

(** ** Inserting the lists into the queues *)

Record nodes_kept (own : N -> tag) (D : den) (en : eng) (own' : N -> tag) (D' : den) (en' : eng) : Prop := {
  nk_node : forall i a, own a = ONode i -> own' a = ONode i /\ sameTE (mem (st en)) (mem (st en')) a;
  nk_D : forall a rho, a = ONE \/ (exists i, own a = ONode i) -> D' a rho = D a rho;
  nk_user : forall a, own' a = ONode 0 -> own a = ONode 0;
  nk_ut0 : ut (st en') 0 = ut (st en) 0
}.

Lemma nk_trans own D en own1 D1 en1 own2 D2 en2 :
  nodes_kept own D en own1 D1 en1 -> nodes_kept own1 D1 en1 own2 D2 en2 -> nodes_kept own D en own2 D2 en2.
Proof.
  intros X Y. constructor.
  - intros i a H. destruct (nk_node _ _ _ _ _ _ X i a H) as [H1 [T1 E1]].
    destruct (nk_node _ _ _ _ _ _ Y i a H1) as [H2 [T2 E2]]. split; auto. split; congruence.
  - intros a rho H. rewrite (nk_D _ _ _ _ _ _ Y).
    + apply (nk_D _ _ _ _ _ _ X); auto.
    + destruct H as [H|[i H]]; auto. right. exists i. eapply (nk_node _ _ _ _ _ _ X); auto.
  - intros a H. eapply (nk_user _ _ _ _ _ _ X). eapply (nk_user _ _ _ _ _ _ Y); auto.
  - rewrite (nk_ut0 _ _ _ _ _ _ Y). apply (nk_ut0 _ _ _ _ _ _ X).
Qed.

Lemma oext_nk own D en own' D' en' : oext own D en own' D' en' -> nodes_kept own D en own' D' en'.
Proof. intros [X1 X2 X3 X4 X5]. constructor; auto. Qed.

Lemma nk_put own D en own' D' en' a c : (forall i, own' a <> ONode i) ->
  nodes_kept own D en own' D' en' -> nodes_kept own D en own' D' (set_st en' (put (st en') a c)).
Proof.
  intros Ha [X1 X2 X3 X4]. constructor; auto. intros i b Ob. destruct (X1 i b Ob) as [O1 T1]. split; auto.
  unfold sameTE in *. simpl. rewrite upd_other; auto. intros ->. destruct (Ha i O1).
Qed.

Definition Proc (own : N -> tag) (D : den) (m : memory) (VL : N -> val) (d : nat) (b : N) : Prop :=
  own b = OX /\ eptr (ce (m b)) = 0 /\ vedge (lvl own d) (ct (m b)) /\ forall rho, dv D (ct (m b)) rho = VL b rho.

Record IS (own : N -> tag) (D : den) (L : list N) (x : N -> N) (d : nat) (en : eng) : Prop := {
  is_a : AInv o kstd (PendB o op) 0 own D [] en;
  is_r : RC own [] idn (mem (st en)) L x;
  is_q : QB d own;
  is_x : forall d j b, own b = OQue d j -> x b = 0
}.

(** Edges, denotations and list cells other than [A] stay. *)
Record lstep (A : N -> Prop) (own : N -> tag) (D : den) (en : eng) (own' : N -> tag) (D' : den) (en' : eng) : Prop := {
  ls_v : forall k e, vedge (lvl own k) e -> vedge (lvl own' k) e /\ forall rho, dv D' e rho = dv D e rho;
  ls_x : forall b, own b = OX -> own' b = OX;
  ls_m : forall b, own b = OX -> ~ A b -> mem (st en') b = mem (st en) b;
  ls_n : nodes_kept own D en own' D' en'
}.

Lemma lstep_trans (A B : N -> Prop) own D en own1 D1 en1 own2 D2 en2 :
  lstep A own D en own1 D1 en1 -> lstep B own1 D1 en1 own2 D2 en2 -> lstep (fun b => A b \/ B b) own D en own2 D2 en2.
Proof.
  intros X Y. constructor.
  - intros k e V. destruct (ls_v _ _ _ _ _ _ _ X k e V) as [V1 E1]. destruct (ls_v _ _ _ _ _ _ _ Y k e V1) as [V2 E2].
    split; auto. intros rho. now rewrite E2.
  - intros b Ob. eapply (ls_x _ _ _ _ _ _ _ Y). eapply (ls_x _ _ _ _ _ _ _ X). auto.
  - intros b Ob Nb. rewrite (ls_m _ _ _ _ _ _ _ Y); [|eapply (ls_x _ _ _ _ _ _ _ X); auto|tauto].
    apply (ls_m _ _ _ _ _ _ _ X); auto.
  - eapply nk_trans; [exact (ls_n _ _ _ _ _ _ _ X)|exact (ls_n _ _ _ _ _ _ _ Y)].
Qed.

Lemma lstep_refl own D en : lstep (fun _ => False) own D en own D en.
Proof. constructor; auto. constructor; auto; intros; split; auto; split; auto. Qed.

Lemma lstep_weaken (A B : N -> Prop) own D en own' D' en' : (forall b, A b -> B b) ->
  lstep A own D en own' D' en' -> lstep B own D en own' D' en'.
Proof. intros H [X1 X2 X3 X4]. constructor; auto. Qed.

Lemma Proc_step (A : N -> Prop) own D en own' D' en' VL d d' b : (d <= d')%nat -> ~ A b ->
  lstep A own D en own' D' en' -> Proc own D (mem (st en)) VL d b -> Proc own' D' (mem (st en')) VL d' b.
Proof.
  intros Ld Nb X (O1 & E1 & V1 & D1). unfold Proc. rewrite (ls_m _ _ _ _ _ _ _ X) by auto.
  destruct (ls_v _ _ _ _ _ _ _ X _ _ V1) as [V2 D2].
  split; [eapply ls_x; eauto|]. split; auto. split; [eapply vedge_lvl_mono; eauto|]. intros rho. now rewrite D2.
Qed.

Lemma cellok_step (A : N -> Prop) own D en own' D' en' VL P b : own b = OX -> ~ A b ->
  lstep A own D en own' D' en' -> cellok own D VL P (mem (st en)) b -> cellok own' D' VL P (mem (st en')) b.
Proof.
  intros Ob Nb X (v & w & O1 & O2 & Ev). exists v, w. rewrite (ls_m _ _ _ _ _ _ _ X) by auto.
  assert (Mo : forall e v, opd own D VL P e v -> opd own' D' VL P e v).
  { intros e v' [[V1 E1]|H]; [left|right; auto]. destruct (ls_v _ _ _ _ _ _ _ X _ _ V1) as [V2 E2].
    split; auto. intros rho. rewrite E2. auto. }
  auto.
Qed.

Lemma list_insert1_spec own D L x d en VL (P : N -> Prop) a :
  IS own D L x (S d) en -> QB (S d) own -> own a = OX ->
  (forall b, P b -> Proc own D (mem (st en)) VL d b) -> cellok own D VL P (mem (st en)) a ->
  exists own' D', let en' := list_insert1 o op d en a in
    IS own' D' L x (S d) en' /\ lstep (fun b => b = a) own D en own' D' en' /\
    Proc own' D' (mem (st en')) VL (S d) a.
Proof using Wo Hop.
  intros Is Qb Oa HP (v & w & O1 & O2 & Ev). unfold list_insert1.
  assert (HP' : forall b, P b -> Proc own D (mem (st en)) VL d b) by auto.
  assert (Fw : forall e v, opd own D VL P e v -> vedge (lvl own d) (fwd (mem (st en)) e) /\ forall rho, dv D (fwd (mem (st en)) e) rho = v rho).
  { destruct Is as [A R Q X]. intros e v' [[V Ev']|(Pe & Ev')].
    - assert (Vn : vedge (nodeR (st en)) e).
      { eapply vedge_mono; [|exact V]. intros i b _ [H|(d' & H & _)]; [|lia]. now apply (acc_node _ _ _ _ (ai_acc _ _ _ _ _ _ _ _ A)). }
      rewrite (fwd_valid o) by (auto; exact (ai_swf _ _ _ _ _ _ _ _ A)). split; auto.
      eapply vedge_lvl_mono; [|exact V]. lia.
    - destruct (HP _ Pe) as (P1 & E1 & V1 & D1). unfold fwd. rewrite E1. simpl. rewrite vedge_ephase.
      split; auto. intros rho. now rewrite dv_ephase, D1, Ev'. }
  destruct (Fw _ _ O1) as [VF DF]. destruct (Fw _ _ O2) as [VG DG].
  set (F := fwd _ _) in *. set (G := fwd _ (ce _)) in *. destruct Is as [A R Q X].
  destruct (opreq o op d en F G) as [r en1] eqn:Rq.
  pose proof (ai_acc _ _ _ _ _ _ _ _ A) as AC.
  assert (L0 : own 0 = ONone) by (eapply acc_low; [exact AC|lia]).
  destruct (opreq_spec o Wo op Hop 0 own D [] en L x d 0 F G r en1 A R) as
    (own1 & D1 & A1 & R1 & X1 & Vr & _ & Dr & _ & Qo); auto; try lia.
  { rewrite L0; discriminate. }
  { intros d' j b Ob _. split; [simpl; tauto|]. intros ->. congruence. }
  pose proof (ai_acc _ _ _ _ _ _ _ _ A1) as AC1.
  assert (OX1 : forall b, own b = OX -> own1 b = OX).
  { intros b Ob. rewrite (x_own _ _ _ _ _ _ _ X1); rewrite Ob; auto; discriminate. }
  exists own1, D1. cbv zeta. split; [|split].
  - constructor.
    + apply AInv_putX; auto.
    + simpl. apply RC_putX; auto.
    + intros d' j b Ob. destruct (Qo _ _ _ Ob) as [E|[-> _]]; [|lia]. eauto.
    + intros d' j b Ob. assert (2 < b) by (apply (acc_rng _ _ _ AC1); congruence).
      destruct (freeish_dec (own b)) as [Fb|Fb]; [eapply (rc_x _ _ _ _ _ _ R); eauto|].
      destruct (Qo _ _ _ Ob) as [E|_]; [eauto|].
      assert (E : own1 b = own b).
      { apply (x_own _ _ _ _ _ _ _ X1); auto. }
      rewrite E in Ob. eauto.
  - constructor.
    + intros k e V. split; [exact (ext_vedge _ _ _ _ _ _ _ _ _ X1 V)|]. intros rho.
      exact (ext_dv _ _ _ _ _ _ _ _ _ rho X1 AC V).
    + auto.
    + intros b Ob Nb. simpl. rewrite upd_other by auto. apply (x_memX _ _ _ _ _ _ _ X1); auto.
    + apply nk_put; [rewrite OX1 by auto; discriminate|]. apply oext_nk. eapply ext_oext; eauto.
  - unfold Proc. simpl. rewrite upd_same. simpl. split; auto. split; auto. split; auto.
    intros rho. rewrite Dr, DF, DG. auto.
Qed.

Lemma list_fold_spec VL (P : N -> Prop) L x d : forall l own D en,
  IS own D L x (S d) en -> NoDup l ->
  (forall a, In a l -> own a = OX /\ ~ P a /\ cellok own D VL P (mem (st en)) a) ->
  (forall b, P b -> Proc own D (mem (st en)) VL d b) ->
  exists own' D', let en' := fold_left (list_insert1 o op d) l en in
    IS own' D' L x (S d) en' /\ lstep (fun b => In b l) own D en own' D' en' /\
    (forall a, In a l -> Proc own' D' (mem (st en')) VL (S d) a) /\
    (forall b, P b -> Proc own' D' (mem (st en')) VL d b).
Proof using Wo Hop.
  induction l as [|a l IH]; intros own D en Is ND HL HP.
  - exists own, D. simpl. split; auto. split; [apply lstep_refl|]. split; [tauto|auto].
  - inversion ND as [|? ? Na ND']; subst.
    destruct (HL a (or_introl eq_refl)) as (Oa & Pa & Ca).
    destruct (list_insert1_spec own D L x d en VL P a Is (is_q _ _ _ _ _ _ Is) Oa HP Ca) as (own1 & D1 & Is1 & S1 & Pr1).
    destruct (IH own1 D1 (list_insert1 o op d en a) Is1 ND') as (own2 & D2 & Is2 & S2 & Pr2 & PP2).
    + intros b Ib. destruct (HL b (or_intror Ib)) as (Ob & Pb & Cb). split; [eapply ls_x; eauto|]. split; auto.
      apply (cellok_step (fun c => c = a) own D en); auto. intros ->; auto.
    + intros b Pb. eapply Proc_step; [apply Nat.le_refl| |exact S1|auto]. intros ->; auto.
    + exists own2, D2. simpl. split; auto. split; [|split; auto].
      * eapply lstep_weaken; [|exact (lstep_trans _ _ _ _ _ _ _ _ _ _ _ S1 S2)]. simpl. intros b [->|H]; auto.
      * intros b [<-|Ib]; auto. eapply Proc_step; [apply Nat.le_refl| |exact S2|auto]. auto.
Qed.

Lemma IS_S own D L x d en : IS own D L x d en -> IS own D L x (S d) en.
Proof. intros [A R Q X]. constructor; auto. intros d' j b Ob. apply Q in Ob. lia. Qed.

Lemma list_insert_spec VL L x : forall lists (P : N -> Prop) d own D en,
  IS own D L x d en -> NoDup (concat lists) ->
  (forall a, In a (concat lists) -> own a = OX /\ ~ P a) -> LOK own D VL (mem (st en)) P lists ->
  (forall b, P b -> Proc own D (mem (st en)) VL d b) ->
  exists own' D', let en' := list_insert o op d lists en in
    IS own' D' L x (d + length lists) en' /\ lstep (fun b => In b (concat lists)) own D en own' D' en' /\
    (forall b, P b \/ In b (concat lists) -> Proc own' D' (mem (st en')) VL (d + length lists) b).
Proof using Wo Hop.
  induction lists as [|l ls IH]; intros P d own D en Is ND HO HK HP.
  - exists own, D. simpl. rewrite Nat.add_0_r. split; auto. split; [apply lstep_refl|]. intros b [H|[]]; auto.
  - simpl in ND, HK. destruct HK as [HK1 HK2].
    destruct (NoDup_app_inv' _ _ ND) as (ND1 & ND2 & Dis).
    destruct (list_fold_spec VL P L x d l own D en (IS_S _ _ _ _ _ _ Is) ND1) as (own1 & D1 & Is1 & S1 & Pr1 & PP1); auto.
    { intros a Ia. destruct (HO a) as [Oa Pa]; [simpl; apply in_app_iff; auto|]. auto. }
    destruct (IH (fun a => P a \/ In a l) (S d) own1 D1 _ Is1 ND2) as (own2 & D2 & Is2 & S2 & Pr2).
    + intros a Ia. destruct (HO a) as [Oa Pa]; [simpl; apply in_app_iff; auto|]. split; [eapply ls_x; eauto|].
      intros [H|H]; [auto|exact (Dis a H Ia)].
    + assert (G : forall lss (P : N -> Prop), (forall a, In a (concat lss) -> own a = OX /\ ~ In a l) ->
          LOK own D VL (mem (st en)) P lss -> LOK own1 D1 VL (mem (st (fold_left (list_insert1 o op d) l en))) P lss).
      { induction lss as [|l' lss IHl]; simpl; auto. intros P' Hd [H1 H2]. split.
        - intros a Ia. destruct (Hd a) as [O1 N1]; [apply in_app_iff; auto|].
          apply (cellok_step (fun b => In b l) own D en); auto.
        - apply IHl; auto. intros a Ia. apply Hd. apply in_app_iff; auto. }
      apply G; auto. intros a Ia. split; [apply HO; simpl; apply in_app_iff; auto|]. intros H. exact (Dis a H Ia).
    + intros b [Pb|Ib]; auto. destruct (PP1 b Pb) as (E1 & E2 & E3 & E4). split; auto. split; auto. split; auto.
      eapply vedge_lvl_mono; [|exact E3]. lia.
    + exists own2, D2. simpl. rewrite <- Nat.add_succ_comm. split; auto. split.
      * eapply lstep_weaken; [|exact (lstep_trans _ _ _ _ _ _ _ _ _ _ _ S1 S2)]. simpl. intros b [H|H]; apply in_app_iff; auto.
      * intros b [Pb|Ib]; apply Pr2; [auto|]. apply in_app_iff in Ib as [Ib|Ib]; auto.
Qed.

(** ** Reading the results *)

Definition fwdcell (m : memory) (c : cell) : cell := C (fwd m (ct c)) (ce c) (cr c).

Lemma list_forward_spec m0 : forall l en, NoDup l ->
  (forall a, In a l -> mem (st en) a = m0 a) ->
  (forall a, In a l -> fwd (mem (st en)) (ct (m0 a)) = fwd m0 (ct (m0 a)) /\ ~ In (eptr (ct (m0 a))) l) ->
  let en' := fold_left list_forward1 l en in
  (forall a, In a l -> mem (st en') a = fwdcell m0 (m0 a)) /\
  (forall a, ~ In a l -> mem (st en') a = mem (st en) a) /\
  ut (st en') = ut (st en) /\ que en' = que en /\ don en' = don en.
Proof.
  induction l as [|a l IH]; intros en ND M0 HF; cbn [fold_left].
  - simpl. tauto.
  - inversion ND as [|? ? Na ND']; subst.
    destruct (HF a (or_introl eq_refl)) as [Fa Ea].
    assert (Ma : mem (st en) a = m0 a) by (apply M0; now left).
    assert (E1 : forall b, mem (st (list_forward1 en a)) b = if b =? a then fwdcell m0 (m0 a) else mem (st en) b).
    { intros b. unfold list_forward1. simpl. unfold upd, fwdcell. destruct (b =? a); auto. rewrite Ma. now rewrite Fa. }
    destruct (IH (list_forward1 en a)) as (H1 & H2 & H3 & H4 & H5); auto.
    + intros b Ib. rewrite E1. destruct (N.eqb_spec b a); [congruence|]. apply M0. now right.
    + intros b Ib. destruct (HF b (or_intror Ib)) as [Fb Eb]. split.
      * rewrite <- Fb. unfold fwd. rewrite E1. destruct (N.eqb_spec (eptr (ct (m0 b))) a) as [E|_]; auto.
        exfalso. apply Eb. rewrite E. now left.
      * intros H. apply Eb. now right.
    + cbv zeta. rewrite H3, H4, H5. split; [|split].
      * intros b [<-|Ib]; auto. rewrite H2 by auto. rewrite E1, N.eqb_refl. auto.
      * intros b Nb. rewrite H2 by (intros H; apply Nb; now right). rewrite E1.
        destruct (N.eqb_spec b a) as [->|]; auto. destruct Nb; now left.
      * auto.
Qed.

Lemma RState_forward x S own D : forall l en, (forall a, In a l -> own a = OX) ->
  RState o kstd x S own D en -> RState o kstd x S own D (fold_left list_forward1 l en).
Proof.
  induction l as [|a l IH]; intros en HO RS; simpl; auto. apply IH.
  - intros b Ib. apply HO. now right.
  - unfold list_forward1. apply RState_putX; auto. apply HO. now left.
Qed.

Lemma free_spec x : forall l own D en L, NoDup l ->
  EInv o own D en -> RC own [] idn (mem (st en)) L x -> (forall a, In a l -> own a = OX /\ x a = 0) ->
  exists own', let en' := set_st en (fold_left (fun s a => free_node s 0 a) l (st en)) in
    EInv o own' D en' /\ RC own' [] idn (mem (st en')) L x /\ mem (st en') = mem (st en) /\
    ut (st en') = ut (st en) /\ (forall a, ~ In a l -> own' a = own a) /\ (forall a, In a l -> own' a = OFree 0).
Proof.
  induction l as [|a l IH]; intros own D en L ND I R HO; cbn [fold_left].
  - exists own. rewrite set_st_id. simpl. split; [exact I|]. split; auto. repeat split; auto. tauto.
  - inversion ND as [|? ? Na ND']; subst. destruct (HO a (or_introl eq_refl)) as [Oa Xa].
    destruct (EInv_free o own D en L x 0 a I R Oa Xa) as [I1 R1].
    destruct (IH _ D _ L ND' I1 R1) as (own' & I2 & R2 & M2 & U2 & O2 & O3).
    + intros b Ib. destruct (HO b (or_intror Ib)) as [Ob Xb]. split; auto. rewrite upd_other; auto. intros ->; auto.
    + exists own'. cbv zeta in *. simpl in *. split; [exact I2|]. split; [exact R2|]. split; [exact M2|]. split; [exact U2|].
      split.
      * intros b Nb. rewrite O2 by tauto. rewrite upd_other; auto.
      * intros b [<-|Ib]; auto. rewrite O2 by auto. apply upd_same.
Qed.

Lemma removelast_last {A} (l : list A) d : l <> [] -> l = removelast l ++ [List.last l d].
Proof. intros H. now apply app_removelast_last. Qed.

Definition nary (D : den) (es : list edge) (rho : N -> bool) : bool :=
  fold_right (fun e b => bsem op (dv D e rho) b) u es.

(** The array of lists of [CalRequestNodeListArrayOp]; [P] holds of cells that are already forwarded. *)
Lemma listArrayOp_spec VL (P : N -> Prop) lists own2 D en0 L x :
  EInv o own2 D en0 -> RC own2 [] idn (mem (st en0)) L x -> NoDup (concat lists) ->
  (forall a, In a (concat lists) -> own2 a = OX /\ ~ P a) ->
  LOK own2 D VL (mem (st en0)) P lists ->
  (forall b, P b -> Proc own2 D (mem (st en0)) VL 0 b) ->
  exists own6 D4, let en6 := listArrayOp enum o op en0 lists in
    EInv o own6 D4 en6 /\ (exists L6, RC own6 [] idn (mem (st en6)) L6 x) /\
    nodes_kept own2 D en0 own6 D4 en6 /\
    (forall b, own2 b = OX -> own6 b = OX) /\
    (forall b, own2 b = OX -> ~ In b (concat lists) -> mem (st en6) b = mem (st en0) b) /\
    forall b, P b \/ In b (concat lists) -> Proc own6 D4 (mem (st en6)) VL 0 b.
Proof using Wo enum_perm Hop.
  intros I2 R2 NDl HO LK2 HP0. set (s2 := st en0).
  (* insertion *)
  assert (Is0 : IS own2 D L x 0 en0).
  { constructor; auto.
    - now apply EInv_AInv.
    - intros d j b Ob. destruct (EInv_nq _ _ _ _ _ _ _ I2 Ob).
    - intros d j b Ob. destruct (EInv_nq _ _ _ _ _ _ _ I2 Ob). }
  destruct (list_insert_spec VL L x lists P 0 own2 D en0 Is0 NDl) as (own3 & D3 & Is3 & S3 & Pr3); auto.
  set (N0 := length lists) in *. change (0 + N0)%nat with N0 in *.
  set (en3 := list_insert o op 0 lists en0) in *.
  destruct Is3 as [A3 R3 Q3 X3].
  pose proof (ai_acc _ _ _ _ _ _ _ _ A3) as AC3.
  destruct (core_spec o Wo enum enum_perm (PendB o op) (PendB_ext o op) (bstep o op) (apply1_ok o Wo op Hop)
              N0 0 own3 D3 en3 L x A3 R3) as (own4 & D4 & S4 & RS4 & NQ4 & ND4 & X4 & F4); auto.
  { intros; lia. }
  { intros p a Op. destruct (ai_ind _ _ _ _ _ _ _ _ A3 p a Op) as [_ (d & j & E)].
    assert (a <> 0) by (assert (2 < a) by (apply (acc_rng _ _ _ AC3); congruence); lia).
    destruct (ai_que _ _ _ _ _ _ _ _ A3 d j a E) as [_ Hp]. destruct (Hp ltac:(assumption)) as [[[] _]|[_ Pd]].
    destruct (pb_ind _ _ _ _ _ _ _ _ Pd p Op). }
  cbv zeta in *. change (skipn 0 (ord o)) with (ord o) in *.
  change (sweep (stable (bstep o op) enum) (seq 0 N0) (ord o)) with (apply_all enum o op (seq 0 N0) (ord o)) in *.
  set (en4 := reduce_all enum (seq 0 N0) (ord o) (apply_all enum o op (seq 0 N0) (ord o) en3)) in *.
  assert (C4m : forall a, In a (concat lists) -> own4 a = OX /\ mem (st en4) a = mem (st en3) a).
  { intros a Ia. destruct (Pr3 a (or_intror Ia)) as (Oa & _). apply (ox_x _ _ _ _ _ _ X4); auto. }
  destruct (list_forward_spec (mem (st en4)) (concat lists) en4 NDl) as (W1 & W2 & W3 & W4 & W5); auto.
  { intros a Ia. split; auto. destruct (C4m a Ia) as [_ ->].
    destruct (Pr3 a (or_intror Ia)) as (_ & _ & Va & _). intros Hb.
    destruct (Pr3 _ (or_intror Hb)) as (Ob & _). destruct Va as [[_ E]|[_ [E|(d & _ & E)]]]; try congruence.
    rewrite E in Ob. rewrite (acc_one_none _ _ AC3) in Ob. discriminate. }
  assert (RS5 : RState o kstd x S4 own4 D4 (fold_left list_forward1 (concat lists) en4)).
  { apply RState_forward; auto. intros a Ia. now apply C4m. }
  set (en5 := fold_left list_forward1 (concat lists) en4) in *.
  destruct (cleanup_spec o kstd x S4 own4 D4 en5 (seq 0 N0) (ord o) RS5 NQ4) as (I6 & (L6 & R6) & M6 & U6 & _ & O6).
  { intros d j b Ob. destruct (ND4 _ _ _ Ob). split; auto. apply in_seq. lia. }
  cbv zeta in *. set (en6 := cleanup_all (seq 0 N0) (ord o) en5) in *. set (own6 := unDon own4 _) in *.
  exists own6, D4. cbv zeta. change (listArrayOp enum o op en0 lists) with en6.
  assert (Keep : forall b, own3 b = OX -> own6 b = OX /\ (~ In b (concat lists) -> mem (st en6) b = mem (st en3) b)).
  { intros b Ob. destruct (ox_x _ _ _ _ _ _ X4 b Ob) as [O4 E4]. split; [apply O6; auto; discriminate|].
    intros Nb. rewrite M6, W2 by auto. exact E4. }
  split; [exact I6|]. split; [exists L6; exact R6|]. split; [|split; [|split]].
  - eapply nk_trans; [exact (ls_n _ _ _ _ _ _ _ S3)|]. eapply nk_trans; [exact (oext_nk _ _ _ _ _ _ X4)|].
    assert (Nn : forall i a, own4 a = ONode i -> ~ In a (concat lists)).
    { intros i a Oa Ia. destruct (C4m a Ia). congruence. }
    constructor; auto.
    + intros i a Oa. split; [apply O6; auto; discriminate|]. unfold sameTE. rewrite M6, W2 by eauto. auto.
    + intros a Oa. apply O6 in Oa; auto; discriminate.
    + simpl in *. rewrite U6, W3. reflexivity.
  - intros b Ob. apply Keep. now apply (ls_x _ _ _ _ _ _ _ S3).
  - intros b Ob Nb. rewrite (proj2 (Keep b (ls_x _ _ _ _ _ _ _ S3 b Ob))) by auto. apply (ls_m _ _ _ _ _ _ _ S3); auto.
  - intros b Hb. destruct (Pr3 b Hb) as (O3 & E3 & V3 & Dv3). destruct (Keep b O3) as [O6b M6b].
    destruct (F4 _ V3) as [V5 D5].
    assert (Vn : vedge (lvl own6 0) (fwd (mem (st en4)) (ct (mem (st en3) b)))).
    { eapply vedge_lvl0; [exact (ei_acc _ _ _ _ I6)|]. apply (vnode_nodeR own6); [exact (ei_acc _ _ _ _ I6)|]. eapply vedge_mono; [|exact V5].
      intros i c _ Hc. unfold vnode in *. apply O6; auto; discriminate. }
    split; auto. destruct (in_dec N.eq_dec b (concat lists)) as [Ib|Nb].
    + rewrite M6, (W1 b Ib). destruct (C4m b Ib) as [_ E4]. unfold fwdcell. cbn [ct ce]. rewrite E4. split; auto. split; auto.
      intros rho. rewrite D5. auto.
    + destruct Hb as [Pb|]; [|tauto]. rewrite M6b by auto. split; auto.
      destruct (HP0 b Pb) as (Ob & _ & V0 & Dv0). rewrite <- (ls_m _ _ _ _ _ _ _ S3 b Ob Nb) in V0, Dv0.
      assert (V0' : vedge (nodeR (st en0)) (ct (mem (st en3) b))).
      { eapply vedge_mono; [|exact V0]. intros i c _ [H|(d' & H & _)]; [|lia]. now apply (acc_node _ _ _ _ (ei_acc _ _ _ _ I2)). }
      destruct (ls_v _ _ _ _ _ _ _ S3 _ _ V0) as [V1 E1].
      split.
      * eapply vedge_mono; [|exact V1]. intros i c _ [H|(d' & H & _)]; [|lia]. left.
        apply O6; auto; try discriminate. apply (ox_node _ _ _ _ _ _ X4). exact H.
      * intros rho. rewrite <- Dv3. unfold dv. rewrite (ox_D _ _ _ _ _ _ X4); auto.
        destruct V1 as [[_ E]|[_ [H|(d' & H & _)]]]; [auto|right; eauto|lia].
Qed.

Theorem multiwayOp_spec own D en L x es :
  EInv o own D en -> RC own [] idn (mem (st en)) L x ->
  (forall e, In e es -> vedge (nodeR (st en)) e) -> (2 <= length es)%nat -> N.of_nat (length es) <= 1024 ->
  exists r en' own' D', multiwayOp enum o op en es = Ok (r, en') /\
    EInv o own' D' en' /\ (exists L', RC own' [] idn (mem (st en')) L' x) /\
    nodes_kept own D en own' D' en' /\ vedge (nodeR (st en')) r /\
    forall rho, dv D' r rho = nary D es rho.
Proof using Wo enum_perm Hop op_unit op_assoc.
  intros I R V Len Len2. unfold multiwayOp.
  set (n := length es) in *. destruct (ceillog2_spec (N.of_nat n)) as [C1 C2]; [lia|].
  set (c := ceillog2 (N.of_nat n)) in *.
  assert (C3 : c <= 10) by (apply C2; exact Len2).
  assert (C4 : c <> 0) by (intros E; rewrite E in C1; simpl in C1; lia).
  destruct (Nat.ltb_spec 10 (N.to_nat c)); [lia|].
  destruct (N.to_nat c) as [|d'] eqn:Ed; [lia|].
  assert (Ec : c = N.of_nat (S d')) by lia.
  destruct (pair_leaves (st en) [] es) as [[s1 l0] last] eqn:Pl.
  destruct (more_lists d' s1 l0 last) as [s2 ls] eqn:Ml.
  pose proof (ei_acc _ _ _ _ I) as AC.
  set (VL0 := fun (_ : N) (_ : N -> bool) => false).
  assert (F0 : Forall2 (opd own D VL0 (fun _ => False)) es (map (dv D) es)).
  { clear - V AC. induction es as [|e es IH]; simpl; constructor.
    - left. split; auto. eapply vedge_lvl0; eauto. apply V. now left.
    - apply IH. intros e' I'. apply V. now right. }
  destruct (pair_spec _ _ own D en L x [] VL0 (fun _ => False) _ s1 l0 last (le_n _) I R F0 ltac:(intros ? []) Pl) as
    (own1 & VL1 & new & vl1 & E1 & I1 & R1 & New1 & ND1 & Old1 & Ut1 & Cok1 & Lst1 & Sum1 & Cnt1).
  rewrite app_nil_r in E1. subst l0.
  assert (NQ1 : forall d i a, own1 a <> OQue d i) by (intros d i a; eapply (EInv_nq o); eauto).
  destruct (more_spec d' own1 D (set_st en s1) L x VL1 (fun a => In a new) new last s2 ls vl1) as
    (own2 & VL & vl & I2 & R2 & New2 & ND2 & Old2 & Ut2 & LK & Lls & Cnt2 & Lv & Sum2 & Two); auto.
  { intros a Ia. now apply New1. }
  { destruct last as [e|]; simpl.
    - destruct Lst1 as (v & Ov & ->). constructor; auto. apply (opd_mono own1 D VL1 (fun _ => False)); auto. tauto.
    - subst vl1. constructor. }
  change (set_st (set_st en s1) s2) with (set_st en s2) in I2. simpl in Old2, Ut2.
  assert (Lvl1 : (length vl1 <= 1)%nat).
  { destruct last as [e|]; [destruct Lst1 as (v & _ & ->)|subst vl1]; simpl; lia. }
  (* the final list is a single cell *)
  assert (Pw : (1 * 2 ^ d' < n <= 2 * 2 ^ d')%nat).
  { pose proof (Nat2N_pow2 d') as Ep. rewrite Ec, Nat2N.inj_succ, N.pow_succ_r' in C1.
    assert (~ (N.of_nat n <= 2 ^ N.of_nat d')) by (intros Hb; apply C2 in Hb; lia). lia. }
  set (lists := new :: ls) in *.
  assert (Hc : (length new + length vl1 = chalf n)%nat) by (pose proof (chalf_bounds n); lia).
  assert (Cf : exists r, List.last lists [] = [r] /\ vl = []).
  { assert (Ct : (length (List.last lists []) + length vl = 1)%nat).
    { rewrite Cnt2, Hc. change (chalfs d' (chalf n)) with (chalfs (S d') n). apply chalfs_bounds. simpl. lia. }
    assert (Nz : length (List.last lists []) <> 0%nat).
    { destruct d' as [|k].
      - destruct ls; [|discriminate]. simpl. simpl in Pw. lia.
      - rewrite Hc in Two. change (chalfs k (chalf n)) with (chalfs (S k) n) in Two.
        rewrite (chalfs_bounds (S k) n 1 Pw) in Two. lia. }
    destruct (List.last lists []) as [|r [|? ?]]; simpl in *; try lia. exists r. destruct vl; simpl in *; auto. lia. }
  destruct Cf as (r & Lr & ->). rewrite Lr in *. simpl in Sum2.
  assert (Spl : concat lists = concat (removelast lists) ++ [r]).
  { rewrite (removelast_last lists []) at 1 by discriminate. rewrite concat_app, Lr. reflexivity. }
  assert (NN : forall a, In a new -> ~ In a (concat ls)).
  { intros a Ia Ia2. destruct (New2 a Ia2) as [Fa _]. destruct (New1 a Ia) as (_ & _ & _ & Oa). rewrite Oa in Fa. destruct (nf_ox Fa). }
  assert (All : forall a, In a (concat lists) -> freeish (own a) /\ 2 < a /\ x a = 0 /\ own2 a = OX).
  { intros a Ia. simpl in Ia. apply in_app_iff in Ia as [Ia|Ia].
    - destruct (New1 a Ia) as (Fa & La & Xa & Oa). destruct (Old2 a (NN a Ia)) as (-> & _). auto.
    - destruct (New2 a Ia) as (Fa & La & Xa & Oa). destruct (Old1 a) as (E & _); [intros Hn; exact (NN a Hn Ia)|].
      rewrite <- E. auto. }
  assert (NDl : NoDup (concat lists)) by (simpl; apply NoDup_app_iff'; auto).
  assert (Rest : forall a, ~ In a (concat lists) -> own2 a = own a /\ mem s2 a = mem (st en) a).
  { intros a Na. simpl in Na. rewrite in_app_iff in Na. destruct (Old2 a ltac:(tauto)) as (-> & -> & _).
    destruct (Old1 a ltac:(tauto)) as (-> & -> & _). auto. }
  assert (LK2 : LOK own2 D VL (mem s2) (fun _ => False) lists).
  { split.
    - intros a Ia. destruct (Cok1 a Ia) as (v & w & O1 & O2 & Ev). destruct (Old2 a (NN a Ia)) as (_ & Em & EV).
      exists v, w. rewrite Em, EV.
      assert (Mo : forall e v, opd own1 D VL1 (fun _ => False) e v -> opd own2 D VL (fun _ => False) e v).
      { intros e v'. apply opd_mono; auto; [|tauto].
        intros i b Ob. destruct (Old2 b) as (-> & _); auto. intros Ib. destruct (New2 b Ib) as [Fb _].
        rewrite Ob in Fb. destruct (nf_node _ Fb). }
      auto.
    - assert (G : forall lss (P P' : N -> Prop), (forall a, P a -> P' a) ->
          LOK own2 D VL (mem s2) P lss -> LOK own2 D VL (mem s2) P' lss).
      { induction lss as [|l lss IHl]; simpl; auto. intros P P' HPP [H1 H2]. split.
        - intros a Ia. destruct (H1 a Ia) as (v & w & O1 & O2 & Ev). exists v, w.
          assert (Mo : forall e v, opd own2 D VL P e v -> opd own2 D VL P' e v).
          { intros e v' [H3|(H3 & H4)]; [left|right]; auto. }
          auto.
        - eapply IHl; [|exact H2]. simpl. intros a [H3|H3]; auto. }
      eapply G; [|exact LK]. simpl. auto. }
  assert (NK1 : nodes_kept own D en own2 D (set_st en s2)).
  { assert (Nn : forall i a, own a = ONode i -> ~ In a (concat lists)).
    { intros i a Oa Ia. destruct (All a Ia) as [Fa _]. rewrite Oa in Fa. destruct (nf_node _ Fa). }
    constructor; auto.
    - intros i a Oa. destruct (Rest a (Nn i a Oa)) as [-> Em]. split; auto. unfold sameTE. simpl. rewrite Em. auto.
    - intros a Oa. destruct (Rest a) as [<- _]; auto. intros Ia. destruct (All a Ia) as (_ & _ & _ & Ox). congruence.
    - simpl. rewrite Ut2. apply Ut1. }
  assert (Fx : forall a, In a (concat lists) -> own2 a = OX /\ ~ False) by (intros a Ia; split; [now apply All|tauto]).
  destruct (listArrayOp_spec VL (fun _ => False) lists own2 D (set_st en s2) L x I2 R2 NDl Fx LK2 ltac:(intros ? [])) as
    (own6 & D4 & I6 & (L6 & R6) & NK6 & _ & _ & Pr6).
  cbv zeta in *. set (en6 := listArrayOp enum o op (set_st en s2) lists) in *.
  assert (Res : forall a, In a (concat lists) -> own6 a = OX /\
     vedge (nodeR (st en6)) (ct (mem (st en6) a)) /\ forall rho, dv D4 (ct (mem (st en6) a)) rho = VL a rho).
  { intros a Ia. destruct (Pr6 a (or_intror Ia)) as (O6 & _ & V6 & Dv6). split; auto. split; auto.
    eapply vedge_mono; [|exact V6]. intros i cc _ [Hcc|(dd & Hcc & _)]; [|lia]. now apply (acc_node _ _ _ _ (ei_acc _ _ _ _ I6)). }
  destruct (free_spec x (concat lists) own6 D4 en6 L6 NDl I6 R6) as (own7 & I7 & R7 & M7 & U7 & O7 & O7').
  { intros a Ia. split; [now apply Res|]. now apply All. }
  cbv zeta in *.
  assert (Ir : In r (concat lists)) by (rewrite Spl; apply in_app_iff; right; now left).
  destruct (Res r Ir) as (Or & Vr & Dr).
  exists (ct (mem (st en6) r)), (set_st en6 (fold_left (fun s a => free_node s 0 a) (concat lists) (st en6))), own7, D4.
  split; [|split; [exact I7|split; [exists L6; exact R7|split; [|split]]]].
  - rewrite Spl, fold_left_app. reflexivity.
  - eapply nk_trans; [exact NK1|]. eapply nk_trans; [exact NK6|].
    assert (Nn : forall i a, own6 a = ONode i -> ~ In a (concat lists)).
    { intros i a Oa Ia. destruct (Res a Ia). congruence. }
    constructor; auto.
    + intros i a Oa. split.
      * rewrite O7 by eauto. auto.
      * unfold sameTE. rewrite M7. auto.
    + intros a Oa. destruct (in_dec N.eq_dec a (concat lists)) as [Ia|Ia].
      * rewrite O7' in Oa by auto. discriminate.
      * rewrite O7 in Oa by auto. exact Oa.
    + simpl in *. now rewrite U7.
  - simpl in *. unfold nodeR in *. now rewrite U7.
  - intros rho. rewrite Dr. pose proof (Sum2 rho) as Hs. simpl in Hs. rewrite (bo_comm op Hop), op_unit in Hs.
    change (fold_right (fun v b => bsem op (v rho) b) u) with (fun l => bsum l rho) in Hs. cbv beta in Hs.
    rewrite Hs, Sum1. unfold nary, bsum. clear. induction es as [|e es IH]; simpl; auto. now rewrite IH.
Qed.

Theorem multiwayOp_fatal en es : 1024 < N.of_nat (length es) -> multiwayOp enum o op en es = Fatal.
Proof.
  intros H. unfold multiwayOp. destruct (ceillog2_spec (N.of_nat (length es))) as [C1 C2]; [lia|].
  set (c := ceillog2 _) in *. destruct (Nat.ltb_spec 10 (N.to_nat c)); auto. exfalso.
  assert (2 ^ c <= 2 ^ 10) by (apply N.pow_le_mono_r; lia). change (2 ^ 10) with 1024 in *. lia.
Qed.
End Multi.
