(** * Reduce phase: expanded requests become nodes or forwarding pointers. *)
From Coq Require Import Permutation.
From Verif Require Import Base BFModel StoreInv Own EngInv ApplyProof BinopProof.

Definition vnode (own : N -> tag) : N -> N -> Prop := fun i a => own a = ONode i.
Definition RL (own : N -> tag) : N -> N -> Prop :=
  fun i a => own a = ONode i \/ (exists d, own a = OQue d i) \/ exists d, own a = ODon d i.

Record RAppliedC (o : order) (k : kind) (own : N -> tag) (D : den) (m : memory) (d : nat) (i a : N) : Prop := {
  ra_t : isnul (ct (m a)) = false -> vedge (RL own) (ct (m a)) /\ gt_idx o i (ct (m a));
  ra_e : isnul (ce (m a)) = false -> vedge (RL own) (ce (m a)) /\ gt_idx o i (ce (m a));
  ra_n : isnul (ct (m a)) = false \/ (knl k = true /\ isnul (ce (m a)) = false);
  ra_n' : isnul (ce (m a)) = false \/ (knl k = true /\ isnul (ct (m a)) = false);
  ra_D : forall rho, D a rho = comb k D d i rho (ct (m a)) (ce (m a))
}.
Record RAppliedU (o : order) (k : kind) (own : N -> tag) (D : den) (m : memory) (d : nat) (i a : N) : Prop := {
  rau_t : vedge (RL own) (ct (m a));
  rau_i : gt_idx o i (ct (m a));
  rau_D : exists v, kel k own D m i (ce (m a)) v /\ forall rho, D a rho = kcb k d i rho (dv D (ct (m a))) v
}.
Definition RApplied (o : order) (k : kind) (own : N -> tag) (D : den) (m : memory) (d : nat) (i a : N) : Prop :=
  if kun k d i then RAppliedU o k own D m d i a else RAppliedC o k own D m d i a.

Record Done (o : order) (k : kind) (own : N -> tag) (D : den) (m : memory) (i a : N) : Prop := {
  dn_f : eptr (ce (m a)) = 0;
  dn_t : vedge (vnode own) (ct (m a));
  dn_i : kix k = true -> idx o i <= idx o (eid (ct (m a)));
  dn_D : forall rho, D a rho = dv D (ct (m a)) rho
}.

Record RInv (o : order) (k : kind) (own : N -> tag) (D : den) (en : eng) : Prop := {
  ri_acc : EAcc own en;
  ri_swf : SWF o (st en);
  ri_dok : Dok D (st en);
  ri_que : forall d i a, own a = OQue d i -> In i (ord o) /\ RApplied o k own D (mem (st en)) d i a;
  ri_don : forall d i a, own a = ODon d i -> In i (ord o) /\ Done o k own D (mem (st en)) i a;
  ri_ind : forall p a, own p <> OInd a
}.

(** Link between the ghost target map and the forwarding pointers. *)
Definition rs_ok (own : N -> tag) (m : memory) (rs : N -> N) : Prop :=
  (forall a d i, own a = ODon d i -> rs a = eptr (ct (m a))) /\
  (forall a, a <= NUL \/ counted own a -> rs a = a).

Record rext (own : N -> tag) (D : den) (en : eng) (own' : N -> tag) (D' : den) (en' : eng) : Prop := {
  rx_node : forall i a, own a = ONode i -> own' a = ONode i /\ sameTE (mem (st en)) (mem (st en')) a;
  rx_x : forall a, own a = OX -> own' a = OX /\ mem (st en') a = mem (st en) a;
  rx_RL : forall i a, RL own i a -> RL own' i a;
  rx_D : forall a rho, a = ONE \/ (exists i, RL own i a) -> D' a rho = D a rho;
  rx_don : forall d i a, own a = ODon d i -> own' a = ODon d i /\ sameTE (mem (st en)) (mem (st en')) a;
  rx_que : forall d i a, own' a = OQue d i -> own a = OQue d i /\ sameTE (mem (st en)) (mem (st en')) a;
  rx_user : forall a, own' a = ONode 0 -> own a = ONode 0;
  rx_ut0 : ut (st en') 0 = ut (st en) 0;
  rx_donq : forall d i a, own' a = ODon d i -> own a = ODon d i \/ own a = OQue d i;
  rx_low : forall a, a <= 2 -> sameTE (mem (st en)) (mem (st en')) a
}.

Lemma rext_refl own D en : rext own D en own D en.
Proof. constructor; auto; intros; split; auto; split; auto. Qed.

Lemma rext_trans own D en own1 D1 en1 own2 D2 en2 :
  rext own D en own1 D1 en1 -> rext own1 D1 en1 own2 D2 en2 -> rext own D en own2 D2 en2.
Proof.
  intros X Y. constructor.
  - intros i a H. destruct (rx_node _ _ _ _ _ _ X i a H) as [H1 [T1 E1]].
    destruct (rx_node _ _ _ _ _ _ Y i a H1) as [H2 [T2 E2]]. split; auto. split; congruence.
  - intros a H. destruct (rx_x _ _ _ _ _ _ X a H) as [H1 E1].
    destruct (rx_x _ _ _ _ _ _ Y a H1) as [H2 E2]. split; congruence.
  - intros i a H. eapply (rx_RL _ _ _ _ _ _ Y). eapply (rx_RL _ _ _ _ _ _ X); auto.
  - intros a rho H. rewrite (rx_D _ _ _ _ _ _ Y).
    + apply (rx_D _ _ _ _ _ _ X); auto.
    + destruct H as [H|[i H]]; auto. right. exists i. eapply (rx_RL _ _ _ _ _ _ X); auto.
  - intros d i a H. destruct (rx_don _ _ _ _ _ _ X d i a H) as [H1 [T1 E1]].
    destruct (rx_don _ _ _ _ _ _ Y d i a H1) as [H2 [T2 E2]]. split; auto. split; congruence.
  - intros d i a H. destruct (rx_que _ _ _ _ _ _ Y d i a H) as [H1 [T1 E1]].
    destruct (rx_que _ _ _ _ _ _ X d i a H1) as [H2 [T2 E2]]. split; auto. split; congruence.
  - intros a H. eapply (rx_user _ _ _ _ _ _ X). eapply (rx_user _ _ _ _ _ _ Y); auto.
  - rewrite (rx_ut0 _ _ _ _ _ _ Y). apply (rx_ut0 _ _ _ _ _ _ X).
  - intros d i a H. destruct (rx_donq _ _ _ _ _ _ Y d i a H) as [H1|H1].
    + apply (rx_donq _ _ _ _ _ _ X); auto.
    + right. apply (rx_que _ _ _ _ _ _ X); auto.
  - intros a La. destruct (rx_low _ _ _ _ _ _ X a La), (rx_low _ _ _ _ _ _ Y a La). split; congruence.
Qed.

(** ** Counting lemmas *)

Lemma occ_redirect rs m a tp b : forall L,
  (forall c, In c L -> (eptr (ct (m c)) <> a -> rs (eptr (ct (m c))) <> a) /\
                       (eptr (ce (m c)) <> a -> rs (eptr (ce (m c))) <> a)) ->
  rs a = a -> b <> a ->
  occ (upd rs a tp) m L b = occ rs m L b + b2n (tp =? b) * occ rs m L a.
Proof.
  intros L H Ra Nb. induction L as [|c L IH]; simpl; [lia|].
  rewrite IH by (intros; apply H; now right).
  assert (P : forall p, (p <> a -> rs p <> a) ->
     b2n (upd rs a tp p =? b) = b2n (rs p =? b) + b2n (tp =? b) * b2n (rs p =? a)).
  { intros p Hp. unfold upd. destruct (N.eqb_spec p a) as [->|Np].
    - rewrite Ra, N.eqb_refl. destruct (N.eqb_spec a b); [congruence|]. simpl b2n. lia.
    - specialize (Hp Np). destruct (N.eqb_spec (rs p) a); [congruence|]. simpl b2n. lia. }
  destruct (H c (or_introl eq_refl)) as [H1 H2].
  unfold wt. rewrite !P by auto. lia.
Qed.

Lemma occ_wt rs m L a b : In a L -> wt rs m b a <= occ rs m L b.
Proof. induction L as [|c L IH]; simpl; [tauto|]. intros [->|H]; [lia|]. specialize (IH H). lia. Qed.

Lemma occ_rs_ext rs rs' m L b :
  (forall c, In c L -> rs' (eptr (ct (m c))) = rs (eptr (ct (m c))) /\ rs' (eptr (ce (m c))) = rs (eptr (ce (m c)))) ->
  occ rs' m L b = occ rs m L b.
Proof.
  induction L as [|c L IH]; simpl; intros H; auto. rewrite IH by auto.
  destruct (H c (or_introl eq_refl)) as [H1 H2]. unfold wt. now rewrite H1, H2.
Qed.

(** [L1] is [L] without [a]. *)
Definition less (L : list N) (a : N) (L1 : list N) : Prop := NoDup L1 /\ forall c, In c L1 <-> In c L /\ c <> a.

Lemma less_perm L a L1 : NoDup L -> Permutation L (a :: L1) -> less L a L1.
Proof.
  intros N0 P. assert (ND : NoDup (a :: L1)) by (eapply Permutation_NoDup; eauto).
  inversion ND as [|? ? Na1 ND1]; subst. split; auto. intros c. split.
  - intros Ic. split; [|now intros ->]. eapply Permutation_in; [symmetry; exact P|]. now right.
  - intros [Ic Nc]. eapply Permutation_in in Ic; [|exact P]. destruct Ic; congruence.
Qed.

Section RCfwd.
Variable q : nat -> N -> bool.
Local Notation RC := (RCq q).
Variables (own own' : N -> tag) (S : list N) (rs : N -> N) (m m' : memory) (L L1 : list N) (x : N -> N).
Variables (a : N) (d : nat) (i : N) (tp : N).
Hypothesis R : RC own S rs m L x.
Hypothesis Oa : own a = OQue d i.
Hypothesis PL : less L a L1.
Hypothesis Oa' : own' a = ODon d i.
Hypothesis Ob : forall b, b <> a -> own' b = own b.
Hypothesis Mb : forall b, b <> a -> sameTE m m' b.
Hypothesis Ra : rs a = a.
Hypothesis Rp : forall p, tgt own p -> p <> a -> rs p <> a.
Hypothesis Cnt : forall b, counted own b -> b <> a ->
   cr (m' b) <= MAXREF /\
   (cr (m b) = MAXREF -> cr (m' b) = MAXREF) /\
   (cr (m b) = occ rs m L b + x b ->
    cr (m' b) = MAXREF \/ cr (m' b) = occ rs m L1 b + b2n (tp =? b) * occ rs m L1 a + x b).

Lemma RC_fwd : RC own' S (upd rs a tp) m' L1 x.
Proof using R Oa PL Oa' Ob Mb Ra Rp Cnt.
  destruct R as [B1 B2 B3 B4 B5 B6].
  destruct PL as [ND1 PI].
  assert (In1 : forall c, In c L1 -> In c L) by (intros c Ic; now apply PI).
  assert (Cb : forall b, counted own' b -> b <> a /\ counted own b).
  { intros b [(j & E)|(e & j & E)]; (destruct (N.eq_dec b a) as [->|Nb]; [congruence|]; rewrite Ob in E by auto; split; auto; unfold counted; eauto). }
  assert (T : forall p, tgt own p -> tgt own' p).
  { intros p Tp. destruct (N.eq_dec p a) as [->|Np].
    - right; right. exists d, i. exact Oa'.
    - unfold tgt, counted. rewrite Ob by auto. exact Tp. }
  assert (Nc : forall c, In c L1 -> c <> a) by (intros c Ic; now apply PI).
  constructor; auto.
  - intros c. split.
    + intros Ic. pose proof (Nc c Ic). rewrite Ob by auto. apply B2. auto.
    + intros Hc. assert (c <> a).
      { intros ->. rewrite Oa' in Hc. destruct Hc as [(? & ?)|(? & ? & ? & ?)]; discriminate. }
      rewrite Ob in Hc by auto. apply B2 in Hc. now apply PI.
  - intros c Ic. destruct (Mb c (Nc c Ic)) as [-> ->]. destruct (B3 c (In1 c Ic)). auto.
  - intros b Hb. destruct (Cb b Hb) as [Nb Hb']. destruct (Cnt b Hb' Nb) as (C1 & C2 & C3).
    rewrite (occ_frame _ m m') by (intros c Ic; apply Mb; auto).
    rewrite occ_redirect; auto.
    + destruct (B4 b Hb') as [E|E]; auto.
    + intros c Ic. destruct (B3 c (In1 c Ic)). split; intros; apply Rp; auto.
  - intros b Hb. destruct (Cb b Hb) as [Nb Hb']. apply Cnt; auto.
  - intros b Lb Fb. destruct (N.eq_dec b a) as [->|Nb].
    + rewrite Oa' in Fb. destruct (nf_don _ _ Fb).
    + rewrite Ob in Fb by auto. auto.
Qed.
End RCfwd.

Lemma sameTE_refl m a : sameTE m m a.
Proof. split; auto. Qed.
Lemma sameTE_dcr s r a : sameTE (mem s) (mem (dcr s r)) a.
Proof. unfold sameTE, dcr, put; simpl. unfold upd. destruct (N.eqb_spec a (eptr r)); subst; auto. Qed.
Lemma sameTE_addref s r k a : sameTE (mem s) (mem (addref s r k)) a.
Proof. unfold sameTE, addref, put; simpl. unfold upd. destruct (N.eqb_spec a (eptr r)); subst; auto. Qed.
Lemma cr_dcr s r a : cr (mem (dcr s r) a) = if a =? eptr r then rc_dcr (cr (mem s a)) else cr (mem s a).
Proof. unfold dcr, put; simpl. unfold upd. destruct (N.eqb_spec a (eptr r)); subst; auto. Qed.
Lemma cr_addref s r k a : cr (mem (addref s r k) a) = if a =? eptr r then rc_add (cr (mem s a)) k else cr (mem s a).
Proof. unfold addref, put; simpl. unfold upd. destruct (N.eqb_spec a (eptr r)); subst; auto. Qed.
Lemma sameTE_trans m1 m2 m3 a : sameTE m1 m2 a -> sameTE m2 m3 a -> sameTE m1 m3 a.
Proof. unfold sameTE. intuition congruence. Qed.

Lemma rc_add_spec n k : n <= MAXREF -> (-2 <= k <= 255)%Z -> (0 <= Z.of_N n + k)%Z ->
  rc_add n k = if n =? MAXREF then MAXREF else Z.to_N (Z.min 255 (Z.of_N n + k)).
Proof.
  intros Hn Hk H0. unfold rc_add, MAXREF in *.
  destruct (N.ltb_spec n 255), (N.eqb_spec n 255); try lia.
  rewrite Z.mod_small by lia.
  destruct (N.ltb_spec 255 (Z.to_N (Z.of_N n + k))); lia.
Qed.

(** ** One request *)
Section Reduce.
Variable o : order.
Hypothesis Wo : wfo o.
Variable k : kind.
Local Notation RC := (RCq (kun k)).

Lemma vnode_nodeR own en e : EAcc own en -> (vedge (vnode own) e <-> vedge (nodeR (st en)) e).
Proof.
  intros A. split; apply vedge_mono; intros j b _ H.
  - now apply (acc_node _ _ _ _ A).
  - now apply (acc_node _ _ _ _ A) in H.
Qed.

Lemma vnode_RL own e : vedge (vnode own) e -> vedge (RL own) e.
Proof. apply vedge_mono. intros j b _ H. now left. Qed.

(** Following the forwarding pointer of an edge whose level is finished. *)
Lemma fwd_spec own D en rs i e :
  RInv o k own D en -> rs_ok own (mem (st en)) rs -> vedge (RL own) e -> gt_idx o i e ->
  (forall d j b, own b = OQue d j -> idx o j <= idx o i) ->
  let t := fwd (mem (st en)) e in
  vedge (vnode own) t /\ (kix k = true -> gt_idx o i t) /\ (forall rho, dv D t rho = dv D e rho) /\ eptr t = rs (eptr e).
Proof.
  intros I [Rd Rc] V Gi Low t. pose proof (ri_acc _ _ _ _ _ I) as A.
  assert (Node : vedge (vnode own) e -> fwd (mem (st en)) e = e).
  { intros Vn. eapply fwd_valid; [exact (ri_swf _ _ _ _ _ I)|]. now apply (vnode_nodeR _ _ _ A). }
  destruct V as [[E P]|[N0 [H|[(d & H)|(d & H)]]]].
  - assert (Vn : vedge (vnode own) e) by (left; auto). unfold t. rewrite (Node Vn).
    repeat split; auto. rewrite P, Rc; auto.
  - assert (Vn : vedge (vnode own) e) by (right; auto). unfold t. rewrite (Node Vn).
    repeat split; auto. rewrite Rc; auto. right. left. eauto.
  - specialize (Low _ _ _ H). unfold gt_idx in Gi. lia.
  - destruct (ri_don _ _ _ _ _ I _ _ _ H) as [_ [F1 F2 F3 F4]].
    unfold t, fwd. rewrite F1. simpl. split; [|split; [|split]].
    + now apply vedge_ephase.
    + intros Kx. specialize (F3 Kx). unfold gt_idx in *. simpl. lia.
    + intros rho. rewrite dv_ephase. unfold dv at 2. now rewrite F4.
    + simpl. symmetry. eapply Rd; eauto.
Qed.

Lemma ulookup_spec own D en i t e r :
  RInv o k own D en -> i <> 0 -> vedge (nodeR (st en)) t -> vedge (nodeR (st en)) e -> ulookup (st en) i t e = Some r ->
  eid r = i /\ In (eptr r) (ut (st en) i) /\
  forall rho, dv D r rho = if rho i then dv D t rho else dv D e rho.
Proof.
  intros I N0 Vt Ve. unfold ulookup.
  assert (K : forall t e a, tfind (mem (st en)) (ut (st en) i) t e = Some a ->
     In a (ut (st en) i) /\ forall rho, D a rho = if rho i then dv D t rho else dv D e rho).
  { intros t' e' a T. apply tfind_some in T as (Ia & E1 & E2). split; auto. intros rho.
    rewrite (dok_node _ _ (ri_dok _ _ _ _ _ I) i a rho N0 Ia).
    now rewrite (dv_eeq D t' _ _ E1), (dv_eeq D e' _ _ E2). }
  destruct (eneg t).
  - destruct (tfind _ _ (enot t) (enot e)) as [a|] eqn:T; [|discriminate]. intros [= <-].
    destruct (K _ _ _ T) as [Ia HD]. simpl. split; auto. split; auto. intros rho. unfold dv at 1; simpl.
    rewrite HD, !dv_enot. destruct (rho i); destruct (dv D _ rho); auto.
  - destruct (tfind _ _ t e) as [a|] eqn:T; [|discriminate]. intros [= <-].
    destruct (K _ _ _ T) as [Ia HD]. simpl. split; auto. split; auto. intros rho. unfold dv at 1; simpl.
    rewrite HD. now destruct (rho i), (dv D t rho), (dv D e rho).
Qed.

Lemma eeq_sym a b : eeq a b = eeq b a.
Proof. unfold eeq. rewrite N.eqb_sym. f_equal. destruct (eneg a), (eneg b); auto. Qed.

(** Adding a node keeps the store well-formed. *)
Lemma SWF_add s s' i b t e :
  SWF o s -> i <> 0 -> In i (ord o) -> 2 < b -> (forall j, ~ In b (ut s j)) ->
  vedge (nodeR s) t -> vedge (nodeR s) e -> gt_idx o i t -> gt_idx o i e ->
  eneg t = false -> eeq t e = false ->
  tfind (mem s) (ut s i) t e = None ->
  (forall j, ut s' j = if j =? i then b :: ut s i else ut s j) ->
  ct (mem s' b) = t -> ce (mem s' b) = e ->
  (forall j c, In c (ut s j) -> sameTE (mem s) (mem s') c) ->
  sameTE (mem s) (mem s') ONE -> cr (mem s' ONE) = MAXREF ->
  SWF o s'.
Proof.
  intros W N0 Ii Lb Nb Vt Ve Gt Ge Ps Rd Tf U Mt Me Ms S1 Rc.
  assert (Inc : forall j c, In c (ut s j) -> In c (ut s' j)).
  { intros j c Ic. rewrite U. destruct (N.eqb_spec j i); subst; auto. now right. }
  assert (Inv : forall j c, In c (ut s' j) -> In c (ut s j) \/ (c = b /\ j = i)).
  { intros j c Ic. rewrite U in Ic. destruct (N.eqb_spec j i); subst; auto. destruct Ic; auto. }
  assert (V : forall z, vedge (nodeR s) z -> vedge (nodeR s') z).
  { intros z. apply vedge_mono. intros j c _. apply Inc. }
  constructor.
  - intros j c Nj Ic. destruct (Inv _ _ Ic) as [Hc|[-> ->]].
    + destruct (Ms _ _ Hc) as [E1 E2]. destruct (swf_node o s W j c Nj Hc) as [B1 B2 B3 B4 B5 B6 B7].
      constructor; rewrite ?E1, ?E2; auto.
    + constructor; rewrite ?Mt, ?Me; auto.
  - intros c Ic. destruct (Inv _ _ Ic) as [Hc|[-> E]]; [|congruence].
    destruct (Ms _ _ Hc) as [-> ->]. destruct (swf_user o s W c Hc) as (V1 & V2 & V3). auto.
  - intros j c c' Ic Ic' E1 E2.
    assert (Fd : forall c, In c (ut s i) -> eeq t (ct (mem s c)) = true -> eeq e (ce (mem s c)) = true -> False).
    { intros q Hk K1 K2. unfold tfind in Tf. pose proof (find_none _ _ Tf q Hk) as F. simpl in F.
      rewrite K1, K2 in F. discriminate. }
    destruct (Inv _ _ Ic) as [Hc|[-> ->]], (Inv _ _ Ic') as [Hc'|[-> E]]; auto.
    + destruct (Ms _ _ Hc) as [A1 A2], (Ms _ _ Hc') as [A3 A4]. rewrite A1, A3 in E1. rewrite A2, A4 in E2.
      eapply (swf_uniq o s W); eauto.
    + subst j. exfalso. destruct (Ms _ _ Hc) as [A1 A2]. rewrite A1, Mt, eeq_sym in E1. rewrite A2, Me, eeq_sym in E2. eauto.
    + exfalso. destruct (Ms _ _ Hc') as [A1 A2]. rewrite A1, Mt in E1. rewrite A2, Me in E2. eauto.
  - intros j q c Ic Ic'. destruct (Inv _ _ Ic) as [Hc|[-> ->]], (Inv _ _ Ic') as [Hc'|[E ->]]; subst; auto.
    + eapply (swf_disj o s W); eauto.
    + destruct (Nb _ Hc).
    + destruct (Nb _ Hc').
  - intros j c Ic. destruct (Inv _ _ Ic) as [Hc|[-> _]]; auto. eapply (swf_addr o s W); eauto.
  - destruct S1 as [_ ->]. apply (swf_one o s W).
  - auto.
Qed.

Lemma RInv_perm own D en d i l : RInv o k own D en -> Permutation l (que en d i) -> RInv o k own D (set_que en d i l).
Proof.
  intros [A W DK Q DN NI] P. constructor; auto.
  unfold EAcc. eapply acc_perm; [exact A|]. intros t _. destruct t; simpl; auto.
  unfold upd2. destruct (Nat.eqb_spec d0 d), (N.eqb_spec i0 i); simpl; subst; auto.
Qed.

Lemma RL_vedge own D en own' D' en' e : rext own D en own' D' en' -> vedge (RL own) e -> vedge (RL own') e.
Proof. intros X. apply vedge_mono. intros j b _. apply (rx_RL _ _ _ _ _ _ X). Qed.
Lemma vnode_vedge own D en own' D' en' e : rext own D en own' D' en' -> vedge (vnode own) e -> vedge (vnode own') e.
Proof. intros X. apply vedge_mono. intros j b _ H. now apply (rx_node _ _ _ _ _ _ X). Qed.
Lemma RL_dv own D en own' D' en' e rho : rext own D en own' D' en' -> vedge (RL own) e -> dv D' e rho = dv D e rho.
Proof.
  intros X V. unfold dv. f_equal. apply (rx_D _ _ _ _ _ _ X). destruct V as [[_ P]|[_ P]]; eauto.
Qed.

Lemma rext_wext own D en own' D' en' : rext own D en own' D' en' -> wext own D (mem (st en)) own' D' (mem (st en')).
Proof.
  intros X. split; [|split].
  - intros i a Oa. destruct (rx_node _ _ _ _ _ _ X _ _ Oa) as [E1 E2]. split; auto. split; auto.
    intros rho. apply (rx_D _ _ _ _ _ _ X). right. exists i. now left.
  - intros a Oa. exact (rx_x _ _ _ _ _ _ X _ Oa).
  - intros rho. apply (rx_D _ _ _ _ _ _ X). now left.
Qed.

Lemma RInv_step own D en own' D' en' :
  RInv o k own D en -> rext own D en own' D' en' -> EAcc own' en' -> SWF o (st en') -> Dok D' (st en') ->
  (forall d j b, own' b = ODon d j -> own b = ODon d j \/ (In j (ord o) /\ Done o k own' D' (mem (st en')) j b)) ->
  (forall p a, own' p <> OInd a) -> RInv o k own' D' en'.
Proof.
  intros I X A' W' D'' HD NI. constructor; auto.
  - intros d i a Oa'. destruct (rx_que _ _ _ _ _ _ X d i a Oa') as [Oa [Et Ee]].
    destruct (ri_que _ _ _ _ _ I _ _ _ Oa) as [Ii Ap]. split; auto. unfold RApplied in *.
    assert (Da : forall rho, D' a rho = D a rho) by (intros rho; apply (rx_D _ _ _ _ _ _ X); right; exists i; right; left; eauto).
    destruct (kun k d i).
    { destruct Ap as [B1 B2 (v & B3 & B4)]. constructor; rewrite ?Et, ?Ee; auto; [exact (RL_vedge _ _ _ _ _ _ _ X B1)|].
      exists v. split; [eapply kel_ext; [eapply rext_wext; eauto|exact B3]|]. intros rho. rewrite Da, B4. symmetry. apply kcb_ext; auto.
      intros r. exact (RL_dv _ _ _ _ _ _ _ r X B1). }
    destruct Ap as [B1 B2 B3 B4 B5].
    constructor; rewrite ?Et, ?Ee; auto.
    + intros Nt. destruct (B1 Nt) as [V G]. split; auto. exact (RL_vedge _ _ _ _ _ _ _ X V).
    + intros Nt. destruct (B2 Nt) as [V G]. split; auto. exact (RL_vedge _ _ _ _ _ _ _ X V).
    + intros rho. rewrite Da, B5. symmetry. apply comb_eq.
      * intros Nt. exact (fun r => RL_dv _ _ _ _ _ _ _ r X (proj1 (B1 Nt))).
      * intros Nt. exact (fun r => RL_dv _ _ _ _ _ _ _ r X (proj1 (B2 Nt))).
      * tauto.
  - intros d i a Oa'. destruct (HD d i a Oa') as [Oa|]; auto.
    destruct (ri_don _ _ _ _ _ I _ _ _ Oa) as [Ii [B1 B2 B3 B4]]. split; auto.
    destruct (rx_don _ _ _ _ _ _ X d i a Oa) as [_ [Et Ee]].
    constructor; rewrite ?Et, ?Ee; auto.
    + exact (vnode_vedge _ _ _ _ _ _ _ X B2).
    + intros rho. rewrite (rx_D _ _ _ _ _ _ X) by (right; exists i; right; right; eauto).
      rewrite B4. symmetry. apply (RL_dv _ _ _ _ _ _ _ rho X). now apply vnode_RL.
Qed.

Lemma Dok_add D D' s s' i b :
  SWF o s -> Dok D s -> (forall j, ~ In b (ut s j)) -> b <> ONE ->
  (forall j, ut s' j = if j =? i then b :: ut s i else ut s j) ->
  (forall j c, In c (ut s j) -> sameTE (mem s) (mem s') c) ->
  (forall c rho, c <> b -> D' c rho = D c rho) ->
  (forall rho, D' b rho = if rho i then dv D' (ct (mem s' b)) rho else dv D' (ce (mem s' b)) rho) ->
  Dok D' s'.
Proof.
  intros W K Nb N1 U Ms Dc Db.
  assert (V : forall e rho, vedge (nodeR s) e -> dv D' e rho = dv D e rho).
  { intros e rho V. unfold dv. f_equal. apply Dc. destruct V as [[_ P]|[_ P]]; [congruence|].
    intros E. rewrite E in P. exact (Nb _ P). }
  constructor.
  - intros rho. rewrite Dc by auto. apply (dok_one _ _ K).
  - intros j c rho Nj Ic. rewrite U in Ic.
    assert (In c (ut s j) \/ (c = b /\ j = i)) as [Hc|[-> ->]].
    { destruct (N.eqb_spec j i); subst; auto. destruct Ic; auto. }
    + destruct (Ms _ _ Hc) as [-> ->]. rewrite Dc by (intros ->; exact (Nb _ Hc)).
      rewrite (dok_node _ _ K _ _ rho Nj Hc). pose proof (swf_node _ _ W _ _ Nj Hc) as NO.
      rewrite !V by apply NO. auto.
    + apply Db.
Qed.

Section One.
Variables (own : N -> tag) (D : den) (en : eng) (rs : N -> N) (S : list N) (L : list N) (x : N -> N).
Variables (d : nat) (i a : N) (l : list N).
Hypothesis I : RInv o k own D (set_que en d i (a :: l)).
Hypothesis R : RC own S rs (mem (st en)) L x.
Hypothesis RO : rs_ok own (mem (st en)) rs.
Hypothesis HS : forall b d j, own b = OQue d j -> In b S.
Hypothesis Hx : forall b d j, own b = OQue d j -> x b = 0.
Hypothesis Low : forall d j b, own b = OQue d j -> idx o j <= idx o i.

Definition Post (en' : eng) : Prop := exists own' D' rs' L',
    RInv o k own' D' en' /\ RC own' S rs' (mem (st en')) L' x /\ rs_ok own' (mem (st en')) rs' /\
    rext own D (set_que en d i (a :: l)) own' D' en' /\ (forall d' j, own' a <> OQue d' j).

Lemma Oa : own a = OQue d i.
Proof using I.
  apply (acc_que _ _ _ _ _ (ri_acc _ _ _ _ _ I)). simpl. rewrite upd2_same. now left.
Qed.

Lemma rs_tgt p : tgt own p -> p <> a -> rs p <> a.
Proof using I RO.
  intros Tp Np. destruct RO as [R1 R2]. destruct Tp as [C|[C|(d' & j & E)]].
  - rewrite R2; auto.
  - rewrite R2; auto.
  - rewrite (R1 _ _ _ E). destruct (ri_don _ _ _ _ _ I _ _ _ E) as [_ [_ F2 _ _]].
    intros Ea. simpl in F2. destruct F2 as [[_ P]|[_ P]].
    + pose proof Oa as O1. rewrite <- Ea, P, (acc_one_none _ _ (ri_acc _ _ _ _ _ I)) in O1. discriminate.
    + unfold vnode in P. rewrite Ea, Oa in P. discriminate.
Qed.

(** Forwarding the request to a node edge [r]. *)
Lemma forward_less s' r n' L1 :
  vedge (vnode own) r -> (kix k = true -> idx o i <= idx o (eid r)) -> (forall rho, dv D r rho = D a rho) ->
  less L a L1 ->
  (forall j, ut s' j = ut (st en) j) -> (forall j, fl s' j = fl (st en) j) -> nx s' = nx (st en) ->
  mem s' a = C r efwd n' -> (forall b, b <> a -> sameTE (mem (st en)) (mem s') b) ->
  (forall b, own b = OX -> mem s' b = mem (st en) b) ->
  (cr (mem (st en) ONE) = MAXREF -> cr (mem s' ONE) = MAXREF) ->
  (forall b, counted own b -> b <> a ->
     cr (mem s' b) <= MAXREF /\
     (cr (mem (st en) b) = MAXREF -> cr (mem s' b) = MAXREF) /\
     (cr (mem (st en) b) = occ rs (mem (st en)) L b + x b ->
      cr (mem s' b) = MAXREF \/
      cr (mem s' b) = occ rs (mem (st en)) L1 b + b2n (eptr r =? b) * occ rs (mem (st en)) L1 a + x b)) ->
  Post (set_que (add_don (set_st en s') d i a) d i l).
Proof using Wo I R RO HS Hx Low.
  intros Vr Ir Dr PL Eu Ef Ex Ma Mb Mx M1 Cn.
  set (en' := set_que (add_don (set_st en s') d i a) d i l).
  set (en0 := set_que en d i (a :: l)) in *.
  pose proof (ri_acc _ _ _ _ _ I) as A. pose proof Oa as O_a.
  assert (R3 : 2 < a) by (apply (acc_rng _ _ _ A); congruence).
  set (own' := upd (upd own a OX) a (ODon d i)).
  assert (Oa' : own' a = ODon d i) by apply upd_same.
  assert (Ob : forall b, b <> a -> own' b = own b) by (intros; unfold own'; rewrite !upd_other; auto).
  assert (Np : forall t b, own b = t -> (forall d j, t <> OQue d j) -> b <> a) by (intros t b E H ->; apply (H d i); congruence).
  assert (A' : EAcc own' en').
  { unfold EAcc, own'. apply (acc_give _ (kont (st en0) (upd2 (que en) d i l) (don en))).
    - unfold en'; simpl. rewrite Ex. eapply (acc_take own _ _ _ (OQue d i) a l A); auto.
      + unfold en0; simpl. now rewrite upd2_same.
      + simpl. now rewrite upd2_same.
      + intros t Lt Nt. destruct t; simpl; auto. rewrite !upd2_other; auto;
        destruct (Nat.eq_dec d0 d); [right|left|right|left]; congruence.
    - apply upd_same.
    - reflexivity.
    - unfold en'; simpl. rewrite upd2_same. symmetry. rewrite Permutation_cons_append. apply Permutation_refl.
    - intros t Lt Nt. unfold en'; destruct t; simpl; auto. rewrite upd2_other; auto.
      destruct (Nat.eq_dec d0 d); [right|left]; congruence. }
  assert (X : rext own D en0 own' D en').
  { constructor; auto.
    - intros j b E. assert (b <> a) by (eapply Np; eauto; discriminate). rewrite Ob by auto. split; [auto|apply Mb; auto].
    - intros b E. assert (b <> a) by (eapply Np; eauto; discriminate). rewrite Ob by auto. split; [auto|apply Mx; auto].
    - intros j b H. destruct (N.eq_dec b a) as [->|Nb].
      + destruct H as [H|[(e & H)|(e & H)]]; try congruence. assert (j = i) by congruence. subst.
        right; right. exists d. auto.
      + unfold RL. rewrite Ob by auto. auto.
    - intros e j b E. assert (b <> a) by (eapply Np; eauto; discriminate). rewrite Ob by auto. split; [auto|apply Mb; auto].
    - intros e j b E. destruct (N.eq_dec b a) as [->|Nb]; [congruence|]. rewrite Ob in E by auto. split; [auto|apply Mb; auto].
    - intros b E. destruct (N.eq_dec b a) as [->|Nb]; [congruence|]. rewrite Ob in E by auto. auto.
    - intros z j b E. destruct (N.eq_dec b a) as [->|Nb]; [right; congruence|]. rewrite Ob in E by auto. auto.
    - intros b Lb. apply Mb. lia. }
  assert (Ms : forall j c, In c (ut (st en) j) -> sameTE (mem (st en)) (mem s') c).
  { intros j c Ic. apply Mb. intros ->. apply (acc_node own en0 j a A) in Ic. congruence. }
  exists own', D, (upd rs a (eptr r)), L1. split; [|split; [|split; [|split]]].
  - eapply RInv_step; eauto.
    + eapply (SWF_frame o (st en)); auto.
      * apply Mb. unfold ONE; lia.
      * exact (ri_swf _ _ _ _ _ I).
    + eapply (Dok_frame o D D (st en)); auto.
      * exact (ri_swf _ _ _ _ _ I).
      * exact (ri_dok _ _ _ _ _ I).
    + intros e j b E. destruct (N.eq_dec b a) as [->|Nb].
      * right. rewrite Oa' in E. injection E as <- <-. split.
        -- exact (proj1 (ri_que _ _ _ _ _ I _ _ _ O_a)).
        -- constructor; change (mem (st en')) with (mem s'); rewrite Ma; simpl; auto.
           exact (vnode_vedge _ _ _ _ _ _ _ X Vr).
      * left. rewrite <- E. symmetry. auto.
    + intros p b E. destruct (N.eq_dec p a) as [->|Nb]; [congruence|]. rewrite Ob in E by auto.
      exact (ri_ind _ _ _ _ _ I _ _ E).
  - eapply (RC_fwd (kun k) own own' S rs (mem (st en)) _ L L1 x a d i (eptr r)); eauto.
    + apply RO. right. right. eauto.
    + apply rs_tgt.
  - destruct RO as [R1 R2]. split.
    + intros b e j E. destruct (N.eq_dec b a) as [->|Nb].
      * rewrite upd_same. change (mem (st en')) with (mem s'). now rewrite Ma.
      * rewrite upd_other by auto. rewrite Ob in E by auto. rewrite (R1 _ _ _ E).
        change (mem (st en')) with (mem s'). destruct (Mb b Nb) as [-> _]. auto.
    + intros b E. destruct (N.eq_dec b a) as [->|Nb].
      * destruct E as [E|[(j & E)|(e & j & E)]]; [unfold NUL in E; lia|congruence|congruence].
      * rewrite upd_other by auto. apply R2. destruct E as [E|E]; auto. right. unfold counted in *. rewrite Ob in E by auto. auto.
  - exact X.
  - intros d' j. rewrite Oa'. discriminate.
Qed.
Lemma forward_case s' r n' L1 :
  vedge (vnode own) r -> (kix k = true -> idx o i <= idx o (eid r)) -> (forall rho, dv D r rho = D a rho) ->
  Permutation L (a :: L1) ->
  (forall j, ut s' j = ut (st en) j) -> (forall j, fl s' j = fl (st en) j) -> nx s' = nx (st en) ->
  mem s' a = C r efwd n' -> (forall b, b <> a -> sameTE (mem (st en)) (mem s') b) ->
  (forall b, own b = OX -> mem s' b = mem (st en) b) ->
  (cr (mem (st en) ONE) = MAXREF -> cr (mem s' ONE) = MAXREF) ->
  (forall b, counted own b -> b <> a ->
     cr (mem s' b) <= MAXREF /\
     (cr (mem (st en) b) = MAXREF -> cr (mem s' b) = MAXREF) /\
     (cr (mem (st en) b) = occ rs (mem (st en)) L b + x b ->
      cr (mem s' b) = MAXREF \/
      cr (mem s' b) = occ rs (mem (st en)) L1 b + b2n (eptr r =? b) * occ rs (mem (st en)) L1 a + x b)) ->
  Post (set_que (add_don (set_st en s') d i a) d i l).
Proof using Wo I R RO HS Hx Low.
  intros Vr Ir Dr PL. apply forward_less; auto. apply less_perm; auto. apply (rc_nd _ _ _ _ _ _ R).
Qed.

Hypothesis Ku : kun k d i = false.

Lemma Lsplit : exists L1, Permutation L (a :: L1).
Proof using I R HS Ku.
  assert (Ia : In a L).
  { apply (rc_L _ _ _ _ _ _ R). right. exists d, i. split; [exact Oa|]. split; [|exact Ku]. eapply HS. exact Oa. }
  apply in_split in Ia as (l1 & l2 & ->). exists (l1 ++ l2). symmetry. apply Permutation_middle.
Qed.

Lemma mem_cell_eq m m' b : sameTE m m' b -> cr (m' b) = cr (m b) -> m' b = m b.
Proof. intros [E1 E2] E3. destruct (m b), (m' b); simpl in *; congruence. Qed.

Hypothesis Nnt : isnul (ct (mem (st en) a)) = false.
Hypothesis Nne : isnul (ce (mem (st en) a)) = false.
Hypothesis Gt : gt_idx o i (fwd (mem (st en)) (ct (mem (st en) a))).
Hypothesis Ge : gt_idx o i (fwd (mem (st en)) (ce (mem (st en) a))).
Hypothesis Kcb : forall rho y z, kcb k d i rho y z = if rho i then y rho else z rho.

Lemma reduce1_gen : Post (set_que (reduce1 d i en a) d i l).
Proof using Wo I R RO HS Hx Low Ku Nnt Nne Gt Ge Kcb.
  pose proof (ri_acc _ _ _ _ _ I) as A. pose proof Oa as O_a. pose proof (ri_swf _ _ _ _ _ I) as W.
  change (st (set_que en d i (a :: l))) with (st en) in W.
  assert (R3 : 2 < a) by (apply (acc_rng _ _ _ A); congruence).
  destruct (ri_que _ _ _ _ _ I _ _ _ O_a) as [Ii Ap]. unfold RApplied in Ap. rewrite Ku in Ap. destruct Ap as [B1' B2' _ _ B5'].
  change (st (set_que en d i (a :: l))) with (st en) in *.
  destruct (wfo_in o i Wo Ii) as [N0 Ilen].
  destruct (B1' Nnt) as [B1 B3]. destruct (B2' Nne) as [B2 B4].
  assert (B5 : forall rho, D a rho = if rho i then dv D (ct (mem (st en) a)) rho else dv D (ce (mem (st en) a)) rho).
  { intros rho. rewrite B5'. unfold comb. now rewrite Nnt, Nne, Kcb. }
  destruct (fwd_spec own D _ rs i _ I RO B1 B3 Low) as (Vt & _ & Dt & Pt).
  destruct (fwd_spec own D _ rs i _ I RO B2 B4 Low) as (Ve & _ & De & Pe).
  change (st (set_que en d i (a :: l))) with (st en) in *.
  destruct Lsplit as [L1 PL].
  unfold reduce1. set (m := mem (st en)) in *. set (t := fwd m (ct (m a))) in *. set (e := fwd m (ce (m a))) in *.
  set (n := cr (m a)).
  assert (VnA : forall z, vedge (vnode own) z -> eptr z <> a).
  { intros z [[_ P]|[_ P]] E.
    - rewrite P in E. unfold ONE in E. lia.
    - unfold vnode in P. rewrite E in P. congruence. }
  assert (VnX : forall z b, vedge (vnode own) z -> own b = OX -> b <> eptr z).
  { intros z b [[_ P]|[_ P]] E Eb.
    - rewrite P in Eb. subst b. rewrite (acc_one_none _ _ A) in E. discriminate.
    - unfold vnode in P. congruence. }
  pose proof (VnA _ Vt) as Nta. pose proof (VnA _ Ve) as Nea.
  assert (Wt : forall b, wt rs m b a = b2n (eptr t =? b) + b2n (eptr e =? b)).
  { intros b. unfold wt. now rewrite <- Pt, <- Pe. }
  assert (Oc : forall b, occ rs m L b = b2n (eptr t =? b) + b2n (eptr e =? b) + occ rs m L1 b).
  { intros b. rewrite (occ_perm _ _ _ _ _ PL). simpl. now rewrite Wt. }
  assert (Oca : occ rs m L a = occ rs m L1 a).
  { rewrite Oc. destruct (N.eqb_spec (eptr t) a), (N.eqb_spec (eptr e) a); try congruence. reflexivity. }
  assert (Cn : n <= MAXREF) by (apply (rc_max _ _ _ _ _ _ R); right; eauto).
  assert (Cn' : n = MAXREF \/ n = occ rs m L1 a).
  { destruct (rc_cnt _ _ _ _ _ _ R a) as [E|E]; [right; eauto|left; auto|].
    right. unfold n. fold m in E. rewrite E, Oca, (Hx _ _ _ O_a). lia. }
  assert (Mcr : forall b, counted own b -> cr (m b) <= MAXREF) by apply (rc_max _ _ _ _ _ _ R).
  pose proof (swf_onerc _ _ W) as M1. fold m in M1.
  destruct (eeq t e) eqn:Ete.
  { (* both children equal *)
    apply eeq_true in Ete as Ete'. destruct Ete' as [Ep En].
    set (s1 := addref (st en) t (Z.of_N n - 2)).
    assert (Cr : forall b, cr (mem s1 b) = if b =? eptr t then rc_add (cr (m b)) (Z.of_N n - 2) else cr (m b))
      by (intros b; unfold s1; now rewrite cr_addref).
    assert (Sm : forall b, sameTE m (mem s1) b) by (intros b; apply sameTE_addref).
    assert (Pu : forall b, b <> a -> mem (put s1 a (C t efwd (cr (mem s1 a)))) b = mem s1 b)
      by (intros b Nb; simpl; now rewrite upd_other).
    apply (forward_case _ t (cr (mem s1 a)) L1); auto.
    - unfold gt_idx in Gt. lia.
    - intros rho. rewrite B5. fold m. rewrite <- Dt, <- De. rewrite (dv_eeq D _ _ rho Ete). now destruct (rho i).
    - simpl. apply upd_same.
    - intros b Nb. unfold sameTE. rewrite Pu by auto. apply Sm.
    - intros b Ob. assert (b <> a) by congruence. rewrite Pu by auto. apply mem_cell_eq; [apply Sm|]. rewrite Cr.
      pose proof (VnX _ _ Vt Ob). destruct (N.eqb_spec b (eptr t)); [congruence|auto].
    - intros _. rewrite Pu by (unfold ONE; lia). rewrite Cr, M1. destruct (ONE =? eptr t); reflexivity.
    - intros b Cb Nb. rewrite Pu by auto. rewrite Cr. fold m. specialize (Mcr b Cb). rewrite (Oc b), <- Ep.
      destruct (rc_cnt _ _ _ _ _ _ R b Cb) as [E|E]; fold m in E; rewrite ?Oc, <- ?Ep in E;
      rewrite ?(N.eqb_sym (eptr t) b) in *; destruct (N.eqb_spec b (eptr t)) as [Eb|Eb]; simpl b2n in *.
      + rewrite E. unfold rc_add. simpl. repeat split; auto; lia.
      + rewrite E. repeat split; auto; lia.
      + unfold MAXREF in *. rewrite rc_add_spec by (unfold MAXREF; lia). unfold MAXREF.
        destruct (N.eqb_spec (cr (m b)) 255); [repeat split; auto; lia|].
        split; [lia|]. split; [lia|]. intros _. destruct Cn' as [C|C]; [left; lia|]. lia.
      + split; [lia|]. split; [lia|]. intros _. right. lia. }
  destruct (ulookup (st en) i t e) as [r|] eqn:UL.
  { (* found in the unique table *)
    destruct (ulookup_spec own D _ i t e r I N0 (proj1 (vnode_nodeR _ _ _ A) Vt) (proj1 (vnode_nodeR _ _ _ A) Ve) UL)
      as (Er & Ir & Dr).
    assert (Or : own (eptr r) = ONode i) by (apply (acc_node _ _ _ _ A); exact Ir).
    assert (Vr : vedge (vnode own) r) by (right; rewrite Er; auto).
    assert (Nrt : eptr r <> eptr t).
    { intros E. destruct Vt as [[_ P]|[_ P]].
      - rewrite E, P, (acc_one_none _ _ A) in Or. discriminate.
      - unfold vnode in P. rewrite <- E, Or in P. injection P as P. unfold gt_idx in Gt. rewrite <- P in Gt. lia. }
    assert (Nre : eptr r <> eptr e).
    { intros E. destruct Ve as [[_ P]|[_ P]].
      - rewrite E, P, (acc_one_none _ _ A) in Or. discriminate.
      - unfold vnode in P. rewrite <- E, Or in P. injection P as P. unfold gt_idx in Ge. rewrite <- P in Ge. lia. }
    set (s1 := addref (dcr (dcr (st en) t) e) r (Z.of_N n)).
    assert (Sm : forall b, sameTE m (mem s1) b).
    { intros b. eapply sameTE_trans; [eapply sameTE_trans; [apply sameTE_dcr|apply sameTE_dcr]|apply sameTE_addref]. }
    assert (Cr : forall b, cr (mem s1 b) =
       let c0 := cr (m b) in let c1 := if b =? eptr t then rc_dcr c0 else c0 in
       let c2 := if b =? eptr e then rc_dcr c1 else c1 in if b =? eptr r then rc_add c2 (Z.of_N n) else c2).
    { intros b. unfold s1. now rewrite cr_addref, !cr_dcr. }
    assert (Pu : forall b, b <> a -> mem (put s1 a (C r efwd (cr (mem s1 a)))) b = mem s1 b)
      by (intros b Nb; simpl; now rewrite upd_other).
    apply (forward_case _ r (cr (mem s1 a)) L1); auto.
    - rewrite Er. lia.
    - intros rho. rewrite Dr, B5. fold m. now rewrite Dt, De.
    - simpl. apply upd_same.
    - intros b Nb. unfold sameTE. rewrite Pu by auto. apply Sm.
    - intros b Ob. assert (b <> a) by congruence. rewrite Pu by auto. apply mem_cell_eq; auto. rewrite Cr. cbv zeta.
      pose proof (VnX _ _ Vt Ob). pose proof (VnX _ _ Ve Ob). pose proof (VnX _ _ Vr Ob).
      destruct (N.eqb_spec b (eptr t)), (N.eqb_spec b (eptr e)), (N.eqb_spec b (eptr r)); try congruence; reflexivity.
    - intros _. rewrite Pu by (unfold ONE; lia). rewrite Cr. cbv zeta. rewrite M1.
      destruct (ONE =? eptr t), (ONE =? eptr e), (ONE =? eptr r); reflexivity.
    - intros b Cb Nb. rewrite Pu by auto. rewrite Cr. cbv zeta. specialize (Mcr b Cb). fold m.
      rewrite (Oc b). rewrite (N.eqb_sym (eptr t) b), (N.eqb_sym (eptr e) b), (N.eqb_sym (eptr r) b) in *.
      unfold rc_dcr.
      assert (C0 : cr (m b) = MAXREF \/ cr (m b) <> MAXREF) by lia.
      destruct C0 as [C0|C0].
      + rewrite C0. match goal with |- ?z <= _ /\ _ => assert (Z : z = MAXREF) end.
        { destruct (b =? eptr t), (b =? eptr e), (b =? eptr r); reflexivity. }
        rewrite Z. split; [lia|]. split; auto.
      + split; [|split; [congruence|]].
        * unfold MAXREF in *. destruct (N.eqb_spec b (eptr r)) as [Eb|Eb].
          -- destruct (N.eqb_spec b (eptr t)); [congruence|]. destruct (N.eqb_spec b (eptr e)); [congruence|].
             rewrite rc_add_spec by (unfold MAXREF; lia). destruct (cr (m b) =? MAXREF); unfold MAXREF; lia.
          -- destruct (b =? eptr t), (b =? eptr e);
             destruct (N.eqb_spec (cr (m b)) 0), (N.eqb_spec (cr (m b)) 255); simpl; try lia;
             destruct (N.eqb_spec (cr (m b) - 1) 0), (N.eqb_spec (cr (m b) - 1) 255); simpl; lia.
        * intros E. unfold MAXREF in *. destruct (N.eqb_spec b (eptr r)) as [Eb|Eb].
          -- destruct (N.eqb_spec b (eptr t)); [congruence|]. destruct (N.eqb_spec b (eptr e)); [congruence|].
             simpl b2n in *. rewrite rc_add_spec by (unfold MAXREF; lia).
             destruct (N.eqb_spec (cr (m b)) MAXREF); [left; auto|]. destruct Cn' as [C|C]; [left; lia|].
             destruct (Z.min_spec 255 (Z.of_N (cr (m b)) + Z.of_N n)) as [[? ->]|[? ->]]; [left|right]; lia.
          -- right. destruct (b =? eptr t), (b =? eptr e); simpl b2n in *;
             destruct (N.eqb_spec (cr (m b)) 0), (N.eqb_spec (cr (m b)) 255); simpl; try lia;
             destruct (N.eqb_spec (cr (m b) - 1) 0), (N.eqb_spec (cr (m b) - 1) 255); simpl; lia. }
  assert (Vtn : vedge (nodeR (st en)) t) by exact (proj1 (vnode_nodeR _ _ _ A) Vt).
  assert (Ven : vedge (nodeR (st en)) e) by exact (proj1 (vnode_nodeR _ _ _ A) Ve).
  assert (NaU : forall j, ~ In a (ut (st en) j)).
  { intros j Ij. apply (acc_node own (set_que en d i (a :: l)) j a A) in Ij. congruence. }
  assert (Tg : tgt own (eptr t)) by (destruct Vt as [[_ P]|[_ P]]; [left; rewrite P; auto|right; left; left; eauto]).
  assert (Tge : tgt own (eptr e)) by (destruct Ve as [[_ P]|[_ P]]; [left; rewrite P; auto|right; left; left; eauto]).
  assert (RsV : forall z, vedge (vnode own) z -> rs (eptr z) = eptr z).
  { intros z [[_ P]|[_ P]]; apply RO; [left; rewrite P; auto|]. right; left; eauto. }
  unfold ulookup in UL. destruct (eneg t) eqn:Nt.
  - (* complemented then edge: a new node is allocated *)
    destruct (tfind (mem (st en)) (ut (st en) i) (enot t) (enot e)) as [z|] eqn:Tf; [discriminate|]. clear UL.
    destruct (alloc (st en) i) as [b s1] eqn:Al.
    destruct (alloc_spec own (st en) _ (don en) i b s1 A Al) as (Fb & Rb & Rx & A1 & Em & Eu & Enn).
    assert (Nba : b <> a) by (intros ->; rewrite O_a in Fb; destruct (nf_que _ _ Fb)).
    assert (Nb1 : b <> ONE) by (unfold ONE; lia).
    assert (Nbt : forall p, tgt own p -> p <> b).
    { intros p Tp ->. apply tgt_nf in Tp as [E|E]; [unfold NUL in *; lia|tauto]. }
    assert (NbU : forall j, ~ In b (ut (st en) j)).
    { intros j Ij. apply (acc_node own (set_que en d i (a :: l)) j b A) in Ij. rewrite Ij in Fb. destruct (nf_node _ Fb). }
    set (s2 := put s1 b (C (enot t) (enot e) n)).
    set (s3 := set_nn (set_ut s2 (upd (ut s2) i (b :: ut s2 i))) (nn s2 + 1)).
    set (s4 := put s3 a (C (E i b true) efwd (cr (mem s3 a)))).
    set (en' := set_que (add_don (set_st en s4) d i a) d i l).
    set (en0 := set_que en d i (a :: l)) in *.
    assert (Ma : mem s4 a = C (E i b true) efwd n).
    { unfold s4, s3, s2; simpl. rewrite !upd_same. f_equal. rewrite upd_other, Em, upd_other by auto. reflexivity. }
    assert (Mb : mem s4 b = C (enot t) (enot e) n).
    { unfold s4, s3, s2; simpl. rewrite upd_other by auto. apply upd_same. }
    assert (Mc : forall c, c <> a -> c <> b -> mem s4 c = m c).
    { intros c Ca Cb. unfold s4, s3, s2; simpl. rewrite !upd_other by auto. rewrite Em, upd_other by auto. reflexivity. }
    assert (Us : forall j, ut s4 j = if j =? i then b :: ut (st en) i else ut (st en) j).
    { intros j. unfold s4, s3, s2; simpl. unfold upd. rewrite Eu. destruct (N.eqb_spec j i); auto. }
    set (own' := upd (upd (upd (upd own b OX) b (ONode i)) a OX) a (ODon d i)).
    assert (Oa' : own' a = ODon d i) by apply upd_same.
    assert (Ob' : own' b = ONode i) by (unfold own'; rewrite !(upd_other _ a) by auto; apply upd_same).
    assert (Oc' : forall c, c <> a -> c <> b -> own' c = own c) by (intros; unfold own'; rewrite !upd_other; auto).
    assert (A' : EAcc own' en').
    { unfold EAcc, own'.
      assert (A2 : Acc (upd (upd own b OX) b (ONode i)) (kont s3 (que en0) (don en)) (nx s1)).
      { apply (acc_give _ (kont s1 (que en0) (don en))); [exact A1|apply upd_same|reflexivity| |].
        - simpl. rewrite upd_same. apply Permutation_refl.
        - intros t' Lt Nt'. destruct t'; simpl; auto. rewrite upd_other; auto. congruence. }
      assert (A3 : Acc (upd (upd (upd own b OX) b (ONode i)) a OX) (kont s3 (upd2 (que en) d i l) (don en)) (nx s1)).
      { eapply (acc_take _ _ _ _ (OQue d i) a l A2); auto.
        - unfold en0; simpl. now rewrite upd2_same.
        - simpl. now rewrite upd2_same.
        - intros t' Lt Nt'. destruct t'; simpl; auto. rewrite !upd2_other; auto;
          destruct (Nat.eq_dec d0 d); [right|left|right|left]; congruence. }
      apply (acc_give _ _ _ _ (ODon d i) a A3); auto.
      - apply upd_same.
      - unfold en'; simpl. rewrite upd2_same. symmetry. rewrite Permutation_cons_append. apply Permutation_refl.
      - intros t' Lt Nt'. unfold en'; destruct t'; simpl; auto. rewrite upd2_other; auto.
        destruct (Nat.eq_dec d0 d); [right|left]; congruence. }
    set (D' := upd D b (fun rho => negb (D a rho))).
    assert (Dc : forall c rho, c <> b -> D' c rho = D c rho) by (intros; unfold D'; now rewrite upd_other).
    assert (Ms : forall j c, In c (ut (st en) j) -> sameTE (mem (st en)) (mem s4) c).
    { intros j c Ic. unfold sameTE. rewrite Mc; auto; intros ->; [exact (NaU _ Ic)|exact (NbU _ Ic)]. }
    assert (S1 : sameTE (mem (st en)) (mem s4) ONE).
    { unfold sameTE. rewrite Mc; auto. unfold ONE; lia. }
    assert (NRL : forall j c, RL own j c -> c <> b).
    { intros j c [H|[(z & H)|(z & H)]] ->; rewrite H in Fb; destruct Fb as [?|[? ?]]; discriminate. }
    assert (DvR : forall z rho, vedge (vnode own) z -> dv D' z rho = dv D z rho).
    { intros z rho V. unfold dv. f_equal. apply Dc. destruct V as [[_ P]|[_ P]]; [congruence|].
      apply (NRL (eid z)). now left. }
    assert (X : rext own D en0 own' D' en').
    { constructor; auto.
      - intros j c E. assert (c <> a) by congruence. assert (c <> b) by (apply (NRL j); now left).
        rewrite Oc' by auto. split; auto. unfold sameTE. change (mem (st en')) with (mem s4). rewrite Mc by auto. auto.
      - intros c E. assert (c <> a) by congruence.
        assert (c <> b) by (intros ->; rewrite E in Fb; destruct (nf_ox Fb)).
        rewrite Oc' by auto. split; auto; change (mem (st en')) with (mem s4); rewrite Mc by auto; auto.
      - intros j c H. destruct (N.eq_dec c a) as [->|Nca].
        + destruct H as [H|[(z & H)|(z & H)]]; try congruence. assert (j = i) by congruence. subst.
          right; right. exists d. auto.
        + pose proof (NRL _ _ H). unfold RL. rewrite Oc' by auto. auto.
      - intros c rho H. apply Dc. destruct H as [->|[j H]]; auto. eapply NRL; eauto.
      - intros z j c E. assert (c <> a) by congruence. assert (c <> b) by (apply (NRL j); right; right; eauto).
        rewrite Oc' by auto. split; auto. unfold sameTE. change (mem (st en')) with (mem s4). rewrite Mc by auto. auto.
      - intros z j c E. destruct (N.eq_dec c a) as [->|Nca]; [congruence|]. destruct (N.eq_dec c b) as [->|Ncb]; [congruence|].
        rewrite Oc' in E by auto. split; auto. unfold sameTE. change (mem (st en')) with (mem s4). rewrite Mc by auto. auto.
      - intros c E. destruct (N.eq_dec c a) as [->|Nca]; [congruence|]. destruct (N.eq_dec c b) as [->|Ncb]; [congruence|].
        rewrite Oc' in E by auto. auto.
      - change (ut s4 0 = ut (st en) 0). rewrite Us. destruct (N.eqb_spec 0 i); congruence.
      - intros z j c E. destruct (N.eq_dec c a) as [->|Nca]; [right; congruence|]. destruct (N.eq_dec c b) as [->|Ncb]; [congruence|].
        rewrite Oc' in E by auto. auto.
      - intros c Lc. unfold sameTE. change (mem (st en')) with (mem s4). rewrite Mc by lia. auto. }
    assert (Dab : forall rho, D' b rho = if rho i then dv D' (enot t) rho else dv D' (enot e) rho).
    { intros rho. unfold D' at 1. rewrite upd_same. rewrite !dv_enot, !DvR by auto.
      rewrite B5. fold m. rewrite <- Dt, <- De. now destruct (rho i). }
    exists own', D', (upd (upd rs b b) a b), (b :: L1). split; [|split; [|split; [|split]]].
    + eapply RInv_step; eauto.
      * eapply (SWF_add (st en) s4 i b (enot t) (enot e)); auto; try now apply vedge_enot.
        -- lia.
        -- simpl. now rewrite Nt.
        -- unfold eeq in *. simpl. rewrite <- Ete. now destruct (eneg t), (eneg e).
        -- now rewrite Mb.
        -- now rewrite Mb.
        -- rewrite Mc; auto. unfold ONE; lia.
      * eapply (Dok_add D D' (st en) s4 i b); auto.
        -- exact (ri_dok _ _ _ _ _ I).
        -- rewrite Mb. exact Dab.
      * intros z j c E. destruct (N.eq_dec c a) as [->|Nca].
        -- right. rewrite Oa' in E. injection E as <- <-. split; auto.
           constructor; change (mem (st en')) with (mem s4); rewrite Ma; simpl; auto.
           ++ right. split; auto.
           ++ lia.
           ++ intros rho. unfold dv; simpl. unfold D'. rewrite upd_same, upd_other by auto. now destruct (D a rho).
        -- destruct (N.eq_dec c b) as [->|Ncb]; [congruence|]. left. rewrite <- E. symmetry. auto.
      * intros q c E. destruct (N.eq_dec q a) as [->|Nca]; [congruence|].
        destruct (N.eq_dec q b) as [->|Ncb]; [congruence|]. rewrite Oc' in E by auto. exact (ri_ind _ _ _ _ _ I _ _ E).
    + change (mem (st en')) with (mem s4). pose proof R as R'. destruct R' as [K1 K2 K3 K4 K5 K6].
      assert (ND : NoDup (a :: L1)) by (eapply Permutation_NoDup; eauto).
      inversion ND as [|? ? Na1 ND1]; subst.
      assert (In1 : forall c, In c L1 -> In c L) by (intros c Ic; eapply Permutation_in; [symmetry; exact PL|now right]).
      assert (Nc1 : forall c, In c L1 -> c <> a /\ c <> b).
      { intros c Ic. split; [intros ->; auto|]. intros ->. apply In1, K2 in Ic.
        destruct Ic as [(j & E)|(z & j & E & _)]; rewrite E in Fb; destruct Fb as [?|[? ?]]; discriminate. }
      assert (Tn : forall c, tgt own c -> tgt own' c).
      { intros c Tc. destruct (N.eq_dec c a) as [->|Nca]; [right; right; eauto|].
        unfold tgt, counted. rewrite Oc' by auto. exact Tc. }
      assert (RsB : forall p, tgt own p -> rs p <> b).
      { intros p Tp. destruct RO as [Q1 Q2]. pose proof (Nbt p Tp). destruct Tp as [C|[C|(z & j & E)]].
        - rewrite Q2; auto.
        - rewrite Q2; auto.
        - rewrite (Q1 _ _ _ E). destruct (ri_don _ _ _ _ _ I _ _ _ E) as [_ [_ F2 _ _]]. simpl in F2. fold m in F2.
          apply Nbt. destruct F2 as [[_ P]|[_ P]]; [left; rewrite P; auto|right; left; left; eauto]. }
      assert (OcN : forall c, c <> a -> occ (upd (upd rs b b) a b) (mem s4) L1 c =
                    occ rs m L1 c + b2n (b =? c) * occ rs m L1 a).
      { intros c Nc. rewrite (occ_frame _ m) by (intros z Iz; destruct (Nc1 z Iz); unfold sameTE; now rewrite Mc).
        rewrite occ_redirect; auto.
        - assert (forall q, occ (upd rs b b) m L1 q = occ rs m L1 q) as Hq.
          { intros q. apply occ_rs_ext. intros z Iz. destruct (K3 z (In1 z Iz)) as [T1 T2]. fold m in T1, T2.
            split; rewrite upd_other; auto. }
          now rewrite !Hq.
        - intros z Iz. destruct (K3 z (In1 z Iz)) as [T1 T2]. fold m in T1, T2.
          split; intros Nz; rewrite upd_other by auto; apply rs_tgt; auto.
        - rewrite upd_other by auto. apply RO. right; right; eauto. }
      assert (WtN : forall c, wt (upd (upd rs b b) a b) (mem s4) c b = b2n (eptr t =? c) + b2n (eptr e =? c)).
      { intros c. unfold wt. rewrite Mb; simpl. rewrite !upd_other by auto. now rewrite !RsV. }
      assert (OcB : forall r c, occ r (mem s4) (b :: L1) c = wt r (mem s4) c b + occ r (mem s4) L1 c) by reflexivity.
      constructor.
      * constructor; auto. intros Ib. destruct (Nc1 b Ib). congruence.
      * intros c. simpl. split.
        -- intros [<-|Ic]; [left; eauto|]. destruct (Nc1 c Ic). rewrite Oc' by auto. apply K2. auto.
        -- intros Hc. destruct (N.eq_dec b c) as [|Ncb]; auto. right.
           assert (Nca : c <> a).
           { intros ->. rewrite Oa' in Hc. destruct Hc as [(? & ?)|(? & ? & ? & ?)]; discriminate. }
           rewrite Oc' in Hc by auto. apply K2 in Hc. eapply Permutation_in in Hc; [|exact PL]. destruct Hc; congruence.
      * intros c [<-|Ic].
        -- rewrite Mb; simpl. auto.
        -- destruct (Nc1 c Ic). rewrite Mc by auto. destruct (K3 c (In1 c Ic)). auto.
      * intros c Hc. assert (Nca : c <> a).
        { intros ->. unfold counted in Hc. rewrite Oa' in Hc. destruct Hc as [(? & ?)|(? & ? & ?)]; discriminate. }
        rewrite OcB, OcN, WtN by auto. destruct (N.eq_dec c b) as [->|Ncb].
        -- rewrite Mb; simpl. rewrite N.eqb_refl. pose proof (Nbt _ Tg). pose proof (Nbt _ Tge).
           destruct (N.eqb_spec (eptr t) b), (N.eqb_spec (eptr e) b); try congruence. simpl b2n.
           rewrite (K6 b) by (auto; lia).
           rewrite (occ_zero rs m L1 b) by (intros z Iz; destruct (K3 z (In1 z Iz)) as [T1 T2]; fold m in T1, T2; split; apply RsB; auto).
           destruct Cn' as [C|C]; [left; auto|right; lia].
        -- rewrite Mc by auto. destruct (N.eqb_spec b c); [congruence|]. simpl b2n.
           destruct (K4 c) as [E|E].
           ++ unfold counted in *. rewrite Oc' in Hc by auto. auto.
           ++ left; auto.
           ++ right. fold m in E. rewrite E, Oc. lia.
      * intros c Hc. destruct (N.eq_dec c b) as [->|Ncb]; [rewrite Mb; auto|].
        assert (Nca : c <> a).
        { intros ->. unfold counted in Hc. rewrite Oa' in Hc. destruct Hc as [(? & ?)|(? & ? & ?)]; discriminate. }
        rewrite Mc by auto. apply K5. unfold counted in *. rewrite Oc' in Hc by auto. auto.
      * intros c Lc Fc. destruct (N.eq_dec c a) as [->|Nca]; [rewrite Oa' in Fc; destruct (nf_don _ _ Fc)|].
        destruct (N.eq_dec c b) as [->|Ncb]; [rewrite Ob' in Fc; destruct (nf_node _ Fc)|].
        rewrite Oc' in Fc by auto. auto.
    + destruct RO as [Q1 Q2]. split.
      * intros c z j E. destruct (N.eq_dec c a) as [->|Nca].
        -- rewrite upd_same. change (mem (st en')) with (mem s4). now rewrite Ma.
        -- destruct (N.eq_dec c b) as [->|Ncb]; [congruence|]. rewrite Oc' in E by auto.
           rewrite !upd_other by auto. change (mem (st en')) with (mem s4). rewrite Mc by auto. eapply Q1; eauto.
      * intros c E. assert (Nca : c <> a).
        { intros ->. unfold counted in E. rewrite Oa' in E. destruct E as [E|[(? & ?)|(? & ? & ?)]]; try discriminate. unfold NUL in E; lia. }
        rewrite upd_other by auto. destruct (N.eq_dec c b) as [->|Ncb]; [apply upd_same|].
        rewrite upd_other by auto. apply Q2. unfold counted in *. rewrite Oc' in E by auto. auto.
    + exact X.
    + intros d' j. rewrite Oa'. discriminate.
  - (* the request itself becomes the node *)
    destruct (tfind (mem (st en)) (ut (st en) i) t e) as [z|] eqn:Tf; [discriminate|]. clear UL.
    set (s1 := put (st en) a (C t e n)).
    set (s4 := set_nn (set_ut s1 (upd (ut s1) i (a :: ut s1 i))) (nn s1 + 1)).
    set (en' := set_que (set_st en s4) d i l).
    set (en0 := set_que en d i (a :: l)) in *.
    assert (Ma : mem s4 a = C t e n) by (unfold s4, s1; simpl; apply upd_same).
    assert (Mc : forall c, c <> a -> mem s4 c = m c).
    { intros c Ca. unfold s4, s1; simpl. now rewrite !upd_other by auto. }
    assert (Us : forall j, ut s4 j = if j =? i then a :: ut (st en) i else ut (st en) j) by reflexivity.
    set (own' := upd (upd own a OX) a (ONode i)).
    assert (Oa' : own' a = ONode i) by apply upd_same.
    assert (Oc' : forall c, c <> a -> own' c = own c) by (intros; unfold own'; rewrite !upd_other; auto).
    assert (A' : EAcc own' en').
    { unfold EAcc, own'.
      assert (A3 : Acc (upd own a OX) (kont (st en) (upd2 (que en) d i l) (don en)) (nx (st en))).
      { eapply (acc_take _ _ _ _ (OQue d i) a l A); auto.
        - unfold en0; simpl. now rewrite upd2_same.
        - simpl. now rewrite upd2_same.
        - intros t' Lt Nt'. destruct t'; simpl; auto. rewrite !upd2_other; auto;
          destruct (Nat.eq_dec d0 d); [right|left|right|left]; congruence. }
      apply (acc_give _ _ _ _ (ONode i) a A3); auto.
      - apply upd_same.
      - unfold en'; simpl. rewrite upd_same. apply Permutation_refl.
      - intros t' Lt Nt'. unfold en'; destruct t'; simpl; auto. rewrite upd_other; auto. congruence. }
    assert (Ms : forall j c, In c (ut (st en) j) -> sameTE (mem (st en)) (mem s4) c).
    { intros j c Ic. unfold sameTE. rewrite Mc; auto; intros ->; exact (NaU _ Ic). }
    assert (S1 : sameTE (mem (st en)) (mem s4) ONE).
    { unfold sameTE. rewrite Mc; auto. unfold ONE; lia. }
    assert (X : rext own D en0 own' D en').
    { constructor; auto.
      - intros j c E. assert (c <> a) by congruence.
        rewrite Oc' by auto. split; auto. unfold sameTE. change (mem (st en')) with (mem s4). rewrite Mc by auto. auto.
      - intros c E. assert (c <> a) by congruence.
        rewrite Oc' by auto. split; auto; change (mem (st en')) with (mem s4); rewrite Mc by auto; auto.
      - intros j c H. destruct (N.eq_dec c a) as [->|Nca].
        + destruct H as [H|[(z & H)|(z & H)]]; try congruence. assert (j = i) by congruence. subst.
          left. auto.
        + unfold RL. rewrite Oc' by auto. auto.
      - intros z j c E. assert (c <> a) by congruence.
        rewrite Oc' by auto. split; auto. unfold sameTE. change (mem (st en')) with (mem s4). rewrite Mc by auto. auto.
      - intros z j c E. destruct (N.eq_dec c a) as [->|Nca]; [congruence|].
        rewrite Oc' in E by auto. split; auto. unfold sameTE. change (mem (st en')) with (mem s4). rewrite Mc by auto. auto.
      - intros c E. destruct (N.eq_dec c a) as [->|Nca]; [congruence|].
        rewrite Oc' in E by auto. auto.
      - change (ut s4 0 = ut (st en) 0). rewrite Us. destruct (N.eqb_spec 0 i); congruence.
      - intros z j c E. destruct (N.eq_dec c a) as [->|Nca]; [congruence|].
        rewrite Oc' in E by auto. auto.
      - intros c Lc. unfold sameTE. change (mem (st en')) with (mem s4). rewrite Mc by lia. auto. }
    exists own', D, rs, L. split; [|split; [|split; [|split]]].
    + eapply RInv_step; eauto.
      * eapply (SWF_add (st en) s4 i a t e); auto.
        -- now rewrite Ma.
        -- now rewrite Ma.
        -- rewrite Mc; auto. unfold ONE; lia.
      * eapply (Dok_add D D (st en) s4 i a); auto.
        -- exact (ri_dok _ _ _ _ _ I).
        -- unfold ONE; lia.
        -- rewrite Ma; simpl. intros rho. rewrite Dt, De. apply B5.
      * intros z j c E. destruct (N.eq_dec c a) as [->|Nca]; [congruence|]. left. rewrite <- E. symmetry. auto.
      * intros q c E. destruct (N.eq_dec q a) as [->|Nca]; [congruence|].
        rewrite Oc' in E by auto. exact (ri_ind _ _ _ _ _ I _ _ E).
    + change (mem (st en')) with (mem s4). pose proof R as R'. destruct R' as [K1 K2 K3 K4 K5 K6].
      assert (Cc : forall c, counted own' c <-> counted own c).
      { intros c. unfold counted. destruct (N.eq_dec c a) as [->|Nca].
        - rewrite Oa', O_a. split; intros _; [right; eauto|left; eauto].
        - now rewrite Oc'. }
      assert (Tn : forall c, tgt own c -> tgt own' c).
      { intros c Tc. destruct Tc as [Tc|[Tc|(z & j & E)]]; [left; auto|right; left; now apply Cc|].
        right; right. exists z, j. rewrite Oc'; auto. congruence. }
      assert (Oq : forall b, occ rs (mem s4) L b = occ rs m L b).
      { intros b. rewrite (occ_perm _ _ _ _ _ PL), (occ_perm _ m _ _ _ PL).
        change (wt rs (mem s4) b a + occ rs (mem s4) L1 b = wt rs m b a + occ rs m L1 b). f_equal.
        - rewrite Wt. unfold wt. rewrite Ma; simpl. now rewrite !RsV.
        - apply occ_frame. intros c Ic. unfold sameTE. rewrite Mc; auto.
          assert (ND : NoDup (a :: L1)) by (eapply Permutation_NoDup; eauto). inversion ND; subst. congruence. }
      constructor; auto.
      * intros c. rewrite K2. destruct (N.eq_dec c a) as [->|Nca].
        -- rewrite Oa', O_a. split; intros _; [left; eauto|right; exists d, i; split; [auto|split; [eapply HS; eauto|exact Ku]]].
        -- now rewrite Oc'.
      * intros c Ic. destruct (N.eq_dec c a) as [->|Nca].
        -- rewrite Ma; simpl; auto.
        -- rewrite Mc by auto. destruct (K3 c Ic). auto.
      * intros c Hc. apply Cc in Hc. rewrite Oq. destruct (N.eq_dec c a) as [->|Nca].
        -- rewrite Ma; simpl. apply K4. auto.
        -- rewrite Mc by auto. apply K4. auto.
      * intros c Hc. apply Cc in Hc. destruct (N.eq_dec c a) as [->|Nca].
        -- rewrite Ma; simpl. auto.
        -- rewrite Mc by auto. apply K5. auto.
      * intros c Lc Fc. destruct (N.eq_dec c a) as [->|Nca]; [rewrite Oa' in Fc; destruct (nf_node _ Fc)|].
        rewrite Oc' in Fc by auto. auto.
    + destruct RO as [Q1 Q2]. split.
      * intros c z j E. destruct (N.eq_dec c a) as [->|Nca]; [congruence|].
        rewrite Oc' in E by auto. change (mem (st en')) with (mem s4). rewrite Mc by auto. eapply Q1; eauto.
      * intros c E. destruct (N.eq_dec c a) as [->|Nca]; [apply Q2; right; right; eauto|].
        apply Q2. unfold counted in *. rewrite Oc' in E by auto. auto.
    + exact X.
    + intros d' j. rewrite Oa'. discriminate.
Qed.
End One.

(** Standard requests of engines whose results do not rise. *)
Lemma reduce1_spec own D en rs S L x d i a l :
  kix k = true -> kun k d i = false -> (forall rho y z, kcb k d i rho y z = if rho i then y rho else z rho) ->
  RInv o k own D (set_que en d i (a :: l)) -> RC own S rs (mem (st en)) L x -> rs_ok own (mem (st en)) rs ->
  (forall b d j, own b = OQue d j -> In b S) -> (forall b d j, own b = OQue d j -> x b = 0) ->
  (forall d j b, own b = OQue d j -> idx o j <= idx o i) ->
  isnul (ct (mem (st en) a)) = false -> isnul (ce (mem (st en) a)) = false ->
  Post own D en S x d i a l (set_que (reduce1 d i en a) d i l).
Proof.
  intros Kx Ku Kc I R RO HS Hx Low N1 N2.
  assert (Oa : own a = OQue d i).
  { apply (acc_que _ _ _ _ _ (ri_acc _ _ _ _ _ I)). simpl. rewrite upd2_same. now left. }
  destruct (ri_que _ _ _ _ _ I _ _ _ Oa) as [_ Ap]. unfold RApplied in Ap. rewrite Ku in Ap. destruct Ap as [B1 B2 _ _ _].
  destruct (B1 N1) as [V1 G1]. destruct (B2 N2) as [V2 G2].
  destruct (fwd_spec own D _ rs i _ I RO V1 G1 Low) as (_ & Gt & _).
  destruct (fwd_spec own D _ rs i _ I RO V2 G2 Low) as (_ & Ge & _).
  eapply (reduce1_gen own D en rs S L x d i a l); eauto.
Qed.

End Reduce.
