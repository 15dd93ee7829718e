(** * Apply phase: steps, tables and sweeps keep the invariant. *)
From Coq Require Import Permutation.
From Verif Require Import Base BFModel StoreInv Own EngInv.

Definition idn : N -> N := fun a => a.
Definition xadd (x : N -> N) (p : N) : N -> N := fun b => x b + b2n (p =? b).

(** ** Reference count steps *)

Section Counts.
Variable q : nat -> N -> bool.
Local Notation RC := (RCq q).

Lemma RC_frame own S rs m m' L x :
  (forall a, In a L -> sameTE m m' a) -> (forall b, counted own b -> cr (m' b) = cr (m b)) ->
  RC own S rs m L x -> RC own S rs m' L x.
Proof.
  intros T Cn [B1 B2 B3 B4 B5 B6]. constructor; auto.
  - intros a Ia. destruct (T a Ia) as [-> ->]. auto.
  - intros b Cb. rewrite Cn, (occ_frame rs m m') by auto. auto.
  - intros b Cb. rewrite Cn; auto.
Qed.

Lemma RC_x_ext own S rs m L x x' : (forall b, x' b = x b) -> RC own S rs m L x -> RC own S rs m L x'.
Proof.
  intros E [B1 B2 B3 B4 B5 B6]. constructor; auto.
  - intros b Cb. rewrite E. auto.
  - intros b L2 Fb. rewrite E. auto.
Qed.

End Counts.

Lemma tgt_nf own p : tgt own p -> p <= NUL \/ ~ freeish (own p).
Proof. intros [E|[[(i & ->)|(d & i & ->)]|(d & i & ->)]]; auto. Qed.
#[export] Hint Extern 1 (_ <= NUL) => unfold NUL, ONE in *; lia : core.

Lemma sameTE_icr s r a : sameTE (mem s) (mem (icr s r)) a.
Proof.
  unfold sameTE, icr, put; simpl. unfold upd. destruct (N.eqb_spec a (eptr r)); subst; auto.
Qed.

Lemma cr_icr s r a : cr (mem (icr s r) a) = if a =? eptr r then rc_icr (cr (mem s a)) else cr (mem s a).
Proof. unfold icr, put; simpl. unfold upd. destruct (N.eqb_spec a (eptr r)); subst; auto. Qed.

Section Counts2.
Variable q : nat -> N -> bool.
Local Notation RC := (RCq q).

Lemma RC_icr own S rs s L x r :
  tgt own (eptr r) -> RC own S rs (mem s) L x -> RC own S rs (mem (icr s r)) L (xadd x (eptr r)).
Proof.
  intros Tr [B1 B2 B3 B4 B5 B6]. constructor; auto.
  - intros a Ia. destruct (sameTE_icr s r a) as [-> ->]. auto.
  - intros b Cb. rewrite cr_icr. rewrite (occ_frame rs (mem s)) by (intros; apply sameTE_icr).
    unfold xadd. rewrite (N.eqb_sym (eptr r) b). destruct (N.eqb_spec b (eptr r)); simpl.
    + unfold rc_icr. destruct (B4 b Cb) as [E|E]; rewrite E.
      * simpl. auto.
      * pose proof (B5 b Cb) as Hm. rewrite E in Hm.
        destruct (N.ltb_spec (occ rs (mem s) L b + x b) MAXREF); [right; lia|left; lia].
    + rewrite N.add_0_r. auto.
  - intros b Cb. rewrite cr_icr. pose proof (B5 b Cb). destruct (b =? eptr r); auto.
    unfold rc_icr. destruct (N.ltb_spec (cr (mem s b)) MAXREF); lia.
  - intros b L2 Fb. unfold xadd. rewrite B6 by auto. destruct (N.eqb_spec (eptr r) b); auto.
    subst. apply tgt_nf in Tr as [E|E]; [unfold NUL in *; lia|tauto].
Qed.

(** A fresh pending request has count 0. *)
Lemma RC_new own own' S m m' L x a d i F G :
  2 < a -> freeish (own a) -> own' a = OQue d i -> (forall b, b <> a -> own' b = own b) -> ~ In a S ->
  m' a = C F G 0 -> (forall b, b <> a -> m' b = m b) ->
  RC own S idn m L x -> RC own' S idn m' L x.
Proof.
  intros La Fa Oa Ob Na Ma Mb [B1 B2 B3 B4 B5 B6].
  assert (NaL : ~ In a L).
  { rewrite B2. destruct Fa as [Fa|[j Fa]]; rewrite Fa; intros [(? & ?)|(? & ? & ? & ?)]; discriminate. }
  assert (Tg : forall p, tgt own p -> p <> a).
  { intros p Tp ->. apply tgt_nf in Tp as [E|E]; [unfold NUL in *; lia|tauto]. }
  assert (Sm : forall b, In b L -> sameTE m m' b).
  { intros b Ib. assert (b <> a) by congruence. unfold sameTE. now rewrite Mb. }
  assert (Tm : forall p, tgt own p -> tgt own' p).
  { intros p Tp. unfold tgt, counted. rewrite Ob by (apply Tg; auto). exact Tp. }
  constructor; auto.
  - intros b. rewrite B2. destruct (N.eq_dec b a) as [->|Nb].
    + rewrite Oa. split.
      * destruct Fa as [Fa|[j Fa]]; rewrite Fa; intros [(? & ?)|(? & ? & ? & ?)]; discriminate.
      * intros [(? & ?)|(? & ? & ? & ?)]; [discriminate|tauto].
    + rewrite Ob by auto. tauto.
  - intros b Ib. destruct (Sm b Ib) as [-> ->]. destruct (B3 b Ib). auto.
  - intros b Cb. rewrite (occ_frame idn m m') by auto. destruct (N.eq_dec b a) as [->|Nb].
    + right. rewrite Ma; simpl. rewrite B6 by auto. rewrite occ_zero; auto.
      intros c Ic. destruct (B3 c Ic) as [T1 T2]. unfold idn. split; apply Tg; auto.
    + rewrite Mb by auto. apply B4. unfold counted in *. rewrite Ob in Cb by auto. auto.
  - intros b Cb. destruct (N.eq_dec b a) as [->|Nb].
    + rewrite Ma; simpl. unfold MAXREF; lia.
    + rewrite Mb by auto. apply B5. unfold counted in *. rewrite Ob in Cb by auto. auto.
  - intros b Lb Fb. destruct (N.eq_dec b a) as [->|Nb]; auto. rewrite Ob in Fb by auto. auto.
Qed.

(** Expanding a request turns its two counted edges into owner edges. *)
Lemma RC_apply own S m L x a d i :
  own a = OQue d i -> q d i = false -> ~ In a S -> tgt own (eptr (ct (m a))) -> tgt own (eptr (ce (m a))) ->
  RC own S idn m L (xadd (xadd x (eptr (ct (m a)))) (eptr (ce (m a)))) ->
  (forall b, 2 < b -> freeish (own b) -> x b = 0) ->
  RC own (a :: S) idn m (a :: L) x.
Proof.
  intros Oa Qi Na T1 T2 [B1 B2 B3 B4 B5 B6] Hx.
  assert (NaL : ~ In a L).
  { rewrite B2. rewrite Oa. intros [(? & ?)|(? & ? & ? & ?)]; [discriminate|tauto]. }
  constructor; auto.
  - constructor; auto.
  - intros b. simpl. rewrite B2. destruct (N.eq_dec b a) as [->|Nb].
    + split; auto. intros _. right. exists d, i. auto.
    + split.
      * intros [?|[(j & ?)|(e & j & ? & ? & ?)]]; [congruence|left; eauto|right; exists e, j; auto].
      * intros [(j & ?)|(e & j & ? & [?|?] & ?)]; [right; left; eauto|congruence|right; right; exists e, j; auto].
  - intros b [<-|Ib]; auto.
  - intros b Cb. destruct (B4 b Cb) as [E|E]; auto. right. rewrite E. simpl. unfold xadd, wt, idn. lia.
Qed.

(** At other variables the edges are not counted. *)
Lemma RC_apply_un own S m L x a d i :
  own a = OQue d i -> q d i = true -> ~ In a S -> RC own S idn m L x -> RC own (a :: S) idn m L x.
Proof.
  intros Oa Qi Na [B1 B2 B3 B4 B5 B6]. constructor; auto. intros b. rewrite B2.
  split; (intros [H|(e & j & E & Is & Qj)]; [now left|right]); exists e, j.
  - split; auto. split; auto. now right.
  - split; auto. split; auto. destruct Is as [<-|Is]; auto. congruence.
Qed.

End Counts2.

Arguments RC_frame {q}. Arguments RC_x_ext {q}. Arguments RC_icr {q}. Arguments RC_new {q}. Arguments RC_apply {q}. Arguments RC_apply_un {q}.

(** ** Sweeps over an arbitrary kind of request *)
Section Sweep.
Variable o : order.
Hypothesis Wo : wfo o.
Variable k : kind.
Variable Pend : (N -> tag) -> den -> eng -> nat -> N -> N -> Prop.
Hypothesis Pend_ext : forall H own D en own' D' en' d i a,
  EAcc own en -> EAcc own' en' -> SWF o (st en) ->
  ext H own D en own' D' en' -> own a = OQue d i -> ~ H a ->
  (forall p, own p = OInd a -> ~ H p) -> Pend own D en d i a -> Pend own' D' en' d i a.

Notation AInv := (AInv o k Pend).
Local Notation RC := (RCq (kun k)).

(** The invariant after a step, in general (nodes may have been added) and for steps that leave
    the unique tables alone. *)
Lemma AInv_extg h (H : N -> Prop) own D S en own' D' en' :
  AInv h own D S en -> ext H own D en own' D' en' -> EAcc own' en' ->
  SWF o (st en') -> Dok D' (st en') ->
  (forall a, H a -> a = h \/ own a = OInd h) -> (forall r, own h <> OInd r) ->
  (forall a d i, own' a = OQue d i -> own a = OQue d i \/
      (freeish (own a) /\ In i (ord o) /\ Pend own' D' en' d i a)) ->
  (forall p a, own' p = OInd a -> own p = OInd a \/ (freeish (own p) /\ freeish (own a) /\ exists d i, own' a = OQue d i)) ->
  AInv h own' D' S en'.
Proof.
  intros A X AC' W' DK' HH Hh HQ HI. destruct A as [AC W DK DN Q SS SI].
  assert (NSf : forall a, freeish (own a) -> ~ In a S).
  { intros a Fa Ia. destruct (SS a Ia) as (d & i & E). rewrite E in Fa. destruct Fa as [Fa|[? Fa]]; discriminate. }
  assert (Oq : forall a d i, own a = OQue d i -> own' a = OQue d i).
  { intros a d i Oa. rewrite <- Oa. apply (x_own _ _ _ _ _ _ _ X); rewrite Oa; auto. discriminate. }
  constructor; auto.
  - intros d i. rewrite (x_don _ _ _ _ _ _ _ X). auto.
  - intros d i a Oa'. destruct (HQ a d i Oa') as [Oa|(Fa & Ii & P)].
    + destruct (Q d i a Oa) as [Ii Hst]. split; auto. intros Nh.
      assert (NHa : ~ H a).
      { intros Ha. destruct (HH a Ha) as [?|E]; congruence. }
      destruct (Hst Nh) as [[Ia Ap]|[Ia Pe]].
      * left. split; auto. eapply (Applied_ext o k H own D en); eauto.
      * right. split; auto. apply (Pend_ext H own D en own' D' en'); auto.
        intros p Op Hp. destruct (HH p Hp) as [E|E]; [subst p; destruct (Hh a Op)|congruence].
    + split; auto.
  - intros a Ia. destruct (SS a Ia) as (d & i & E). eauto.
  - intros p a Op. destruct (HI p a Op) as [E|(Fp & Fa & d & i & E)].
    + destruct (SI p a E) as [N1 (d & i & E2)]. split; eauto.
    + split; eauto.
Qed.

Lemma AInv_ext h (H : N -> Prop) own D S en own' D' en' :
  AInv h own D S en -> ext H own D en own' D' en' -> EAcc own' en' ->
  (forall i, ut (st en') i = ut (st en) i) ->
  (forall a, H a -> a = h \/ own a = OInd h) -> (forall r, own h <> OInd r) ->
  (forall a d i, own' a = OQue d i -> own a = OQue d i \/
      (freeish (own a) /\ In i (ord o) /\ Pend own' D' en' d i a)) ->
  (forall p a, own' p = OInd a -> own p = OInd a \/ (freeish (own p) /\ freeish (own a) /\ exists d i, own' a = OQue d i)) ->
  AInv h own' D' S en'.
Proof.
  intros A X AC' U. apply (AInv_extg h H own D S en own' D' en' A X AC').
  - exact (ext_SWF o H own D en own' D' en' (ai_acc _ _ _ _ _ _ _ _ A) X U (ai_swf _ _ _ _ _ _ _ _ A)).
  - exact (ext_Dok o H own D en own' D' en' (ai_acc _ _ _ _ _ _ _ _ A) X U (ai_swf _ _ _ _ _ _ _ _ A) (ai_dok _ _ _ _ _ _ _ _ A)).
Qed.

Lemma AInv_h h own D S en : AInv 0 own D S en -> AInv h own D S en.
Proof.
  intros [AC W DK DN Q SS SI]. constructor; auto.
  intros d i a Oa. destruct (Q d i a Oa) as [Ii Hst]. split; auto. intros _. apply Hst.
  assert (own a <> ONone) as Hn by congruence. apply (acc_rng _ _ _ AC) in Hn. lia.
Qed.

Lemma AInv_close a own D S en d i :
  AInv a own D S en -> own a = OQue d i -> Applied o k own D (mem (st en)) d i a ->
  (forall p, own p <> OInd a) -> AInv 0 own D (a :: S) en.
Proof.
  intros [AC W DK DN Q SS SI] Oa Ap NI. constructor; auto.
  - intros d' j b Ob. destruct (Q d' j b Ob) as [Ij Hst]. split; auto. intros _.
    destruct (N.eq_dec b a) as [->|Nb].
    + left. rewrite Oa in Ob. injection Ob as <- <-. split; [now left|auto].
    + destruct (Hst Nb) as [[I1 A1]|[I1 P1]]; [left|right]; split; auto.
      * now right.
      * intros [?|?]; congruence.
  - intros b [<-|Ib]; eauto.
  - intros p b Op. destruct (SI p b Op) as [N1 H2]. split; auto.
    intros [<-|?]; auto. destruct (NI p Op).
Qed.

(** Edges valid at some depth have a created variable. *)
Lemma lvl_ord h own D S en n e :
  AInv h own D S en -> vedge (lvl own n) e -> eid e <> 0 -> In (eid e) (ord o).
Proof.
  intros A [[H _]|[_ [H|(d & _ & H)]]] N0; [congruence| |].
  - apply (acc_node _ _ _ _ (ai_acc _ _ _ _ _ _ _ _ A)) in H.
    exact (no_id _ _ _ _ (swf_node _ _ (ai_swf _ _ _ _ _ _ _ _ A) _ _ N0 H)).
  - apply (ai_que _ _ _ _ _ _ _ _ A) in H. tauto.
Qed.

(** One request, as performed by a concrete operator.  [Need d d']: a request of queue [d] may
    have operands in queue [d'], which must have been expanded before at the same level. *)
Variable Need : nat -> nat -> Prop.
Variable step : nat -> N -> eng -> N -> eng.
Definition step_ok (d : nat) : Prop := forall own D S en L x i a,
  AInv 0 own D S en -> RC own S idn (mem (st en)) L x -> own a = OQue d i -> ~ In a S ->
  (forall d' b, Need d d' -> own b = OQue d' i -> In b S) ->
  (forall d' j b, own b = OQue d' j -> idx o i < idx o j -> ~ In b S) ->
  (forall p q, own p = OInd q -> x p = 0) ->
  exists own' D',
    AInv 0 own' D' (a :: S) (step d i en a) /\
    RC own' (a :: S) idn (mem (st (step d i en a))) (if kun k d i then L else a :: L) x /\
    ext (fun b => b = a \/ own b = OInd a) own D en own' D' (step d i en a) /\
    (forall b d' j, own' b = OQue d' j -> own b = OQue d' j \/ ((d' < klv k d)%nat /\ idx o i < idx o j)).

Definition anyH : N -> Prop := fun _ => True.
Lemma ext_any H own D en own' D' en' : ext H own D en own' D' en' -> ext anyH own D en own' D' en'.
Proof. apply ext_weaken. intros; exact I. Qed.
Lemma ext_any_trans own D en own1 D1 en1 own2 D2 en2 :
  EAcc own en -> EAcc own1 en1 ->
  ext anyH own D en own1 D1 en1 -> ext anyH own1 D1 en1 own2 D2 en2 -> ext anyH own D en own2 D2 en2.
Proof.
  intros A1 A2 X Y. eapply ext_any. eapply (ext_trans anyH anyH); eauto.
Qed.

Lemma oque_ext H own D en own' D' en' b d j : ext H own D en own' D' en' -> own b = OQue d j -> own' b = OQue d j.
Proof. intros X Ob. rewrite <- Ob. apply (x_own _ _ _ _ _ _ _ X); rewrite Ob; auto. discriminate. Qed.

Lemma ind_x {q0} H own D en own' D' en' S rs m L x :
  EAcc own' en' -> RCq q0 own S rs m L x -> ext H own D en own' D' en' ->
  (forall p q, own p = OInd q -> x p = 0) -> forall p q, own' p = OInd q -> x p = 0.
Proof.
  intros A' R X HI p q Op. assert (2 < p) by (apply (acc_rng _ _ _ A'); congruence).
  destruct (freeish_dec (own p)) as [F|F]; [eapply (rc_x _ _ _ _ _ _ R); eauto|].
  assert ((exists r, own p = OInd r) \/ (forall r, own p <> OInd r)) as [[r E]|Ni].
  { destruct (own p); try (right; discriminate). left; eauto. }
  - eauto.
  - rewrite (x_own _ _ _ _ _ _ _ X p F) in Op by (intros r E; destruct (Ni r E)). destruct (Ni _ Op).
Qed.

(** One table: every request of queue [d] at level [i] is expanded, new requests are deeper. *)
Definition table_ok (tstep : eng -> eng) (d : nat) (i : N) : Prop := forall own D S en L x,
  AInv 0 own D S en -> RC own S idn (mem (st en)) L x -> In i (ord o) ->
  (forall b, own b = OQue d i -> ~ In b S) ->
  (forall d' b, Need d d' -> own b = OQue d' i -> In b S) ->
  (forall d' j b, own b = OQue d' j -> idx o i < idx o j -> ~ In b S) ->
  (forall p q, own p = OInd q -> x p = 0) ->
  exists own' D' S' L', let en' := tstep en in
    AInv 0 own' D' S' en' /\ RC own' S' idn (mem (st en')) L' x /\
    ext anyH own D en own' D' en' /\
    (forall b, In b S' <-> In b S \/ own b = OQue d i) /\
    (forall b d' j, own' b = OQue d' j -> own b = OQue d' j \/ ((d' < klv k d)%nat /\ idx o i < idx o j)).

Section Table.
Variable d : nat.
Hypothesis step_spec : step_ok d.

Lemma fold_step i : forall l own D S en L x,
  AInv 0 own D S en -> RC own S idn (mem (st en)) L x -> NoDup l ->
  (forall a, In a l -> own a = OQue d i /\ ~ In a S) ->
  (forall d' b, Need d d' -> own b = OQue d' i -> In b S) ->
  (forall d' j b, own b = OQue d' j -> idx o i < idx o j -> ~ In b S) ->
  (forall p q, own p = OInd q -> x p = 0) ->
  exists own' D' L', let en' := fold_left (step d i) l en in
    AInv 0 own' D' (rev l ++ S) en' /\ RC own' (rev l ++ S) idn (mem (st en')) L' x /\
    ext anyH own D en own' D' en' /\
    (forall b d' j, own' b = OQue d' j -> own b = OQue d' j \/ ((d' < klv k d)%nat /\ idx o i < idx o j)).
Proof using step_spec.
  induction l as [|a l IH]; intros own D S en L x A R ND Hl Hd Hi HI.
  - exists own, D, L. simpl. split; auto. split; auto. split; [eapply ext_any; apply ext_refl|]. auto.
  - destruct (Hl a (or_introl eq_refl)) as [Oa Na].
    destruct (step_spec own D S en L x i a A R Oa Na Hd Hi HI) as (own1 & D1 & A1 & R1 & X1 & N1).
    inversion ND as [|? ? Nal NDl]; subst.
    destruct (IH own1 D1 (a :: S) (step d i en a) _ x A1 R1 NDl) as (own2 & D2 & L2 & A2 & R2 & X2 & N2).
    + intros b Ib. destruct (Hl b (or_intror Ib)) as [Ob Nb]. split.
      * eapply oque_ext; eauto.
      * intros [?|?]; congruence.
    + intros d' b Ld Ob. right. destruct (N1 _ _ _ Ob) as [Ob'|[_ ?]]; [|lia]. eauto.
    + intros d' j b Ob Lt [<-|Ib].
      * pose proof (oque_ext _ _ _ _ _ _ _ _ _ _ X1 Oa). assert (i = j) by congruence. subst. lia.
      * destruct (ai_S _ _ _ _ _ _ _ _ A b Ib) as (d1 & i1 & E).
        pose proof (oque_ext _ _ _ _ _ _ _ _ _ _ X1 E) as E1. rewrite E1 in Ob. injection Ob as -> ->.
        eapply Hi; eauto.
    + exact (ind_x _ _ _ _ _ _ _ _ _ _ _ _ (ai_acc _ _ _ _ _ _ _ _ A1) R X1 HI).
    + exists own2, D2, L2. cbn [fold_left rev]. rewrite <- app_assoc. cbn [app].
      split; auto. split; auto.
      split; [eapply ext_any_trans; [exact (ai_acc _ _ _ _ _ _ _ _ A)|exact (ai_acc _ _ _ _ _ _ _ _ A1)| |exact X2]; eapply ext_any; eauto|].
      intros b d' j Ob. destruct (N2 _ _ _ Ob) as [Ob'|?]; auto.
Qed.

Variable enum : memory -> list N -> list N.
Hypothesis enum_perm : forall m l, Permutation (enum m l) l.

Definition stable (d : nat) (i : N) (en : eng) : eng := fold_left (step d i) (enum (mem (st en)) (que en d i)) en.

Lemma stable_ok i : table_ok (stable d i) d i.
Proof using step_spec enum_perm.
  intros own D S en L x A R Ii H0 Hd Hi HI. set (l := enum (mem (st en)) (que en d i)).
  pose proof (ai_acc _ _ _ _ _ _ _ _ A) as AC.
  assert (Pm : Permutation l (que en d i)) by apply enum_perm.
  assert (Hl : forall a, In a l <-> own a = OQue d i).
  { intros a. rewrite <- (acc_que _ _ _ _ _ AC). split; apply Permutation_in; [|symmetry]; auto. }
  destruct (fold_step i l own D S en L x A R) as (own' & D' & L' & A' & R' & X' & N'); auto.
  - eapply Permutation_NoDup; [symmetry; exact Pm|]. exact (acc_nd _ _ _ AC (OQue d i) eq_refl).
  - intros a Ia. apply Hl in Ia. auto.
  - exists own', D', (rev l ++ S), L'. cbv zeta. unfold stable. fold l.
    split; auto. split; auto. split; auto. split; auto.
    intros b. rewrite in_app_iff, <- in_rev, Hl. tauto.
Qed.
End Table.

(** Position of the sweep: everything above level [c], and the queues in [dn] at level [c]. *)
Definition pos (own : N -> tag) (S : list N) (c : N) (dn : list nat) : Prop :=
  forall d j b, own b = OQue d j -> (In b S <-> idx o j < c \/ (idx o j = c /\ In d dn)).
Definition QB (n : nat) (own : N -> tag) : Prop := forall d j b, own b = OQue d j -> (d < n)%nat.

Variable tstep : nat -> N -> eng -> eng.
Hypothesis tstep_ok : forall d i, table_ok (tstep d i) d i.

Lemma table_sweep d i n dn own D S en L x :
  AInv 0 own D S en -> RC own S idn (mem (st en)) L x -> In i (ord o) ->
  pos own S (idx o i) dn -> ~ In d dn -> (forall d', Need d d' -> In d' dn) ->
  QB n own -> (klv k d <= n)%nat -> (forall p q, own p = OInd q -> x p = 0) ->
  exists own' D' S' L', let en' := tstep d i en in
    AInv 0 own' D' S' en' /\ RC own' S' idn (mem (st en')) L' x /\
    ext anyH own D en own' D' en' /\ pos own' S' (idx o i) (d :: dn) /\ QB n own' /\
    (forall b d' j, own' b = OQue d' j -> own b = OQue d' j \/ idx o i < idx o j).
Proof.
  intros A R Ii P Nd Nn Qb Ld HI.
  destruct (tstep_ok d i own D S en L x A R Ii) as (own' & D' & S' & L' & A' & R' & X' & HS & N'); auto.
  - intros b Ob Ib. apply (P _ _ _ Ob) in Ib. destruct Ib as [?|[_ ?]]; [lia|auto].
  - intros d' b Ne Ob. apply (P _ _ _ Ob). auto.
  - intros d' j b Ob Lt. rewrite (P _ _ _ Ob). lia.
  - exists own', D', S', L'. cbv zeta. split; auto. split; auto. split; auto. split; [|split].
    + intros d' j b Ob'. rewrite HS.
      assert (St : In b S -> own b = OQue d' j).
      { intros Ib. destruct (ai_S _ _ _ _ _ _ _ _ A b Ib) as (d1 & i1 & E).
        pose proof (oque_ext _ _ _ _ _ _ _ _ _ _ X' E). congruence. }
      split.
      * intros [Ib|Ib].
        -- pose proof (St Ib) as E. apply (P _ _ _ E) in Ib. destruct Ib as [?|[? ?]]; [left; auto|right; split; [auto|now right]].
        -- pose proof (oque_ext _ _ _ _ _ _ _ _ _ _ X' Ib) as E. assert (d' = d /\ j = i) as [-> ->] by (split; congruence).
           right. split; [auto|now left].
      * intros Hc. destruct (N' _ _ _ Ob') as [E|[_ Lt]].
        -- destruct Hc as [Hc|[Hc [<-|Hd]]].
           ++ left. apply (P _ _ _ E). auto.
           ++ right. rewrite E. f_equal. eapply wfo_inj; eauto.
              destruct (ai_que _ _ _ _ _ _ _ _ A _ _ _ E); auto.
           ++ left. apply (P _ _ _ E). auto.
        -- exfalso. destruct Hc as [?|[? _]]; lia.
    + intros d' j b Ob. destruct (N' _ _ _ Ob) as [E|[? _]]; [eapply Qb; eauto|lia].
    + intros b d' j Ob. destruct (N' _ _ _ Ob) as [E|[_ ?]]; auto.
Qed.

Definition slevel (depths : list nat) (i : N) (en : eng) : eng :=
  fold_left (fun en d => tstep d i en) depths en.

(** An admissible order of the queues within a level. *)
Fixpoint okds (dn ds : list nat) : Prop :=
  match ds with
  | [] => True
  | d :: ds => ~ In d dn /\ (forall d', Need d d' -> In d' dn) /\ okds (d :: dn) ds
  end.

Lemma level_sweep i n : forall ds dn own D S en L x,
  AInv 0 own D S en -> RC own S idn (mem (st en)) L x -> In i (ord o) ->
  pos own S (idx o i) dn -> okds dn ds -> (forall d, In d ds -> (klv k d <= n)%nat) ->
  QB n own -> (forall p q, own p = OInd q -> x p = 0) ->
  exists own' D' S' L', let en' := slevel ds i en in
    AInv 0 own' D' S' en' /\ RC own' S' idn (mem (st en')) L' x /\
    ext anyH own D en own' D' en' /\ pos own' S' (idx o i) (rev ds ++ dn) /\ QB n own' /\
    (forall b d' j, own' b = OQue d' j -> own b = OQue d' j \/ idx o i < idx o j).
Proof.
  induction ds as [|d ds IH]; intros dn own D S en L x A R Ii P Ok Hn Qb HI.
  - exists own, D, S, L. simpl.
    split; auto. split; auto. split; [eapply ext_any; apply ext_refl|]. auto.
  - destruct Ok as (Nd & Nn & Ok).
    destruct (table_sweep d i n dn own D S en L x A R Ii P Nd Nn Qb) as (o1 & D1 & S1 & L1 & A1 & R1 & X1 & P1 & Q1 & K1);
      [apply Hn; now left|exact HI|].
    pose proof (ind_x _ _ _ _ _ _ _ _ _ _ _ _ (ai_acc _ _ _ _ _ _ _ _ A1) R X1 HI) as HI1.
    destruct (IH (d :: dn) o1 D1 S1 (tstep d i en) L1 x) as (o2 & D2 & S2 & L2 & A2 & R2 & X2 & P2 & Q2 & K2); auto.
    { intros d' Hd'. apply Hn. now right. }
    exists o2, D2, S2, L2. cbn [slevel fold_left rev]. rewrite <- app_assoc. cbn [app]. split; auto. split; auto.
    split; [eapply ext_any_trans; [exact (ai_acc _ _ _ _ _ _ _ _ A)|exact (ai_acc _ _ _ _ _ _ _ _ A1)|exact X1|exact X2]|].
    split; auto. split; auto. intros b d' j Ob. destruct (K2 _ _ _ Ob) as [Ob1|]; auto.
Qed.

Definition sweep (depths : list nat) (ids : list N) (en : eng) : eng :=
  fold_left (fun en i => slevel depths i en) ids en.

Lemma skipn_cons {A} (l : list A) n i r : i :: r = skipn n l -> nth_error l n = Some i /\ r = skipn (S n) l.
Proof.
  revert n; induction l as [|x l IH]; intros n H.
  - rewrite skipn_nil in H. discriminate.
  - destruct n as [|n]; simpl in *.
    + injection H as -> ->. auto.
    + apply IH in H. destruct H as [H1 ->]. split; auto.
Qed.

Lemma sweep_spec n ds : okds [] ds -> (forall d, In d ds <-> (d < n)%nat) -> (forall d, (d < n)%nat -> (klv k d <= n)%nat) ->
  forall ids c own D S en L x, ids = skipn c (ord o) ->
  AInv 0 own D S en -> RC own S idn (mem (st en)) L x ->
  pos own S (N.of_nat c) [] -> QB n own -> (forall p q, own p = OInd q -> x p = 0) ->
  exists own' D' S' L', let en' := sweep ds ids en in
    AInv 0 own' D' S' en' /\ RC own' S' idn (mem (st en')) L' x /\
    ext anyH own D en own' D' en' /\ (forall d j b, own' b = OQue d j -> In b S') /\ QB n own' /\
    (forall b d' j, own' b = OQue d' j -> own b = OQue d' j \/ N.of_nat c < idx o j).
Proof.
  intros Ok Hds Hkl. induction ids as [|i ids IH]; intros c own D S en L x E A R P Qb HI.
  - exists own, D, S, L. simpl. split; auto. split; auto. split; [eapply ext_any; apply ext_refl|].
    split; [|split; auto]. intros d j b Ob. apply (P _ _ _ Ob). left.
    destruct (ai_que _ _ _ _ _ _ _ _ A _ _ _ Ob) as [Ij _].
    assert (length (skipn c (ord o)) = 0%nat) as Hl by (rewrite <- E; auto).
    rewrite skipn_length in Hl. pose proof (wfo_in o j Wo Ij). lia.
  - apply skipn_cons in E as [Hn E]. destruct (wfo_idx o Wo _ _ Hn) as [N0 Hi].
    assert (Ii : In i (ord o)) by (eapply nth_error_In; eauto).
    destruct (level_sweep i n ds [] own D S en L x) as (o1 & D1 & S1 & L1 & A1 & R1 & X1 & P1 & Q1 & K1); auto.
    { now rewrite Hi. }
    { intros d Hd. apply Hkl, Hds, Hd. }
    pose proof (ind_x _ _ _ _ _ _ _ _ _ _ _ _ (ai_acc _ _ _ _ _ _ _ _ A1) R X1 HI) as HI1.
    destruct (IH (Datatypes.S c) o1 D1 S1 (slevel ds i en) L1 x) as (o2 & D2 & S2 & L2 & A2 & R2 & X2 & P2 & Q2 & K2); auto.
    { intros d j b Ob. rewrite (P1 _ _ _ Ob), app_nil_r, <- in_rev, Hds. pose proof (Q1 _ _ _ Ob). simpl In. lia. }
    exists o2, D2, S2, L2. simpl. split; auto. split; auto.
    split; [eapply ext_any_trans; [exact (ai_acc _ _ _ _ _ _ _ _ A)|exact (ai_acc _ _ _ _ _ _ _ _ A1)|exact X1|exact X2]|].
    split; auto. split; auto. intros b d' j Ob. destruct (K2 _ _ _ Ob) as [Ob1|]; [|lia].
    destruct (K1 _ _ _ Ob1); auto. rewrite Hi in *. auto.
Qed.

End Sweep.

(** The order in which pipelines are swept: a queue needs the lower ones. *)
Definition below : nat -> nat -> Prop := fun d d' => (d' < d)%nat.
Lemma okds_seq : forall n d dn, (forall e, In e dn <-> (e < d)%nat) -> okds below dn (seq d n).
Proof.
  induction n as [|n IH]; intros d dn H; simpl; auto. split; [rewrite H; lia|]. split.
  - intros d' L. apply H. exact L.
  - apply IH. intros e. simpl. rewrite H. lia.
Qed.

(** Expansion of an operand at its own level, in an engine whose requests stand for nodes. *)
Lemma expand o Pend h own D S en d e :
  AInv o kstd Pend h own D S en -> vedge (lvl own d) e -> eid e <> 0 ->
  (forall d' b, (d' < d)%nat -> own b = OQue d' (eid e) -> In b S /\ b <> h) ->
  vedge (lvl own d) (thenof (mem (st en)) e) /\ vedge (lvl own d) (elseof (mem (st en)) e) /\
  gt_idx o (eid e) (thenof (mem (st en)) e) /\ gt_idx o (eid e) (elseof (mem (st en)) e) /\
  forall rho, dv D e rho = if rho (eid e) then dv D (thenof (mem (st en)) e) rho
                           else dv D (elseof (mem (st en)) e) rho.
Proof.
  intros A V N0 HS. pose proof (ai_acc _ _ _ _ _ _ _ _ A) as AC. pose proof (ai_swf _ _ _ _ _ _ _ _ A) as W.
  destruct V as [[? _]|[_ [H|(d' & Ld & H)]]]; [congruence| |].
  - apply (acc_node _ _ _ _ AC) in H. pose proof (swf_node _ _ W _ _ N0 H) as NO.
    unfold thenof, elseof. rewrite !vedge_ephase.
    split; [eapply vedge_lvl0; eauto; apply NO|]. split; [eapply vedge_lvl0; eauto; apply NO|].
    split; [apply NO|]. split; [apply NO|]. intros rho.
    exact (dv_node D (st en) e rho (ai_dok _ _ _ _ _ _ _ _ A) N0 H).
  - destruct (HS d' (eptr e) Ld H) as [Ib Nb].
    destruct (ai_que _ _ _ _ _ _ _ _ A _ _ _ H) as [_ Hst]. destruct (Hst Nb) as [[_ Ap]|[? _]]; [|tauto].
    destruct (Applied_std _ _ _ _ _ _ _ Ap) as (B1 & B2 & B3 & B4 & B5).
    unfold thenof, elseof. rewrite !vedge_ephase.
    split; [eapply vedge_lvl_mono; [|eauto]; lia|]. split; [eapply vedge_lvl_mono; [|eauto]; lia|].
    split; auto. split; auto. intros rho. rewrite !dv_ephase. unfold dv at 1. rewrite B5.
    now destruct (rho (eid e)).
Qed.

(** Expansion of a node. *)
Lemma expand0 o k Pend h own D S en e :
  AInv o k Pend h own D S en -> vedge (lvl own 0) e -> eid e <> 0 ->
  vedge (lvl own 0) (thenof (mem (st en)) e) /\ vedge (lvl own 0) (elseof (mem (st en)) e) /\
  gt_idx o (eid e) (thenof (mem (st en)) e) /\ gt_idx o (eid e) (elseof (mem (st en)) e) /\
  forall rho, dv D e rho = if rho (eid e) then dv D (thenof (mem (st en)) e) rho
                           else dv D (elseof (mem (st en)) e) rho.
Proof.
  intros A V N0. pose proof (ai_acc _ _ _ _ _ _ _ _ A) as AC. pose proof (ai_swf _ _ _ _ _ _ _ _ A) as W.
  destruct V as [[? _]|[_ [H|(d' & Ld & H)]]]; [congruence| |lia].
  apply (acc_node _ _ _ _ AC) in H. pose proof (swf_node _ _ W _ _ N0 H) as NO.
  unfold thenof, elseof. rewrite !vedge_ephase.
  split; [eapply vedge_lvl0; eauto; apply NO|]. split; [eapply vedge_lvl0; eauto; apply NO|].
  split; [apply NO|]. split; [apply NO|]. intros rho.
  exact (dv_node D (st en) e rho (ai_dok _ _ _ _ _ _ _ _ A) N0 H).
Qed.
