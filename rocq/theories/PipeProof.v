(** * Pipelined operations compute their results. *)
From Coq Require Import Permutation.
From Verif Require Import Base BFModel StoreInv Own EngInv ApplyProof BinopProof ReduceProof EngineProof OpProof MultiProof
  MgrModel QProof GCProof ApiModel MInv ApiProof ApiOps PipeModel.

Definition cnt (l : list N) (b : N) : N := N.of_nat (count_occ N.eq_dec l b).
Definition lka (lk : N -> N) (l : list N) : N -> N := fun b => lk b + cnt l b.

Lemma cnt_app l l' b : cnt (l ++ l') b = cnt l b + cnt l' b.
Proof. unfold cnt. rewrite count_occ_app. lia. Qed.
Lemma cnt_in l b : In b l -> 1 <= cnt l b.
Proof. intros H. apply (count_occ_In N.eq_dec) in H. unfold cnt. lia. Qed.
Lemma cnt_perm l l' b : Permutation l l' -> cnt l b = cnt l' b.
Proof. intros P. unfold cnt. f_equal. now apply Permutation_count_occ. Qed.
Lemma cnt_one a b : cnt [a] b = if a =? b then 1 else 0.
Proof. unfold cnt. simpl. destruct (N.eq_dec a b), (N.eqb_spec a b); try lia; congruence. Qed.
Lemma cnt_not l b : ~ In b l -> cnt l b = 0.
Proof. intros H. apply (count_occ_not_In N.eq_dec) in H. unfold cnt. now rewrite H. Qed.

Definition off_table (s : store) (a : N) : Prop := 2 < a /\ forall i, ~ In a (ut s i).

Lemma hid_own o own D en L x a :
  EInv o own D en -> RC own [] idn (mem (st en)) L x -> off_table (st en) a -> x a <> 0 -> own a = OX.
Proof.
  intros I R [La Na] Xa. destruct (own a) eqn:Oa; auto; exfalso.
  - apply Xa. apply (rc_x _ _ _ _ _ _ R); auto. left; auto.
  - apply (Na i). now apply (acc_node _ _ _ _ (ei_acc _ _ _ _ I)).
  - apply Xa. apply (rc_x _ _ _ _ _ _ R); auto. right; eauto.
  - eapply EInv_nq; eauto.
  - apply (acc_in _ _ _ (ei_acc _ _ _ _ I) (ODon d i)) in Oa; auto. simpl in Oa. rewrite (ei_don _ _ _ _ I) in Oa. destruct Oa.
  - eapply ei_ind; eauto.
Qed.

Lemma RC_x_ox own S rs m L x x' : (forall b, own b <> OX -> x' b = x b) -> RC own S rs m L x -> RC own S rs m L x'.
Proof.
  intros E [B1 B2 B3 B4 B5 B6]. constructor; auto.
  - intros b Cb. rewrite E; auto. intros Ob. destruct Cb as [(i & H)|(d & i & H)]; congruence.
  - intros b Lb Fb. rewrite E; auto. intros Ob. rewrite Ob in Fb. destruct (nf_ox Fb).
Qed.

(** A cell that is in no table may be held or not. *)
Lemma QS_hide o D en x x' :
  (forall b, x' b = x b \/ (off_table (st en) b /\ x b <> 0)) -> QS o D en x -> QS o D en x'.
Proof.
  intros E (own & L & I & R). exists own, L. split; auto. eapply RC_x_ox; [|exact R].
  intros b Ob. destruct (E b) as [?|[H1 H2]]; auto. destruct Ob. eapply hid_own; eauto.
Qed.

Lemma MInv_lk m hs lk lk' D : (forall b, lk' b = lk b) -> MInv m hs lk D -> MInv m hs lk' D.
Proof.
  intros E I. destruct m. apply (MInv_gen _ hs hs lk lk' D _ D I).
  - eapply QS_x_ext; [|exact (mi_q _ _ _ _ I)]. intros b. unfold xr. rewrite E. auto.
  - apply sext_refl.
  - apply I.
Qed.

(** Allocation of such a cell. *)
Lemma MInv_alloc m hs lk D c a s1 :
  MInv m hs lk D -> alloc (st (me m)) 0 = (a, s1) ->
  let s2 := put s1 a c in
  MInv (set_mst m s2) hs (lka lk [a]) D /\ sext (st (me m)) D s2 D /\ off_table s2 a /\ xr m hs lk a = 0 /\
  (forall i, ut s2 i = ut (st (me m)) i) /\ mem s2 a = c /\ forall b, b <> a -> mem s2 b = mmem m b.
Proof.
  intros I Al s2. pose proof (mi_q _ _ _ _ I) as (own & L & Ei & R).
  destruct (EInv_alloc (mo m) own D (me m) L _ 0 a s1 c Ei R Al) as (Fa & La & Xa & I1 & R1 & Ma & Mb & Eu).
  assert (Nu : forall i, ~ In a (ut (st (me m)) i)).
  { intros i Ia. apply (acc_node _ _ _ _ (ei_acc _ _ _ _ Ei)) in Ia. rewrite Ia in Fa. destruct (nf_node _ Fa). }
  assert (X : sext (st (me m)) D s2 D).
  { constructor; auto. intros i b Ib. split.
    - change (In b (ut (st (set_st (me m) s2)) i)). now rewrite Eu.
    - unfold sameTE. change (mem s2) with (mem (st (set_st (me m) s2))). rewrite Mb; auto.
      intros ->. exact (Nu i Ib). }
  split.
  { apply (MInv_gen m hs hs lk (lka lk [a]) D _ D I); auto.
    - exists (upd own a OX), L. split; [exact I1|]. eapply RC_x_ox; [|exact R1].
      intros b Ob. unfold xr, lka. rewrite cnt_one. destruct (N.eqb_spec a b) as [->|]; [|simpl; lia].
      destruct Ob. apply upd_same.
    - intros h Ih. exact (proj1 (sext_uok _ _ _ _ h X (mi_hs _ _ _ _ I h Ih))). }
  split; auto. split; [split; auto; intros i; change (~ In a (ut (st (set_st (me m) s2)) i)); now rewrite Eu|].
  split; auto. 
Qed.

(** Post-processing may collect garbage; cells and held nodes stay. *)
Lemma postproc_keep d m hs lk D ov m' : MInv m hs lk D -> postproc d m = (ov, m') ->
  MInv m' hs lk D /\ mext hs m D m' D /\ (forall c, sameTE (mmem m) (mmem m') c) /\
  (forall i b, In b (ut (st (me m')) i) -> In b (ut (st (me m)) i)) /\
  (forall i b, In b (ut (st (me m)) i) -> xr m hs lk b <> 0 -> In b (ut (st (me m')) i)) /\ mo m' = mo m.
Proof.
  intros I. unfold postproc.
  assert (Same : MInv m hs lk D /\ mext hs m D m D /\ (forall c, sameTE (mmem m) (mmem m) c) /\
    (forall i b, In b (ut (st (me m)) i) -> In b (ut (st (me m)) i)) /\
    (forall i b, In b (ut (st (me m)) i) -> xr m hs lk b <> 0 -> In b (ut (st (me m)) i)) /\ mo m = mo m).
  { split; auto. split; [apply mext_refl|]. split; [split; auto|]. auto. }
  destruct (d_chk d). { intros H; injection H as <- <-. exact Same. }
  destruct (mlim m <? nn (st (me m))). 2:{ intros H; injection H as <- <-. exact Same. }
  clear Same.
  destruct (gc_MInv m hs lk D I) as [I1 X1].
  destruct (set_gclimit_MInv _ hs lk D I1) as [I2 X2].
  assert (F : (forall c, sameTE (mmem m) (mmem (gc m)) c) /\
    (forall i b, In b (ut (st (me (gc m))) i) -> In b (ut (st (me m)) i)) /\
    (forall i b, In b (ut (st (me m)) i) -> xr m hs lk b <> 0 -> In b (ut (st (me (gc m))) i)) /\ mo (gc m) = mo m).
  { unfold gc. destruct (gc_store (mo m) (st (me m))) as [s' fr] eqn:GS.
    destruct (gc_store_spec _ _ _ _ _ _ (mi_wfo _ _ _ _ I) (mi_q _ _ _ _ I) GS) as [[G1 G2 G3 G4 G5] NZ].
    split; [exact G2|]. split; [intros i b Ib; now apply G3|]. split; auto.
    intros i b Ib Hx. apply G3. split; auto. intros Hf. destruct (G4 b Hf). auto. }
  set (m1 := set_gclimit (gc m)) in *.
  destruct (negb (mnl m1 =? 0) && (mnl m1 <? nn (st (me m1)))) eqn:O; intros H; injection H as <- <-.
  - destruct (MInv_limits m1 hs lk D (mlim m1) (mnl m1) true I2) as [I3 X3].
    split; auto. split; [eapply mext_trans; [exact X1|]; eapply mext_trans; eauto|]. exact F.
  - destruct (MInv_cache m1 hs lk D (cache_rehash (d_rehash d) (mca m1))) as [I3 X3]; auto.
    { intros k e. unfold cache_rehash. destruct (d_rehash d k) as [j|]; [|discriminate]. eauto. }
    split; auto. split; [eapply mext_trans; [exact X1|]; eapply mext_trans; eauto|]. exact F.
Qed.

(** ** The state between the calls *)

Definition res (mm : memory) (a : N) : N := eptr (ct (mm a)).
Definition upto (p : pipe) (n : nat) : list N := concat (map (pls p) (seq 0 n)).

(** An operand of a request: a handle of the client or the result of another request. *)
Definition Opd (m : mgr) (hs : list ubdd) (D : den) (VL : N -> bf) (P : N -> Prop) (e : edge) (v : bf) : Prop :=
  (exists h, In h hs /\ e = uint (mmem m) h /\ forall rho, v rho = dv D e rho) \/
  (P (eptr e) /\ forall rho, v rho = xorb (eneg e) (VL (eptr e) rho)).

Record PS (op : binop) (hs : list ubdd) (lk : N -> N) (VL : N -> bf) (lev : N -> nat) (reqs usrs : list N) (Fs : list bf)
    (locks : list N) (off : nat) (m : mgr) (p : pipe) (D : den) : Prop := {
  q_inv : MInv m hs (lka lk ((reqs ++ usrs) ++ locks)) D;
  q_op : pop p = op;
  q_nd : NoDup (reqs ++ usrs);
  q_off : forall a, In a (reqs ++ usrs) -> off_table (st (me m)) a;
  q_len : length usrs = length reqs /\ length Fs = length reqs;
  q_usr : forall k, (k < length reqs)%nat ->
     eptr (ct (mmem m (nth k usrs 0))) = nth k reqs 0 /\ eneg (ct (mmem m (nth k usrs 0))) = false /\
     VL (nth k reqs 0) = nth k Fs (fun _ => false);
  q_dep : (pdep p <= MAX_INSERT)%nat;
  q_in : forall i a, In a (pls p i) <-> In a reqs /\ lev a = i;
  q_lnd : forall i, NoDup (pls p i);
  q_lev : forall a, In a reqs -> (lev a < pdep p)%nat;
  q_pus : pus p = rev usrs;
  q_todo : forall a, In a reqs -> (off <= lev a)%nat -> exists v w,
     Opd m hs D VL (fun b => In b reqs /\ (lev b < lev a)%nat) (ct (mmem m a)) v /\
     Opd m hs D VL (fun b => In b reqs /\ (lev b < lev a)%nat) (ce (mmem m a)) w /\
     forall rho, VL a rho = bsem op (v rho) (w rho);
  q_done : forall a, In a reqs -> (lev a < off)%nat ->
     eptr (ce (mmem m a)) = 0 /\ vedge (nodeR (st (me m))) (ct (mmem m a)) /\ forall rho, dv D (ct (mmem m a)) rho = VL a rho
}.

(** While provisional BDDs are being created the depth of a request is in its cell. *)
Definition depths_ok (m : mgr) (p : pipe) (reqs : list N) (lev : N -> nat) : Prop :=
  ps p = CREATE /\ pmk p = rev reqs /\ forall a, In a reqs -> cr (mmem m a) = N.of_nat (lev a).

Lemma Opd_frame m hs lk D VL (P : N -> Prop) e v m' D' VL' (P' : N -> Prop) :
  MInv m hs lk D -> sext (st (me m)) D (st (me m')) D' ->
  (forall a, P a -> P' a /\ VL' a = VL a) -> Opd m hs D VL P e v -> Opd m' hs D' VL' P' e v.
Proof.
  intros I X HP [(h & Ih & -> & Ev)|(Hp & Ev)]; [left|right].
  - exists h. split; auto. destruct (sext_uok _ _ _ _ h X (mi_hs _ _ _ _ I h Ih)) as [_ Eu]. split; [now rewrite Eu|].
    intros rho. rewrite Ev. symmetry. eapply sext_dv; eauto. eapply MI_int; eauto.
  - destruct (HP _ Hp) as [H1 H2]. rewrite H2. auto.
Qed.

Lemma upto_in p lev reqs n a : (forall i a, In a (pls p i) <-> In a reqs /\ lev a = i) ->
  In a (upto p n) <-> In a reqs /\ (lev a < n)%nat.
Proof.
  intros H. unfold upto. rewrite in_concat. split.
  - intros (l & Il & Ia). apply in_map_iff in Il as (i & <- & Ii). apply in_seq in Ii. apply H in Ia as [Ia <-]. split; auto. lia.
  - intros [Ia Hl]. exists (pls p (lev a)). split; [|now apply H]. apply in_map. apply in_seq. lia.
Qed.

Lemma levels_nd p lev reqs : (forall i a, In a (pls p i) <-> In a reqs /\ lev a = i) -> (forall i, NoDup (pls p i)) ->
  forall n k, NoDup (concat (map (pls p) (seq k n))).
Proof.
  intros H N. induction n as [|n IH]; intros k; simpl; [constructor|].
  apply NoDup_app_iff'; auto. intros a Ia Ib. apply in_concat in Ib as (l & Il & Ib).
  apply in_map_iff in Il as (i & <- & Ii). apply in_seq in Ii. apply H in Ia as [_ Ea]. apply H in Ib as [_ Eb]. lia.
Qed.

Lemma marked_iff p reqs e : pmk p = rev reqs -> marked p e = true <-> In (eptr e) reqs.
Proof.
  intros E. unfold marked. rewrite E, existsb_exists. split.
  - intros (a & Ia & Ea). apply N.eqb_eq in Ea. rewrite Ea. now apply in_rev.
  - intros H. exists (eptr e). split; [now apply in_rev in H|apply N.eqb_refl].
Qed.

(** ** Creation *)

Definition operand_ok (hs : list ubdd) (n : nat) (x : operand) : Prop :=
  match x with Own h => In h hs | Prov k _ => (k < n)%nat end.
Definition opval (m : mgr) (D : den) (Fs : list bf) (x : operand) : bf :=
  match x with Own h => dv D (uint (mmem m) h) | Prov k b => fun rho => xorb b (nth k Fs (fun _ => false) rho) end.
Definition oplev (ls : list nat) (x : operand) : nat := match x with Own _ => O | Prov k _ => S (nth k ls O) end.
Definition handles (usrs : list N) : list ubdd := map (fun b => U b false) usrs.

Section Create.
Variables (op : binop) (hs : list ubdd) (lk : N -> N).

Lemma operand_edge VL lev reqs usrs Fs m p D x :
  PS op hs lk VL lev reqs usrs Fs [] 0 m p D -> depths_ok m p reqs lev -> operand_ok hs (length reqs) x ->
  let e := uint (mmem m) (ophandle (handles usrs) x) in
  opdepth (mmem m) p e = oplev (map lev reqs) x /\
  Opd m hs D VL (fun b => In b reqs /\ (lev b < oplev (map lev reqs) x)%nat) e (opval m D Fs x).
Proof.
  intros Q (_ & Hm & Hd) Hx. pose proof (q_inv _ _ _ _ _ _ _ _ _ _ _ _ _ Q) as I. destruct x as [h|k b]; simpl in Hx.
  - cbn [ophandle oplev opval]. split.
    + unfold opdepth. destruct (marked p (uint (mmem m) h)) eqn:Mk; auto.
      apply (marked_iff p reqs) in Mk; auto. exfalso.
      destruct (q_off _ _ _ _ _ _ _ _ _ _ _ _ _ Q (eptr (uint (mmem m) h))) as [L N0]. { apply in_or_app; now left. }
      destruct (MI_int _ _ _ _ h I Hx) as [[E1 E2]|[N1 R1]].
      * rewrite E2 in L. unfold ONE in L. lia.
      * exact (N0 _ R1).
    + left. exists h. auto.
  - destruct (q_len _ _ _ _ _ _ _ _ _ _ _ _ _ Q) as [L1 L2].
    destruct (q_usr _ _ _ _ _ _ _ _ _ _ _ _ _ Q k Hx) as (E1 & E2 & E3).
    cbn [ophandle oplev opval]. unfold handles.
    rewrite (nth_indep _ unull (U 0 false)) by (rewrite map_length; lia). rewrite (map_nth (fun b => U b false)).
    unfold uint, uphase. cbn [uptr uneg]. set (e := ct (mmem m (nth k usrs 0))) in *.
    assert (Ir : In (nth k reqs 0) reqs) by (apply nth_In; auto).
    assert (P1 : eptr (ephase e (xorb b false)) = nth k reqs 0) by (unfold ephase; simpl; auto).
    assert (P2 : eneg (ephase e (xorb b false)) = b).
    { unfold ephase; simpl. rewrite E2. now destruct b. }
    assert (Ln : nth k (map lev reqs) O = lev (nth k reqs 0)).
    { rewrite (nth_indep _ O (lev 0)) by (rewrite map_length; lia). apply map_nth. }
    split.
    + unfold opdepth. destruct (marked p (ephase e (xorb b false))) eqn:Mk.
      * rewrite P1, (Hd _ Ir), Ln. now rewrite Nat2N.id.
      * apply not_true_iff_false in Mk. destruct Mk. apply (marked_iff p reqs); auto. now rewrite P1.
    + right. rewrite P1, P2, E3, Ln. split; [split; auto; lia|auto].
Qed.

Lemma create_spec VL lev reqs usrs Fs m p D x y h m' p' :
  PS op hs lk VL lev reqs usrs Fs [] 0 m p D -> depths_ok m p reqs lev ->
  operand_ok hs (length reqs) x -> operand_ok hs (length reqs) y ->
  let d := Nat.max (oplev (map lev reqs) x) (oplev (map lev reqs) y) in (d < MAX_INSERT)%nat ->
  cal_pipeline_create m p (ophandle (handles usrs) x) (ophandle (handles usrs) y) = (h, m', p') ->
  exists VL' lev' a b, h = U b false /\
    PS op hs lk VL' lev' (reqs ++ [a]) (usrs ++ [b]) (Fs ++ [fun rho => bsem op (opval m D Fs x rho) (opval m D Fs y rho)]) [] 0 m' p' D /\
    depths_ok m' p' (reqs ++ [a]) lev' /\ map lev' (reqs ++ [a]) = map lev reqs ++ [d] /\
    sext (st (me m)) D (st (me m')) D /\ pman p' = pman p /\ pdep p' = Nat.max (pdep p) (S d) /\ (exists s, m' = set_mst m s).
Proof.
  intros Q DO Hx Hy d Hd H.
  destruct (operand_edge _ _ _ _ _ _ _ _ x Q DO Hx) as [Dx Ox]. destruct (operand_edge _ _ _ _ _ _ _ _ y Q DO Hy) as [Dy Oy].
  unfold cal_pipeline_create in H. destruct DO as (Hs & Hm & Hc). rewrite Hs, Dx, Dy in H. fold d in H.
  set (F := uint (mmem m) (ophandle (handles usrs) x)) in *. set (G := uint (mmem m) (ophandle (handles usrs) y)) in *.
  destruct (Nat.leb_spec MAX_INSERT d) as [?|_]; [lia|].
  destruct (alloc (st (me m)) 0) as [a s1] eqn:Al1.
  destruct Q as [I Eop ND Off Len Usr Dep Inn Lnd Lev Pus Todo Done].
  destruct (MInv_alloc m hs _ D (C F G (N.of_nat d)) a s1 I Al1) as (I1 & X1 & O1 & Z1 & U1 & M1 & N1).
  set (s2 := put s1 a (C F G (N.of_nat d))) in *.
  change s2 with (st (me (set_mst m s2))) in H at 1.
  destruct (alloc (st (me (set_mst m s2))) 0) as [b s3] eqn:Al2.
  set (cb := C (E (minid2 (mo m) F G) a false) one 1) in *.
  destruct (MInv_alloc (set_mst m s2) hs _ D cb b s3 I1 Al2) as (I2 & X2 & O2 & Z2 & U2 & M2 & N2).
  set (s4 := put s3 b cb) in *. change (set_mst (set_mst m s2) s4) with (set_mst m s4) in I2.
  change (st (me (set_mst m s2))) with s2 in *. cbn [set_mst set_me me set_st st] in X2, U2, N2.
  injection H as <- <- <-.
  assert (Xr : forall c, In c (reqs ++ usrs) -> xr m hs (lka lk ((reqs ++ usrs) ++ [])) c <> 0).
  { intros c Ic. unfold xr, lka. rewrite cnt_app. pose proof (cnt_in _ _ Ic). lia. }
  assert (Na : ~ In a (reqs ++ usrs)) by (intros Ia; exact (Xr a Ia Z1)).
  assert (Nb : ~ In b (reqs ++ usrs) /\ b <> a).
  { unfold xr, lka in Z2. cbn [set_mst set_me mo mtemp massoc] in Z2.
    assert (cnt [a] b = 0 /\ cnt (reqs ++ usrs) b = 0) as [C1 C2] by (rewrite cnt_app in Z2; lia).
    split; [intros Ib; pose proof (cnt_in _ _ Ib); lia|]. intros ->. pose proof (cnt_in [a] a (or_introl eq_refl)). lia. }
  destruct Nb as [Nb Nab].
  assert (Nar : ~ In a reqs) by (intros Hi; apply Na, in_or_app; now left).
  assert (Mk : forall c, In c (reqs ++ usrs) -> mem s4 c = mmem m c).
  { intros c Ic. rewrite N2 by (intros ->; auto). apply N1. intros ->; auto. }
  assert (Ma : mem s4 a = C F G (N.of_nat d)) by (rewrite N2 by auto; exact M1).
  assert (X : sext (st (me m)) D s4 D) by (eapply sext_trans; eauto).
  set (VL' := upd VL a (fun rho => bsem op (opval m D Fs x rho) (opval m D Fs y rho))).
  set (lev' := fun c => if c =? a then d else lev c).
  assert (La : lev' a = d) by (unfold lev'; now rewrite N.eqb_refl).
  assert (Lo : forall c, In c reqs -> lev' c = lev c).
  { intros c Ic. unfold lev'. destruct (N.eqb_spec c a) as [->|]; [tauto|auto]. }
  assert (Vo : forall c, In c reqs -> VL' c = VL c).
  { intros c Ic. unfold VL'. rewrite upd_other; auto. intros ->; tauto. }
  assert (Ut : forall i, ut s4 i = ut (st (me m)) i) by (intros i; rewrite U2; apply U1).
  assert (Om : forall (P P' : N -> Prop) e v, (forall c, P c -> P' c /\ In c reqs) -> Opd m hs D VL P e v ->
      Opd (set_mst m s4) hs D VL' P' e v).
  { intros P P' e v HP. eapply Opd_frame; [exact I|exact X|]. intros c Pc. destruct (HP c Pc). split; auto. }
  exists VL', lev', a, b. split; auto. split.
  - constructor.
    + eapply MInv_lk; [|exact I2]. intros c. unfold lka. rewrite !cnt_app. cbn [cnt]. unfold cnt. simpl. lia.
    + exact Eop.
    + apply NoDup_app_inv' in ND as (ND1 & ND2 & ND3).
      apply NoDup_app_iff'.
      * apply NoDup_app_iff'; auto; [repeat constructor; tauto|]. intros c Ic [<-|[]]. tauto.
      * apply NoDup_app_iff'; auto; [repeat constructor; tauto|]. intros c Ic [<-|[]]. apply Nb, in_or_app; now right.
      * intros c Ic Ic'. apply in_app_or in Ic as [Ic|[<-|[]]]; apply in_app_or in Ic' as [Ic'|[Ec|[]]].
        -- exact (ND3 c Ic Ic').
        -- rewrite Ec in Nb. apply Nb, in_or_app; now left.
        -- apply Na, in_or_app; now right.
        -- auto.
    + intros c Ic. unfold off_table. cbn [set_mst set_me me set_st st].
      assert (Cs : In c (reqs ++ usrs) \/ c = a \/ c = b).
      { apply in_app_or in Ic as [Ic|Ic]; apply in_app_or in Ic as [Ic|[<-|[]]]; auto; left; apply in_or_app; auto. }
      destruct Cs as [Cs|[->| ->]].
      * destruct (Off c Cs) as [L1 L2]. split; auto. intros i. rewrite Ut. auto.
      * destruct O1 as [L1 L2]. split; auto. intros i. rewrite U2. auto.
      * destruct O2 as [L1 L2]. split; auto.
    + rewrite !app_length. simpl. lia.
    + destruct Len as [L1 L2]. intros k Hk. rewrite app_length in Hk. simpl in Hk.
      cbn [set_mst set_me me set_st st].
      destruct (Nat.eq_dec k (length reqs)) as [->|Nk].
      * rewrite !app_nth2 by lia. rewrite L1, L2, !Nat.sub_diag. cbn [nth].
        rewrite M2. unfold cb. cbn [ct eptr eneg]. split; auto. split; auto. unfold VL'. apply upd_same.
      * rewrite !app_nth1 by lia. destruct (Usr k) as (E1 & E2 & E3); [lia|].
        rewrite Mk by (apply in_or_app; right; apply nth_In; lia). split; auto. split; auto.
        rewrite Vo; auto. apply nth_In. lia.
    + cbn [pdep]. lia.
    + intros i c. cbn [pls]. rewrite in_app_iff. simpl. destruct (Nat.eqb_spec i d) as [Ei|Ni].
      * simpl. rewrite Inn. split.
        -- intros [<-|[Ic Lc]]; [split; auto; congruence|]. split; auto. now rewrite Lo.
        -- intros [[Ic|[<-|[]]] Lc]; [|now left]. right. split; auto. now rewrite <- (Lo c Ic).
      * rewrite Inn. split.
        -- intros [Ic Lc]. split; auto. now rewrite Lo.
        -- intros [[Ic|[<-|[]]] Lc]; [|congruence]. split; auto. now rewrite <- (Lo c Ic).
    + intros i. cbn [pls]. destruct (Nat.eqb i d); auto. constructor; auto. rewrite Inn. tauto.
    + intros c Ic. cbn [pdep]. apply in_app_or in Ic as [Ic|[<-|[]]]; [rewrite Lo by auto; specialize (Lev c Ic); lia|lia].
    + cbn [pus]. rewrite rev_app_distr, Pus. reflexivity.
    + cbn [set_mst set_me me set_st st]. intros c Ic _. apply in_app_or in Ic as [Ic|[<-|[]]].
      * destruct (Todo c Ic) as (v & w & V & W & Ev); [lia|]. exists v, w.
        rewrite Mk by (apply in_or_app; now left). rewrite Vo by auto. split; [|split; [|auto]].
        -- eapply Om; [|exact V]. intros z [Iz Lz]. rewrite !Lo by auto. split; auto. split; auto. apply in_or_app; now left.
        -- eapply Om; [|exact W]. intros z [Iz Lz]. rewrite !Lo by auto. split; auto. split; auto. apply in_or_app; now left.
      * exists (opval m D Fs x), (opval m D Fs y). rewrite Ma. cbn [ct ce]. split; [|split].
        -- eapply Om; [|exact Ox]. intros z [Iz Lz]. rewrite La, Lo by auto. split; auto. split; [apply in_or_app; now left|]. unfold d. lia.
        -- eapply Om; [|exact Oy]. intros z [Iz Lz]. rewrite La, Lo by auto. split; auto. split; [apply in_or_app; now left|]. unfold d. lia.
        -- intros rho. unfold VL'. now rewrite upd_same.
    + intros c _ Hl. lia.
  - split; [|split; [|split; [|split; [|split; [|eauto]]]]]; auto.
    + split; auto. split; [cbn [pmk]; rewrite rev_app_distr, Hm; reflexivity|].
      cbn [set_mst set_me me set_st st]. intros c Ic. apply in_app_or in Ic as [Ic|[<-|[]]].
      * rewrite Mk by (apply in_or_app; now left). rewrite Lo by auto. auto.
      * rewrite Ma. cbn [cr]. now rewrite La.
    + rewrite map_app. simpl. rewrite La. f_equal. apply map_ext_in. exact Lo.
Qed.
End Create.

(** ** A list of creations *)

Fixpoint prog_ok (hs : list ubdd) (n : nat) (prog : list (operand * operand)) : Prop :=
  match prog with
  | [] => True
  | (x, y) :: prog => operand_ok hs n x /\ operand_ok hs n y /\ prog_ok hs (S n) prog
  end.
Fixpoint prog_levels (ls : list nat) (prog : list (operand * operand)) : list nat :=
  match prog with [] => ls | (x, y) :: prog => prog_levels (ls ++ [Nat.max (oplev ls x) (oplev ls y)]) prog end.
Fixpoint prog_vals (op : binop) (m : mgr) (D : den) (Fs : list bf) (prog : list (operand * operand)) : list bf :=
  match prog with
  | [] => Fs
  | (x, y) :: prog => prog_vals op m D (Fs ++ [fun rho => bsem op (opval m D Fs x rho) (opval m D Fs y rho)]) prog
  end.

Lemma prog_levels_in prog : forall ls l, In l ls -> In l (prog_levels ls prog).
Proof. induction prog as [|[x y] prog IH]; simpl; auto. intros. apply IH, in_or_app. auto. Qed.

Lemma prog_vals_frame op m m' D hs prog : (forall h, In h hs -> uint (mmem m') h = uint (mmem m) h) ->
  forall Fs n, prog_ok hs n prog -> prog_vals op m' D Fs prog = prog_vals op m D Fs prog.
Proof.
  intros E. induction prog as [|[x y] prog IH]; simpl; auto. intros Fs n (Hx & Hy & Hp).
  assert (O : forall z, operand_ok hs n z -> opval m' D Fs z = opval m D Fs z).
  { intros [h|k b] Hz; simpl; auto. now rewrite E. }
  rewrite (O x Hx), (O y Hy). now apply (IH _ (S n)).
Qed.

Section CreateAll.
Variables (op : binop) (hs : list ubdd) (lk : N -> N).

Lemma create_all_spec prog : forall VL lev reqs usrs Fs m p D us m' p',
  PS op hs lk VL lev reqs usrs Fs [] 0 m p D -> depths_ok m p reqs lev -> prog_ok hs (length reqs) prog ->
  (forall l, In l (prog_levels (map lev reqs) prog) -> (l < MAX_INSERT)%nat) ->
  create_all m p (handles usrs) prog = (us, m', p') ->
  exists VL' lev' reqs' usrs', us = handles usrs' /\
    PS op hs lk VL' lev' reqs' usrs' (prog_vals op m D Fs prog) [] 0 m' p' D /\ depths_ok m' p' reqs' lev' /\
    sext (st (me m)) D (st (me m')) D /\ pman p' = pman p /\ (exists s, m' = set_mst m s) /\
    length reqs' = (length reqs + length prog)%nat.
Proof.
  induction prog as [|[x y] prog IH]; intros VL lev reqs usrs Fs m p D us m' p' Q DO Ok Hl H.
  - simpl in H. injection H as <- <- <-. exists VL, lev, reqs, usrs. split; auto. split; auto. split; auto.
    split; [apply sext_refl|]. split; auto. split; [exists (st (me m)); now destruct m as [[]]|simpl; lia].
  - cbn [create_all] in H. destruct Ok as (Ox & Oy & Ok).
    destruct (cal_pipeline_create m p (ophandle (handles usrs) x) (ophandle (handles usrs) y)) as [[h m1] p1] eqn:Cr.
    destruct (create_spec op hs lk VL lev reqs usrs Fs m p D x y h m1 p1 Q DO Ox Oy) as
      (VL1 & lev1 & a & b & -> & Q1 & DO1 & Lv & X1 & Pm & Pd & (s1 & E1)); auto.
    { apply Hl. cbn [prog_levels]. apply prog_levels_in, in_or_app. right. now left. }
    replace (handles usrs ++ [U b false]) with (handles (usrs ++ [b])) in H by (unfold handles; now rewrite map_app).
    destruct (IH VL1 lev1 (reqs ++ [a]) (usrs ++ [b]) _ m1 p1 D us m' p' Q1 DO1) as
      (VL2 & lev2 & reqs2 & usrs2 & E2 & Q2 & DO2 & X2 & Pm2 & (s2 & E3) & Ln); auto.
    { rewrite app_length, Nat.add_1_r. exact Ok. }
    { rewrite Lv. exact Hl. }
    exists VL2, lev2, reqs2, usrs2. split; auto. split.
    { cbn [prog_vals]. rewrite <- (prog_vals_frame op m m1 D hs prog) with (n := S (length reqs)); auto.
      intros k Ik. exact (proj2 (sext_uok _ _ _ _ k X1 (mi_hs _ _ _ _ (q_inv _ _ _ _ _ _ _ _ _ _ _ _ _ Q) k Ik))). }
    split; auto. split; [eapply sext_trans; eauto|]. split; [congruence|].
    split; [exists s2; rewrite E3, E1; reflexivity|]. rewrite Ln, app_length. simpl. lia.
Qed.
End CreateAll.

(** ** Execution *)

Lemma PS_move op hs lk VL lev reqs usrs Fs locks locks' off m m' p D D' :
  PS op hs lk VL lev reqs usrs Fs locks off m p D ->
  MInv m' hs (lka lk ((reqs ++ usrs) ++ locks')) D' -> mext hs m D m' D' ->
  (forall a, In a (reqs ++ usrs) -> off_table (st (me m')) a /\ sameTE (mmem m) (mmem m') a) ->
  (forall h, In h hs -> uint (mmem m') h = uint (mmem m) h) ->
  (forall a, In a reqs -> (lev a < off)%nat -> vedge (nodeR (st (me m'))) (ct (mmem m a)) /\
     forall rho, dv D' (ct (mmem m a)) rho = dv D (ct (mmem m a)) rho) ->
  PS op hs lk VL lev reqs usrs Fs locks' off m' p D'.
Proof.
  intros [I Eop ND Off Len Usr Dep Inn Lnd Lev Pus Todo Done] I' X HC HU HD.
  assert (HR : forall a, In a reqs -> sameTE (mmem m) (mmem m') a) by (intros a Ia; apply HC, in_or_app; now left).
  assert (Om : forall (P : N -> Prop) e v, Opd m hs D VL P e v -> Opd m' hs D' VL P e v).
  { intros P e v [(h & Ih & -> & Ev)|Hp]; [left|now right]. exists h. split; auto. split; [now rewrite HU|].
    intros rho. rewrite Ev. rewrite <- (HU h Ih) at 2. symmetry. apply (mx_h _ _ _ _ _ X h Ih). }
  constructor; auto.
  - intros a Ia. now apply HC.
  - intros k Hk. destruct (HC (nth k usrs 0)) as [_ [-> _]]; auto.
    apply in_or_app; right; apply nth_In. destruct Len; lia.
  - intros a Ia La. destruct (HR a Ia) as [-> ->]. destruct (Todo a Ia La) as (v & w & V & W & Ev). exists v, w. auto.
  - intros a Ia La. destruct (HR a Ia) as [-> ->]. destruct (Done a Ia La) as (E1 & _ & E3). destruct (HD a Ia La) as [V E].
    split; auto. split; auto. intros rho. rewrite E. auto.
Qed.

Lemma nodeR_lvl o own D en e : EInv o own D en -> vedge (nodeR (st en)) e -> vedge (lvl own 0) e.
Proof.
  intros I. apply vedge_mono. intros i a _ H. left. now apply (acc_node _ _ _ _ (ei_acc _ _ _ _ I)).
Qed.
Lemma lvl_nodeR o own D en e : EInv o own D en -> vedge (lvl own 0) e -> vedge (nodeR (st en)) e.
Proof.
  intros I. apply vedge_mono. intros i a _ [H|(d & Hd & H)]; [|lia]. now apply (acc_node _ _ _ _ (ei_acc _ _ _ _ I)).
Qed.

Lemma lock_MInv hs l : forall m lk D, MInv m hs lk D ->
  (forall a, In a l -> vedge (nodeR (st (me m))) (ct (mmem m a))) ->
  let m' := set_mst m (lock_results (st (me m)) l) in
  MInv m' hs (lka lk (map (res (mmem m)) l)) D /\ sext (st (me m)) D (st (me m')) D /\
  (forall c, sameTE (mmem m) (mmem m') c) /\ (forall i, ut (st (me m')) i = ut (st (me m)) i).
Proof.
  induction l as [|a l IH]; intros m lk D I V; cbn [lock_results fold_left].
  - cbn [map]. split.
    + replace (set_mst m (st (me m))) with m by now destruct m as [[]].
      eapply MInv_lk; [|exact I]. intros b. unfold lka, cnt. simpl. lia.
    + split; [apply sext_refl|]. split; [intros c; split; auto|auto].
  - set (m1 := set_mst m (icr (st (me m)) (ct (mmem m a)))).
    assert (Te : forall c, sameTE (mmem m) (mmem m1) c) by (intros c; apply sameTE_icr).
    assert (X : sext (st (me m)) D (st (me m1)) D) by apply sext_icr.
    assert (I1 : MInv m1 hs (lka lk [res (mmem m) a]) D).
    { apply (MInv_gen m hs hs lk _ D _ D I); auto.
      - eapply QS_x_ext; [|apply QS_icr; [|exact (mi_q _ _ _ _ I)]].
        + intros b. unfold xr, lka, xadd, res. rewrite cnt_one. unfold b2n. destruct (eptr (ct (mmem m a)) =? b); lia.
        + destruct (V a (or_introl eq_refl)) as [[_ E]|[_ R]]; [now left|right; eexists; exact R].
      - intros h Ih. exact (proj1 (sext_uok _ _ _ _ h X (mi_hs _ _ _ _ I h Ih))). }
    destruct (IH m1 _ D I1) as (I2 & X2 & T2 & U2).
    { intros b Ib. destruct (Te b) as [-> _]. exact (sext_vedge _ _ _ _ _ X (V b (or_intror Ib))). }
    split; [|split; [|split]].
    + eapply MInv_lk; [|exact I2]. intros b. unfold lka. cbn [map].
      replace (map (res (mmem m1)) l) with (map (res (mmem m)) l).
      * change (res (mmem m) a :: map (res (mmem m)) l) with ([res (mmem m) a] ++ map (res (mmem m)) l). rewrite cnt_app. lia.
      * apply map_ext. intros c. unfold res. now destruct (Te c) as [-> _].
    + eapply sext_trans; eauto.
    + intros c. destruct (Te c) as [E1 E2], (T2 c) as [E3 E4]. split; [exact (eq_trans E3 E1)|exact (eq_trans E4 E2)].
    + intros i. exact (U2 i).
Qed.

Lemma unlock_MInv hs l : forall m lk D, MInv m hs (lka lk (map (res (mmem m)) l)) D ->
  let m' := set_mst m (unlock_results (st (me m)) l) in
  MInv m' hs lk D /\ sext (st (me m)) D (st (me m')) D /\
  (forall c, sameTE (mmem m) (mmem m') c) /\ (forall i, ut (st (me m')) i = ut (st (me m)) i).
Proof.
  induction l as [|a l IH]; intros m lk D I; cbn [unlock_results fold_left].
  - cbn [map] in I. split.
    + replace (set_mst m (st (me m))) with m by now destruct m as [[]].
      eapply MInv_lk; [|exact I]. intros b. unfold lka, cnt. simpl. lia.
    + split; [apply sext_refl|]. split; [intros c; split; auto|auto].
  - set (m1 := set_mst m (dcr (st (me m)) (ct (mmem m a)))).
    assert (Te : forall c, sameTE (mmem m) (mmem m1) c) by (intros c; apply sameTE_dcr).
    assert (X : sext (st (me m)) D (st (me m1)) D) by apply sext_dcr.
    assert (Er : map (res (mmem m1)) l = map (res (mmem m)) l).
    { apply map_ext. intros c. unfold res. now destruct (Te c) as [-> _]. }
    assert (Ec : forall b, cnt (map (res (mmem m)) (a :: l)) b = cnt [res (mmem m) a] b + cnt (map (res (mmem m)) l) b).
    { intros b. cbn [map]. change (res (mmem m) a :: map (res (mmem m)) l) with ([res (mmem m) a] ++ map (res (mmem m)) l).
      apply cnt_app. }
    assert (I1 : MInv m1 hs (lka lk (map (res (mmem m1)) l)) D).
    { rewrite Er. apply (MInv_gen m hs hs (lka lk (map (res (mmem m)) (a :: l))) _ D _ D I); auto.
      - eapply QS_x_ext; [|apply QS_dcr; [|exact (mi_q _ _ _ _ I)]].
        + intros b. unfold xr, lka, xsub. rewrite Ec, cnt_one. unfold res, b2n. destruct (eptr (ct (mmem m a)) =? b); lia.
        + unfold xr, lka. rewrite Ec, cnt_one. unfold res. rewrite N.eqb_refl. lia.
      - intros h Ih. exact (proj1 (sext_uok _ _ _ _ h X (mi_hs _ _ _ _ I h Ih))). }
    destruct (IH m1 lk D I1) as (I2 & X2 & T2 & U2).
    split; [exact I2|]. split; [eapply sext_trans; eauto|]. split.
    + intros c. destruct (Te c) as [E1 E2], (T2 c) as [E3 E4]. split; [exact (eq_trans E3 E1)|exact (eq_trans E4 E2)].
    + intros i. exact (U2 i).
Qed.

Lemma seq_split k : forall n off, (k <= n)%nat -> seq off n = seq off k ++ seq (off + k) (n - k).
Proof. intros n off H. rewrite <- seq_app. f_equal. lia. Qed.

Lemma upto_split p off k : upto p (off + k) = upto p off ++ concat (map (pls p) (seq off k)).
Proof.
  unfold upto. rewrite (seq_split off (off + k) 0) by lia. rewrite map_app, concat_app. do 4 f_equal; lia.
Qed.

Lemma opd_of op hs lk VL lev reqs usrs Fs locks off m p D own (P P' : N -> Prop) e v :
  PS op hs lk VL lev reqs usrs Fs locks off m p D -> EInv (mo m) own D (me m) ->
  (forall b, P b -> P' b) -> Opd m hs D VL P e v -> opd own D VL P' e v.
Proof.
  intros Q Ei HP [(h & Ih & -> & Ev)|[Hp Ev]]; [left|right].
  - split; [|intros; symmetry; auto]. eapply nodeR_lvl; eauto. eapply MI_int; [|exact Ih]. apply Q.
  - split; auto.
Qed.

Lemma LOK_levels op hs lk VL lev reqs usrs Fs locks off m p D own :
  PS op hs lk VL lev reqs usrs Fs locks off m p D -> EInv (mo m) own D (me m) ->
  forall k o (P : N -> Prop), (off <= o)%nat -> (forall b, In b reqs -> (lev b < o)%nat -> P b) ->
    LOK op own D VL (mmem m) P (map (pls p) (seq o k)).
Proof.
  intros Q Ei. induction k as [|k IH]; intros o P Ho HP; cbn [seq map LOK]; auto. split.
  - intros a Ia. apply (q_in _ _ _ _ _ _ _ _ _ _ _ _ _ Q) in Ia as [Ia La].
    destruct (q_todo _ _ _ _ _ _ _ _ _ _ _ _ _ Q a Ia) as (v & w & V & W & Ev); [lia|]. exists v, w.
    split; [|split; [|exact Ev]]; (eapply opd_of; [exact Q|exact Ei| |eassumption]); intros b [Ib Lb]; apply HP; auto; lia.
  - apply IH; [lia|]. intros b Ib Lb. destruct (Nat.eq_dec (lev b) o) as [E1|N1]; [right|left; apply HP; auto; lia].
    apply (q_in _ _ _ _ _ _ _ _ _ _ _ _ _ Q). auto.
Qed.

Section Execute.
Variable enum : memory -> list N -> list N.
Hypothesis enum_perm : forall m l, Permutation (enum m l) l.
Variables (op : binop) (hs : list ubdd) (lk : N -> N).
Hypothesis Hop : binop_ok op.

Lemma batch_spec VL lev reqs usrs Fs off k m p D :
  PS op hs lk VL lev reqs usrs Fs (map (res (mmem m)) (upto p off)) off m p D ->
  let lists := map (pls p) (seq off k) in
  let en1 := listArrayOp enum (mo m) (pop p) (me m) lists in
  let m1 := set_me m (set_st en1 (lock_results (st en1) (concat lists))) in
  exists D1, PS op hs lk VL lev reqs usrs Fs (map (res (mmem m1)) (upto p (off + k))) (off + k) m1 p D1 /\ mext hs m D m1 D1.
Proof using enum_perm Hop.
  intros Q lists en1 m1. pose proof Q as [I Eop ND Off Len Usr Dep Inn Lnd Lev Pus Todo Done].
  pose proof (mi_q _ _ _ _ I) as (own & L & Ei & R).
  assert (OX' : forall a, In a (reqs ++ usrs) -> own a = OX).
  { intros a Ia. eapply hid_own; [exact Ei|exact R|auto|]. unfold xr, lka. rewrite cnt_app. pose proof (cnt_in _ _ Ia). lia. }
  assert (Lin : forall a, In a (concat lists) <-> In a reqs /\ (off <= lev a < off + k)%nat).
  { intros a. unfold lists. rewrite in_concat. split.
    - intros (l & Il & Ia). apply in_map_iff in Il as (i & <- & Ii). apply in_seq in Ii. apply Inn in Ia as [Ia <-]. split; auto.
    - intros [Ia La]. exists (pls p (lev a)). split; [|apply Inn; auto]. apply in_map, in_seq. lia. }
  set (P := fun b => In b reqs /\ (lev b < off)%nat).
  destruct (listArrayOp_spec (mo m) (mi_wfo _ _ _ _ I) enum enum_perm op Hop VL P lists own D (me m) L _ Ei R) as
    (own6 & D4 & I6 & (L6 & R6) & NK & OX6 & Mo & Pr).
  - exact (levels_nd p lev reqs Inn Lnd k off).
  - intros a Ia. apply Lin in Ia as [Ia La]. split; [apply OX', in_or_app; now left|]. intros [_ La']. lia.
  - eapply LOK_levels; eauto. intros b Ib Lb. split; auto.
  - intros b [Ib Lb]. destruct (Done b Ib Lb) as (E1 & V1 & E2). split; [apply OX', in_or_app; now left|]. split; auto.
    split; auto. eapply nodeR_lvl; eauto.
  - cbv zeta in I6, R6, NK, Mo, Pr. unfold en1 in *. clear en1. subst m1. rewrite Eop in *.
    set (en1 := listArrayOp enum (mo m) op (me m) lists) in *.
    pose proof (nk_sext _ _ _ _ _ _ (ei_acc _ _ _ _ Ei) (ei_acc _ _ _ _ I6) NK) as S6.
    destruct (MInv_step m hs _ D en1 D4 I) as [I1 X1]; auto. { exists own6, L6. split; [exact I6|exact R6]. }
    assert (Of6 : forall a, In a (reqs ++ usrs) -> off_table (st en1) a).
    { intros a Ia. destruct (Off a Ia) as [L1 _]. split; auto. intros i Hi.
      apply (acc_node _ _ _ _ (ei_acc _ _ _ _ I6)) in Hi. rewrite (OX6 a (OX' a Ia)) in Hi. discriminate. }
    assert (Pr' : forall a, In a reqs -> (lev a < off + k)%nat ->
        eptr (ce (mem (st en1) a)) = 0 /\ vedge (nodeR (st en1)) (ct (mem (st en1) a)) /\
        forall rho, dv D4 (ct (mem (st en1) a)) rho = VL a rho).
    { intros a Ia La. destruct (Pr a) as (_ & E1 & V1 & E2).
      - destruct (Nat.lt_ge_cases (lev a) off) as [Hl|Hl]; [left; split; auto|right; apply Lin; split; auto; lia].
      - split; auto. split; auto. eapply lvl_nodeR; eauto. }
    destruct (lock_MInv hs (concat lists) (set_me m en1) _ D4 I1) as (I2 & X2 & T2 & U2).
    { intros a Ia. apply Lin in Ia as [Ia La]. cbn [set_me me]. now apply Pr'. }
    set (m2 := set_mst (set_me m en1) (lock_results (st (me (set_me m en1))) (concat lists))) in *.
    change (set_me m (set_st en1 (lock_results (st en1) (concat lists)))) with m2.
    assert (X2' : mext hs (set_me m en1) D4 m2 D4) by exact (mext_gen _ _ _ _ _ _ I1 X2).
    assert (Te : forall a, sameTE (mem (st en1)) (mmem m2) a) by exact T2.
    assert (Mu : forall a, In a (reqs ++ usrs) -> ~ In a (concat lists) -> mem (st en1) a = mmem m a).
    { intros a Ia Na. apply Mo; auto. }
    assert (Sx : sext (st (me m)) D (st (me m2)) D4) by (eapply sext_trans; [exact S6|exact X2]).
    exists D4. split; [|eapply mext_trans; [exact X1|exact X2']].
    constructor; auto.
    + eapply MInv_lk; [|exact I2]. intros b. unfold lka. rewrite !cnt_app.
      assert (E1 : map (res (mmem m2)) (upto p (off + k)) = map (res (mmem m)) (upto p off) ++ map (res (mem (st en1))) (concat lists)).
      { rewrite upto_split, map_app. f_equal.
        - apply map_ext_in. intros a Ia. apply (upto_in p lev reqs off a Inn) in Ia as [Ia La]. unfold res.
          destruct (Te a) as [-> _]. rewrite Mu; auto. { apply in_or_app; now left. } rewrite Lin. lia.
        - apply map_ext. intros a. unfold res. now destruct (Te a) as [-> _]. }
      rewrite E1, cnt_app. cbn [set_me me]. lia.
    + intros a Ia. destruct (Of6 a Ia) as [L1 L2]. split; auto. intros i. rewrite U2. apply L2.
    + intros j Hj. destruct (Te (nth j usrs 0)) as [-> _]. rewrite Mu; auto.
      * apply in_or_app; right; apply nth_In. destruct Len; lia.
      * rewrite Lin. intros [Ia _]. apply NoDup_app_inv' in ND as (_ & _ & N3). apply (N3 _ Ia). apply nth_In. destruct Len; lia.
    + intros a Ia La. destruct (Te a) as [-> ->].
      rewrite Mu; [|apply in_or_app; now left|rewrite Lin; lia].
      destruct (Todo a Ia) as (v & w & V & W & Ev); [lia|]. exists v, w. split; [|split; [|exact Ev]].
      * eapply Opd_frame; [exact I|exact Sx| |exact V]. auto.
      * eapply Opd_frame; [exact I|exact Sx| |exact W]. auto.
    + intros a Ia La. destruct (Te a) as [-> ->]. destruct (Pr' a Ia La) as (E1 & V1 & E2). split; auto. split; auto.
      exact (sext_vedge _ _ _ _ _ X2 V1).
Qed.

Lemma post_spec VL lev reqs usrs Fs off m p D d ov m' :
  PS op hs lk VL lev reqs usrs Fs (map (res (mmem m)) (upto p off)) off m p D -> postproc d m = (ov, m') ->
  PS op hs lk VL lev reqs usrs Fs (map (res (mmem m')) (upto p off)) off m' p D /\ mext hs m D m' D.
Proof.
  intros Q H. pose proof Q as [I Eop ND Off Len Usr Dep Inn Lnd Lev Pus Todo Done].
  destruct (postproc_keep d m hs _ D ov m' I H) as (I' & X & Te & U1 & U2 & Em).
  split; auto. eapply PS_move; [exact Q| |exact X| | |].
  - replace (map (res (mmem m')) (upto p off)) with (map (res (mmem m)) (upto p off)); auto.
    apply map_ext. intros a. unfold res. now destruct (Te a) as [-> _].
  - intros a Ia. split; auto. destruct (Off a Ia) as [L1 L2]. split; auto. intros i Hi. exact (L2 i (U1 i a Hi)).
  - intros h Ih. unfold uint. now destruct (Te (uptr h)) as [-> _].
  - intros a Ia La. destruct (Done a Ia La) as (_ & V & _). split; auto.
    destruct V as [E1|[N1 R1]]; [now left|right]. split; auto. apply U2; auto.
    unfold xr, lka. rewrite cnt_app.
    assert (1 <= cnt (map (res (mmem m)) (upto p off)) (res (mmem m) a)).
    { apply cnt_in, in_map. apply (upto_in p lev reqs off a Inn). auto. }
    unfold res in *. lia.
Qed.

Lemma PS_man VL lev reqs usrs Fs locks off m p D k :
  PS op hs lk VL lev reqs usrs Fs locks off m p D -> PS op hs lk VL lev reqs usrs Fs locks off m (set_pman p k) D.
Proof. intros [I Eop ND Off Len Usr Dep Inn Lnd Lev Pus Todo Done]. constructor; auto. Qed.

Lemma batch_depth_le auto k n rem : (0 < rem)%nat -> (auto = false -> (0 < k)%nat) ->
  (1 <= batch_depth auto k n rem <= rem)%nat.
Proof.
  intros Hr Hk. unfold batch_depth. destruct auto.
  - destruct (n <? 10000); [|destruct (n <? 100000)]; destruct (Nat.ltb_spec rem 4), (Nat.ltb_spec rem 2), (Nat.ltb_spec rem 1); lia.
  - specialize (Hk eq_refl). destruct (Nat.ltb_spec rem k); lia.
Qed.

Lemma exec_loop_spec auto ds : forall fuel off rem VL lev reqs usrs Fs m p D,
  PS op hs lk VL lev reqs usrs Fs (map (res (mmem m)) (upto p off)) off m p D ->
  (off + rem = pdep p)%nat -> (rem <= fuel)%nat -> (auto = false -> (0 < pman p)%nat) ->
  exists ok m' k D' off', exec_loop enum fuel auto ds off rem m p = Ok (ok, m', set_pman p k) /\
    PS op hs lk VL lev reqs usrs Fs (map (res (mmem m')) (upto p off')) off' m' (set_pman p k) D' /\
    mext hs m D m' D' /\ (ok = true -> off' = pdep p) /\ (ok = false -> ovf m').
Proof using enum_perm Hop.
  induction fuel as [|fuel IH]; intros off rem VL lev reqs usrs Fs m p D Q Er Hf Hk.
  - assert (rem = 0%nat) by lia. subst rem. exists true, m, (pman p), D, off. cbn [exec_loop].
    split; [now destruct p|]. split; [now apply PS_man|]. split; [apply mext_refl|]. split; [lia|discriminate].
  - destruct rem as [|rem].
    { exists true, m, (pman p), D, off. cbn [exec_loop].
      split; [now destruct p|]. split; [now apply PS_man|]. split; [apply mext_refl|]. split; [lia|discriminate]. }
    cbn [exec_loop]. set (k := batch_depth auto (pman p) (nn (st (me m))) (S rem)).
    assert (Bk : (1 <= k <= S rem)%nat) by (apply batch_depth_le; auto; lia).
    pose proof (q_dep _ _ _ _ _ _ _ _ _ _ _ _ _ Q) as Dp.
    destruct (Nat.ltb_spec MAX_INSERT (off + k)) as [?|_]; [lia|].
    destruct (batch_spec VL lev reqs usrs Fs off k m p D Q) as (D1 & Q1 & X1). cbv zeta in Q1, X1.
    set (m1 := set_me m _) in *.
    destruct (postproc (ds off) m1) as [ov m2] eqn:Pp.
    destruct (post_spec VL lev reqs usrs Fs (off + k) m1 p D1 (ds off) ov m2 Q1 Pp) as [Q2 X2].
    assert (X02 : mext hs m D m2 D1) by (eapply mext_trans; eauto).
    destruct ov.
    + exists false, m2, k, D1, (off + k)%nat. split; auto. split; [now apply PS_man|]. split; auto. split; [discriminate|].
      intros _. destruct (postproc_MInv (ds off) m1 hs _ D1 true m2 (q_inv _ _ _ _ _ _ _ _ _ _ _ _ _ Q1) Pp) as (_ & _ & _ & O).
      now apply O.
    + destruct (IH (off + k)%nat (S rem - k)%nat VL lev reqs usrs Fs m2 (set_pman p k) D1) as
        (ok & m' & k' & D' & off' & E & Q' & X' & O1 & O2).
      * now apply PS_man.
      * cbn [set_pman pdep]. lia.
      * lia.
      * cbn [set_pman pman]. lia.
      * exists ok, m', k', D', off'. split; [exact E|]. split; [exact Q'|]. split; [eapply mext_trans; eauto|]. auto.
Qed.
End Execute.

(** Nothing but [lk] holds a cell that is in no table. *)
Lemma xr_off m hs lk lk' D a : MInv m hs lk D -> off_table (st (me m)) a -> xr m hs lk' a = lk' a.
Proof.
  intros I [La Na]. unfold xr.
  assert (Ve : forall e, vedge (nodeR (st (me m))) e -> eptr e <> a).
  { intros e [[_ E1]|[_ R]] E; [unfold ONE in E1; lia|]. rewrite E in R. exact (Na _ R). }
  assert (H1 : hcnt hs a = 0).
  { pose proof (mi_hs _ _ _ _ I) as H. clear -H Na. induction hs as [|h hs IH]; simpl; auto.
    destruct (N.eqb_spec (uptr h) a) as [E1|_].
    - destruct (Na 0). rewrite <- E1. apply H. now left.
    - rewrite IH; auto. intros k Ik. apply H. now right. }
  assert (H2 : asum (ord (mo m)) (mtemp m :: massoc m) a = 0).
  { pose proof (mi_as _ _ _ _ I) as H. induction (mtemp m :: massoc m) as [|b l IH]; cbn [asum]; auto.
    rewrite IH by (intros; apply H; now right).
    assert (forall ids, acnt ids (amap b) a = 0) as ->; auto.
    induction ids as [|i ids IHi]; simpl; auto. rewrite IHi. destruct (amap b i) as [e|] eqn:Eb; auto.
    destruct (N.eqb_spec (eptr e) a) as [E1|_]; auto. exfalso. refine (Ve e _ E1).
    apply (ao_dom _ _ _ (H b (or_introl eq_refl)) i e Eb). }
  assert (H3 : perm m a = 0).
  { unfold perm. destruct (existsb (N.eqb a) _) eqn:E; auto. exfalso. apply existsb_exists in E as (b & Ib & Eb).
    apply N.eqb_eq in Eb. subst b. destruct Ib as [E1|Ib].
    - destruct (mi_one _ _ _ _ I) as [I1 _]. rewrite E1 in I1. exact (Na 0 I1).
    - apply in_map_iff in Ib as (i & Ei & Ii). destruct (mi_var _ _ _ _ I i Ii) as (V1 & V2 & _). rewrite Ei in V2. exact (Na _ V2). }
  rewrite H1, H2, H3. lia.
Qed.

(** A new handle leaves such cells alone. *)
Lemma getext_off o D en x e h s' a : QS o D en x -> getext (st en) e = (h, s') ->
  off_table (st en) a -> x a <> 0 -> off_table s' a /\ sameTE (mem (st en)) (mem s') a.
Proof.
  intros Q H [La Na] Xa. unfold getext, tfindadd in H.
  destruct (tfind (mem (st en)) (ut (st en) 0) _ one) as [b|] eqn:Tf.
  - injection H as <- <-. split.
    + split; auto. intros i. simpl. unfold upd. destruct (i =? 0); auto.
    + apply (sameTE_icr (set_ut (st en) (upd (ut (st en)) 0 (ut (st en) 0))) (E 0 b false) a).
  - destruct (alloc (st en) 0) as [b s0] eqn:Al. injection H as <- <-.
    destruct Q as (own & L & I & R). pose proof (ei_acc _ _ _ _ I) as AC.
    destruct (alloc_spec own (st en) _ _ 0 b s0 AC Al) as (Fb & Rb & Rx & A1 & Em & Eu & En).
    assert (Nb : a <> b).
    { intros ->. apply Xa. apply (rc_x _ _ _ _ _ _ R); auto. }
    split.
    + split; auto. intros i. simpl. unfold upd. rewrite Eu. destruct (N.eqb_spec i 0) as [->|]; auto.
      intros [E|Hi]; [congruence|exact (Na 0 Hi)].
    + set (s2 := set_ut _ _).
      destruct (sameTE_icr (icr s2 e) (E 0 b false) a) as [E1 E2]. destruct (sameTE_icr s2 e a) as [E3 E4].
      assert (E5 : mem s2 a = mem (st en) a).
      { unfold s2. simpl. rewrite upd_other by auto. rewrite Em. now rewrite upd_other. }
      split; [rewrite <- E5; exact (eq_trans E1 E3)|rewrite <- E5; exact (eq_trans E2 E4)].
Qed.

(** ** Updates *)

Record UP (hs : list ubdd) (lk : N -> N) (VL : N -> bf) (reqs usrs : list N) (Fs : list bf) (m : mgr) (D : den) : Prop := {
  u_inv : MInv m hs (lka lk (reqs ++ usrs)) D;
  u_nd : NoDup (reqs ++ usrs);
  u_off : forall a, In a (reqs ++ usrs) -> off_table (st (me m)) a;
  u_len : length usrs = length reqs;
  u_usr : forall k, (k < length reqs)%nat ->
     eptr (ct (mmem m (nth k usrs 0))) = nth k reqs 0 /\ eneg (ct (mmem m (nth k usrs 0))) = false /\
     VL (nth k reqs 0) = nth k Fs (fun _ => false);
  u_done : forall a, In a reqs -> vedge (nodeR (st (me m))) (ct (mmem m a)) /\ forall rho, dv D (ct (mmem m a)) rho = VL a rho
}.

Section Update.
Variables (lk : N -> N) (VL : N -> bf) (reqs usrs : list N) (Fs : list bf).

Lemma ret_UP hs m D r h m' : UP hs lk VL reqs usrs Fs m D -> vedge (nodeR (st (me m))) r -> ret m r = (h, m') ->
  exists D', UP (h :: hs) lk VL reqs usrs Fs m' D' /\ mext hs m D m' D' /\
    forall rho, dv D' (uint (mmem m') h) rho = dv D r rho.
Proof.
  intros [I ND Off Len Usr Done] V H. destruct (ret_spec m hs _ D r h m' I V H) as (D' & I' & X & S' & Eu & Ev).
  exists D'. split; auto.
  assert (Hc : forall a, In a (reqs ++ usrs) -> off_table (st (me m')) a /\ sameTE (mmem m) (mmem m') a).
  { intros a Ia. unfold ret in H. destruct (getext (st (me m)) r) as [h0 s] eqn:Ge. injection H as <- <-.
    apply (getext_off _ _ _ _ _ _ _ a (mi_q _ _ _ _ I) Ge); auto.
    rewrite (xr_off _ _ _ _ _ a I (Off a Ia)). unfold lka. pose proof (cnt_in _ _ Ia). lia. }
  constructor; auto.
  - intros a Ia. now apply Hc.
  - intros k Hk. destruct (Hc (nth k usrs 0)) as [_ [-> _]]; auto. apply in_or_app; right; apply nth_In. lia.
  - intros a Ia. destruct (Hc a) as [_ [-> _]]; [apply in_or_app; now left|]. destruct (Done a Ia) as [V1 E1].
    split; [exact (sext_vedge _ _ _ _ _ S' V1)|]. intros rho. rewrite <- E1. exact (sext_dv _ _ _ _ _ rho S' V1).
Qed.

Lemma update_all_spec p outs : ps p = UPDATE -> forall hs m D rs m', UP hs lk VL reqs usrs Fs m D ->
  (forall kb, In kb outs -> (fst kb < length reqs)%nat) ->
  update_all m p (handles usrs) outs = (rs, m') ->
  exists D', UP (rs ++ hs) lk VL reqs usrs Fs m' D' /\ mext hs m D m' D' /\
    Forall2 (fun r kb => forall rho, dv D' (uint (mmem m') r) rho = xorb (snd kb) (nth (fst kb) Fs (fun _ => false) rho)) rs outs.
Proof.
  intros Hp. induction outs as [|[k b] outs IH]; intros hs m D rs m' Q Hk H.
  - simpl in H. injection H as <- <-. exists D. split; auto. split; [apply mext_refl|constructor].
  - cbn [update_all] in H. unfold cal_pipeline_update in H. rewrite Hp in H.
    set (e := uint (mmem m) (uphase (nth k (handles usrs) unull) b)) in H.
    destruct (ret m (ephase (ct (mmem m (eptr e))) (eneg e))) as [h m1] eqn:Rt.
    destruct (update_all m1 p (handles usrs) outs) as [r m2] eqn:Up. injection H as <- <-.
    assert (Lk : (k < length reqs)%nat) by exact (Hk (k, b) (or_introl eq_refl)).
    destruct (u_usr _ _ _ _ _ _ _ _ Q k Lk) as (E1 & E2 & E3). pose proof (u_len _ _ _ _ _ _ _ _ Q) as Len.
    assert (Pe : eptr e = nth k reqs 0 /\ eneg e = b).
    { unfold e, handles. rewrite (nth_indep _ unull (U 0 false)) by (rewrite map_length; lia).
      rewrite (map_nth (fun b => U b false)). unfold uint, uphase, ephase. cbn [uptr uneg eptr eneg]. rewrite E1, E2. split; auto.
      now destruct b. }
    destruct Pe as [P1 P2]. rewrite P1, P2 in Rt.
    destruct (u_done _ _ _ _ _ _ _ _ Q (nth k reqs 0)) as [V1 V2]; [apply nth_In; auto|].
    assert (V3 : vedge (nodeR (st (me m))) (ephase (ct (mmem m (nth k reqs 0))) b)) by now apply vedge_ephase.
    destruct (ret_UP hs m D _ h m1 Q V3 Rt) as (D1 & Q1 & X1 & Ev).
    destruct (IH (h :: hs) m1 D1 r m2 Q1) as (D2 & Q2 & X2 & F2); auto. { intros kb Ikb. apply Hk. now right. }
    exists D2. split; [|split].
    + destruct Q2 as [I ND Off Ln Usr Done]. constructor; auto. eapply MInv_perm; [|exact I]. symmetry. apply Permutation_middle.
    + eapply mext_trans; [exact X1|]. eapply mext_sub; [|exact X2]. intros; now right.
    + constructor; auto. cbn [fst snd]. intros rho. rewrite (mx_h _ _ _ _ _ X2 h) by now left. rewrite Ev.
      now rewrite dv_ephase, V2, E3.
Qed.

Lemma quit_UP hs m D l : UP hs lk VL reqs usrs Fs m D -> Permutation l (reqs ++ usrs) -> (forall a, In a l -> lk a = 0) ->
  let m' := set_mst m (free_all (st (me m)) l) in MInv m' hs lk D /\ mext hs m D m' D.
Proof.
  intros [I ND Off Len Usr Done] Pm Hz m'. pose proof (mi_q _ _ _ _ I) as (own & L & Ei & R).
  assert (Il : forall a, In a l -> In a (reqs ++ usrs)) by (intros a; apply Permutation_in; auto).
  assert (OX' : forall a, In a l -> own a = OX).
  { intros a Ia. apply Il in Ia. eapply hid_own; [exact Ei|exact R|auto|].
    rewrite (xr_off _ _ _ _ _ a I (Off a Ia)). unfold lka. pose proof (cnt_in _ _ Ia). lia. }
  assert (R' : RC own [] idn (mmem m) L (xr m hs lk)).
  { eapply RC_x_ox; [|exact R]. intros b Ob. unfold xr, lka.
    rewrite cnt_not; [lia|]. intros Ib. apply Ob, OX'. apply Permutation_in with (reqs ++ usrs); auto. now symmetry. }
  destruct (free_spec (mo m) (xr m hs lk) l own D (me m) L) as (own' & E1 & R1 & M1 & U1 & _); auto.
  { eapply Permutation_NoDup; [symmetry; exact Pm|auto]. }
  { intros a Ia. split; auto. rewrite (xr_off _ _ _ _ _ a I (Off a (Il a Ia))). auto. }
  cbv zeta in *. change (fold_left (fun s a => free_node s 0 a) l (st (me m))) with (free_all (st (me m)) l) in *.
  assert (X : sext (st (me m)) D (free_all (st (me m)) l) D).
  { constructor; auto. intros i a Ia. cbn [set_st st] in M1, U1. unfold sameTE. rewrite M1, U1. auto. }
  split; [|exact (mext_gen m hs _ D (set_st (me m) (free_all (st (me m)) l)) D I X)].
  apply (MInv_gen m hs hs (lka lk (reqs ++ usrs)) lk D (set_st (me m) (free_all (st (me m)) l)) D I); auto.
  - exists own', L. split; [exact E1|exact R1].
  - intros h Ih. exact (proj1 (sext_uok _ _ _ _ h X (mi_hs _ _ _ _ I h Ih))).
Qed.
End Update.

(** ** A whole pipeline *)

Definition idle (p : pipe) : Prop :=
  ps p = READY /\ (forall i, pls p i = []) /\ pus p = [] /\ pmk p = [] /\ (pdep p <= 1)%nat.

Lemma MAX_pos : (1 < MAX_INSERT)%nat.
Proof. unfold MAX_INSERT. lia. Qed.

Lemma PS_start op hs lk m p D : MInv m hs lk D -> (forall i, pls p i = []) -> pus p = [] -> (pdep p <= 1)%nat -> pop p = op ->
  PS op hs lk (fun _ _ => false) (fun _ => O) [] [] [] [] 0 m p D.
Proof.
  intros I Hl Hu Hd Ho. pose proof MAX_pos. constructor; auto.
  - eapply MInv_lk; [|exact I]. intros b. unfold lka. cbn. lia.
  - constructor.
  - intros a [].
  - intros k Hk. cbn in Hk. lia.
  - lia.
  - intros i a. rewrite Hl. cbn. tauto.
  - intros i. rewrite Hl. constructor.
  - intros a [].
  - intros a [].
  - intros a [].
Qed.

(** All the requests are in the lists, and all have been answered. *)
Lemma PS_UP op hs lk VL lev reqs usrs Fs m p D :
  PS op hs lk VL lev reqs usrs Fs (map (res (mmem m)) (upto p (pdep p))) (pdep p) m p D ->
  let m' := set_mst m (unlock_results (st (me m)) (upto p (pdep p))) in
  UP hs lk VL reqs usrs Fs m' D /\ mext hs m D m' D.
Proof.
  intros [I Eop ND Off Len Usr Dep Inn Lnd Lev Pus Todo Done] m'.
  assert (I1 : MInv m hs (lka (lka lk (reqs ++ usrs)) (map (res (mmem m)) (upto p (pdep p)))) D).
  { eapply MInv_lk; [|exact I]. intros b. unfold lka. rewrite (cnt_app (reqs ++ usrs)). lia. }
  destruct (unlock_MInv hs (upto p (pdep p)) m _ D I1) as (I2 & X & Te & Ut). fold m' in I2, X, Te, Ut.
  split; [|exact (mext_gen m hs _ D (set_st (me m) (unlock_results (st (me m)) (upto p (pdep p)))) D I X)].
  constructor; auto.
  - intros a Ia. destruct (Off a Ia) as [L1 L2]. split; auto. intros i Hi. rewrite Ut in Hi. exact (L2 i Hi).
  - apply Len.
  - intros k Hk. destruct (Te (nth k usrs 0)) as [-> _]. auto.
  - intros a Ia. destruct (Te a) as [-> _]. destruct (Done a Ia) as (_ & V & Ev); [auto|]. split; auto.
    exact (sext_vedge _ _ _ _ _ X V).
Qed.

Lemma upto_perm p lev reqs : (forall i a, In a (pls p i) <-> In a reqs /\ lev a = i) -> (forall i, NoDup (pls p i)) ->
  (forall a, In a reqs -> (lev a < pdep p)%nat) -> NoDup reqs -> Permutation (upto p (pdep p)) reqs.
Proof.
  intros Inn Lnd Lev ND. apply NoDup_Permutation; auto.
  - exact (levels_nd p lev reqs Inn Lnd _ _).
  - intros a. rewrite (upto_in p lev reqs (pdep p) a Inn). split; [tauto|]. auto.
Qed.

Section Run.
Variable enum : memory -> list N -> list N.
Hypothesis enum_perm : forall m l, Permutation (enum m l) l.
Variable op : binop.
Hypothesis Hop : binop_ok op.

Lemma run_pipeline_spec d0 ds m p hs D prog outs :
  MInv m hs (fun _ => 0) D -> idle p -> prog_ok hs 0 prog ->
  (forall l, In l (prog_levels [] prog) -> (l < MAX_INSERT)%nat) ->
  (forall kb, In kb outs -> (fst kb < length prog)%nat) ->
  exists r m' p', run_pipeline enum d0 ds m p op prog outs = Ok (r, m', p') /\
    match r with
    | None => ovf m' /\ exists lk D', MInv m' hs lk D' /\ mext hs m D m' D'
    | Some rs => idle p' /\ exists D', MInv m' (rs ++ hs) (fun _ => 0) D' /\ mext hs m D m' D' /\
        Forall2 (fun r kb => forall rho, dv D' (uint (mmem m') r) rho =
          xorb (snd kb) (nth (fst kb) (prog_vals op m D [] prog) (fun _ => false) rho)) rs outs
    end.
Proof using enum_perm Hop.
  intros I (Hs & Hl & Hu & Hm & Hd) Ok Lv Hk. unfold run_pipeline, cal_pipeline_init. rewrite Hs. cbn [negb].
  destruct (postproc d0 m) as [ov m1] eqn:Pp. cbn [snd].
  destruct (postproc_keep d0 m hs _ D ov m1 I Pp) as (I1 & X1 & Te1 & _ & _ & _).
  set (p1 := pipe_op (Some op) p).
  assert (Q1 : PS op hs (fun _ => 0) (fun _ _ => false) (fun _ => O) [] [] [] [] 0 m1 p1 D) by now apply PS_start.
  destruct (create_all m1 p1 [] prog) as [[us m2] p2] eqn:Cr.
  destruct (create_all_spec op hs _ prog _ _ _ _ _ m1 p1 D us m2 p2 Q1) as
    (VL & lev & reqs & usrs & -> & Q2 & DO2 & X2 & Pm & (s2 & E2) & Ln); auto.
  { split; [reflexivity|]. split; [exact Hm|intros a []]. }
  assert (M2 : mext hs m D m2 D).
  { eapply mext_trans; [exact X1|]. rewrite E2. apply (mext_gen m1 hs _ D (set_st (me m1) s2) D I1).
    rewrite E2 in X2. exact X2. }
  assert (Ev : prog_vals op m1 D [] prog = prog_vals op m D [] prog).
  { apply (prog_vals_frame op m m1 D hs prog) with (n := O); auto. intros h Ih. unfold uint. now destruct (Te1 (uptr h)) as [-> _]. }
  rewrite Ev in Q2. set (Fs := prog_vals op m D [] prog) in *.
  unfold cal_pipeline_execute. destruct DO2 as (Hs2 & Hm2 & _). rewrite Hs2.
  destruct (exec_loop_spec enum enum_perm op hs (fun _ => 0) Hop (Nat.eqb (pman p2) 0) ds (pdep p2) 0 (pdep p2)
    VL lev reqs usrs Fs m2 p2 D Q2) as (ok & m3 & k & D3 & off & Ex & Q3 & X3 & Et & Ef); auto.
  { intros Ea. apply Nat.eqb_neq in Ea. lia. }
  rewrite Ex. cbn [obind]. assert (M3 : mext hs m D m3 D3) by (eapply mext_trans; eauto).
  destruct ok; cbn [negb].
  2:{ cbn [obind negb]. exists None, m3, (set_pman p2 k). split; auto. split; auto.
      exists (lka (fun _ => 0) ((reqs ++ usrs) ++ map (res (mmem m3)) (upto p2 off))), D3.
      split; [exact (q_inv _ _ _ _ _ _ _ _ _ _ _ _ _ Q3)|auto]. }
  specialize (Et eq_refl). subst off. set (p3 := set_pman p2 k) in *. cbn [obind negb].
  change (pdep p2) with (pdep p3) in Q3. change (upto p2) with (upto p3) in Q3.
  destruct (PS_UP _ _ _ _ _ _ _ _ _ _ _ Q3) as [Q4 X4]. cbv zeta in Q4, X4.
  change (concat (map (pls p3) (seq 0 (pdep p3)))) with (upto p3 (pdep p3)).
  set (m4 := set_mst m3 _) in *.
  destruct (update_all m4 (set_ps p3 UPDATE) (handles usrs) outs) as [rs m5] eqn:Up.
  destruct (update_all_spec (fun _ => 0) VL reqs usrs Fs (set_ps p3 UPDATE) outs eq_refl hs m4 D3 rs m5 Q4) as (D5 & Q5 & X5 & F5); auto.
  { intros kb Ikb. rewrite Ln. exact (Hk kb Ikb). }
  destruct Q3 as [I3 Eop ND Off Len Usr Dep Inn Lnd Lev Pus Todo Done].
  unfold cal_pipeline_quit. cbn [set_ps pdep pls pus pman pop].
  destruct (Nat.ltb_spec MAX_INSERT (pdep p3)) as [?|_]; [lia|].
  change (concat (map (pls p3) (seq 0 (pdep p3)))) with (upto p3 (pdep p3)).
  assert (Efr : free_all (free_all (st (me m5)) (upto p3 (pdep p3))) (pus p3) =
                free_all (st (me m5)) (upto p3 (pdep p3) ++ pus p3)).
  { unfold free_all. now rewrite fold_left_app. }
  rewrite Efr. cbn [obind].
  apply NoDup_app_inv' in ND as (NDr & NDu & NDx).
  destruct (quit_UP (fun _ => 0) VL reqs usrs Fs (rs ++ hs) m5 D5 (upto p3 (pdep p3) ++ pus p3)) as [I6 X6]; auto.
  { apply Permutation_app; [exact (upto_perm p3 lev reqs Inn Lnd Lev NDr)|]. rewrite Pus. symmetry. apply Permutation_rev. }
  cbv zeta in I6, X6. set (m6 := set_mst m5 _) in *.
  eexists (Some rs), m6, _. split; [reflexivity|]. split.
  - unfold idle. cbn [ps pls pus pmk pdep]. do 2 (split; [auto|]).
    { intros i. destruct (Nat.ltb_spec i (pdep p3)) as [|Hi]; auto.
      destruct (pls p3 i) as [|a l] eqn:El; auto. exfalso.
      assert (Ia : In a (pls p3 i)) by (rewrite El; now left).
      apply Inn in Ia as [Ia La]. specialize (Lev a Ia). lia. }
    do 2 (split; [auto|]). lia.
  - exists D5. split; [exact I6|]. split.
    + eapply mext_trans; [exact M3|]. eapply mext_trans; [exact X4|]. eapply mext_trans; [exact X5|].
      eapply mext_sub; [|exact X6]. intros; apply in_or_app; now right.
    + assert (G : forall r, In r rs -> In r (rs ++ hs)) by (intros; apply in_or_app; auto).
      clear - F5 X6 G. revert X6 G. generalize (rs ++ hs) as hh. intros hh X6. induction F5 as [|r kb rs' outs' E F IH]; constructor.
      * intros rho. rewrite (mx_h _ _ _ _ _ X6 r) by (apply G; now left). apply E.
      * apply IH. intros r0 Ir. apply G. now right.
Qed.
End Run.
