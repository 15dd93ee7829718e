(** * The manager invariant. *)
From Coq Require Import Permutation Sorted.
From Verif Require Import Base BFModel MgrModel ApiModel StoreInv Own EngInv ApplyProof BinopProof ReduceProof EngineProof
  OpProof MultiProof QProof GCProof VarProof.

(** ** References from outside the node tables *)

Fixpoint hcnt (hs : list ubdd) (b : N) : N :=
  match hs with [] => 0 | h :: hs => b2n (uptr h =? b) + hcnt hs b end.

(** References of an association to [b], over the variable ids [ids]. *)
Fixpoint acnt (ids : list N) (mp : N -> option edge) (b : N) : N :=
  match ids with
  | [] => 0
  | i :: ids => match mp i with Some e => b2n (eptr e =? b) | None => 0 end + acnt ids mp b
  end.
Fixpoint asum (ids : list N) (l : list assoc) (b : N) : N :=
  match l with [] => 0 | a :: l => acnt ids (amap a) b + asum ids l b end.

(** Nodes that the manager holds for ever: the constant handle and the variables. *)
Definition perm (m : mgr) (b : N) : N :=
  if existsb (N.eqb b) (muone m :: map (fun i => eptr (mvb m i)) (ord (mo m))) then MAXREF else 0.

(** [hs]: handles owned by the client (with repetition); [lk]: leaked references. *)
Definition xr (m : mgr) (hs : list ubdd) (lk : N -> N) (b : N) : N :=
  hcnt hs b + asum (ord (mo m)) (mtemp m :: massoc m) b + lk b + perm m b.

Lemma hcnt_perm hs hs' b : Permutation hs hs' -> hcnt hs b = hcnt hs' b.
Proof. induction 1; simpl; lia. Qed.
Lemma hcnt_in hs h : In h hs -> 1 <= hcnt hs (uptr h).
Proof.
  induction hs as [|k hs IH]; simpl; [tauto|]. intros [->|H].
  - rewrite N.eqb_refl. simpl. lia.
  - specialize (IH H). lia.
Qed.
Lemma hcnt_app l1 l2 b : hcnt (l1 ++ l2) b = hcnt l1 b + hcnt l2 b.
Proof. induction l1; simpl; lia. Qed.

Lemma acnt_perm l l' mp b : Permutation l l' -> acnt l mp b = acnt l' mp b.
Proof. induction 1; simpl; lia. Qed.
Lemma acnt_in l mp i e : In i l -> mp i = Some e -> 1 <= acnt l mp (eptr e).
Proof.
  induction l as [|k l IH]; simpl; [tauto|]. intros [->|H] E.
  - rewrite E, N.eqb_refl. simpl. lia.
  - specialize (IH H E). lia.
Qed.
Lemma asum_perm l l' as_ b : Permutation l l' -> asum l as_ b = asum l' as_ b.
Proof. intros P. induction as_; simpl; auto. rewrite (acnt_perm l l') by auto. lia. Qed.
Lemma asum_in l as_ a b : In a as_ -> acnt l (amap a) b <= asum l as_ b.
Proof. induction as_ as [|k l' IH]; simpl; [tauto|]. intros [->|H]; [lia|]. specialize (IH H). lia. Qed.

Lemma perm_in m b : In b (muone m :: map (fun i => eptr (mvb m i)) (ord (mo m))) -> perm m b = MAXREF.
Proof.
  intros H. unfold perm. destruct (existsb (N.eqb b) _) eqn:E; auto. exfalso.
  apply not_true_iff_false in E. apply E. apply existsb_exists. exists b. split; auto. apply N.eqb_refl.
Qed.

(** ** Meaning of the computed table *)

Definition bf := (N -> bool) -> bool.
Definition bext (f : bf) : Prop := forall r1 r2, (forall i, r1 i = r2 i) -> f r1 = f r2.
(** What an operation code of the computed table stands for. *)
Definition ghost := N -> bf -> bf -> bf.

(** Conjunction followed by existential quantification of the associated variables. *)
Definition sem_quant (mp : N -> option edge) (F : bf -> bf -> bf) : Prop :=
  forall f g, bext f -> bext g -> forall rho,
    F f g rho = true <->
    exists rho', (forall i, mp i = None -> rho' i = rho i) /\ f rho' = true /\ g rho' = true.
(** Conjunction followed by simultaneous substitution of the associated functions. *)
Definition sem_subst (D : den) (mp : N -> option edge) (F : bf -> bf -> bf) : Prop :=
  forall f g, bext f -> bext g -> forall rho,
    F f g rho = let rho' := fun i => match mp i with Some e => dv D e rho | None => rho i end in
                f rho' && g rho'.

Definition live (m : mgr) (c : N) : Prop :=
  (exists a, In a (massoc m) /\ (c = 16384 + aid a \/ c = 20480 + aid a \/ c = 32768 + aid a)) \/ mtop m < c \/ c = 12288.

Record CInv (G : ghost) (m : mgr) (D : den) : Prop := {
  ci_ext : forall c f f' g g', (forall r, f r = f' r) -> (forall r, g r = g' r) ->
             forall r, G c f g r = G c f' g' r;
  ci_sym : forall c f g r, G c f g r = G c g f r;
  ci_entry : forall k e, mca m k = Some e ->
     ctmp e = false /\ vedge (nodeR (st (me m))) (cf e) /\ vedge (nodeR (st (me m))) (cg e) /\
     vedge (nodeR (st (me m))) (cres e) /\ live m (cop e) /\
     forall rho, dv D (cres e) rho = G (cop e) (dv D (cf e)) (dv D (cg e)) rho;
  ci_q : forall a, In a (massoc m) -> sem_quant (amap a) (G (16384 + aid a));
  ci_r : forall a, In a (massoc m) -> sem_quant (amap a) (G (20480 + aid a));
  ci_s : forall a, In a (massoc m) -> sem_subst D (amap a) (G (32768 + aid a));
  ci_n : forall f g rho, G 12288 f g rho = negb (f rho && g rho)
}.

(** ** Associations *)
Record AOk (o : order) (s : store) (a : assoc) : Prop := {
  ao_dom : forall i e, amap a i = Some e -> In i (ord o) /\ vedge (nodeR s) e;
  ao_le : forall i e, amap a i = Some e -> (Z.of_N (idx o i) <= alast a)%Z;
  ao_ex : alast a = (-1)%Z \/ exists i e, amap a i = Some e /\ alast a = Z.of_N (idx o i)
}.

Record MInv (m : mgr) (hs : list ubdd) (lk : N -> N) (D : den) : Prop := {
  mi_wfo : wfo (mo m);
  mi_ids : idsok (mo m);
  mi_q : QS (mo m) D (me m) (xr m hs lk);
  mi_one : In (muone m) (ut (st (me m)) 0) /\ ct (mmem m (muone m)) = one;
  mi_var : forall i, In i (ord (mo m)) ->
     mvb m i = E i (eptr (mvb m i)) false /\ In (eptr (mvb m i)) (ut (st (me m)) i) /\
     ct (mmem m (eptr (mvb m i))) = one /\ ce (mmem m (eptr (mvb m i))) = zero;
  mi_hs : forall h, In h hs -> uok (st (me m)) h;
  mi_as : forall a, In a (mtemp m :: massoc m) -> AOk (mo m) (st (me m)) a;
  mi_srt : StronglySorted N.lt (map aid (massoc m));
  mi_rc : (forall a, In a (massoc m) -> 1 <= arc a /\ aid a < 4096) /\ 36864 <= mtop m;
  mi_cur : forall i, mcur m = Some i -> In i (map aid (massoc m));
  mi_cache : exists G, CInv G m D
}.

(** ** What every call guarantees about the objects of the client *)

Definition arel (D D' : den) (a a' : assoc) : Prop :=
  aid a' = aid a /\ arc a' = arc a /\
  forall i, match amap a i, amap a' i with
            | Some e, Some e' => forall rho, dv D' e' rho = dv D e rho
            | None, None => True
            | _, _ => False
            end.

Record mext (hs : list ubdd) (m : mgr) (D : den) (m' : mgr) (D' : den) : Prop := {
  mx_h : forall h, In h hs -> forall rho, dv D' (uint (mmem m') h) rho = dv D (uint (mmem m) h) rho;
  mx_var : forall i, In i (ord (mo m)) -> In i (ord (mo m'));
  mx_one : muone m' = muone m;
  mx_as : Forall2 (arel D D') (massoc m) (massoc m');
  mx_tmp : arel D D' (mtemp m) (mtemp m');
  mx_cur : mcur m' = mcur m;
  mx_top : mtop m' <= mtop m
}.

Lemma arel_refl D a : arel D D a a.
Proof. split; auto. split; auto. intros i. destruct (amap a i); auto. Qed.
Lemma arel_trans D1 D2 D3 a1 a2 a3 : arel D1 D2 a1 a2 -> arel D2 D3 a2 a3 -> arel D1 D3 a1 a3.
Proof.
  intros (E1 & E2 & E3) (F1 & F2 & F3). split; [congruence|]. split; [congruence|].
  intros i. specialize (E3 i). specialize (F3 i).
  destruct (amap a1 i), (amap a2 i), (amap a3 i); auto; try tauto. intros rho. now rewrite F3, E3.
Qed.

Lemma Forall2_refl' {A} (R : A -> A -> Prop) l : (forall a, R a a) -> Forall2 R l l.
Proof. intros H. induction l; auto. Qed.
Lemma Forall2_trans' {A} (R1 R2 R3 : A -> A -> Prop) l1 l2 l3 :
  (forall a b c, R1 a b -> R2 b c -> R3 a c) -> Forall2 R1 l1 l2 -> Forall2 R2 l2 l3 -> Forall2 R3 l1 l3.
Proof.
  intros H F1. revert l3. induction F1; intros l3 F2; inversion F2; subst; constructor; eauto.
Qed.

Lemma mext_refl hs m D : mext hs m D m D.
Proof. constructor; auto; [apply Forall2_refl'| |lia]; intros; apply arel_refl. Qed.
Lemma mext_trans hs m1 D1 m2 D2 m3 D3 : mext hs m1 D1 m2 D2 -> mext hs m2 D2 m3 D3 -> mext hs m1 D1 m3 D3.
Proof.
  intros [A1 A2 A3 A4 A5 A6 A7] [B1 B2 B3 B4 B5 B6 B7]. constructor; auto; try congruence.
  - intros h Ih rho. rewrite B1, A1; auto.
  - eapply Forall2_trans'; [|exact A4|exact B4]. intros a b c. apply arel_trans.
  - eapply arel_trans; eauto.
  - lia.
Qed.
Lemma mext_sub hs hs' m D m' D' : (forall h, In h hs' -> In h hs) -> mext hs m D m' D' -> mext hs' m D m' D'.
Proof. intros S [A1 A2 A3 A4 A5 A6 A7]. constructor; auto. Qed.

(** ** Basic consequences *)

Lemma MI_swf m hs lk D : MInv m hs lk D -> SWF (mo m) (st (me m)).
Proof. intros I. apply (QS_swf _ _ _ _ (mi_q _ _ _ _ I)). Qed.
Lemma MI_dok m hs lk D : MInv m hs lk D -> Dok D (st (me m)).
Proof. intros I. apply (QS_dok _ _ _ _ (mi_q _ _ _ _ I)). Qed.
Lemma MI_int m hs lk D h : MInv m hs lk D -> In h hs -> vedge (nodeR (st (me m))) (uint (mmem m) h).
Proof. intros I Ih. eapply uok_int; [eapply MI_swf; eauto|]. apply (mi_hs _ _ _ _ I); auto. Qed.

Lemma MInv_perm m hs hs' lk D : Permutation hs hs' -> MInv m hs lk D -> MInv m hs' lk D.
Proof.
  intros P [B1 B2 B3 B4 B5 B6 B7 B8 B9 B10 B11]. constructor; auto.
  - eapply QS_x_ext; [|exact B3]. intros b. unfold xr. now rewrite (hcnt_perm hs hs').
  - intros h Ih. apply B6. apply Permutation_in with hs'; auto. now symmetry.
Qed.

(** A function is determined by the values of the variables. *)
Lemma dv_bext o D s e : wfo o -> SWF o s -> Dok D s -> vedge (nodeR s) e -> bext (dv D e).
Proof.
  intros Wo W K V r1 r2 E.
  apply (dv_agree o D s Wo W K e V). intros i _ _. apply E.
Qed.

(** A counted node with many external references is saturated. *)
Lemma QS_sat o D en x b : QS o D en x -> isnode (st en) b -> MAXREF <= x b -> cr (mem (st en) b) = MAXREF.
Proof.
  intros (own & L & I & R) [i Ib] H.
  assert (Cb : counted own b) by (left; exists i; now apply (acc_node _ _ _ _ (ei_acc _ _ _ _ I))).
  destruct (rc_cnt _ _ _ _ _ _ R b Cb) as [E|E]; auto. pose proof (rc_max _ _ _ _ _ _ R b Cb). lia.
Qed.

Lemma QS_x_sat o D en x x' :
  (forall b, x' b = x b \/ (isnode (st en) b /\ cr (mem (st en) b) = MAXREF)) -> QS o D en x -> QS o D en x'.
Proof.
  intros E (own & L & I & [B1 B2 B3 B4 B5 B6]). exists own, L. split; auto.
  pose proof (ei_acc _ _ _ _ I) as A.
  constructor; auto.
  - intros b Cb. destruct (E b) as [->|[_ H]]; auto.
  - intros b Lb Fb. destruct (E b) as [->|[[i H] _]]; auto.
    apply (acc_node _ _ _ _ A) in H. rewrite H in Fb. destruct (nf_node _ Fb).
Qed.

(** A referenced node has a non-zero count. *)
Lemma QS_nz o D en x b : QS o D en x -> isnode (st en) b -> x b <> 0 -> cr (mem (st en) b) <> 0.
Proof.
  intros (own & L & I & R) [i Ib] H.
  assert (Cb : counted own b) by (left; exists i; now apply (acc_node _ _ _ _ (ei_acc _ _ _ _ I))).
  destruct (rc_cnt _ _ _ _ _ _ R b Cb) as [E|E]; rewrite E; [discriminate|lia].
Qed.

Lemma occ_ge m L a b : In a L -> wt idn m b a <= occ idn m L b.
Proof. induction L as [|k L IH]; simpl; [tauto|]. intros [->|H]; [lia|]. specialize (IH H). lia. Qed.

(** The children of a table node have non-zero counts. *)
Lemma QS_child_nz o D en x i a : QS o D en x -> In a (ut (st en) i) ->
  cr (mem (st en) (eptr (ct (mem (st en) a)))) <> 0 /\ cr (mem (st en) (eptr (ce (mem (st en) a)))) <> 0.
Proof.
  intros (own & L & I & R) Ia.
  pose proof (ei_acc _ _ _ _ I) as A. pose proof (ei_swf _ _ _ _ I) as W.
  assert (IL : In a L).
  { apply (rc_L _ _ _ _ _ _ R). left. exists i. now apply (acc_node _ _ _ _ A). }
  assert (G : forall p, (p = ONE \/ isnode (st en) p) ->
     (p = eptr (ct (mem (st en) a)) \/ p = eptr (ce (mem (st en) a))) -> cr (mem (st en) p) <> 0).
  { intros p Hp Ep. destruct Hp as [->|[j Ij]]; [rewrite (swf_onerc _ _ W); discriminate|].
    assert (Cb : counted own p) by (left; exists j; now apply (acc_node _ _ _ _ A)).
    destruct (rc_cnt _ _ _ _ _ _ R p Cb) as [E|E]; rewrite E; [discriminate|].
    pose proof (occ_ge (mem (st en)) L a p IL) as O. remember (occ idn (mem (st en)) L p) as q. clear Heqq E.
    unfold wt, idn in O. destruct Ep as [-> | ->]; rewrite N.eqb_refl in O; simpl in O; lia. }
  destruct (N.eq_dec i 0) as [->|N0].
  - destruct (swf_user _ _ W a Ia) as (U1 & U2 & _). split; apply G; auto.
    + apply vedge_ptr_node; auto.
    + rewrite U2. left; auto.
  - pose proof (swf_node _ _ W i a N0 Ia) as NO. split; apply G; auto; apply vedge_ptr_node; apply NO.
Qed.

(** ** Preservation *)

(** A step that only extends the store. *)
Lemma CInv_sext G m D en' D' :
  SWF (mo m) (st (me m)) -> Dok D (st (me m)) -> wfo (mo m) ->
  (forall a, In a (massoc m) -> AOk (mo m) (st (me m)) a) ->
  sext (st (me m)) D (st en') D' -> CInv G m D -> CInv G (set_me m en') D'.
Proof.
  intros W K Wo As X [C1 C2 C3 C4 C5 C6 C7]. constructor; auto.
  - intros k e H. destruct (C3 k e H) as (E0 & E1 & E2 & E3 & E4 & E5).
    split; [auto|]. split; [eapply sext_vedge; eauto|]. split; [eapply sext_vedge; eauto|].
    split; [eapply sext_vedge; eauto|]. split; [exact E4|].
    intros rho. rewrite (sext_dv _ _ _ _ _ _ X E3), E5. apply C1; intros r; symmetry; eapply sext_dv; eauto.
  - intros a Ia f g Hf Hg rho. rewrite (C6 a Ia f g Hf Hg rho). simpl.
    assert (Er : forall i, match amap a i with Some e => dv D e rho | None => rho i end =
                           match amap a i with Some e => dv D' e rho | None => rho i end).
    { intros i. destruct (amap a i) as [e|] eqn:Ea; auto. symmetry. eapply sext_dv; eauto.
      apply (ao_dom _ _ _ (As a Ia) i e Ea). }
    f_equal; [apply Hf|apply Hg]; auto.
Qed.

Lemma AOk_sext o s D s' D' a : sext s D s' D' -> AOk o s a -> AOk o s' a.
Proof.
  intros X [B1 B2 B3]. constructor; auto. intros i e E. destruct (B1 i e E). split; auto. eapply sext_vedge; eauto.
Qed.

Lemma MInv_gen m hs hs' lk lk' D en' D' :
  MInv m hs lk D -> QS (mo m) D' en' (xr m hs' lk') ->
  sext (st (me m)) D (st en') D' -> (forall h, In h hs' -> uok (st en') h) ->
  MInv (set_me m en') hs' lk' D'.
Proof.
  intros I Q X Hh. pose proof I as [B1 B2 B3 B4 B5 B6 B7 B8 B9 B10 [G B11]]. constructor; auto.
  - simpl. destruct B4 as [I1 E1]. destruct (se_node _ _ _ _ X 0 _ I1) as [I1' [T1 _]]. split; auto. now rewrite T1.
  - simpl. intros i Ii. destruct (B5 i Ii) as (V1 & V2 & V3 & V4).
    destruct (se_node _ _ _ _ X _ _ V2) as [V2' [T1 T2]]. rewrite T1, T2. auto.
  - simpl. intros a Ia. eapply AOk_sext; eauto.
  - exists G. eapply CInv_sext; eauto.
    + eapply MI_swf; eauto.
    + eapply MI_dok; eauto.
    + intros a Ia. apply B7. now right.
Qed.

Lemma mext_gen m hs lk D en' D' :
  MInv m hs lk D -> sext (st (me m)) D (st en') D' -> mext hs m D (set_me m en') D'.
Proof.
  intros I X. pose proof I as [B1 B2 B3 B4 B5 B6 B7 B8 B9 B10 B11].
  assert (Ar : forall a, In a (mtemp m :: massoc m) -> arel D D' a a).
  { intros a Ia. split; auto. split; auto. intros i. destruct (amap a i) as [e|] eqn:E; auto.
    intros rho. eapply sext_dv; eauto. apply (ao_dom _ _ _ (B7 a Ia) i e E). }
  constructor; auto.
  - intros h Ih rho. simpl. destruct (sext_uok _ _ _ _ h X (B6 h Ih)) as [_ ->].
    eapply sext_dv; eauto. eapply MI_int; eauto.
  - simpl. assert (Ar' : forall a, In a (massoc m) -> arel D D' a a) by (intros; apply Ar; now right).
    clear -Ar'. induction (massoc m); constructor; auto. { apply Ar'. now left. }
    apply IHl. intros. apply Ar'. now right.
  - simpl. apply Ar. now left.
  - simpl. lia.
Qed.

Lemma MInv_step m hs lk D en' D' :
  MInv m hs lk D -> QS (mo m) D' en' (xr m hs lk) -> sext (st (me m)) D (st en') D' ->
  MInv (set_me m en') hs lk D' /\ mext hs m D (set_me m en') D'.
Proof.
  intros I Q X. split; [|eapply mext_gen; eauto].
  eapply MInv_gen; eauto. intros h Ih. eapply sext_uok; eauto. apply (mi_hs _ _ _ _ I); auto.
Qed.

(** Fields that the invariant does not mention. *)
Lemma MInv_limits m hs lk D lim nl ov : MInv m hs lk D ->
  MInv (M (me m) (mo m) (muone m) (mvb m) (mca m) (massoc m) (mtemp m) (mcur m) (mtop m) lim nl ov) hs lk D /\
  mext hs m D (M (me m) (mo m) (muone m) (mvb m) (mca m) (massoc m) (mtemp m) (mcur m) (mtop m) lim nl ov) D.
Proof.
  intros [B1 B2 B3 B4 B5 B6 B7 B8 B9 B10 [G [C1 C2 C3 C4 C5 C6 C7]]]. split; [|constructor; auto].
  - constructor; auto. exists G. constructor; auto.
  - apply Forall2_refl'; intros; apply arel_refl.
  - apply arel_refl.
  - simpl. lia.
Qed.

(** Dropping entries of the computed table, or moving them. *)
Lemma MInv_cache m hs lk D c :
  (forall k e, c k = Some e -> exists j, mca m j = Some e) ->
  MInv m hs lk D -> MInv (set_mca m c) hs lk D /\ mext hs m D (set_mca m c) D.
Proof.
  intros Hc [B1 B2 B3 B4 B5 B6 B7 B8 B9 B10 [G [C1 C2 C3 C4 C5 C6 C7]]]. split; [|constructor; auto].
  - constructor; auto. exists G. constructor; auto. intros k e H. destruct (Hc k e H) as [j Hj]. exact (C3 j e Hj).
  - apply Forall2_refl'; intros; apply arel_refl.
  - apply arel_refl.
  - simpl. lia.
Qed.
