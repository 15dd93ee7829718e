(** * The properties of the interface calls in terms of reachable worlds. *)
From Coq Require Import Permutation Sorted.
From Verif Require Import Base BFModel ITEModel MgrModel ApiModel StoreInv Own EngInv ApplyProof BinopProof ReduceProof EngineProof
  OpProof MultiProof QProof GCProof VarProof MInv ApiProof ApiOps ApiStruct ApiVar GraphModel AssocModel QuantModel QuantBFModel QuantApiModel ComposeModel CofactorModel SubstModel SwapModel ReduceOpModel AssocProof CodecModel DumpModel PipeModel PackModel SpecApi WorldProof.

(** ** The node limit is not touched by operations *)
Lemma gc_mnl m : mnl (gc m) = mnl m.
Proof. unfold gc. now destruct (gc_store (mo m) (st (me m))). Qed.
Lemma postproc_mnl d m : mnl (snd (postproc d m)) = mnl m.
Proof.
  unfold postproc. destruct (d_chk d); auto. destruct (mlim m <? nn (st (me m))); auto.
  destruct (_ && _); simpl; apply gc_mnl.
Qed.
Lemma preproc_mnl d m l ok m' : preproc d m l = Ok (ok, m') -> mnl m' = mnl m.
Proof.
  unfold preproc. destruct (existsb (zero_ref m) l); [discriminate|]. destruct (existsb uisnull l); intros [= <- <-]; auto.
  apply postproc_mnl.
Qed.
Lemma ret_mnl m r : mnl (snd (ret m r)) = mnl m.
Proof. unfold ret. now destruct (getext (st (me m)) r). Qed.
Lemma finish_mnl d m r : mnl (snd (finish d m r)) = mnl m.
Proof.
  unfold finish. pose proof (ret_mnl m r) as R. destruct (ret m r) as [h m1]. simpl in R.
  pose proof (postproc_mnl d m1) as P. destruct (postproc d m1) as [ov m2]. simpl in P. destruct ov; simpl; [rewrite gc_mnl; simpl|]; congruence.
Qed.
Lemma binary_mnl enum op neg d1 d2 m f g h m' : binary enum op neg d1 d2 m f g = Ok (h, m') -> mnl m' = mnl m.
Proof.
  unfold binary. destruct (preproc d1 m [f; g]) as [[ok m1]| |] eqn:P; try discriminate. simpl. apply preproc_mnl in P.
  destruct ok; simpl; [|intros [= <- <-]; auto].
  destruct (opBF enum (mo m1) op (me m1) (uint (mmem m1) f) (uint (mmem m1) g)) as [r en].
  intros [= E]. change m' with (snd (h, m')). rewrite <- E, finish_mnl. exact P.
Qed.
Lemma ite_mnl enum d1 d2 m f g k h m' : cal_ite enum d1 d2 m f g k = Ok (h, m') -> mnl m' = mnl m.
Proof.
  unfold cal_ite. destruct (preproc d1 m [f; g; k]) as [[ok m1]| |] eqn:P; try discriminate. simpl. apply preproc_mnl in P.
  destruct ok; simpl; [|intros [= <- <-]; auto].
  destruct (opITEBF enum (mo m1) (me m1) (uint (mmem m1) f) (uint (mmem m1) g) (uint (mmem m1) k)) as [r en].
  intros [= E]. change m' with (snd (h, m')). rewrite <- E, finish_mnl. exact P.
Qed.
Lemma cofactor_mnl enum d1 d2 m f c h m' : cal_cofactor enum d1 d2 m f c = Ok (h, m') -> mnl m' = mnl m.
Proof.
  unfold cal_cofactor. destruct (preproc d1 m [f; c]) as [[ok m1]| |] eqn:P; try discriminate. simpl. apply preproc_mnl in P.
  destruct ok; simpl; [|intros [= <- <-]; auto].
  destruct (cofactorBF enum (mo m1) (me m1) (uint (mmem m1) f) (uint (mmem m1) c)) as [r en].
  intros [= E]. change m' with (snd (h, m')). rewrite <- E, finish_mnl. exact P.
Qed.

Section World.
Variable w : world.
Hypothesis Rw : reachable w.
Notation m := (wm w).
Notation hs := (wh w).

Lemma W_inv : exists D, MInv m hs lk0 D.
Proof. apply reachable_inv; auto. Qed.

Lemma W_means f : In f hs -> exists F, means m f F.
Proof. intros If. destruct W_inv as [D I]. eexists. eapply means_self; eauto. Qed.

Lemma result_computes D F G h m' : MInv m hs lk0 D -> mnl m' = mnl m -> (forall rho, F rho = G rho) ->
  result m hs lk0 D F h m' -> overflowed m h m' \/ means m' h G.
Proof.
  intros I El E (D' & X & [(-> & [O1 O2] & I')|(I' & H)]).
  - left. split; auto. split; auto. congruence.
  - right. apply (means_hv m' (h :: hs) lk0 D'); [auto|now left|]. intros rho. now rewrite H.
Qed.
Lemma result_returns D F G h m' : (forall rho, F rho = G rho) ->
  result' m hs lk0 D F h m' -> cal_isnull h = false /\ means m' h G.
Proof.
  intros E (D' & X & I' & H). split; [eapply uok_notnull; [exact I'|now left]|].
  apply (means_hv m' (h :: hs) lk0 D'); [auto|now left|]. intros rho. now rewrite H.
Qed.

Lemma W_binary f g F G : In f hs -> In g hs -> means m f F -> means m g G ->
  forall enum d1 d2 op neg, good_enum enum -> In op [op_and; op_nand; op_or; op_xor] ->
  computes m (binary enum op neg d1 d2 m f g) (fun rho => xorb neg (bsem op (F rho) (G rho))).
Proof.
  intros If Ig Mf Mg enum d1 d2 op neg He Ho. destruct W_inv as [D I].
  rewrite (means_hv m hs lk0 D) in Mf, Mg by auto.
  destruct (binary_spec enum He op neg d1 d2 m hs lk0 D f g (op_ok op Ho) I If Ig) as (h & m' & E & R).
  exists h, m'. split; auto. eapply result_computes; [exact I|eapply binary_mnl; eauto| |exact R].
  intros rho. cbv beta. now rewrite Mf, Mg.
Qed.

Lemma W_ops f g F G : In f hs -> In g hs -> means m f F -> means m g G ->
  forall enum d1 d2, good_enum enum ->
  computes m (cal_and enum d1 d2 m f g) (fun rho => F rho && G rho) /\
  computes m (cal_nand enum d1 d2 m f g) (fun rho => negb (F rho && G rho)) /\
  computes m (cal_or enum d1 d2 m f g) (fun rho => F rho || G rho) /\
  computes m (cal_nor enum d1 d2 m f g) (fun rho => negb (F rho || G rho)) /\
  computes m (cal_xor enum d1 d2 m f g) (fun rho => xorb (F rho) (G rho)) /\
  computes m (cal_xnor enum d1 d2 m f g) (fun rho => negb (xorb (F rho) (G rho))).
Proof.
  intros If Ig Mf Mg enum d1 d2 He.
  assert (C : forall op neg H, In op [op_and; op_nand; op_or; op_xor] -> (forall rho, xorb neg (bsem op (F rho) (G rho)) = H rho) ->
     computes m (binary enum op neg d1 d2 m f g) H).
  { intros op neg H Ho E. destruct (W_binary f g F G If Ig Mf Mg enum d1 d2 op neg He Ho) as (h & m' & Eq & R).
    exists h, m'. split; auto. destruct R as [O|M]; auto. right. intros rho. rewrite <- E. apply M. }
  split; [|split; [|split; [|split; [|split]]]]; apply C; simpl; auto; intros rho; simpl; destruct (F rho), (G rho); auto.
Qed.

Lemma W_ite f g k F G K : In f hs -> In g hs -> In k hs -> means m f F -> means m g G -> means m k K ->
  forall enum d1 d2, good_enum enum -> computes m (cal_ite enum d1 d2 m f g k) (fun rho => if F rho then G rho else K rho).
Proof.
  intros If Ig Ik Mf Mg Mk enum d1 d2 He. destruct W_inv as [D I].
  rewrite (means_hv m hs lk0 D) in Mf, Mg, Mk by auto.
  destruct (ite_spec enum He d1 d2 m hs lk0 D f g k I If Ig Ik) as (h & m' & E & R).
  exists h, m'. split; auto. eapply result_computes; [exact I|eapply ite_mnl; eauto| |exact R].
  intros rho. cbv beta. now rewrite Mf, Mg, Mk.
Qed.

Lemma W_canonical f g F G : In f hs -> In g hs -> means m f F -> means m g G -> (cal_isequal f g = true <-> same F G).
Proof.
  intros If Ig Mf Mg. destruct W_inv as [D I]. rewrite (means_hv m hs lk0 D) in Mf, Mg by auto.
  unfold cal_isequal. rewrite (handle_eq m hs lk0 D f g I If Ig). unfold same.
  split; intros H rho; specialize (H rho); rewrite ?Mf, ?Mg in *; auto.
Qed.

Lemma W_unique f F F' : In f hs -> means m f F -> means m f F' -> same F F'.
Proof.
  intros If M1 M2. destruct W_inv as [D I]. rewrite (means_hv m hs lk0 D) in M1, M2 by auto. intros rho. now rewrite <- M1.
Qed.

Lemma W_keep w' h F : step w w' -> In h hs -> In h (wh w') -> means m h F -> means (wm w') h F.
Proof.
  intros S Ih Ih' M. destruct W_inv as [D I]. destruct (step_next w w' lk0 D eq_refl S I) as (D' & I' & K).
  rewrite (means_hv m hs lk0 D) in M by auto. apply (means_hv (wm w') (wh w') lk0 D'); auto.
  intros rho. now rewrite K.
Qed.

Lemma W_not f F : In f hs -> means m f F ->
  exists m', cal_not m f = Ok (unot f, m') /\ means m' (unot f) (fun rho => negb (F rho)) /\
    cal_isequal (unot (unot f)) f = true /\ cal_isequal (unot f) f = false.
Proof.
  intros If Mf. destruct W_inv as [D I]. unfold cal_not. rewrite (uok_notnull m hs lk0 D f I If).
  rewrite (means_hv m hs lk0 D) in Mf by auto.
  destruct (uinc_spec m hs lk0 D f (unot f) I If eq_refl) as [I2 X2].
  exists (uinc m f). split; auto. split.
  - apply (means_hv _ (unot f :: hs) lk0 D); auto; [now left|]. intros rho.
    unfold uint. simpl uptr. simpl uneg. rewrite dv_ephase. rewrite <- Mf, <- (mx_h _ _ _ _ _ X2 f If). unfold uint. rewrite dv_ephase.
    destruct (uneg f); simpl; now destruct (dv D (ct _) rho).
  - unfold cal_isequal, ueq, unot. simpl. rewrite N.eqb_refl. destruct (uneg f); auto.
Qed.

Lemma W_consts : means m (cal_one m) (fun _ => true) /\ means m (cal_zero m) (fun _ => false) /\ cal_isnull cal_null = true /\
  (forall f, In f hs -> cal_isnull f = false).
Proof.
  destruct W_inv as [D I]. split; [|split; [|split]]; auto.
  - apply (means_hv m (cal_one m :: hs) lk0 D); [now apply MInv_const|now left|]. intros. apply (hv_one m hs lk0 D false _ I).
  - apply (means_hv m (cal_zero m :: hs) lk0 D); [now apply MInv_const|now left|]. intros. apply (hv_one m hs lk0 D true _ I).
  - intros f If. eapply uok_notnull; eauto.
Qed.

Lemma W_tests f F : In f hs -> means m f F ->
  (cal_isone m f = true <-> forall rho, F rho = true) /\ (cal_iszero m f = true <-> forall rho, F rho = false) /\
  (cal_isconst m f = true <-> exists b, forall rho, F rho = b).
Proof.
  intros If Mf. destruct W_inv as [D I]. rewrite (means_hv m hs lk0 D) in Mf by auto.
  assert (H1 : cal_isone m f = true <-> forall rho, F rho = true).
  { rewrite (isone_spec m hs lk0 D f I If). split; intros H rho; specialize (H rho); congruence. }
  assert (H0 : cal_iszero m f = true <-> forall rho, F rho = false).
  { rewrite (iszero_spec m hs lk0 D f I If). split; intros H rho; specialize (H rho); congruence. }
  split; auto. split; auto. unfold cal_isconst. rewrite orb_true_iff, H1, H0. split.
  - intros [H|H]; eauto.
  - intros [[] H]; auto.
Qed.

Lemma W_identity f F : In f hs -> means m f F -> exists m', cal_identity m f = Ok (f, m') /\ means m' f F.
Proof.
  intros If Mf. destruct W_inv as [D I]. unfold cal_identity. rewrite (uok_notnull m hs lk0 D f I If).
  rewrite (means_hv m hs lk0 D) in Mf by auto.
  destruct (uinc_spec m hs lk0 D f f I If eq_refl) as [I2 X2]. eexists. split; [reflexivity|].
  apply (means_hv _ (f :: hs) lk0 D); auto; [now left|]. intros rho. now rewrite (mx_h _ _ _ _ _ X2 f If).
Qed.

(** Shannon expansion. *)
Lemma W_shannon f F d : In f hs -> means m f F -> cal_isconst m f = false ->
  exists i m1, cal_ifid d m f = Ok (i, m1) /\ cal_ifindex d m f = Ok (idx (mo m1) i, m1) /\
    nth_error (ord (mo m1)) (N.to_nat (idx (mo m1) i)) = Some i /\
    depends F i /\ (forall j, In j (ord (mo m1)) -> idx (mo m1) j < idx (mo m1) i -> ~ depends F j) /\
    returns (cal_if d m f) (fun rho => rho i) /\
    returns (cal_then d m f) (fun rho => F (assign rho i true)) /\
    returns (cal_else d m f) (fun rho => F (assign rho i false)).
Proof.
  intros If Mf C. destruct W_inv as [D I]. rewrite (means_hv m hs lk0 D) in Mf by auto.
  destruct (parts d m hs lk0 D f I If C) as (i & P1 & P2 & P3 & (m1 & P4)).
  destruct (ifid_spec d m hs lk0 D f I If) as (i' & m1' & D1 & E & I1 & X1 & _ & Hd).
  rewrite P4 in E. injection E as <- <-. destruct (Hd C) as (Ii & Dp & Nd).
  destruct (ifindex_spec d m hs lk0 D f I If) as (k & m1' & D1' & E & I1' & X1' & _ & Hx).
  destruct (Hx C) as (i' & E' & Nt). rewrite P4 in E'. injection E' as <- <-.
  assert (Ek : k = idx (mo m1) i).
  { destruct (wfo_idx _ (mi_wfo _ _ _ _ I1) _ _ Nt) as [_ Ek]. rewrite Ek. lia. }
  exists i, m1. split; auto. split; [now rewrite <- Ek|]. split; [now rewrite <- Ek|]. split.
  { destruct Dp as [rho Dp]. exists rho. now rewrite !Mf in Dp. }
  split.
  { intros j Ij Lt (rho & Dj). apply Dj. rewrite <- !Mf. change (assign rho j true) with (flip rho j true).
    change (assign rho j false) with (flip rho j false). now rewrite !(Nd j Ij Lt). }
  assert (Rt : forall r (G H : bfun), (forall rho, G rho = H rho) -> (exists h m' D', r = Ok (h, m') /\ mext hs m D m' D' /\ MInv m' (h :: hs) lk0 D' /\ forall rho, hv m' D' h rho = G rho) ->
     returns r H).
  { intros r G H E2 (h & m' & D' & -> & X & I' & E3). exists h, m'. split; auto. apply (result_returns D G H); auto. exists D'. auto. }
  split; [|split].
  - eapply Rt; [|exact P1]. auto.
  - eapply Rt; [|exact P2]. intros rho. apply Mf.
  - eapply Rt; [|exact P3]. intros rho. apply Mf.
Qed.
Lemma W_const_parts f d : In f hs -> cal_isconst m f = true ->
  cal_if d m f = Undefined /\ cal_then d m f = Undefined /\ cal_else d m f = Undefined.
Proof. intros If C. destruct W_inv as [D I]. now apply (const_undefined d m hs lk0 D). Qed.

Lemma fold_and l : fold_right (bsem op_and) true l = all_true l.
Proof. reflexivity. Qed.
Lemma fold_or l : fold_right (bsem op_or) false l = some_true l.
Proof. reflexivity. Qed.
Lemma fold_xor l : fold_right (bsem op_xor) false l = odd_true l.
Proof.
  induction l as [|b l IH]; [reflexivity|]. change (xorb b (fold_right (bsem op_xor) false l) = odd_true (b :: l)). rewrite IH.
  unfold odd_true. simpl filter. destruct b; [|now rewrite xorb_false_l]. cbn [length]. rewrite Nat.odd_succ, <- Nat.negb_odd. reflexivity.
Qed.

Lemma W_multiway l Fs : l <> [] -> N.of_nat (length l) <= 1024 -> args hs l -> each (means m) l Fs ->
  forall enum ds, good_enum enum ->
  returns (cal_multiway_and enum ds m l) (fun rho => all_true (map (fun F => F rho) Fs)) /\
  returns (cal_multiway_or enum ds m l) (fun rho => some_true (map (fun F => F rho) Fs)) /\
  returns (cal_multiway_xor enum ds m l) (fun rho => odd_true (map (fun F => F rho) Fs)).
Proof.
  intros Hne Hlen Ha Mf enum ds He. destruct W_inv as [D I].
  assert (Em : forall rho, map (fun h => hv m D h rho) l = map (fun F : bfun => F rho) Fs).
  { intros rho. clear Hne Hlen. induction Mf as [|h F l Fs M1 M IH]; simpl; auto.
    rewrite (means_hv m hs lk0 D) in M1; [|auto|apply Ha; now left]. rewrite M1. f_equal. apply IH. intros k Ik. apply Ha. now right. }
  assert (C : forall op u H, In op [op_and; op_or; op_xor] -> (forall b, bsem op u b = b) -> (forall b, bsem op b u = b) ->
     (forall a b c, bsem op a (bsem op b c) = bsem op (bsem op a b) c) ->
     (forall rho, fold_right (bsem op) u (map (fun F : bfun => F rho) Fs) = H rho) -> returns (multiway enum op ds m l) H).
  { intros op u H Ho U1 U2 U3 E.
    destruct (multiway_spec enum He op u ds m hs lk0 D l (op_ok op (op3 op Ho)) U1 U2 U3 I Ha Hne Hlen) as (h & m' & E1 & R).
    exists h, m'. split; auto. eapply result_returns; [|exact R]. intros rho. cbv beta. now rewrite Em. }
  split; [apply (C op_and true)|split; [apply (C op_or false)|apply (C op_xor false)]];
    try (simpl; auto 4; fail); try (now intros []); try (now intros [] [] []); intros rho; apply fold_and || apply fold_or || apply fold_xor.
Qed.

Lemma W_intersects f g F G d : In f hs -> In g hs -> means m f F -> means m g G ->
  (exists H, returns (cal_intersects d m f g) H /\ (forall rho, H rho = true -> F rho = true /\ G rho = true) /\
     ((forall rho, H rho = false) <-> forall rho, F rho && G rho = false)) /\
  (exists H, returns (cal_implies d m f g) H /\ (forall rho, H rho = true -> F rho = true /\ G rho = false) /\
     ((forall rho, H rho = false) <-> forall rho, F rho = true -> G rho = true)).
Proof.
  intros If Ig Mf Mg. destruct W_inv as [D I]. rewrite (means_hv m hs lk0 D) in Mf, Mg by auto.
  split.
  - destruct (intersects_spec false d m hs lk0 D f g I If Ig) as (h & m' & D' & E & X & I' & S1 & S2).
    exists (fun rho => hv m' D' h rho). split.
    { exists h, m'. split; auto. split; [eapply uok_notnull; [exact I'|now left]|]. eapply means_self; eauto. now left. }
    split.
    + intros rho H. destruct (S1 rho H) as [A B]. rewrite Mf in A. rewrite Mg in B. now rewrite xorb_false_l in B.
    + rewrite S2. split; intros H rho; specialize (H rho); rewrite Mf, Mg, xorb_false_l in *; auto.
  - destruct (intersects_spec true d m hs lk0 D f g I If Ig) as (h & m' & D' & E & X & I' & S1 & S2).
    exists (fun rho => hv m' D' h rho). split.
    { exists h, m'. split; auto. split; [eapply uok_notnull; [exact I'|now left]|]. eapply means_self; eauto. now left. }
    split.
    + intros rho H. destruct (S1 rho H) as [A B]. rewrite Mf in A. rewrite Mg in B. split; auto. now destruct (G rho).
    + rewrite S2. split; intros H rho; specialize (H rho); rewrite Mf, Mg in *; destruct (F rho), (G rho); simpl in *; auto; try (specialize (H eq_refl)); try discriminate; auto.
Qed.

(** Collection. *)
Lemma W_gc f F : In f hs -> means m f F -> means (gc m) f F.
Proof.
  intros If M. apply (W_keep (World (gc m) hs) f F); auto. destruct w. apply st_call, st_gc.
Qed.

Lemma xr_in_use m0 h0 b : 0 < xr m0 h0 lk0 b -> in_use m0 h0 b.
Proof.
  unfold xr, lk0. intros H.
  destruct (N.eq_dec (hcnt h0 b) 0) as [E1|E1].
  - destruct (N.eq_dec (asum (ord (mo m0)) (mtemp m0 :: massoc m0) b) 0) as [E2|E2].
    + unfold perm in H. destruct (existsb (N.eqb b) (muone m0 :: map (fun i => eptr (mvb m0 i)) (ord (mo m0)))) eqn:E; [|lia].
      apply existsb_exists in E as (c & Ic & Ec). apply N.eqb_eq in Ec. subst c. destruct Ic as [<-|Ic]; [apply iu_one|].
      apply in_map_iff in Ic as (i & <- & Ii). now apply iu_var.
    + assert (Hs : exists a i e, In a (mtemp m0 :: massoc m0) /\ amap a i = Some e /\ eptr e = b).
      { clear -E2. induction (mtemp m0 :: massoc m0) as [|a l IH]; [now elim E2|].
        destruct (N.eq_dec (acnt (ord (mo m0)) (amap a) b) 0) as [E3|E3].
        - destruct IH as (a' & i & e & Ia & R). { intros E4. apply E2. change (acnt (ord (mo m0)) (amap a) b + asum (ord (mo m0)) l b = 0). lia. }
          exists a', i, e. split; [now right|auto].
        - exists a. assert (Hc : exists i e, amap a i = Some e /\ eptr e = b).
          { clear -E3. induction (ord (mo m0)) as [|i ids IH]; [now elim E3|]. cbn [acnt] in E3.
            destruct (amap a i) as [e|] eqn:Ea; [|apply IH; lia].
            destruct (N.eqb_spec (eptr e) b); [eauto|]. apply IH. simpl b2n in E3. lia. }
          destruct Hc as (i & e & R). exists i, e. split; [now left|auto]. }
      destruct Hs as (a & i & e & Ia & Ea & <-). eapply iu_assoc; eauto.
  - clear H. induction h0 as [|h l IH]; [now elim E1|]. cbn [hcnt] in E1. destruct (N.eqb_spec (uptr h) b) as [Eb|Nb].
    + rewrite <- Eb. apply iu_handle. now left.
    + simpl b2n in E1. assert (E2 : hcnt l b <> 0) by lia. specialize (IH E2). clear -IH.
      induction IH; [apply iu_handle; now right|apply iu_one|now apply iu_var|eapply iu_assoc; eauto|eapply iu_saturated; eauto|now apply iu_then|now apply iu_else].
Qed.

Lemma gc_frame m0 : mo (gc m0) = mo m0 /\ muone (gc m0) = muone m0 /\ mvb (gc m0) = mvb m0 /\ mtemp (gc m0) = mtemp m0 /\ massoc (gc m0) = massoc m0.
Proof. unfold gc. now destruct (gc_store (mo m0) (st (me m0))). Qed.

Lemma W_gc_complete i b : In b (ut (st (me (gc m))) i) -> in_use (gc m) hs b.
Proof.
  intros Ib. destruct W_inv as [D I].
  assert (H : held (st (me (gc m))) (xr m hs lk0) b) by (eapply gc_complete; eauto; exists i; auto).
  destruct (gc_frame m) as (F1 & F2 & F3 & F4 & F5).
  assert (Ex : forall c, xr m hs lk0 c = xr (gc m) hs lk0 c).
  { intros c. unfold xr, perm. now rewrite F1, F2, F3, F4, F5. }
  clear Ib. induction H as [c [j Ic] H|c [j Ic] H|a c H IH [j Ic] E].
  - apply xr_in_use. now rewrite <- Ex.
  - eapply iu_saturated; eauto.
  - destruct E as [-> | ->]; [now apply iu_then|now apply iu_else].
Qed.

(** Variable order. *)
Lemma W_order : NoDup (ord (mo m)) /\ (forall i, In i (ord (mo m)) <-> 1 <= i <= numvars m) /\
  forall i k, nth_error (ord (mo m)) k = Some i <-> In i (ord (mo m)) /\ idx (mo m) i = N.of_nat k.
Proof.
  destruct W_inv as [D I]. pose proof (mi_wfo _ _ _ _ I) as Wo. split; [apply Wo|]. split; [apply I|].
  intros i k. split.
  - intros H. split; [eapply nth_error_In; eauto|]. apply (wfo_idx _ Wo k i H).
  - intros [Ii E]. rewrite <- (wfo_nth _ i Wo Ii). rewrite E. f_equal. lia.
Qed.

Lemma W_newvar k : numvars m < 65534 -> k <= numvars m ->
  exists h m' , newvar_at m k = Ok (h, m') /\ cal_isnull h = false /\ means m' h (fun rho => rho (numvars m + 1)) /\
    ord (mo m') = firstn (N.to_nat k) (ord (mo m)) ++ (numvars m + 1) :: skipn (N.to_nat k) (ord (mo m)).
Proof.
  intros Hn Hk. destruct W_inv as [D I]. destruct (newvar_at_spec m hs lk0 D k I Hn Hk) as (h & m' & D' & E & I' & X & M & O).
  exists h, m'. split; auto. split; [eapply uok_notnull; [exact I'|now left]|].
  split; [apply (means_hv m' (h :: hs) lk0 D'); auto; now left|]. rewrite O. reflexivity.
Qed.

Lemma split_nth {A} (l : list A) n x : nth_error l n = Some x -> exists l1 l2, l = l1 ++ x :: l2 /\ length l1 = n.
Proof. intros H. apply nth_error_split in H as (l1 & l2 & E & L). eauto. Qed.

Lemma W_newvar_positions : numvars m < 65534 -> let v := numvars m + 1 in
  let made r o := exists h m', r = Ok (h, m') /\ cal_isnull h = false /\ means m' h (fun rho => rho v) /\ ord (mo m') = o in
  made (cal_newvar_first m) (v :: ord (mo m)) /\ made (cal_newvar_last m) (ord (mo m) ++ [v]) /\
  (forall f i, In f hs -> means m f (fun rho => rho i) -> In i (ord (mo m)) ->
     exists l1 l2, ord (mo m) = l1 ++ i :: l2 /\ made (cal_newvar_before m f) (l1 ++ v :: i :: l2) /\
       made (cal_newvar_after m f) (l1 ++ i :: v :: l2)).
Proof.
  intros Hn v made. split; [|split].
  - destruct (W_newvar 0 Hn ltac:(lia)) as (h & m' & E & Hnull & M & O). exists h, m'. split; auto.
  - destruct (W_newvar (numvars m) Hn ltac:(lia)) as (h & m' & E & Hnull & M & O). exists h, m'. split; auto. split; auto. split; auto.
    rewrite O. unfold numvars. rewrite Nnat.Nat2N.id, firstn_all, skipn_all. reflexivity.
  - intros f i If Mf Ii. destruct W_inv as [D I]. rewrite (means_hv m hs lk0 D) in Mf by auto.
    destruct (wfo_in _ i (mi_wfo _ _ _ _ I) Ii) as [Ni Hi].
    assert (Eu : uint (mmem m) f = mvb m i).
    { apply (canon_dv (mo m) D (st (me m))); [apply I|eapply MI_swf; eauto|eapply MI_dok; eauto|eapply MI_int; eauto| |].
      - apply (var_dv m hs lk0 D i (fun _ => true) I Ii).
      - intros rho. rewrite Mf. symmetry. apply (var_dv m hs lk0 D i rho I Ii). }
    destruct (mi_var _ _ _ _ I i Ii) as (Ev & _).
    destruct (split_nth _ _ _ (wfo_nth _ i (mi_wfo _ _ _ _ I) Ii)) as (l1 & l2 & El & Ll).
    exists l1, l2. split; auto.
    unfold cal_newvar_before, cal_newvar_after. rewrite (uok_notnull m hs lk0 D f I If). rewrite Eu, Ev. unfold isconst. simpl eid.
    destruct (N.eqb_spec i 0); [congruence|]. split.
    + destruct (W_newvar (idx (mo m) i) Hn ltac:(unfold numvars; lia)) as (h & m' & E & Hnull & M & O). exists h, m'. split; auto. split; auto. split; auto.
      rewrite O, <- Ll, El, firstn_app, skipn_app, Nat.sub_diag, firstn_all, skipn_all. simpl. now rewrite app_nil_r.
    + destruct (W_newvar (idx (mo m) i + 1) Hn ltac:(unfold numvars; lia)) as (h & m' & E & Hnull & M & O). exists h, m'. split; auto. split; auto. split; auto.
      rewrite O. replace (N.to_nat (idx (mo m) i + 1)) with (length (l1 ++ [i])) by (rewrite app_length; simpl; lia).
      rewrite El. replace (l1 ++ i :: l2) with ((l1 ++ [i]) ++ l2) by (rewrite <- app_assoc; reflexivity).
      rewrite firstn_app, skipn_app, Nat.sub_diag, firstn_all, skipn_all. simpl. rewrite app_nil_r, <- app_assoc. reflexivity.
Qed.

Lemma W_pairwise l Fs Gs : l <> [] -> Nat.even (length l) = true -> args hs l ->
  each (fun p F => means m (fst p) F) (pairs l) Fs -> each (fun p G => means m (snd p) G) (pairs l) Gs ->
  forall enum op post ds d, good_enum enum -> In op [op_and; op_or; op_xor] ->
  (forall m1, preproc_each ds m l = Ok m1 -> last_pending_is_top (mo m1) op (pairs (map (uint (mmem m1)) l))) ->
  exists us m', pairwise enum op post ds d m l = Ok (Some us, m') /\ length us = length Fs /\
    ((forall h, In h us -> overflowed m h m') \/
     each (fun h FG => means m' h (fun rho => bsem op (fst FG rho) (snd FG rho))) us (combine Fs Gs)).
Proof.
  intros Hne Hev Ha M1 M2 enum op post ds d He Ho Hl. destruct W_inv as [D I].
  destruct (pairwise_spec enum He op post ds d m hs lk0 D l (op_ok op (op3 op Ho)) I Ha Hne Hev) as (us & m' & E & D' & X & R).
  { intros m1 E. now apply last_top, Hl. }
  exists us, m'. split; auto.
  assert (Lf : length Fs = length (pairs l)) by (symmetry; eapply Forall2_len; exact M1).
  split.
  { destruct R as [(_ & _ & -> & _)|(_ & F2)]; [now rewrite map_length|]. rewrite Lf. eapply Forall2_len; exact F2. }
  destruct R as [(-> & [O1 O2] & -> & I')|(I' & F2)].
  - left. intros h Ih. apply in_map_iff in Ih as (p & <- & _). split; auto. split; auto.
    intros E0. apply O2. rewrite <- E0. clear -E. revert E. unfold pairwise.
    destruct (preproc_each ds m (upto_null l)) as [m1| |] eqn:P; try discriminate. simpl.
    assert (Em : mnl m1 = mnl m).
    { clear -P. revert ds P. generalize m at 1 2 as m0. generalize (upto_null l) as k. induction k as [|h k IH]; simpl; intros m0 ds; [now intros [= <-]|].
      destruct (preproc (ds 0%nat) m0 [h]) as [[ok m2]| |] eqn:P0; try discriminate. simpl. intros H. apply IH in H. apply preproc_mnl in P0. congruence. }
    destruct (_ || _); [discriminate|]. destruct (arrayOpBF enum (mo m1) op (me m1) _) as [rs en].
    assert (Er : forall rs m0, mnl (snd (rets m0 rs)) = mnl m0).
    { clear. induction rs as [|r rs IH]; simpl; intros m0; auto. pose proof (ret_mnl m0 r) as R. destruct (ret m0 r) as [h m1]. simpl in R.
      specialize (IH m1). destruct (rets m1 rs). simpl in *. congruence. }
    specialize (Er rs (set_me m1 en)). destruct (rets (set_me m1 en) rs) as [us m2]. simpl in Er.
    pose proof (postproc_mnl d m2) as Pm. destruct (postproc d m2) as [ov m3]. simpl in Pm.
    destruct ov; intros [= _ <-]; [|congruence]. rewrite gc_mnl.
    assert (Eu : forall us m0, mnl (fold_left udec us m0) = mnl m0) by (clear; induction us; simpl; intros; auto; rewrite IHus; reflexivity).
    rewrite Eu. congruence.
  - right.
    assert (Hp : forall p, In p (pairs l) -> In (fst p) hs /\ In (snd p) hs).
    { intros p Ip. destruct (pairs_in (S (length l)) l p) as [H1 H2]; auto. }
    assert (Iu : forall h, In h us -> In h (us ++ hs)) by (intros; apply in_or_app; now left).
    clear -M1 M2 F2 I I' Hp Iu. revert I' Iu. generalize (us ++ hs) as hs'. intros hs' I' Iu.
    revert Fs Gs M1 M2 Hp Iu. induction F2 as [|h p us ps E F IH]; intros Fs Gs M1 M2 Hp Iu; inversion M1; inversion M2; subst; simpl; constructor.
    + apply (means_hv m' hs' lk0 D'); [auto|apply Iu; now left|]. intros rho. rewrite E. simpl.
      destruct (Hp p) as [H1' H2']; [now left|].
      rewrite (means_hv m hs lk0 D) in H1, H6 by auto. now rewrite H1, H6.
    + apply IH; auto; intros; [apply Hp|apply Iu]; now right.
Qed.

(** Null operands. *)
Lemma W_null f g k : arg hs f -> arg hs g -> arg hs k ->
  (uisnull f = true \/ uisnull g = true -> forall enum op neg d1 d2, binary enum op neg d1 d2 m f g = Ok (unull, m)) /\
  (uisnull f = true \/ uisnull g = true \/ uisnull k = true -> forall enum d1 d2, cal_ite enum d1 d2 m f g k = Ok (unull, m)) /\
  (uisnull f = true \/ uisnull g = true -> forall neg d, intersects neg d m f g = Ok (unull, m)) /\
  (uisnull f = true -> forall d, cal_if d m f = Ok (unull, m) /\ cal_then d m f = Ok (unull, m) /\ cal_else d m f = Ok (unull, m)).
Proof.
  intros Af Ag Ak. destruct W_inv as [D I]. split; [|split; [|split]].
  - intros Hn enum op neg d1 d2. eapply binary_null; eauto.
  - intros Hn enum d1 d2. eapply ite_null; [exact I|now intros j [<-|[<-|[<-|[]]]]|].
    destruct Hn as [Hn|[Hn|Hn]]; [exists f|exists g|exists k]; simpl; auto.
  - intros Hn neg d. unfold intersects. rewrite (preproc_null d m hs lk0 D [f; g] I); auto.
    + now intros j [<-|[<-|[]]].
    + destruct Hn; [exists f|exists g]; simpl; auto.
  - intros Hn d. unfold cal_if, cal_then, cal_else. rewrite (preproc_null d m hs lk0 D [f] I); auto.
    + now intros j [<-|[]].
    + exists f; simpl; auto.
Qed.

(** An overflowing operation. *)
Lemma W_overflow f g enum op neg d1 d2 h m' : In f hs -> In g hs -> good_enum enum -> In op [op_and; op_nand; op_or; op_xor] ->
  binary enum op neg d1 d2 m f g = Ok (h, m') -> cal_isnull h = true ->
  fst (cal_overflow m') = true /\ mnl m <> 0 /\ forall k K, In k hs -> means m k K -> means m' k K.
Proof.
  intros If Ig He Ho E Hn. destruct W_inv as [D I].
  destruct (binary_spec enum He op neg d1 d2 m hs lk0 D f g (op_ok op Ho) I If Ig) as (h1 & m1 & E1 & R).
  rewrite E in E1. injection E1 as <- <-. pose proof (binary_mnl _ _ _ _ _ _ _ _ _ _ E) as El.
  destruct R as (D' & X & [(-> & [O1 O2] & I')|(I' & _)]).
  - split; auto. split; [congruence|]. intros k K Ik Mk. rewrite (means_hv m hs lk0 D) in Mk by auto.
    apply (means_hv m' hs lk0 D'); auto. intros rho. now rewrite (mx_h _ _ _ _ _ X).
  - unfold cal_isnull in Hn. rewrite (uok_notnull m' (h :: hs) lk0 D' h I') in Hn by now left. discriminate.
Qed.
End World.

(** ** Limit policy *)
Lemma gclimit_bounds m : let l := mlim (set_gclimit m) in
  (10000 <= l \/ (mnl m <> 0 /\ l = mnl m)) /\ (mnl m <> 0 -> l <= mnl m) /\
  (mnl m = 0 \/ 2 * nn (st (me m)) <= mnl m -> 2 * nn (st (me m)) <= l \/ l = mnl m).
Proof.
  unfold set_gclimit. simpl mlim. destruct (N.ltb_spec (2 * nn (st (me m))) 10000);
    (destruct (N.eqb_spec (mnl m) 0); simpl negb; simpl andb; cbv iota;
     [|match goal with |- context [if ?a <? ?b then _ else _] => destruct (N.ltb_spec a b) end]); simpl; lia.
Qed.

Definition LimOk (m : mgr) : Prop := mnl m <> 0 -> mlim m <= mnl m.
Lemma postproc_LimOk d m : LimOk m -> LimOk (snd (postproc d m)).
Proof.
  intros L. unfold postproc. destruct (d_chk d); auto. destruct (mlim m <? nn (st (me m))); auto.
  pose proof (gclimit_bounds (gc m)) as (_ & B & _).
  destruct (_ && _); exact B.
Qed.

Definition lrel (m m' : mgr) : Prop := mnl m' = mnl m /\ (LimOk m -> LimOk m').
Lemma lrel_same m m' : mnl m' = mnl m -> mlim m' = mlim m -> lrel m m'.
Proof. intros E1 E2. split; auto. unfold LimOk. now rewrite E1, E2. Qed.
Lemma lrel_trans a b c : lrel a b -> lrel b c -> lrel a c.
Proof. intros [E1 H1] [E2 H2]. split; [congruence|auto]. Qed.
Lemma lrel_gc m : lrel m (gc m).
Proof. apply lrel_same; unfold gc; now destruct (gc_store (mo m) (st (me m))). Qed.
Lemma lrel_post d m : lrel m (snd (postproc d m)).
Proof. split; [apply postproc_mnl|apply postproc_LimOk]. Qed.
Lemma lrel_pre d m l ok m' : preproc d m l = Ok (ok, m') -> lrel m m'.
Proof.
  unfold preproc. destruct (existsb (zero_ref m) l); [discriminate|]. destruct (existsb uisnull l); intros [= <- <-].
  - now apply lrel_same.
  - apply lrel_post.
Qed.
Lemma lrel_ret m r : lrel m (snd (ret m r)).
Proof. unfold ret. destruct (getext (st (me m)) r). now apply lrel_same. Qed.
Lemma lrel_finish d m r : lrel m (snd (finish d m r)).
Proof.
  unfold finish. pose proof (lrel_ret m r) as R. destruct (ret m r) as [h m1]. simpl in R.
  pose proof (lrel_post d m1) as P. destruct (postproc d m1) as [ov m2]. simpl in P. destruct ov; simpl; [|eapply lrel_trans; eauto].
  eapply lrel_trans; [exact R|]. eapply lrel_trans; [exact P|]. eapply lrel_trans; [|apply lrel_gc]. now apply lrel_same.
Qed.
Lemma lrel_pres ds m l m' : preproc_each ds m l = Ok m' -> lrel m m'.
Proof.
  revert ds m. induction l as [|h l IH]; simpl; intros ds m; [intros [= <-]; now apply lrel_same|].
  destruct (preproc (ds 0%nat) m [h]) as [[ok m2]| |] eqn:P0; try discriminate. simpl. intros H. apply IH in H. apply lrel_pre in P0.
  eapply lrel_trans; eauto.
Qed.
Lemma lrel_rets rs m : lrel m (snd (rets m rs)).
Proof.
  revert m. induction rs as [|r rs IH]; simpl; intros m; [now apply lrel_same|]. pose proof (lrel_ret m r) as R. destruct (ret m r) as [h m1]. simpl in R.
  specialize (IH m1). destruct (rets m1 rs). simpl in *. eapply lrel_trans; eauto.
Qed.
Lemma lrel_snd {A} (r : A * mgr) h m m' : r = (h, m') -> lrel m (snd r) -> lrel m m'.
Proof. now intros ->. Qed.

Lemma lrel_query {A} d m f (a : A) k r m' : query d m f a k = Ok (r, m') -> lrel m m'.
Proof.
  unfold query. destruct (preproc d m [f]) as [[ok m1]| |] eqn:P; try discriminate. simpl. apply lrel_pre in P.
  destruct ok; simpl; [|intros [= _ <-]; auto]. destruct (k m1 _); try discriminate. intros [= _ <-]; auto.
Qed.
Lemma lrel_satisfy st d m f r m' : satisfy_with st d m f = Ok (r, m') -> lrel m m'.
Proof.
  unfold satisfy_with. destruct (preproc d m [f]) as [[ok m1]| |] eqn:P; try discriminate. simpl. apply lrel_pre in P.
  destruct ok; simpl; [|intros [= _ <-]; auto]. destruct (iszero _); [intros [= _ <-]; auto|].
  destruct (st m1 _ _) as [[r0 s]|]; [|discriminate]. intros [= E]. eapply lrel_trans; [exact P|].
  apply (lrel_snd _ _ _ _ E). eapply lrel_trans; [|apply lrel_ret]. now apply lrel_same.
Qed.
Lemma lrel_multi {A} ds m l (k : mgr -> option A) r m' :
  obind (preproc_each ds m l) (fun m1 => obind (fueled (k m1)) (fun r => Ok (r, m1))) = Ok (r, m') -> lrel m m'.
Proof.
  destruct (preproc_each ds m l) as [m1| |] eqn:P; try discriminate. simpl. destruct (k m1); try discriminate. intros [= _ <-]. eapply lrel_pres; eauto.
Qed.

Lemma lrel_check ds m l pr ok m' : check_assoc ds m l pr = Ok (ok, m') -> lrel m m'.
Proof.
  unfold check_assoc, array_preproc. destruct (preproc_each ds m l) as [m1| |] eqn:P; try discriminate. intros [= _ <-]. eapply lrel_pres; eauto.
Qed.
Lemma lrel_augment ds m l pr m' : cal_temp_augment ds m l pr = Ok m' -> lrel m m'.
Proof.
  unfold cal_temp_augment. destruct (check_assoc ds m (upto_null l) pr) as [[ok m1]| |] eqn:P; try discriminate. cbn [obind].
  apply lrel_check in P. destruct ok; cbn [negb]; intros [= <-]; auto. eapply lrel_trans; [exact P|].
  generalize (assoc_list (mmem m1) pr (upto_null l)). clear. intros ps. revert m1. induction ps as [|p ps IH]; intros m1; [now apply lrel_same|].
  cbn [fold_left]. eapply lrel_trans; [|apply IH]. now apply lrel_same.
Qed.

Lemma lrel_support d m f rs mk m' : cal_support d m f = Ok ((rs, mk), m') -> lrel m m'.
Proof.
  unfold cal_support. destruct (preproc d m [f]) as [[ok m1]| |] eqn:P; try discriminate. cbn [obind]. intros H0.
  eapply lrel_trans; [eapply lrel_pre; eauto|]. destruct ok; cbn [negb] in H0; [|injection H0 as _ _ <-; now apply lrel_same].
  destruct (support_step _ _ _ _ _ _) as [[ids mk1]|]; [|discriminate]. cbn [fueled obind] in H0.
  destruct (unmark_nodes _ _ _ _ _) as [mk2|]; [|discriminate]. cbn [fueled obind] in H0.
  pose proof (lrel_rets (map (mvb m1) ids) m1) as L. destruct (rets m1 (map (mvb m1) ids)). injection H0 as _ _ <-. exact L.
Qed.
Lemma lrel_ifindex d m f i m' : cal_ifindex d m f = Ok (i, m') -> lrel m m'.
Proof.
  unfold cal_ifindex. destruct (preproc d m [f]) as [[ok m1]| |] eqn:P; try discriminate. cbn [obind]. cbv zeta. intros H0.
  assert (E : m1 = m') by (destruct (negb ok); [|destruct (isconst _)]; injection H0 as _ E; exact E). subst. eapply lrel_pre; eauto.
Qed.
Lemma lrel_posvar vs : forall ds m b m', all_posvar ds m vs = Ok (b, m') -> lrel m m'.
Proof.
  induction vs as [|v vs IH]; cbn [all_posvar]; intros ds m b m' H; [injection H as _ <-; now apply lrel_same|].
  destruct (cal_type _ _ _) as [[t m1]| |] eqn:P; try discriminate. cbn [obind] in H. apply lrel_query in P.
  destruct (t =? _); [|injection H as _ <-; auto]. apply IH in H. eapply lrel_trans; eauto.
Qed.
Lemma lrel_normalize vs : forall ds m i nm r m', normalize ds m vs i nm = Ok (r, m') -> lrel m m'.
Proof.
  induction vs as [|v vs IH]; cbn [normalize]; intros ds m i nm r m' H; [injection H as _ <-; now apply lrel_same|].
  destruct (cal_ifindex _ _ _) as [[t m1]| |] eqn:P; try discriminate. cbn [obind] in H. apply lrel_ifindex in P.
  destruct (negb _); [injection H as _ <-; auto|]. apply IH in H. eapply lrel_trans; eauto.
Qed.
Lemma lrel_listed vs : forall ds m nm r m', all_listed ds m vs nm = Ok (r, m') -> lrel m m'.
Proof.
  induction vs as [|v vs IH]; cbn [all_listed]; intros ds m nm r m' H; [injection H as _ <-; now apply lrel_same|].
  destruct (cal_ifindex _ _ _) as [[t m1]| |] eqn:P; try discriminate. cbn [obind] in H. apply lrel_ifindex in P.
  destruct (_ =? _); [injection H as _ <-; auto|]. apply IH in H. eapply lrel_trans; eauto.
Qed.
Lemma lrel_dump d0 d1 ds1 ds2 ds3 m f vs r m' : cal_dump d0 d1 ds1 ds2 ds3 m f vs = Ok (r, m') -> lrel m m'.
Proof.
  unfold cal_dump. destruct (preproc d0 m [f]) as [[ok m1]| |] eqn:P; try discriminate. cbn [obind]. apply lrel_pre in P.
  destruct ok; cbn [negb]; [|intros [= _ <-]; auto]. intros H. eapply lrel_trans; [exact P|]. clear P.
  destruct (all_posvar _ _ _) as [[ok m2]| |] eqn:P; try discriminate. cbn [obind] in H. apply lrel_posvar in P.
  destruct ok; cbn [negb] in H; [|injection H as _ <-; auto]. eapply lrel_trans; [exact P|]. clear P.
  destruct (normalize _ _ _ _ _) as [[[nm|] m3]| |] eqn:P; try discriminate; cbn [obind] in H; apply lrel_normalize in P;
    [|injection H as _ <-; auto]. eapply lrel_trans; [exact P|]. clear P.
  destruct (cal_support _ _ _) as [[[sup mk] m4]| |] eqn:P; try discriminate. cbn [obind] in H. apply lrel_support in P. eapply lrel_trans; [exact P|]. clear P.
  destruct (all_listed _ _ _ _) as [[ok m5]| |] eqn:P; try discriminate. cbn [obind] in H. apply lrel_listed in P.
  destruct ok; cbn [negb] in H; [|injection H as _ <-; auto].
  destruct (dump_bytes _ _ _ _ _); cbn [fueled obind] in H; [injection H as _ <-; auto|discriminate].
Qed.
Lemma lrel_undump enum ds m vs inp r m' : cal_undump enum ds m vs inp = Ok (r, m') -> lrel m m'.
Proof.
  unfold cal_undump. destruct (all_posvar _ _ _) as [[ok m1]| |] eqn:P; try discriminate. cbn [obind]. apply lrel_posvar in P. intros H.
  eapply lrel_trans; [exact P|]. clear P.
  destruct ok; cbn [negb] in H; [|injection H as _ <-; now apply lrel_same]. cbv zeta in H.
  destruct (dread 8 inp) as [[mg i1]|]; [|injection H as _ <-; now apply lrel_same].
  destruct (negb (mg =? MAGIC)); [injection H as _ <-; now apply lrel_same|].
  destruct (dread 2 i1) as [[nv i2]|]; [|injection H as _ <-; now apply lrel_same].
  destruct (negb (nv =? _)); [injection H as _ <-; now apply lrel_same|].
  destruct (dread 8 i2) as [[ns i3]|]; [|injection H as _ <-; now apply lrel_same].
  destruct (2 ^ 63 <=? ns); [injection H as _ <-; now apply lrel_same|].
  destruct (undump_step _ _ _ _ _ _ _ _) as [[e|] s| |]; try discriminate; [|injection H as _ <-; now apply lrel_same].
  destruct (negb (_ =? 0)) in H; [injection H as _ <-; now apply lrel_same|].
  match type of H with context [ret ?a ?b] => pose proof (lrel_ret a b) as L; destruct (ret a b) as [h m2] end. cbn [snd] in L.
  injection H as _ <-. eapply lrel_trans; [|exact L]. now apply lrel_same.
Qed.

Lemma lrel_size1 d m f n m' : size1 d m f = Ok (n, m') -> lrel m m'.
Proof.
  unfold size1, cal_size. destruct (query d m f _ _) as [[[k mk] m1]| |] eqn:Q; try discriminate. apply lrel_query in Q. simpl. intros [= _ <-]. auto.
Qed.
Lemma lrel_finish_null d m r k h m' : finish_null d m r k = Ok (h, m') -> (forall h1 m1 h2 m2, k h1 m1 = Ok (h2, m2) -> lrel m1 m2) -> lrel m m'.
Proof.
  unfold finish_null. pose proof (lrel_ret m r) as L1. destruct (ret m r) as [h1 m1]. simpl in L1.
  pose proof (lrel_post d m1) as L2. destruct (postproc d m1) as [ov m2]. simpl in L2. intros E Hk. eapply lrel_trans; [exact L1|]. eapply lrel_trans; [exact L2|].
  destruct ov; [injection E as _ <-; eapply lrel_trans; [|apply lrel_gc]; now apply lrel_same|]. revert E. destruct (isbnull r); [discriminate|]. eauto.
Qed.
Lemma lrel_instead m h f r m' : cal_identity (udec m h) f = Ok (r, m') -> lrel m m'.
Proof. unfold cal_identity. destruct (uisnull f); [discriminate|]. intros [= _ <-]. now apply lrel_same. Qed.
Lemma lrel_reduce enum d1 d2 d3 d4 m f c r m' : cal_reduce enum d1 d2 d3 d4 m f c = Ok (r, m') -> lrel m m'.
Proof.
  unfold cal_reduce. destruct (preproc d1 m [f; c]) as [[ok m1]| |] eqn:P; try discriminate. apply lrel_pre in P. simpl.
  destruct ok; simpl; [|intros [= _ <-]; auto]. destruct (reduceBF _ _ _ _ _) as [r0 en]. intros E. eapply lrel_trans; [exact P|].
  eapply lrel_trans; [|eapply lrel_finish_null; [exact E|]]; [now apply lrel_same|]. clear. intros h1 m1 h2 m2. cbv beta.
  destruct (size1 d3 m1 h1) as [[n1 m3]| |] eqn:S1; try discriminate. apply lrel_size1 in S1. simpl.
  destruct (size1 d4 m3 f) as [[n2 m4]| |] eqn:S2; try discriminate. apply lrel_size1 in S2. simpl.
  intros E. eapply lrel_trans; [exact S1|]. eapply lrel_trans; [exact S2|].
  revert E. destruct (n1 <? n2); intros E; [injection E as _ <-; now apply lrel_same|eapply lrel_instead; eauto].
Qed.
Lemma lrel_between enum d1 d2 d3 d4 d5 m f g r m' : cal_between enum d1 d2 d3 d4 d5 m f g = Ok (r, m') -> lrel m m'.
Proof.
  unfold cal_between. destruct (preproc d1 m [f; g]) as [[ok m1]| |] eqn:P; try discriminate. apply lrel_pre in P. simpl.
  destruct ok; simpl; [|intros [= _ <-]; auto]. destruct (opBF _ _ _ _ _ _) as [c en0]. destruct (reduceBF _ _ _ _ _) as [r0 en]. intros E. eapply lrel_trans; [exact P|].
  eapply lrel_trans; [|eapply lrel_finish_null; [exact E|]]; [now apply lrel_same|]. clear. intros h1 m1 h2 m2. cbv beta.
  destruct (size1 d3 m1 f) as [[n1 m3]| |] eqn:S1; try discriminate. apply lrel_size1 in S1. simpl.
  destruct (size1 d4 m3 g) as [[n2 m4]| |] eqn:S2; try discriminate. apply lrel_size1 in S2. simpl.
  destruct (size1 d5 m4 h1) as [[n3 m5]| |] eqn:S3; try discriminate. apply lrel_size1 in S3. simpl.
  intros E. eapply lrel_trans; [exact S1|]. eapply lrel_trans; [exact S2|]. eapply lrel_trans; [exact S3|].
  revert E. destruct (n3 <? n1); [destruct (n3 <? n2)|destruct (n1 <? n2)]; intros E; try (eapply lrel_instead; now eauto). injection E as _ <-; now apply lrel_same.
Qed.

Lemma lrel_substitute enum d m f r m' : cal_substitute enum d m f = Ok (r, m') -> lrel m m'.
Proof.
  unfold cal_substitute. destruct (preproc d m [f]) as [[ok m1]| |] eqn:P; try discriminate. apply lrel_pre in P. cbn [obind].
  destruct ok; cbn [negb]; [|intros [= _ <-]; auto]. cbv zeta. intros H. eapply lrel_trans; [exact P|]. revert H.
  destruct (isconst _); [intros [= E]; apply (lrel_snd _ _ _ _ E), lrel_ret|].
  destruct (substBF _ _ _ _ _ _ _ _ _ _) as [r0 en]. intros [= E]. apply (lrel_snd _ _ _ _ E). eapply lrel_trans; [|apply lrel_ret]. now apply lrel_same.
Qed.
Lemma lrel_varsubstitute enum slot d1 d2 m f r m' : cal_varsubstitute enum slot d1 d2 m f = Ok (r, m') -> lrel m m'.
Proof.
  unfold cal_varsubstitute. destruct (preproc d1 m [f]) as [[ok m1]| |] eqn:P; try discriminate. apply lrel_pre in P. cbn [obind].
  destruct ok; cbn [negb]; [|intros [= _ <-]; auto]. intros H. eapply lrel_trans; [exact P|]. revert H.
  destruct (mcur m1); cbv beta iota zeta; (destruct (_ <? _)%Z; [|destruct (cache_lookup _ _ _ _ _); [|destruct (substBF _ _ _ _ _ _ _ _ _ _) as [r0 en]]]);
    intros [= E]; apply (lrel_snd _ _ _ _ E); (eapply lrel_trans; [|apply lrel_finish]); now apply lrel_same.
Qed.

Lemma lrel_swapvars enum d m f g h r m' : cal_swapvars enum d m f g h = Ok (r, m') -> lrel m m'.
Proof.
  unfold cal_swapvars. destruct (preproc d m [f; g; h]) as [[ok m1]| |] eqn:P; try discriminate. apply lrel_pre in P. cbn [obind].
  destruct ok; cbn [negb]; [|intros [= _ <-]; auto]. cbv zeta. intros H. eapply lrel_trans; [exact P|]. revert H.
  destruct (isconst _ || isconst _); [intros [= _ <-]; now apply lrel_same|].
  destruct (eeq _ _); [intros [= E]; apply (lrel_snd _ _ _ _ E), lrel_ret|].
  destruct (_ <? _); (destruct (swapBF _ _ _ _ _ _ _ _) as [r0 en]; intros [= E]; apply (lrel_snd _ _ _ _ E); eapply lrel_trans; [|apply lrel_ret]; now apply lrel_same).
Qed.

Lemma lrel_create m p f g r m' p' : cal_pipeline_create m p f g = (r, m', p') -> lrel m m'.
Proof.
  unfold cal_pipeline_create. destruct (ps p); [intros [= _ <- _]; now apply lrel_same| |intros [= _ <- _]; now apply lrel_same].
  destruct (Nat.leb MAX_INSERT _); [intros [= _ <- _]; now apply lrel_same|].
  destruct (alloc (st (me m)) 0) as [a s1]. destruct (alloc _ 0) as [b s3]. intros [= _ <- _]. now apply lrel_same.
Qed.
Lemma lrel_create_all prog : forall m p hs r m' p', create_all m p hs prog = (r, m', p') -> lrel m m'.
Proof.
  induction prog as [|[x y] prog IH]; intros m p hs r m' p'; cbn [create_all]; [intros [= _ <- _]; now apply lrel_same|].
  destruct (cal_pipeline_create m p (ophandle hs x) (ophandle hs y)) as [[h m1] p1] eqn:C. intros H.
  eapply lrel_trans; [eapply lrel_create; eauto|eauto].
Qed.
Lemma lrel_exec enum auto ds : forall fuel off rem m p ok m' p', exec_loop enum fuel auto ds off rem m p = Ok (ok, m', p') -> lrel m m'.
Proof.
  induction fuel as [|fuel IH]; intros off rem m p ok m' p'; destruct rem as [|rem]; cbn [exec_loop];
    try (intros [= _ <- _]; now apply lrel_same).
  destruct (Nat.ltb MAX_INSERT _); [discriminate|]. set (m1 := set_me m _).
  pose proof (lrel_post (ds off) m1) as P. destruct (postproc (ds off) m1) as [ov m2]. cbn [snd] in P.
  assert (Q : lrel m m2) by (eapply lrel_trans; [|exact P]; now apply lrel_same).
  destruct ov; [intros [= _ <- _]; exact Q|]. intros H. eapply lrel_trans; [exact Q|eauto].
Qed.
Lemma lrel_update_all p outs : forall m hs r m', update_all m p hs outs = (r, m') -> lrel m m'.
Proof.
  induction outs as [|[k b] outs IH]; intros m hs r m'; cbn [update_all]; [intros [= _ <-]; now apply lrel_same|].
  destruct (cal_pipeline_update m p (uphase (nth k hs unull) b)) as [h m1] eqn:U1.
  destruct (update_all m1 p hs outs) as [r1 m2] eqn:U2. intros [= _ <-]. eapply lrel_trans; [|eapply IH; eauto].
  unfold cal_pipeline_update in U1. destruct (ps p); [injection U1 as _ <-; now apply lrel_same|injection U1 as _ <-; now apply lrel_same|].
  apply (lrel_snd _ _ _ _ U1), lrel_ret.
Qed.
Lemma lrel_pipeline enum d0 ds m p op prog outs r m' p' : run_pipeline enum d0 ds m p op prog outs = Ok (r, m', p') -> lrel m m'.
Proof.
  unfold run_pipeline. pose proof (lrel_post d0 m) as P0.
  destruct (cal_pipeline_init d0 m p (Some op)) as [[ok m1] p1] eqn:Ci.
  assert (P : lrel m m1) by (unfold cal_pipeline_init in Ci; destruct (ps p); injection Ci as _ <- _; exact P0).
  destruct ok; cbn [negb]; [|intros [= _ <- _]; exact P].
  destruct (create_all m1 p1 [] prog) as [[hs m2] p2] eqn:Ca. apply lrel_create_all in Ca.
  destruct (cal_pipeline_execute enum ds m2 p2) as [[[ok m3] p3]| |] eqn:Ce; try discriminate. cbn [obind].
  assert (P3 : lrel m2 m3).
  { unfold cal_pipeline_execute in Ce. destruct (ps p2); [injection Ce as _ <- _; now apply lrel_same| |injection Ce as _ <- _; now apply lrel_same].
    destruct (exec_loop enum (pdep p2) (Nat.eqb (pman p2) 0) ds 0 (pdep p2) m2 p2) as [[[ok1 m0] p0]| |] eqn:El; try discriminate.
    cbn [obind] in Ce. apply lrel_exec in El. destruct ok1; cbn [negb] in Ce; injection Ce as _ <- _; exact El. }
  assert (P4 : lrel m m3) by (eapply lrel_trans; [exact P|]; eapply lrel_trans; eauto).
  destruct ok; cbn [negb]; [|intros [= _ <- _]; exact P4].
  destruct (update_all m3 p3 hs outs) as [rs m4] eqn:Ua. apply lrel_update_all in Ua.
  unfold cal_pipeline_quit. destruct (Nat.ltb MAX_INSERT _); [discriminate|]. cbn [obind]. intros [= _ <- _].
  eapply lrel_trans; [exact P4|]. eapply lrel_trans; [exact Ua|]. now apply lrel_same.
Qed.

Lemma lrel_auto d thr t m ov m' : AutoModel.post_auto d thr t m = Ok (ov, m') -> lrel m m'.
Proof.
  unfold AutoModel.post_auto. destruct (d_chk d); [intros [= _ <-]; now apply lrel_same|].
  destruct (mlim m <? nn (st (me m))); [|intros [= _ <-]; now apply lrel_same]. cbv zeta.
  assert (E0 : mnl (gc m) = mnl m) by apply (lrel_gc m).
  assert (R : forall m1, (if AutoModel.must_reorder thr t (gc m) then AutoModel.reorder_now t (gc m) else Ok (gc m)) = Ok m1 -> mnl m1 = mnl m).
  { intros m1. destruct (AutoModel.must_reorder thr t (gc m)); [|intros [= <-]; exact E0].
    destruct t as [|sw|lim fuel|lim maxv maxs grow]; unfold AutoModel.reorder_now; cbv zeta.
    - intros [= <-]. exact E0.
    - intros [= <-]. exact E0.
    - unfold AutoModel.aux_window. destruct (BFReorderModel.passes _ _ _ _ _) as [b| |]; try discriminate. intros [= <-]. exact E0.
    - unfold AutoModel.aux_sift. cbv zeta. destruct (BFSiftModel.sift_all _ _ _ _ _ _ _ _ _) as [b| |]; try discriminate.
      cbn [obind]. destruct (BFSiftModel.no_forwarding _); [|discriminate]. intros [= <-]. exact E0. }
  destruct (if AutoModel.must_reorder thr t (gc m) then AutoModel.reorder_now t (gc m) else Ok (gc m)) as [m1| |]; try discriminate.
  cbn [obind]. specialize (R m1 eq_refl). pose proof (gclimit_bounds m1) as (_ & B & _). cbv zeta in B.
  destruct (negb _ && _); intros [= _ <-]; (split; [exact R|intros _; exact B]).
Qed.

Lemma call_lim w w' : call w w' -> LimOk (wm w) -> LimOk (wm w').
Proof.
  intros S. assert (L : lrel (wm w) (wm w') \/ (exists z, wm w' = snd (cal_nodelimit (wm w) z)) \/ exists m0, wm w' = set_gclimit m0).
  { assert (Q : forall d m l (k : bool -> mgr -> outcome (ubdd * mgr)) h m', obind (preproc d m l) (fun '(ok, m1) => k ok m1) = Ok (h, m') ->
        (forall ok m1, k ok m1 = Ok (h, m') -> lrel m1 m') -> lrel m m').
    { intros d m l k h m'. destruct (preproc d m l) as [[ok m1]| |] eqn:P; try discriminate. simpl. intros H H2. eapply lrel_trans; [eapply lrel_pre; eauto|eauto]. }
    destruct S; simpl; try (left; now apply lrel_same); try (right; right; eexists; reflexivity).
    - left. unfold cal_identity in *. destruct (uisnull h); [discriminate|]. injection H0 as _ <-. now apply lrel_same.
    - left. unfold cal_not in *. destruct (uisnull h); [discriminate|]. injection H0 as _ <-. now apply lrel_same.
    - left. unfold cal_unfree in *. destruct (uisnull h); [discriminate|]. injection H0 as <-. now apply lrel_same.
    - left. unfold cal_free in *. destruct (uisnull h); [discriminate|]. injection H as <-. now apply lrel_same.
    - left. unfold cal_free, cal_unfree in *. destruct (uisnull h); [discriminate|]. injection H0 as <-. injection H1 as <-. now apply lrel_same.
    - left. apply (Q _ _ _ _ _ _ H3). intros ok m1. destruct ok; simpl; [|intros [= _ <-]; now apply lrel_same].
      destruct (opBF enum (mo m1) op (me m1) _ _) as [r0 en]. intros [= E]. apply (lrel_snd _ _ _ _ E). eapply lrel_trans; [|apply lrel_finish]. now apply lrel_same.
    - left. apply (Q _ _ _ _ _ _ H3). intros ok m1. destruct ok; simpl; [|intros [= _ <-]; now apply lrel_same].
      destruct (opITEBF enum (mo m1) (me m1) _ _ _) as [r0 en]. intros [= E]. apply (lrel_snd _ _ _ _ E). eapply lrel_trans; [|apply lrel_finish]. now apply lrel_same.
    - left. clear -H3. unfold pairwise in H3. destruct (preproc_each ds m (upto_null l)) as [m1| |] eqn:P; try discriminate. simpl in H3.
      eapply lrel_trans; [eapply lrel_pres; eauto|].
      destruct (_ || _); [injection H3 as _ <-; now apply lrel_same|].
      destruct (arrayOpBF enum (mo m1) op (me m1) _) as [es en].
      pose proof (lrel_rets es (set_me m1 en)) as L. destruct (rets (set_me m1 en) es) as [us m2]. simpl in L.
      apply lrel_trans with m2; [eapply lrel_trans; [|exact L]; now apply lrel_same|].
      destruct post; [|injection H3 as _ <-; now apply lrel_same].
      pose proof (lrel_post d m2) as P2. destruct (postproc d m2) as [ov m3]. simpl in P2.
      destruct ov; injection H3 as _ <-; auto.
      eapply lrel_trans; [exact P2|]. eapply lrel_trans; [|apply lrel_gc].
      clear. revert m3. induction us as [|u us IH]; simpl; intros m3; [now apply lrel_same|]. eapply lrel_trans; [|apply IH]. now apply lrel_same.
    - left. clear -H2. unfold multiway in H2. destruct (preproc_each ds m (upto_null l)) as [m1| |] eqn:P; try discriminate. simpl in H2.
      eapply lrel_trans; [eapply lrel_pres; eauto|].
      destruct (upto_null l) as [|h [|h2 k]].
      + injection H2 as _ <-. now apply lrel_same.
      + unfold cal_identity in H2. destruct (uisnull h); [discriminate|]. injection H2 as _ <-. now apply lrel_same.
      + destruct (multiwayOp enum (mo m1) op (me m1) _) as [[r0 en]| |]; try discriminate. simpl in H2. injection H2 as E.
        apply (lrel_snd _ _ _ _ E). eapply lrel_trans; [|apply lrel_ret]. now apply lrel_same.
    - left. apply (Q _ _ _ _ _ _ H1). intros ok m1. destruct ok; simpl; [|intros [= _ <-]; now apply lrel_same].
      destruct (isect_top _ _ _ _) as [[r0 s]|]; [|discriminate]. intros [= E]. apply (lrel_snd _ _ _ _ E). eapply lrel_trans; [|apply lrel_ret]. now apply lrel_same.
    - left. unfold cal_ifindex in *. destruct (preproc d m [f]) as [[ok m1]| |] eqn:P; try discriminate. simpl in *. apply lrel_pre in P.
      destruct ok; [destruct (isconst _)|]; injection H0 as _ <-; auto.
    - left. unfold cal_ifid in *. destruct (preproc d m [f]) as [[ok m1]| |] eqn:P; try discriminate. simpl in *. apply lrel_pre in P.
      destruct ok; [destruct (isconst _)|]; injection H0 as _ <-; auto.
    - left. apply (Q _ _ _ _ _ _ H0). intros ok m1. destruct ok; simpl; [|intros [= _ <-]; now apply lrel_same].
      destruct (isconst _); [discriminate|]. intros [= E]. apply (lrel_snd _ _ _ _ E). apply lrel_ret.
    - left. apply (Q _ _ _ _ _ _ H0). intros ok m1. destruct ok; simpl; [|intros [= _ <-]; now apply lrel_same].
      destruct (isconst _); [discriminate|]. intros [= E]. apply (lrel_snd _ _ _ _ E). apply lrel_ret.
    - left. apply (Q _ _ _ _ _ _ H0). intros ok m1. destruct ok; simpl; [|intros [= _ <-]; now apply lrel_same].
      destruct (isconst _); [discriminate|]. intros [= E]. apply (lrel_snd _ _ _ _ E). apply lrel_ret.
    - left. eapply lrel_query; eauto.
    - left. eapply lrel_satisfy; eauto.
    - left. eapply lrel_satisfy; eauto.
    - left. eapply lrel_query; eauto.
    - left. eapply lrel_query; eauto.
    - left. eapply lrel_query; eauto.
    - left. exact (lrel_multi ds m (upto_null l) (fun m1 => size_of neg (mo m1) (mmem m1) unmarked (map (uint (mmem m1)) (upto_null l))) n m' H0).
    - left. exact (lrel_multi ds m (upto_null l) (fun m1 => profile_of neg (mo m1) (mmem m1) unmarked (map (uint (mmem m1)) (upto_null l))) lc m' H0).
    - left. unfold cal_function_profile in H0. destruct (cal_profile d1 m f false) as [[[lc mk] m1]| |] eqn:P; try discriminate. cbn [obind] in H0.
      eapply lrel_trans; eapply lrel_query; eauto.
    - left. unfold cal_support in H0. destruct (preproc d m [f]) as [[ok m1]| |] eqn:P; try discriminate. cbn [obind] in H0.
      eapply lrel_trans; [eapply lrel_pre; eauto|]. destruct ok; cbn [negb] in H0; [|injection H0 as _ _ <-; now apply lrel_same].
      destruct (support_step _ _ _ _ _ _) as [[ids mk1]|]; [|discriminate]. cbn [fueled obind] in H0.
      destruct (unmark_nodes _ _ _ _ _) as [mk2|]; [|discriminate]. cbn [fueled obind] in H0.
      pose proof (lrel_rets (map (mvb m1) ids) m1) as L. destruct (rets m1 (map (mvb m1) ids)). injection H0 as _ _ <-. exact L.
    - left. unfold cal_depends_on in H1. destruct (preproc d m [f; v]) as [[ok m1]| |] eqn:P; try discriminate. cbn [obind] in H1.
      eapply lrel_trans; [eapply lrel_pre; eauto|]. destruct ok; cbn [negb] in H1; [|injection H1 as _ <-; now apply lrel_same].
      destruct (isconst _); [injection H1 as _ <-; now apply lrel_same|].
      destruct (depends_step _ _ true _ _ _ _) as [[b1 mk1]|]; [|discriminate]. cbn [fueled obind] in H1.
      destruct (depends_step _ _ false _ _ _ _) as [[b2 mk2]|]; [|discriminate]. injection H1 as _ <-. now apply lrel_same.
    - left. unfold newvar_at, newvar in H. destruct (numvars m =? 65534); [discriminate|]. destruct (numvars m <? k); [discriminate|].
      destruct (alloc (st (me m)) (numvars m + 1)) as [a s1]. simpl in H. injection H as E. apply (lrel_snd _ _ _ _ E). eapply lrel_trans; [|apply lrel_ret]. now apply lrel_same.
    - left. unfold cal_var_with_index in H. destruct (numvars m <=? k); [injection H as _ <-; now apply lrel_same|]. apply (lrel_snd _ _ _ _ H). apply lrel_ret.
    - left. unfold cal_var_with_id in H. destruct ((k =? 0) || (numvars m <? k)); [injection H as _ <-; now apply lrel_same|]. apply (lrel_snd _ _ _ _ H). apply lrel_ret.
    - left. apply lrel_gc.
    - right. left. exists z. exact (f_equal snd (eq_sym H)).
    - left. injection H as _ <-. now apply lrel_same.
    - left. injection H as _ <-. destruct id; [destruct (existsb _ _)|]; now apply lrel_same.
    - left. eapply lrel_trans; [|eapply lrel_augment; eauto]. now apply lrel_same.
    - left. eapply lrel_augment; eauto.
    - left. apply (Q _ _ _ _ _ _ H2). intros ok m1. destruct ok; cbn [negb]; [|intros [= _ <-]; now apply lrel_same].
      destruct (mcur m1); cbv beta iota zeta; match goal with |- match ?q with _ => _ end = _ -> _ => destruct q as [[[r0 s] c]|] end; try discriminate;
        intros [= E]; apply (lrel_snd _ _ _ _ E); (eapply lrel_trans; [|apply lrel_finish]); now apply lrel_same.
    - left. apply (Q _ _ _ _ _ _ H3). intros ok m1. destruct ok; cbn [negb]; [|intros [= _ <-]; now apply lrel_same].
      destruct (mcur m1); cbv beta iota zeta; match goal with |- match ?q with _ => _ end = _ -> _ => destruct q as [[[r0 s] c]|] end; try discriminate;
        intros [= E]; apply (lrel_snd _ _ _ _ E); (eapply lrel_trans; [|apply lrel_finish]); now apply lrel_same.
    - left. apply (Q _ _ _ _ _ _ H3). intros ok m1. destruct ok; cbn [negb]; [|discriminate].
      cbv zeta. destruct (isconst _); [intros [= _ <-]; now apply lrel_same|].
      destruct (composeBF _ _ _ _ _ _ _) as [r0 en]. intros [= E]. apply (lrel_snd _ _ _ _ E). eapply lrel_trans; [|apply lrel_ret]. now apply lrel_same.
    - left. apply (Q _ _ _ _ _ _ H2). intros ok m1. destruct ok; cbn [negb]; [|intros [= _ <-]; now apply lrel_same].
      destruct (cofactorBF _ _ _ _ _) as [r0 en]. intros [= E]. apply (lrel_snd _ _ _ _ E). eapply lrel_trans; [|apply lrel_finish]. now apply lrel_same.
    - left. eapply lrel_dump; eauto.
    - left. eapply lrel_undump; eauto.
    - left. eapply lrel_reduce; eauto.
    - left. eapply lrel_between; eauto.
    - left. eapply lrel_substitute; eauto.
    - left. eapply lrel_varsubstitute; eauto.
    - left. eapply lrel_swapvars; eauto.
    - left. eapply lrel_pipeline; eauto.
    - right. right. unfold PackModel.gc_repack in H2. destruct (PackModel.repack p (gc m)) as [m1| |]; try discriminate. injection H2 as <-. now exists m1.
    - left. unfold BFReorderModel.reorder_window in H0. cbv zeta in H0. destruct (BFReorderModel.passes _ _ _ _ _) as [b| |]; try discriminate. injection H0 as <-.
      eapply lrel_trans; [|eapply lrel_trans; [apply (lrel_gc (set_mca m (fun _ => None)))|]]; now apply lrel_same.
    - left. unfold BFSiftModel.reorder_sift in H0. cbv zeta in H0. destruct (BFSiftModel.sift_all _ _ _ _ _ _ _ _ _) as [b| |]; try discriminate.
      cbn [obind] in H0. destruct (BFSiftModel.no_forwarding _); [|discriminate]. injection H0 as <-.
      eapply lrel_trans; [|eapply lrel_trans; [apply (lrel_gc (set_mca m (fun _ => None)))|]]; now apply lrel_same.
    - left. eapply lrel_auto; eauto. }
  intros Ok_. destruct L as [[_ L]|[[z ->]|[m0 ->]]]; auto.
  - unfold LimOk, cal_nodelimit. simpl. intros Hz. destruct (N.eqb_spec (if (z <? 0)%Z then 0 else Z.to_N z) 0); [congruence|]. simpl.
    match goal with |- context [?a <? ?b] => destruct (N.ltb_spec a b) end; lia.
  - intros Hn. apply (gclimit_bounds m0). auto.
Qed.

Lemma step_lim w w' : step w w' -> LimOk (wm w) -> LimOk (wm w').
Proof.
  intros S. destruct S; [eapply call_lim; eauto| |]; cbn [wm].
  - unfold cal_assoc_init in H3. destruct (check_assoc ds m (upto_null l) pr) as [[ok m1]| |] eqn:C; try discriminate. cbn [obind] in H3.
    apply lrel_check in C. destruct C as [_ C]. destruct ok; cbn [negb] in H3; [|injection H3 as _ <-; auto].
    destruct (assoc_share _ _ _) as [[j l']|]; [injection H3 as _ <-; exact C|].
    destruct (assoc_insert _ _ _) as [j l']. injection H3 as _ <-. exact C.
  - unfold cal_assoc_quit. destruct (quit_list _ _) as [[l [p|]]|]; auto.
Qed.

Lemma nodelimit_facts m z : let '(old, m') := cal_nodelimit m z in
  old = mnl m /\ mnl m' = Z.to_N (Z.max 0 z) /\ me m' = me m /\ mo m' = mo m /\ mov m' = mov m /\ mlim m' <= mlim m.
Proof.
  unfold cal_nodelimit. cbn [mnl me mo mov mlim]. split; auto. split; [destruct (Z.ltb_spec z 0); lia|]. split; auto. split; auto. split; auto.
  destruct (Z.ltb_spec z 0); [simpl; lia|]. destruct (N.ltb_spec (Z.to_N z) (mlim m)); rewrite ?andb_true_r, ?andb_false_r; [destruct (negb _)|]; lia.
Qed.
(** The limit is recomputed by every check that finds too many nodes. *)
Lemma check_facts d m : d_chk d = false -> mlim m < nn (st (me m)) -> let '(over, m') := postproc d m in
  (10000 <= mlim m' \/ (mnl m' <> 0 /\ mlim m' = mnl m')) /\
  (over = true <-> mnl m' <> 0 /\ mnl m' < nn (st (me m'))) /\ (over = true -> mov m' = true) /\ mnl m' = mnl m.
Proof.
  intros Hd Hl. unfold postproc. rewrite Hd. rewrite (proj2 (N.ltb_lt _ _) Hl). pose proof (gclimit_bounds (gc m)) as [B _]. cbv zeta in B.
  assert (Q : mnl (set_gclimit (gc m)) = mnl (gc m)) by reflexivity. rewrite <- Q in B.
  destruct (N.eqb_spec (mnl (set_gclimit (gc m))) 0) as [E0|E0]; cbn [negb andb].
  - split; [exact B|]. split; [|split; [discriminate|exact (gc_mnl m)]]. split; [discriminate|]. intros [H _]. now elim H.
  - destruct (N.ltb_spec (mnl (set_gclimit (gc m))) (nn (st (me (set_gclimit (gc m)))))) as [L|L].
    + split; [exact B|]. split; [|split; [reflexivity|exact (gc_mnl m)]]. split; [intros _; split; [exact E0|exact L]|reflexivity].
    + split; [exact B|]. split; [|split; [discriminate|exact (gc_mnl m)]]. split; [discriminate|]. intros [_ H]. change (mnl (set_gclimit (gc m)) < nn (st (me (set_gclimit (gc m))))) in H. lia.
Qed.

Lemma W_limit w : reachable w -> mnl (wm w) <> 0 -> mlim (wm w) <= mnl (wm w).
Proof.
  intros R. change (LimOk (wm w)). induction R; [intros H; now elim H|]. eapply step_lim; eauto.
Qed.
