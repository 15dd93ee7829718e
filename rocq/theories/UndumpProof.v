(** * Reading: the store invariant for any input, and the function read back from what was written. *)
From Coq Require Import Permutation Sorted QArith.
From Verif Require Import Base BFModel ITEModel MgrModel ApiModel StoreInv Own EngInv ApplyProof BinopProof ReduceProof
  EngineProof OpProof MultiProof QProof GCProof VarProof MInv ApiProof ApiOps ApiStruct GraphModel GraphProof GraphMarks CodecModel CodecProof DumpModel DumpProof.
Open Scope N_scope.

(** ** References that the reading function holds *)
Fixpoint ecnt (l : list edge) (b : N) : N := match l with [] => 0 | e :: l => b2n (eptr e =? b) + ecnt l b end.
Lemma ecnt_app l l' b : ecnt (l ++ l') b = ecnt l b + ecnt l' b.
Proof. induction l as [|e l IH]; cbn; [reflexivity|]. rewrite IH. lia. Qed.
Lemma ecnt_perm l l' b : Permutation l l' -> ecnt l b = ecnt l' b.
Proof. induction 1; cbn; lia. Qed.

Lemma QS_x_sat o D en x x' : (forall b, MAXREF <= x b \/ b = ONE \/ x' b = x b) -> QS o D en x -> QS o D en x'.
Proof.
  intros E (own & L & I & [B1 B2 B3 B4 B5 B6]). exists own, L. split; auto.
  pose proof (ei_acc _ _ _ _ I) as A. pose proof (acc_one_none _ _ A) as O1. constructor; auto.
  - intros b Cb. destruct (E b) as [H|[->|H]].
    + left. pose proof (B5 b Cb) as X. destruct (B4 b Cb) as [Y|Y]; auto. lia.
    + destruct Cb as [(i & H)|(d & i & H)]; congruence.
    + rewrite H. auto.
  - intros b Lb Fb. destruct (E b) as [H|[->|H]]; [rewrite B6 in H by auto; unfold MAXREF in H; lia|unfold ONE in Lb; lia|]. rewrite H. auto.
Qed.

Lemma dread_aux_len b : forall acc i n r, dread_aux b acc i = Some (n, r) -> length i = (b + length r)%nat.
Proof. induction b as [|b IH]; intros acc [|c i] n r; cbn; intros H; try discriminate; [now injection H as <- <-|now injection H as <- <-|]. apply IH in H. lia. Qed.

Section Held.
Variables (o : order) (x0 : N -> N).
Hypothesis Wo : wfo o.
Definition free_ref (e : edge) : Prop := eptr e = ONE \/ MAXREF <= x0 (eptr e).
Definition UInv (D : den) (en : eng) (l : list edge) : Prop :=
  QS o D en (fun b => x0 b + ecnt l b) /\ forall e, In e l -> vedge (nodeR (st en)) e.

Lemma U_perm D en l l' : Permutation l l' -> UInv D en l -> UInv D en l'.
Proof.
  intros P [Q V]. split.
  - eapply QS_x_ext; [|exact Q]. intros b. cbn. now rewrite (ecnt_perm l l' b P).
  - intros e I. apply V. eapply Permutation_in; [apply Permutation_sym; exact P|auto].
Qed.
Lemma U_icr D en l e : vedge (nodeR (st en)) e -> UInv D en l -> UInv D (set_st en (icr (st en) e)) (e :: l).
Proof.
  intros Ve [Q V]. split.
  - eapply QS_x_ext; [|apply QS_icr; [now apply vedge_ptr_node|exact Q]]. intros b. cbn. unfold xadd, b2n.
    destruct (N.eqb_spec (eptr e) b), (N.eqb_spec b (eptr e)); try congruence; lia.
  - intros y [<-|Iy]; cbn; (eapply sext_vedge; [apply (sext_icr (st en) D e)|]); auto.
Qed.
Lemma U_free D en l e : vedge (nodeR (st en)) e -> free_ref e -> UInv D en l -> UInv D en (e :: l).
Proof.
  intros Ve F [Q V]. split.
  - eapply QS_x_sat; [|exact Q]. intros b. cbn. destruct (N.eqb_spec (eptr e) b) as [<-|]; [|right; right; reflexivity].
    destruct F as [F|F]; [auto|left; lia].
  - intros y [<-|Iy]; auto.
Qed.
Lemma U_dcr D en l e : UInv D en (e :: l) -> UInv D (set_st en (dcr (st en) e)) l.
Proof.
  intros [Q V]. split.
  - eapply QS_x_ext; [|apply QS_dcr; [|exact Q]].
    + intros b. cbn. unfold xsub, b2n. destruct (eptr e =? b); lia.
    + cbn. rewrite N.eqb_refl. cbn. lia.
  - intros y Iy. cbn. eapply sext_vedge; [apply (sext_dcr (st en) D e)|]. apply V. now right.
Qed.
Lemma U_ptr D en l e e' : eptr e' = eptr e -> vedge (nodeR (st en)) e' -> UInv D en (e :: l) -> UInv D en (e' :: l).
Proof.
  intros P Ve [Q V]. split.
  - eapply QS_x_ext; [|exact Q]. intros b. cbn. now rewrite P.
  - intros y [<-|Iy]; auto. apply V. now right.
Qed.
Lemma U_V D en l e : UInv D en l -> In e l -> vedge (nodeR (st en)) e.
Proof. intros [_ V]. auto. Qed.
Lemma U_swf D en l : UInv D en l -> SWF o (st en).
Proof. intros [Q _]. eapply QS_swf; eauto. Qed.

Variable enum : memory -> list N -> list N.
Hypothesis enum_perm : forall m l, Permutation (enum m l) l.
Lemma U_ite D en l f g h r en' : UInv D en l -> vedge (nodeR (st en)) f -> vedge (nodeR (st en)) g -> vedge (nodeR (st en)) h ->
  opITEBF enum o en f g h = (r, en') ->
  exists D', UInv D' en' l /\ sext (st en) D (st en') D' /\ vedge (nodeR (st en')) r /\
    forall rho, dv D' r rho = if dv D f rho then dv D g rho else dv D h rho.
Proof.
  intros [Q V] Vf Vg Vh E. destruct (opITEBF_QS enum enum_perm o D en _ f g h r en' Wo Q Vf Vg Vh E) as (D' & Q' & X & Vr & Er).
  exists D'. split; [split; [exact Q'|]|auto]. intros e I. eapply sext_vedge; eauto.
Qed.

Variables (vars : list edge) (ns : N) (isz nsz : nat).
Hypothesis Hisz : (1 <= isz)%nat.
(** The listed variables are nodes whose count is saturated for good. *)
Definition vars_ok (s : store) : Prop := forall v, In v vars -> vedge (nodeR s) v /\ MAXREF <= x0 (eptr v).
Lemma vars_sext s D s' D' : sext s D s' D' -> vars_ok s -> vars_ok s'.
Proof. intros X H v I. destruct (H v I). split; auto. eapply sext_vedge; eauto. Qed.

Definition lst (r : option edge) : list edge := match r with Some e => [e] | None => [] end.
Lemma one_V s : vedge (nodeR s) one.
Proof. left. auto. Qed.
Lemma read_len b s n s' : us_read b s = Some (n, s') -> length (us_in s) = (b + length (us_in s'))%nat /\
  us_en s' = us_en s /\ us_sh s' = us_sh s /\ us_n s' = us_n s /\ us_err s' = us_err s.
Proof.
  unfold us_read. destruct (dread b (us_in s)) as [[n' r]|] eqn:E; [|discriminate]. intros [= <- <-]. cbn. apply dread_aux_len in E. auto.
Qed.

Definition good_err (s : ust) (r : option edge) : Prop := match r with None => us_err s = E_FORMAT \/ us_err s = E_OVERFLOW \/ us_err s = E_EOF | Some _ => us_err s = 0 end.
Definition good_res (s : ust) (D : den) (l : list edge) (r : option edge) (s' : ust) : Prop :=
  exists D', sext (st (us_en s)) D (st (us_en s')) D' /\ UInv D' (us_en s') (lst r ++ map snd (us_sh s') ++ l) /\
    us_n s' + N.of_nat (length (us_in s')) <= us_n s + N.of_nat (length (us_in s)) /\ us_n s <= us_n s' /\
    (length (us_in s') <= length (us_in s))%nat /\ good_err s' r.
Definition start_err (s : ust) : Prop := us_err s = 0 \/ us_err s = E_FORMAT \/ us_err s = E_OVERFLOW \/ us_err s = E_EOF.

Lemma sh_get_in sh k e : sh_get sh k = Some e -> In e (map snd sh).
Proof. induction sh as [|[j y] sh IH]; cbn; [discriminate|]. destruct (j =? k); [intros [= ->]; auto|auto]. Qed.

Lemma undump_err fuel s : (0 < fuel)%nat -> us_err s <> 0 -> undump_step enum o vars ns isz nsz fuel s = Res None s.
Proof. destruct fuel; [lia|]. intros _ H. cbn [undump_step]. apply N.eqb_neq in H. now rewrite H. Qed.
(** Any input is read safely, as long as the array of labels is large enough. *)
Lemma undump_gen fuel : forall s D l, (length (us_in s) < fuel)%nat -> start_err s -> vars_ok (st (us_en s)) -> UInv D (us_en s) (map snd (us_sh s) ++ l) ->
  match undump_step enum o vars ns isz nsz fuel s with
  | NoFuel => False
  | Overrun => ns < us_n s + N.of_nat (length (us_in s))
  | Res r s' => good_res s D l r s'
  end.
Proof.
  induction fuel as [|fuel IH]; intros s D l Lf Er Vv U; [lia|]. cbn [undump_step].
  assert (Stay : forall s' err, us_en s' = us_en s -> us_sh s' = us_sh s -> us_n s' = us_n s -> (length (us_in s') <= length (us_in s))%nat -> us_err s' = err ->
    (err = E_FORMAT \/ err = E_OVERFLOW \/ err = E_EOF) -> good_res s D l None s').
  { intros s' err E1 E2 E3 E4 E5 E6. exists D. rewrite E1, E2, E3. split; [apply sext_refl|]. split; [exact U|]. split; [lia|]. split; [lia|]. split; [lia|]. red. rewrite E5. exact E6. }
  destruct (N.eqb_spec (us_err s) 0) as [E0|E0]; cbn [negb].
  2:{ apply (Stay s (us_err s)); auto. destruct Er as [Er|Er]; [congruence|auto]. }
  destruct (us_read isz s) as [[i s1]|] eqn:R1.
  2:{ apply (Stay _ E_EOF); cbn; auto. lia. }
  destruct (read_len _ _ _ _ R1) as (L1 & En1 & Sh1 & N1 & Er1).
  assert (Ret : forall s' e, us_en s' = us_en s -> us_sh s' = us_sh s -> us_n s' = us_n s -> us_err s' = us_err s -> (length (us_in s') <= length (us_in s))%nat ->
    vedge (nodeR (st (us_en s))) e -> free_ref e -> good_res s D l (Some e) s').
  { intros s' e E1 E2 E3 E4 E5 Ve Fe. exists D. rewrite E1, E2, E3. split; [apply sext_refl|]. split; [cbn [lst app]; apply U_free; auto|]. split; [lia|]. split; [lia|]. split; [lia|]. red. congruence. }
  destruct (match index_mask isz with Some mask => i =? mask | None => false end).
  - destruct (us_read 1 s1) as [[c s2]|] eqn:R2.
    2:{ apply (Stay _ E_EOF); cbn; auto; try congruence. lia. }
    destruct (read_len _ _ _ _ R2) as (L2 & En2 & Sh2 & N2 & Er2).
    assert (X1 : us_en s2 = us_en s) by congruence. assert (X2 : us_sh s2 = us_sh s) by congruence. assert (X3 : us_n s2 = us_n s) by congruence. assert (X4 : us_err s2 = us_err s) by congruence.
    destruct (c =? C_TRUE); [apply (Ret s2 one); auto; [lia|apply one_V|left; reflexivity]|].
    destruct (c =? C_FALSE); [apply (Ret s2 zero); auto; [lia|left; auto|left; reflexivity]|].
    destruct (c =? C_CONSTANT).
    { destruct (us_read 8 s2) as [[v1 s3]|] eqn:R3; [|apply (Stay _ E_EOF); cbn; auto; lia]. destruct (read_len _ _ _ _ R3) as (L3 & En3 & Sh3 & N3 & Er3).
      destruct (us_read 8 s3) as [[v2 s4]|] eqn:R4; [|apply (Stay _ E_EOF); cbn; auto; try congruence; lia]. destruct (read_len _ _ _ _ R4) as (L4 & En4 & Sh4 & N4 & Er4).
      apply (Stay _ E_OVERFLOW); cbn; auto; try congruence; lia. }
    destruct ((c =? C_POSVAR) || (c =? C_NEGVAR)).
    { destruct (us_read isz s2) as [[k s3]|] eqn:R3; [|apply (Stay _ E_EOF); cbn; auto; lia]. destruct (read_len _ _ _ _ R3) as (L3 & En3 & Sh3 & N3 & Er3).
      destruct (nth_error vars (N.to_nat k)) as [v|] eqn:Nv; [|apply (Stay _ E_FORMAT); cbn; auto; try congruence; lia].
      apply nth_error_In in Nv. destruct (Vv v Nv) as [V1 V2].
      apply Ret; try congruence; try lia.
      - destruct (c =? C_POSVAR); auto.
      - right. destruct (c =? C_POSVAR); auto. }
    destruct ((c =? C_POSNODE) || (c =? C_NEGNODE)).
    { destruct (us_read nsz s2) as [[j s3]|] eqn:R3; [|apply (Stay _ E_EOF); cbn; auto; lia]. destruct (read_len _ _ _ _ R3) as (L3 & En3 & Sh3 & N3 & Er3).
      destruct (if j <? ns then sh_get (us_sh s3) j else None) as [v|] eqn:Gt; [|apply (Stay _ E_FORMAT); cbn; auto; try congruence; lia].
      destruct (j <? ns); [|discriminate]. apply sh_get_in in Gt. rewrite Sh3, X2 in Gt.
      assert (Vv1 : vedge (nodeR (st (us_en s))) v) by (apply (U_V D (us_en s) _ v U); apply in_app_iff; auto).
      exists D. cbn [us_icr us_en us_sh us_n us_in us_err]. rewrite En3, X1. split; [apply sext_icr|]. rewrite Sh3, X2.
      split; [|split; [lia|split; [lia|split; [lia|]]]].
      - cbn [lst app]. pose proof (U_icr D (us_en s) _ v Vv1 U) as U'. destruct (c =? C_POSNODE); [exact U'|].
        apply (U_ptr D _ _ v); [reflexivity| |exact U']. apply (U_V D _ _ v U'). now left.
      - red. cbn. congruence. }
    destruct (c =? C_LABEL); [|apply (Stay _ E_FORMAT); cbn; auto; try congruence; lia].
    rewrite X1, X2, X3, X4. set (s2' := US (us_en s) (us_sh s) (us_n s + 1) (us_in s2) (us_err s)).
    pose proof (IH s2' D l) as H. cbn [s2' us_in us_en us_sh us_n us_err] in H.
    specialize (H ltac:(lia) (or_introl E0) Vv U).
    destruct (undump_step enum o vars ns isz nsz fuel s2') as [r s3| |]; [|lia|auto].
    unfold good_res in H. cbn [s2' us_in us_en us_sh us_n us_err] in H.
    destruct H as (D' & X & U' & S1 & S2 & S3 & G). destruct (N.leb_spec ns (us_n s)); [lia|]. destruct r as [v|].
    + assert (Vr : vedge (nodeR (st (us_en s3))) v) by (apply (U_V D' _ _ v U'); now left).
      exists D'. cbn [us_icr us_en us_sh us_n us_in us_err]. split; [eapply sext_trans; [exact X|apply sext_icr]|]. split; [|split; [lia|split; [lia|split; [lia|exact G]]]].
      cbn [lst app map snd]. apply (U_icr D' (us_en s3) _ v Vr U').
    + exists D'. split; auto. split; auto. split; [lia|]. split; [lia|]. split; [lia|exact G].
  - destruct (nth_error vars (N.to_nat i)) as [v|] eqn:Nv; [|apply (Stay _ E_FORMAT); cbn; auto; lia].
    apply nth_error_In in Nv.
    assert (U1 : UInv D (us_en s1) (map snd (us_sh s1) ++ l)) by (rewrite En1, Sh1; exact U).
    assert (Vv1 : vars_ok (st (us_en s1))) by (rewrite En1; exact Vv).
    pose proof (IH s1 D l ltac:(lia) (or_introl (eq_trans Er1 E0)) Vv1 U1) as H1.
    destruct (undump_step enum o vars ns isz nsz fuel s1) as [r1 s2| |]; [|lia|auto].
    destruct H1 as (D1 & X1 & U2 & S1 & S1' & S1'' & G1). rewrite En1 in X1.
    assert (Vv2 : vars_ok (st (us_en s2))) by (eapply vars_sext; eauto).
    assert (Er2 : start_err s2) by (red; destruct r1; cbn in G1; auto).
    assert (U2' : UInv D1 (us_en s2) (map snd (us_sh s2) ++ (lst r1 ++ l))).
    { eapply U_perm; [|exact U2]. destruct r1; cbn [lst app]; [|apply Permutation_refl]. apply Permutation_middle. }
    pose proof (IH s2 D1 (lst r1 ++ l) ltac:(lia) Er2 Vv2 U2') as H2.
    assert (Nerr : r1 = None -> forall e s3, undump_step enum o vars ns isz nsz fuel s2 <> Res (Some e) s3).
    { intros -> e s3. rewrite undump_err; [discriminate|lia|]. cbn in G1. destruct G1 as [G1|[G1|G1]]; rewrite G1; discriminate. }
    destruct (undump_step enum o vars ns isz nsz fuel s2) as [r2 s3| |]; [|lia|auto].
    destruct H2 as (D2 & X2 & U3 & S2 & S2' & S2'' & G2).
    assert (X02 : sext (st (us_en s)) D (st (us_en s3)) D2) by (eapply sext_trans; eauto).
    destruct r1 as [t|].
    + cbn [lst] in U3. destruct r2 as [e|].
      * cbn in G2. rewrite G2. change (negb (0 =? 0)) with false. cbv iota.
        destruct (opITEBF enum o (us_en s3) v t e) as [r en] eqn:Ei.
        assert (U4 : UInv D2 (us_en s3) (t :: e :: map snd (us_sh s3) ++ l)).
        { eapply U_perm; [|exact U3]. cbn [lst app]. eapply Permutation_trans; [apply perm_skip, Permutation_sym, Permutation_middle|]. apply perm_swap. }
        destruct (U_ite D2 (us_en s3) _ v t e r en U4) as (D3 & U5 & X3 & Vr & _); auto.
        { destruct (Vv v Nv) as [Q _]. eapply sext_vedge; eauto. }
        { apply (U_V D2 _ _ t U4). now left. } { apply (U_V D2 _ _ e U4). right; now left. }
        exists D3. cbn [us_dcr us_icr us_en us_sh us_n us_in us_err set_st st].
        split; [|split; [|split; [lia|split; [lia|split; [lia|red; cbn; auto]]]]].
        -- eapply sext_trans; [exact X02|]. eapply sext_trans; [exact X3|]. eapply sext_trans; [apply sext_icr|]. eapply sext_trans; [apply (sext_dcr _ _ t)|apply (sext_dcr _ _ e)].
        -- pose proof (U_icr D3 en _ r Vr U5) as U6.
           assert (U6' : UInv D3 (set_st en (icr (st en) r)) (t :: e :: r :: map snd (us_sh s3) ++ l)).
           { eapply U_perm; [|exact U6]. eapply Permutation_trans; [apply perm_swap|]. apply perm_skip. apply perm_swap. }
           apply U_dcr in U6'. apply U_dcr in U6'. exact U6'.
      * assert (U4 : UInv D2 (us_en s3) (t :: map snd (us_sh s3) ++ l)).
        { eapply U_perm; [|exact U3]. cbn [lst app]. apply Permutation_sym, Permutation_middle. }
        exists D2. cbn [us_dcr us_en us_sh us_n us_in us_err set_st st].
        split; [eapply sext_trans; [exact X02|apply sext_dcr]|]. split; [apply U_dcr in U4; exact U4|]. split; [lia|]. split; [lia|]. split; [lia|exact G2].
    + cbn [lst app] in U3. destruct r2 as [e|].
      * (* the second call does nothing after an error *)
        exfalso. apply (Nerr eq_refl e s3). reflexivity.
      * exists D2. split; auto. split; auto. split; [lia|]. split; [lia|]. split; [lia|]. exact G2.
Qed.

(** ** Reading back what was written *)
Variable vid : N -> N.
Definition vars_sem (D : den) : Prop := forall k v, nth_error vars (N.to_nat k) = Some v -> forall rho, dv D v rho = rho (vid k).
Definition sh_sem (D : den) (us : list (N * edge)) (sh : list (option nf)) : Prop :=
  forall j g, nth_error sh j = Some (Some g) -> exists e, sh_get us (N.of_nat j) = Some e /\ forall rho, dv D e rho = g (fun k => rho (vid k)).
Hypothesis Hnv : N.of_nat (length vars) < 2 ^ 16.
Hypothesis Eisz : isz = bytes_needed (N.of_nat (length vars) + 1).
Hypothesis Ensz : nsz = bytes_needed ns.
Hypothesis Hns : ns <= 2 ^ 32.

Lemma play_len sc : forall sh g sh', play sc sh = Some (g, sh') -> (length sh <= length sh')%nat.
Proof.
  induction sc as [b|b k|b j|j0 s IH|k t IHt e IHe]; intros sh g sh'; cbn [play].
  - intros [= <- <-]; lia. - intros [= <- <-]; lia.
  - destruct (nth_error sh (N.to_nat j)) as [[g0|]|]; [|discriminate|discriminate]. intros [= <- <-]; lia.
  - destruct (play s (sh ++ [None])) as [[g1 sh1]|] eqn:E; [|discriminate]. intros [= <- <-]. apply IH in E. rewrite app_length in E. cbn in E. rewrite set_at_length. lia.
  - destruct (play t sh) as [[g1 sh1]|] eqn:E1; [|discriminate]. destruct (play e sh1) as [[g2 sh2]|] eqn:E2; [|discriminate]. intros [= <- <-]. apply IHt in E1. apply IHe in E2. lia.
Qed.
Lemma enc_len sc : (1 <= length (enc isz nsz sc))%nat.
Proof. destruct sc; cbn [enc]; unfold code; rewrite ?app_length, ?dwrite_len; lia. Qed.

Lemma vars_sem_sext s D s' D' : sext s D s' D' -> vars_ok s -> vars_sem D -> vars_sem D'.
Proof. intros X Vv H k v Nv rho. rewrite (sext_dv s D s' D' v rho X); [now apply H|]. apply Vv. eapply nth_error_In; eauto. Qed.
Lemma sh_sem_sext s D s' D' us sh : sext s D s' D' -> (forall e, In e (map snd us) -> vedge (nodeR s) e) -> sh_sem D us sh -> sh_sem D' us sh.
Proof.
  intros X Vv H j g Nj. destruct (H j g Nj) as (e & E1 & E2). exists e. split; auto. intros rho. rewrite (sext_dv s D s' D' e rho X); auto. apply Vv. eapply sh_get_in; eauto.
Qed.
Lemma nth_var k : k < N.of_nat (length vars) -> exists v, nth_error vars (N.to_nat k) = Some v /\ In v vars.
Proof.
  intros H. destruct (nth_error vars (N.to_nat k)) as [v|] eqn:E; [exists v; split; auto; eapply nth_error_In; eauto|].
  apply nth_error_None in E. lia.
Qed.

(** The start of a step on a code. *)
Lemma read_code s c rest : c < 8 -> us_in s = code isz c ++ rest ->
  exists i s1 s2, us_read isz s = Some (i, s1) /\ (match index_mask isz with Some mask => i =? mask | None => false end) = true /\
    us_read 1 s1 = Some (c, s2) /\ s2 = US (us_en s) (us_sh s) (us_n s) rest (us_err s).
Proof.
  intros Hc Hi. destruct (code_read (N.of_nat (length vars)) c rest Hnv Hc) as (mk & s' & M1 & M2 & M3). rewrite <- Eisz in M1, M2.
  unfold us_read. rewrite Hi. unfold code. change CODE with 4294967040. rewrite M2. exists mk, (US (us_en s) (us_sh s) (us_n s) s' (us_err s)). eexists.
  split; [reflexivity|]. split; [rewrite M1; apply N.eqb_refl|]. cbn [us_in us_en us_sh us_n us_err]. rewrite M3. auto.
Qed.
Lemma read_num b s n rest : n < 256 ^ N.of_nat b -> us_in s = dwrite b n ++ rest -> us_read b s = Some (n, US (us_en s) (us_sh s) (us_n s) rest (us_err s)).
Proof. intros H E. unfold us_read. rewrite E, read_write by auto. reflexivity. Qed.

Lemma undump_sem sc : forall fuel s D l sh g sh' rest,
  us_err s = 0 -> us_in s = enc isz nsz sc ++ rest -> (length (us_in s) < fuel)%nat ->
  within_bounds (N.of_nat (length vars)) ns sc -> play sc sh = Some (g, sh') -> us_n s = N.of_nat (length sh) -> N.of_nat (length sh') <= ns ->
  vars_ok (st (us_en s)) -> vars_sem D -> sh_sem D (us_sh s) sh -> UInv D (us_en s) (map snd (us_sh s) ++ l) ->
  exists e s' D', undump_step enum o vars ns isz nsz fuel s = Res (Some e) s' /\ us_err s' = 0 /\ us_in s' = rest /\ us_n s' = N.of_nat (length sh') /\
    sext (st (us_en s)) D (st (us_en s')) D' /\ UInv D' (us_en s') (e :: map snd (us_sh s') ++ l) /\ sh_sem D' (us_sh s') sh' /\
    forall rho, dv D' e rho = g (fun k => rho (vid k)).
Proof.
  assert (Bk : forall k, k < N.of_nat (length vars) -> k < 256 ^ N.of_nat isz).
  { intros k Hk. destruct (mask_free (N.of_nat (length vars)) k Hnv Hk) as (mk & M1 & M2 & M3). rewrite Eisz. apply (bytes_suffice (N.of_nat (length vars) + 1)); lia. }
  assert (Mk : forall k, k < N.of_nat (length vars) -> (match index_mask isz with Some mask => k =? mask | None => false end) = false).
  { intros k Hk. destruct (mask_free (N.of_nat (length vars)) k Hnv Hk) as (mk & M1 & M2 & M3). rewrite Eisz, M1. now apply N.eqb_neq. }
  induction sc as [b|b k|b j|j0 sc IH|k t IHt e IHe]; intros fuel s D l sh g sh' rest E0 Ein Lf WB P Hn Hl Vv Vs Ss U;
    (destruct fuel as [|fuel]; [lia|]); cbn [undump_step]; rewrite E0; change (negb (0 =? 0)) with false; cbv iota; cbn [enc] in Ein; cbn [within_bounds] in WB; cbn [play] in P.
  - (* constant *)
    injection P as <- <-.
    destruct (read_code s (if b then C_TRUE else C_FALSE) rest) as (i & s1 & s2 & R1 & Mi & R2 & E2); [destruct b; reflexivity|auto|].
    rewrite R1, Mi, R2. exists (if b then one else zero), s2, D. rewrite E2. cbn [us_en us_sh us_n us_in us_err].
    split; [destruct b; reflexivity|]. split; auto. split; auto. split; auto. split; [apply sext_refl|].
    split; [apply U_free; auto; destruct b; [apply one_V|left; auto|left; reflexivity|left; reflexivity]|]. split; auto.
    intros rho. destruct U as [Q _]. pose proof (QS_dok _ _ _ _ Q) as Dk. destruct b; [apply (dv_one D (st (us_en s)))|apply (dv_zero D (st (us_en s)))]; auto.
  - (* variable *)
    injection P as <- <-. rewrite <- app_assoc in Ein.
    destruct (read_code s (if b then C_POSVAR else C_NEGVAR) (dwrite isz k ++ rest)) as (i & s1 & s2 & R1 & Mi & R2 & E2); [destruct b; reflexivity|auto|].
    rewrite R1, Mi, R2. rewrite (read_num isz s2 k rest) by (auto; rewrite E2; reflexivity). rewrite E2. cbn [us_en us_sh us_n us_in us_err].
    destruct (nth_var k WB) as (v & Nv & Iv). rewrite Nv. destruct (Vv v Iv) as [V1 V2].
    exists (if b then v else enot v), (US (us_en s) (us_sh s) (us_n s) rest (us_err s)), D. cbn [us_en us_sh us_n us_in us_err].
    split; [destruct b; reflexivity|]. split; auto. split; auto. split; auto. split; [apply sext_refl|].
    split; [apply U_free; auto; [destruct b; auto|right; destruct b; auto]|]. split; auto.
    intros rho. unfold sgn. destruct b; [now apply Vs|]. rewrite dv_enot. f_equal. now apply Vs.
  - (* reference *)
    rewrite <- app_assoc in Ein. destruct (nth_error sh (N.to_nat j)) as [[g0|]|] eqn:Nj; [|discriminate|discriminate]. injection P as <- <-.
    destruct (read_code s (if b then C_POSNODE else C_NEGNODE) (dwrite nsz j ++ rest)) as (i & s1 & s2 & R1 & Mi & R2 & E2); [destruct b; reflexivity|auto|].
    rewrite R1, Mi, R2. rewrite (read_num nsz s2 j rest); [|rewrite Ensz; now apply bytes_suffice|rewrite E2; reflexivity]. rewrite E2. cbn [us_en us_sh us_n us_in us_err].
    destruct (Ss _ g0 Nj) as (v & G1 & G2). rewrite N2Nat.id in G1. destruct (N.ltb_spec j ns); [|lia]. rewrite G1.
    assert (Vv1 : vedge (nodeR (st (us_en s))) v) by (apply (U_V D (us_en s) _ v U); apply in_app_iff; left; eapply sh_get_in; eauto).
    exists (if b then v else enot v), (us_icr v (US (us_en s) (us_sh s) (us_n s) rest (us_err s))), D. unfold us_icr. cbn [us_en us_sh us_n us_in us_err].
    split; [destruct b; reflexivity|]. split; auto. split; auto. split; auto. split; [apply sext_icr|].
    pose proof (U_icr D (us_en s) _ v Vv1 U) as U'. split.
    { destruct b; [exact U'|]. apply (U_ptr D _ _ v); [reflexivity| |exact U']. apply (U_V D _ _ v U'). now left. }
    split; [auto|]. intros rho. unfold sgn. destruct b; [apply G2|]. rewrite dv_enot. f_equal. apply G2.
  - (* label *)
    rewrite <- app_assoc in Ein. destruct (play sc (sh ++ [None])) as [[g1 sh1]|] eqn:P1; [|discriminate]. injection P as <- <-. rewrite set_at_length in *.
    destruct (read_code s C_LABEL (enc isz nsz sc ++ rest)) as (i & s1 & s2 & R1 & Mi & R2 & E2); [reflexivity|auto|].
    rewrite R1, Mi, R2, E2. cbn [us_en us_sh us_n us_in us_err]. cbv iota.
    change (C_LABEL =? C_TRUE) with false. change (C_LABEL =? C_FALSE) with false. change (C_LABEL =? C_CONSTANT) with false.
    change ((C_LABEL =? C_POSVAR) || (C_LABEL =? C_NEGVAR)) with false. change ((C_LABEL =? C_POSNODE) || (C_LABEL =? C_NEGNODE)) with false.
    change (C_LABEL =? C_LABEL) with true. cbv iota.
    pose proof (play_len _ _ _ _ P1) as Ln. rewrite app_length in Ln. cbn [length] in Ln.
    assert (Lin : (length (enc isz nsz sc ++ rest) < fuel)%nat).
    { rewrite Ein in Lf. unfold code in Lf. rewrite app_length, dwrite_len in Lf. lia. }
    destruct (IH fuel (US (us_en s) (us_sh s) (us_n s + 1) (enc isz nsz sc ++ rest) (us_err s)) D l (sh ++ [None]) g1 sh1 rest) as (e & s' & D' & St & Q1 & Q2 & Q3 & Q4 & Q5 & Q6 & Q7);
      cbn [us_en us_sh us_n us_in us_err]; auto.
    { rewrite Hn, app_length. cbn [length]. lia. }
    { intros j g Nj. destruct (Nat.lt_ge_cases j (length sh)) as [Hj|Hj]; [rewrite nth_error_app1 in Nj by auto; now apply Ss|].
      rewrite nth_error_app2 in Nj by auto. destruct (j - length sh)%nat as [|[|q]]; discriminate Nj. }
    rewrite St. cbn [us_en us_sh us_n us_in us_err] in *. destruct (N.leb_spec ns (us_n s)); [lia|].
    assert (Ve : vedge (nodeR (st (us_en s'))) e) by (apply (U_V D' _ _ e Q5); now left).
    eexists e, _, D'. split; [reflexivity|]. unfold us_icr. cbn [us_en us_sh us_n us_in us_err set_st st].
    split; auto. split; auto. split; auto. split; [eapply sext_trans; [exact Q4|apply sext_icr]|]. split; [|split; auto].
    + cbn [map snd app]. apply (U_icr D' (us_en s') _ e Ve Q5).
    + intros j g Nj. cbn [sh_get]. destruct (Nat.eq_dec j (length sh)) as [->|Nq].
      * rewrite set_at_same in Nj by lia. injection Nj as <-. rewrite Hn, N.eqb_refl. exists e. auto.
      * rewrite set_at_other in Nj by auto. destruct (N.eqb_spec (us_n s) (N.of_nat j)); [lia|]. now apply Q6.
  - (* node *)
    rewrite <- !app_assoc in Ein. destruct WB as (Wk & Wt & We).
    destruct (play t sh) as [[g1 sh1]|] eqn:P1; [|discriminate]. destruct (play e sh1) as [[g2 sh2]|] eqn:P2; [|discriminate]. injection P as <- <-.
    pose proof (play_len _ _ _ _ P1) as Ln1. pose proof (play_len _ _ _ _ P2) as Ln2.
    rewrite (read_num isz s k (enc isz nsz t ++ enc isz nsz e ++ rest)) by auto. rewrite (Mk k Wk). destruct (nth_var k Wk) as (v & Nv & Iv). rewrite Nv.
    destruct (Vv v Iv) as [V1 V2].
    assert (Lin : (length (enc isz nsz t ++ enc isz nsz e ++ rest) < fuel)%nat) by (rewrite Ein, app_length, dwrite_len in Lf; lia).
    destruct (IHt fuel (US (us_en s) (us_sh s) (us_n s) (enc isz nsz t ++ enc isz nsz e ++ rest) (us_err s)) D l sh g1 sh1 (enc isz nsz e ++ rest))
      as (t1 & s1 & D1 & St1 & A1 & A2 & A3 & A4 & A5 & A6 & A7); cbn [us_en us_sh us_n us_in us_err]; auto; [lia|].
    rewrite St1. cbn [us_en us_sh us_n us_in us_err] in A4.
    assert (U1 : UInv D1 (us_en s1) (map snd (us_sh s1) ++ (t1 :: l))) by (eapply U_perm; [|exact A5]; apply Permutation_middle).
    destruct (IHe fuel s1 D1 (t1 :: l) sh1 g2 sh2 rest) as (e1 & s2 & D2 & St2 & B1 & B2 & B3 & B4 & B5 & B6 & B7); auto.
    { rewrite A2. rewrite app_length in Lin. lia. } { eapply vars_sext; eauto. } { eapply vars_sem_sext; eauto. }
    rewrite St2, B1. change (negb (0 =? 0)) with false. cbv iota.
    destruct (opITEBF enum o (us_en s2) v t1 e1) as [r en] eqn:Ei.
    assert (U4 : UInv D2 (us_en s2) (t1 :: e1 :: map snd (us_sh s2) ++ l)).
    { eapply U_perm; [|exact B5]. eapply Permutation_trans; [apply perm_skip, Permutation_sym, Permutation_middle|]. apply perm_swap. }
    assert (Vt1 : vedge (nodeR (st (us_en s1))) t1) by (apply (U_V D1 _ _ t1 A5); now left).
    assert (Vv2 : vedge (nodeR (st (us_en s1))) v) by (eapply sext_vedge; eauto).
    destruct (U_ite D2 (us_en s2) _ v t1 e1 r en U4) as (D3 & U5 & X3 & Vr & Er); auto.
    { eapply sext_vedge; eauto. } { apply (U_V D2 _ _ t1 U4). now left. } { apply (U_V D2 _ _ e1 U4). right; now left. }
    eexists r, _, D3. split; [reflexivity|]. unfold us_dcr, us_icr. cbn [us_en us_sh us_n us_in us_err set_st st].
    split; auto. split; auto. split; auto. split; [|split; [|split]].
    + eapply sext_trans; [exact A4|]. eapply sext_trans; [exact B4|]. eapply sext_trans; [exact X3|]. eapply sext_trans; [apply sext_icr|]. eapply sext_trans; [apply (sext_dcr _ _ t1)|apply (sext_dcr _ _ e1)].
    + pose proof (U_icr D3 en _ r Vr U5) as U6.
      assert (U6' : UInv D3 (set_st en (icr (st en) r)) (t1 :: e1 :: r :: map snd (us_sh s2) ++ l)).
      { eapply U_perm; [|exact U6]. eapply Permutation_trans; [apply perm_swap|]. apply perm_skip. apply perm_swap. }
      apply U_dcr in U6'. apply U_dcr in U6'. exact U6'.
    + eapply (sh_sem_sext _ _ _ _ _ _ X3); [|exact B6]. intros y Iy. apply (U_V D2 _ _ y U4). right; right. apply in_app_iff; auto.
    + intros rho. rewrite Er. rewrite B7.
      rewrite (sext_dv _ _ _ _ t1 rho B4 Vt1), A7.
      rewrite (sext_dv _ _ _ _ v rho B4 Vv2), (sext_dv _ _ _ _ v rho A4 V1), (Vs k v Nv). reflexivity.
Qed.
End Held.

(** Releasing the labelled nodes. *)
Lemma release_spec o x0 l : forall D en l', UInv o x0 D en (map snd l ++ l') -> UInv o x0 D (release en l) l' /\ sext (st en) D (st (release en l)) D.
Proof.
  induction l as [|[j e] l IH]; intros D en l' U; [split; [exact U|apply sext_refl]|]. cbn [map snd app release] in *.
  apply U_dcr in U. destruct (IH _ _ _ U) as [A B]. split; auto. eapply sext_trans; [apply (sext_dcr _ _ e)|exact B].
Qed.
