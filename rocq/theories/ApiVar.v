(** * Creating variables, the initial manager, handle bookkeeping. *)
From Coq Require Import Permutation Sorted.
From Verif Require Import Base BFModel ITEModel MgrModel ApiModel StoreInv Own EngInv ApplyProof BinopProof ReduceProof EngineProof
  OpProof MultiProof QProof GCProof VarProof MInv ApiProof ApiOps ApiStruct.

Lemma newvar_spec m hs lk D index : MInv m hs lk D -> numvars m < 65534 -> index <= numvars m ->
  exists v m' D', newvar m index = Ok (v, m') /\ MInv m' hs lk D' /\ mext hs m D m' D' /\
    v = mvb m' (numvars m + 1) /\ mo m' = order_insert (mo m) (numvars m + 1) index.
Proof.
  intros I Hn Hi. unfold newvar.
  destruct (N.eqb_spec (numvars m) 65534) as [E0|E0]; [lia|]. clear E0. destruct (N.ltb_spec (numvars m) index); [lia|].
  destruct (alloc (st (me m)) (numvars m + 1)) as [a s1] eqn:Al.
  pose proof (mi_wfo _ _ _ _ I) as Wo. pose proof (mi_ids _ _ _ _ I) as Ids.
  unfold numvars in *. set (n := N.of_nat (length (ord (mo m)))) in *.
  assert (HC : n + 1 < CONST_INDEX) by (unfold CONST_INDEX; lia).
  destruct (newvar_store (mo m) D (me m) (xr m hs lk) index a s1 Wo Ids Hi HC (mi_q _ _ _ _ I) Al)
    as (D' & Wo' & Ids' & Q' & X & Ia & Ma & Da & Mb). fold n in Wo', Ids', Q', X, Ia, Ma, Da, Mb.
  set (s2 := put s1 a (C one zero MAXREF)) in *.
  set (s3 := set_nn (set_ut s2 (upd (ut s2) (n + 1) (a :: ut s2 (n + 1)))) (nn s2 + 1)) in *.
  set (o' := order_insert (mo m) (n + 1) index) in *.
  set (v := E (n + 1) a false).
  set (m' := M (set_st (me m) s3) o' (muone m) (upd (mvb m) (n + 1) v) (mca m) (map (assoc_shift index) (massoc m))
               (assoc_shift index (mtemp m)) (mcur m) (mtop m) (mlim m) (mnl m) (mov m)).
  exists v, m', D'. split; [reflexivity|].
  assert (NI : ~ In (n + 1) (ord (mo m))) by (intros H'; apply (Ids (n + 1)) in H'; unfold n in *; lia).
  assert (An : forall b, In b (mtemp m :: massoc m) -> amap b (n + 1) = None).
  { intros b Ib. destruct (amap b (n + 1)) as [e|] eqn:Eb; auto. exfalso. apply NI.
    apply (ao_dom _ _ _ (mi_as _ _ _ _ I b Ib) _ _ Eb). }
  assert (Vb : forall i, In i (ord (mo m)) -> mvb m' i = mvb m i).
  { intros i Ii. simpl. rewrite upd_other; auto. intros ->. auto. }
  assert (Ino : forall i, In i (ord o') <-> i = n + 1 \/ In i (ord (mo m))) by (intros i; apply (ins_in (mo m) index)).
  assert (XR : forall b, xr m' hs lk b = xr m hs lk b \/ (isnode s3 b /\ cr (mem s3 b) = MAXREF)).
  { intros b. destruct (N.eqb_spec b a) as [->|Nb]; [right; split; [exists (n + 1); auto|now rewrite Ma]|]. left.
    unfold xr. change (mtemp m' :: massoc m') with (map (assoc_shift index) (mtemp m :: massoc m)).
    change (mo m') with o'. unfold o'. rewrite asum_insert by auto. f_equal.
    unfold perm. change (muone m') with (muone m). change (mo m') with o'.
    match goal with |- (if ?x then _ else _) = (if ?y then _ else _) => assert (E : x = y); [|now rewrite E] end.
    apply Bool.eq_iff_eq_true. rewrite !existsb_exists. split; intros (c & Ic & Ec); apply N.eqb_eq in Ec; subst c; exists b; rewrite N.eqb_refl; (split; [|auto]).
    - destruct Ic as [Ic|Ic]; [now left|]. apply in_map_iff in Ic as (i & Ei & Ii). apply Ino in Ii as [->|Ii].
      + simpl in Ei. rewrite upd_same in Ei. simpl in Ei. congruence.
      + right. apply in_map_iff. exists i. rewrite Vb in Ei; auto.
    - destruct Ic as [Ic|Ic]; [now left|]. apply in_map_iff in Ic as (i & Ei & Ii).
      right. apply in_map_iff. exists i. rewrite Vb by auto. split; auto. apply Ino; auto. }
  assert (Ax : forall b, In b (mtemp m' :: massoc m') -> AOk o' s3 b).
  { intros b Ib. change (mtemp m' :: massoc m') with (map (assoc_shift index) (mtemp m :: massoc m)) in Ib.
    apply in_map_iff in Ib as (c & <- & Ic). eapply assoc_shift_ok; eauto. apply (mi_as _ _ _ _ I c Ic). }
  assert (Ad : map aid (massoc m') = map aid (massoc m)) by (simpl; rewrite map_map; reflexivity).
  split.
  { constructor; auto.
    - apply (QS_x_sat o' D' (set_st (me m) s3) (xr m hs lk)); auto.
    - destruct (mi_one _ _ _ _ I) as [I1 E1]. destruct (se_node _ _ _ _ X 0 _ I1) as [I1' [T1 _]]. split; auto.
      change (ct (mem s3 (muone m)) = one). now rewrite T1.
    - intros i Ii. change (mo m') with o' in Ii. apply Ino in Ii as [->|Ii].
      + assert (Ev : mvb m' (n + 1) = v) by (cbn; now rewrite upd_same). rewrite Ev.
        change (v = v /\ In a (ut s3 (n + 1)) /\ ct (mem s3 a) = one /\ ce (mem s3 a) = zero). rewrite Ma. auto.
      + rewrite Vb by auto. destruct (mi_var _ _ _ _ I i Ii) as (V1 & V2 & V3 & V4).
        destruct (se_node _ _ _ _ X _ _ V2) as [V2' [T1 T2]]. split; auto. split; auto.
        change (ct (mem s3 (eptr (mvb m i))) = one /\ ce (mem s3 (eptr (mvb m i))) = zero). rewrite T1, T2. auto.
    - intros h Ih. change (st (me m')) with s3. eapply sext_uok; eauto. apply (mi_hs _ _ _ _ I); auto.
    - rewrite Ad. apply I.
    - split; [|apply (proj2 (mi_rc _ _ _ _ I))]. intros b Ib. apply in_map_iff in Ib as (c & <- & Ic). apply (proj1 (mi_rc _ _ _ _ I) c Ic).
    - rewrite Ad. apply I.
    - destruct (mi_cache _ _ _ _ I) as [G CI]. exists G.
      assert (C := CInv_sext G m D (set_st (me m) s3) D' (MI_swf _ _ _ _ I) (MI_dok _ _ _ _ I) Wo).
      destruct C as [C1 C2 C3 C4 C5 C6 C7]; [intros b Ib; apply (mi_as _ _ _ _ I); now right|exact X|exact CI|].
      assert (Un : forall b, In b (massoc m') -> exists c, In c (massoc m) /\ amap b = amap c /\ aid b = aid c).
      { intros b Ib. apply in_map_iff in Ib as (c & <- & Ic). exists c. auto. }
      constructor; auto.
      + intros k e He. destruct (C3 k e He) as (E0 & E1 & E2 & E3 & E4 & E5). do 4 (split; [assumption|]). split; auto.
        destruct E4 as [(c & Ic & Ec)|E4]; [|right; exact E4]. left. exists (assoc_shift index c). split; auto.
        simpl. apply in_map; auto.
      + intros b Ib. destruct (Un b Ib) as (c & Ic & -> & ->). apply (C4 c Ic).
      + intros b Ib. destruct (Un b Ib) as (c & Ic & -> & ->). apply (C5 c Ic).
      + intros b Ib. destruct (Un b Ib) as (c & Ic & -> & ->). apply (C6 c Ic). }
  split.
  { assert (Ar : forall b, In b (mtemp m :: massoc m) -> arel D D' b (assoc_shift index b)).
    { intros b Ib. split; auto. split; auto. intros i. simpl. destruct (amap b i) as [e|] eqn:Ea; auto.
      intros rho. eapply sext_dv; eauto. apply (ao_dom _ _ _ (mi_as _ _ _ _ I b Ib) i e Ea). }
    constructor; auto.
    - intros h Ih rho. change (mmem m') with (mem s3). destruct (sext_uok _ _ _ _ h X (mi_hs _ _ _ _ I h Ih)) as [_ ->].
      eapply sext_dv; eauto. eapply MI_int; eauto.
    - intros i Ii. apply Ino; auto.
    - simpl. assert (Ar' : forall b, In b (massoc m) -> arel D D' b (assoc_shift index b)) by (intros; apply Ar; now right).
      clear -Ar'. induction (massoc m); constructor; auto. { apply Ar'. now left. }
      apply IHl. intros. apply Ar'. now right.
    - apply Ar. now left.
    - simpl. lia. }
  split; [|reflexivity]. simpl. now rewrite upd_same.
Qed.

Lemma newvar_at_spec m hs lk D index : MInv m hs lk D -> numvars m < 65534 -> index <= numvars m ->
  exists h m' D', newvar_at m index = Ok (h, m') /\ MInv m' (h :: hs) lk D' /\ mext hs m D m' D' /\
    (forall rho, hv m' D' h rho = rho (numvars m + 1)) /\ mo m' = order_insert (mo m) (numvars m + 1) index.
Proof.
  intros I Hn Hi. destruct (newvar_spec m hs lk D index I Hn Hi) as (v & m1 & D1 & E & I1 & X1 & Ev & Eo).
  unfold newvar_at. rewrite E. cbn [obind].
  assert (Iv : In (numvars m + 1) (ord (mo m1))).
  { rewrite Eo. apply (ins_in (mo m) index). now left. }
  destruct (ret m1 v) as [h m'] eqn:Rt.
  destruct (ret_spec _ hs lk D1 v h m' I1 ltac:(subst v; apply (var_dv m1 hs lk D1 _ (fun _ => true) I1 Iv)) Rt) as (D3 & I3 & X3 & B1 & B2 & E3).
  exists h, m', D3. split; auto. split; auto. split; [eapply mext_trans; eauto|]. split.
  - intros rho. rewrite E3, Ev. apply (var_dv m1 hs lk D1 _ rho I1 Iv).
  - rewrite <- Eo. revert Rt. unfold ret. destruct (getext _ _). intros [= <- <-]. reflexivity.
Qed.

(** ** The initial manager *)

Definition lk0 : N -> N := fun _ => 0.
Definition D_init : den := fun a _ => true.
Definition own_init (a : N) : tag := if a =? 3 then ONode 0 else ONone.
Definition g_init : ghost := fun c f g r => if c =? 12288 then negb (f r && g r) else f r && g r.

Lemma init_MInv : MInv init [] lk0 D_init.
Proof.
  assert (Ut : forall i, ut (st (me init)) i = if i =? 0 then [3] else []).
  { intros i. simpl. unfold upd. now destruct (i =? 0). }
  assert (In3 : forall i a, In a (ut (st (me init)) i) -> i = 0 /\ a = 3).
  { intros i a. rewrite Ut. destruct (N.eqb_spec i 0); simpl; [|tauto]. intros [<-|[]]. auto. }
  assert (M3 : mmem init 3 = C one one MAXREF) by reflexivity.
  constructor.
  - constructor; [constructor|intros k i H; destruct k; discriminate|reflexivity|reflexivity].
  - intros i. simpl. split; [tauto|lia].
  - exists own_init, [3]. split.
    + constructor.
      * constructor.
        -- intros t a Ht. destruct t; try discriminate; unfold kont, own_init.
           ++ rewrite Ut. destruct (N.eqb_spec i 0) as [->|N0]; simpl.
              ** destruct (N.eqb_spec a 3); split; intros H; try tauto; try discriminate; [left; auto|]. destruct H as [H|[]]; congruence.
              ** destruct (a =? 3); split; intros H; try tauto; congruence.
           ++ simpl. destruct (a =? 3); split; intros H; try tauto; discriminate.
           ++ simpl. destruct (a =? 3); split; intros H; try tauto; discriminate.
           ++ simpl. destruct (a =? 3); split; intros H; try tauto; discriminate.
        -- intros t Ht. destruct t; try discriminate; unfold kont; try constructor.
           rewrite Ut. destruct (i =? 0); repeat constructor. intros [].
        -- intros a H. unfold own_init in H. destruct (N.eqb_spec a 3); [|congruence]. subst. simpl. lia.
        -- simpl. lia.
      * constructor.
        -- intros i a N0 H. apply In3 in H. tauto.
        -- intros a H. apply In3 in H as [_ ->]. rewrite M3. simpl. split; [apply vedge_one|auto].
        -- intros i a b H1 H2 _ _. apply In3 in H1, H2. intuition congruence.
        -- intros i j a H1 H2. apply In3 in H1, H2. intuition congruence.
        -- intros i a H. apply In3 in H as [_ ->]. lia.
        -- simpl. discriminate.
        -- reflexivity.
      * constructor; [reflexivity|]. intros i a rho N0 H. apply In3 in H. tauto.
      * reflexivity.
      * reflexivity.
      * intros p a. unfold own_init. destruct (p =? 3); discriminate.
    + constructor.
      * repeat constructor. intros [].
      * intros a. simpl. unfold own_init. split.
        -- intros [<-|[]]. left. exists 0. reflexivity.
        -- intros [[i H]|(d & i & H & _)]; destruct (N.eqb_spec a 3); try discriminate; auto.
      * intros a [<-|[]]. rewrite M3. split; left; vm_compute; discriminate.
      * intros b [[i H]|(d & i & H)]; unfold own_init in H; destruct (N.eqb_spec b 3); try discriminate. subst. left. reflexivity.
      * intros b [[i H]|(d & i & H)]; unfold own_init in H; destruct (N.eqb_spec b 3); try discriminate. subst. rewrite M3. simpl. lia.
      * intros b Hb F. unfold own_init in F. destruct (N.eqb_spec b 3) as [->|Nb]; [destruct (nf_node _ F)|].
        unfold xr, perm. simpl. destruct (N.eqb_spec b 3); [congruence|]. reflexivity.
  - split; [simpl; auto|reflexivity].
  - simpl. tauto.
  - simpl. tauto.
  - intros a [<-|[]]. constructor; simpl; try discriminate. auto.
  - constructor.
  - split; [simpl; tauto|vm_compute; discriminate].
  - discriminate.
  - exists g_init. constructor; try (simpl; tauto).
    + intros c f f' g g' E1 E2 r. unfold g_init. now rewrite E1, E2.
    + intros c f g r. unfold g_init. destruct (c =? 12288); now rewrite andb_comm.
    + simpl. discriminate.
Qed.

(** ** Variables by index and by id *)

Lemma ret_mo m r : mo (snd (ret m r)) = mo m.
Proof. unfold ret. destruct (getext _ _). reflexivity. Qed.

Lemma ret_var m hs lk D i : MInv m hs lk D -> In i (ord (mo m)) ->
  exists h m' D', ret m (mvb m i) = (h, m') /\ MInv m' (h :: hs) lk D' /\ mext hs m D m' D' /\ mo m' = mo m /\
    forall rho, hv m' D' h rho = rho i.
Proof.
  intros I Ii. destruct (ret m (mvb m i)) as [h m'] eqn:Rt.
  destruct (ret_spec _ hs lk D _ h m' I (proj1 (var_dv m hs lk D i (fun _ => true) I Ii)) Rt) as (D3 & I3 & X3 & _ & _ & E3).
  exists h, m', D3. split; auto. split; auto. split; auto. split.
  - change m' with (snd (h, m')). rewrite <- Rt. apply ret_mo.
  - intros rho. rewrite E3. apply (var_dv m hs lk D i rho I Ii).
Qed.

Lemma var_with_id_spec m hs lk D i : MInv m hs lk D ->
  (In i (ord (mo m)) -> exists h m' D', cal_var_with_id m i = (h, m') /\ MInv m' (h :: hs) lk D' /\ mext hs m D m' D' /\
      forall rho, hv m' D' h rho = rho i) /\
  (~ In i (ord (mo m)) -> cal_var_with_id m i = (unull, m)).
Proof.
  intros I. pose proof (mi_ids _ _ _ _ I i) as Ids. unfold cal_var_with_id, numvars.
  split; intros H.
  - destruct (ret_var m hs lk D i I H) as (h & m' & D' & E & R1 & R2 & _ & R3). apply Ids in H.
    destruct (N.eqb_spec i 0); [lia|]. destruct (N.ltb_spec (N.of_nat (length (ord (mo m)))) i); [lia|].
    exists h, m', D'. auto.
  - destruct (N.eqb_spec i 0); auto. destruct (N.ltb_spec (N.of_nat (length (ord (mo m)))) i); auto.
    exfalso. apply H, Ids. lia.
Qed.
Lemma var_with_index_spec m hs lk D k : MInv m hs lk D ->
  (forall i, nth_error (ord (mo m)) (N.to_nat k) = Some i ->
      exists h m' D', cal_var_with_index m k = (h, m') /\ MInv m' (h :: hs) lk D' /\ mext hs m D m' D' /\
      forall rho, hv m' D' h rho = rho i) /\
  (nth_error (ord (mo m)) (N.to_nat k) = None -> cal_var_with_index m k = (unull, m)).
Proof.
  intros I. unfold cal_var_with_index, numvars.
  split; [intros i|]; intros H.
  - destruct (ret_var m hs lk D i I (nth_error_In _ _ H)) as (h & m' & D' & E & R1 & R2 & _ & R3).
    assert (L : (N.to_nat k < length (ord (mo m)))%nat) by (apply nth_error_Some; congruence).
    destruct (N.leb_spec (N.of_nat (length (ord (mo m)))) k); [lia|].
    rewrite (nth_error_nth _ _ 0 H). exists h, m', D'. auto.
  - apply nth_error_None in H. destruct (N.leb_spec (N.of_nat (length (ord (mo m)))) k); [auto|lia].
Qed.
