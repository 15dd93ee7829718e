(** * Associations keep the manager invariant. *)
From Coq Require Import Permutation Sorted.
From Verif Require Import Base BFModel ITEModel MgrModel ApiModel StoreInv Own EngInv ApplyProof BinopProof ReduceProof EngineProof
  OpProof MultiProof QProof GCProof VarProof MInv ApiProof ApiOps ApiStruct ApiVar GraphModel GraphProof GraphCube GraphCall AssocModel.

(** ** Variable ids *)

Lemma varids_in m i : idsok (mo m) -> (In i (varids m) <-> In i (ord (mo m))).
Proof.
  intros Ids. rewrite (Ids i). unfold varids. rewrite in_map_iff. split.
  - intros (k & <- & Ik). apply in_seq in Ik. lia.
  - intros H. exists (N.to_nat i). split; [lia|]. apply in_seq. lia.
Qed.
Lemma varids_nodup m : NoDup (varids m).
Proof.
  unfold varids. apply FinFun.Injective_map_NoDup; [intros a b; apply Nat2N.inj|]. apply seq_NoDup.
Qed.
Lemma varids_perm m : wfo (mo m) -> idsok (mo m) -> Permutation (varids m) (ord (mo m)).
Proof.
  intros Wo Ids. apply NoDup_Permutation; [apply varids_nodup|apply Wo|]. intros i. now apply varids_in.
Qed.

(** ** Counting references of associations *)

Lemma asum_lperm ids l l' b : Permutation l l' -> asum ids l b = asum ids l' b.
Proof. induction 1; simpl; lia. Qed.
Lemma acnt_ext ids mp mp' b : (forall i, In i ids -> mp i = mp' i) -> acnt ids mp b = acnt ids mp' b.
Proof. induction ids as [|i ids IH]; simpl; intros H; auto. rewrite H by auto. rewrite IH; auto. Qed.
Lemma acnt_none ids b : acnt ids (fun _ => None) b = 0.
Proof. induction ids; simpl; auto. Qed.
Definition ocnt (x : option edge) (b : N) : N := match x with Some e => b2n (eptr e =? b) | None => 0 end.
Lemma acnt_upd ids mp i e b : NoDup ids -> In i ids ->
  acnt ids (upd mp i (Some e)) b + ocnt (mp i) b = acnt ids mp b + b2n (eptr e =? b).
Proof.
  induction ids as [|k ids IH]; intros Nd Ii; [destruct Ii|]. apply NoDup_cons_iff in Nd as [Nk Nd]. cbn [acnt].
  destruct (N.eq_dec k i) as [->|Ne].
  - rewrite upd_same. rewrite (acnt_ext ids (upd mp i (Some e)) mp).
    + unfold ocnt. destruct (mp i); lia.
    + intros j Ij. apply upd_other. intros ->. auto.
  - rewrite upd_other by auto. destruct Ii as [->|Ii]; [congruence|]. specialize (IH Nd Ii). lia.
Qed.
Fixpoint pcnt (ps : list (N * edge)) (b : N) : N :=
  match ps with [] => 0 | p :: ps => b2n (eptr (snd p) =? b) + pcnt ps b end.

Lemma put_other ps : forall mp i, ~ In i (map fst ps) -> fold_left assoc_put ps mp i = mp i.
Proof.
  induction ps as [|[j e] ps IH]; simpl; intros mp i Ni; auto. rewrite IH by tauto.
  unfold assoc_put. simpl. apply upd_other. intros ->. tauto.
Qed.
Lemma put_in ps : forall mp i e, NoDup (map fst ps) -> In (i, e) ps -> fold_left assoc_put ps mp i = Some e.
Proof.
  induction ps as [|[j e'] ps IH]; simpl; intros mp i e Nd Hi; [tauto|]. apply NoDup_cons_iff in Nd as [Nj Nd].
  destruct Hi as [[= -> ->]|Hi].
  - rewrite put_other by auto. unfold assoc_put. simpl. apply upd_same.
  - now apply IH.
Qed.
Lemma put_const ps c : (forall p, In p ps -> snd p = c) -> forall mp i, In i (map fst ps) -> fold_left assoc_put ps mp i = Some c.
Proof.
  induction ps as [|[j e'] ps IH]; simpl; intros Hc mp i Hi; [tauto|].
  destruct (in_dec N.eq_dec i (map fst ps)) as [Ii|Ni]; [apply IH; auto|].
  destruct Hi as [->|]; [|tauto]. rewrite put_other by auto. unfold assoc_put. simpl. rewrite upd_same. f_equal. exact (Hc _ (or_introl eq_refl)).
Qed.
Lemma put_dom ps : forall mp i e, fold_left assoc_put ps mp i = Some e -> mp i = Some e \/ In (i, e) ps.
Proof.
  induction ps as [|[j e'] ps IH]; simpl; intros mp i e H; auto. destruct (IH _ _ _ H) as [H1|H1]; auto.
  unfold assoc_put in H1. simpl in H1. unfold upd in H1. destruct (N.eqb_spec i j) as [->|]; auto. injection H1 as ->. auto.
Qed.
Lemma acnt_put ids ps b : NoDup ids -> NoDup (map fst ps) -> (forall p, In p ps -> In (fst p) ids) ->
  forall mp, (forall p, In p ps -> mp (fst p) = None) ->
  acnt ids (fold_left assoc_put ps mp) b = acnt ids mp b + pcnt ps b.
Proof.
  intros Nd. induction ps as [|[j e] ps IH]; simpl; intros Np Hi mp Hm; [lia|]. apply NoDup_cons_iff in Np as [Nj Np].
  rewrite IH; auto.
  - pose proof (acnt_upd ids mp j e b Nd (Hi _ (or_introl eq_refl))) as A. unfold assoc_put. cbn [fst snd].
    pose proof (Hm (j, e) (or_introl eq_refl)) as A0. cbn [fst] in A0. rewrite A0 in A. cbn [ocnt] in A. lia.
  - intros p Ip. unfold assoc_put. simpl. rewrite upd_other; [apply Hm; auto|]. intros Ej. apply Nj. pose proof (in_map fst _ _ Ip) as Ij. congruence.
Qed.

Lemma last_fold o ps : forall z,
  (z <= fold_left (last_put o) ps z)%Z /\
  (forall p, In p ps -> (Z.of_N (idx o (fst p)) <= fold_left (last_put o) ps z)%Z) /\
  (fold_left (last_put o) ps z = z \/ exists p, In p ps /\ fold_left (last_put o) ps z = Z.of_N (idx o (fst p))).
Proof.
  induction ps as [|q ps IH]; simpl; intros z; [split; [lia|]; split; [tauto|auto]|].
  destruct (IH (last_put o z q)) as (L1 & L2 & L3).
  assert (Q : (z <= last_put o z q)%Z /\ (Z.of_N (idx o (fst q)) <= last_put o z q)%Z /\
              (last_put o z q = z \/ last_put o z q = Z.of_N (idx o (fst q)))).
  { unfold last_put. destruct (Z.ltb_spec z (Z.of_N (idx o (fst q)))); lia. }
  split; [lia|]. split.
  - intros p [<-|Ip]; [lia|auto].
  - destruct L3 as [L3|(p & Ip & Ep)]; [|right; exists p; auto].
    rewrite L3. destruct Q as (_ & _ & [Q|Q]); rewrite Q; [auto|]. right. exists q. auto.
Qed.

(** ** Counting up and down *)

Lemma QS_icrs o D ps : forall en x, (forall p, In p ps -> eptr (snd p) = ONE \/ isnode (st en) (eptr (snd p))) -> QS o D en x ->
  let en' := set_st en (fold_left (fun s p => icr s (snd p)) ps (st en)) in
  QS o D en' (fun b => x b + pcnt ps b) /\ sext (st en) D (st en') D.
Proof.
  induction ps as [|p ps IH]; intros en x H Q; simpl.
  - split; [|apply sext_refl]. destruct en. simpl. eapply QS_x_ext; [|exact Q]. intros b. simpl. lia.
  - pose proof (QS_icr o D en x (snd p) (H p (or_introl eq_refl)) Q) as Q1.
    destruct (IH (set_st en (icr (st en) (snd p))) (xadd x (eptr (snd p)))) as [Q2 X2]; auto.
    { intros q Iq. apply (H q). now right. }
    simpl in Q2, X2. split.
    + eapply QS_x_ext; [|exact Q2]. intros b. unfold xadd. simpl. lia.
    + eapply sext_trans; [apply sext_icr|exact X2].
Qed.

Lemma QS_release o D mp ids : forall en x, QS o D en (fun b => x b + acnt ids mp b) ->
  let en' := set_st en (fold_left (release mp) ids (st en)) in
  QS o D en' x /\ sext (st en) D (st en') D.
Proof.
  induction ids as [|i ids IH]; intros en x Q; simpl.
  - split; [|apply sext_refl]. destruct en. simpl. eapply QS_x_ext; [|exact Q]. intros b. simpl. lia.
  - destruct (mp i) as [e|] eqn:E.
    + assert (Q1 : QS o D (set_st en (dcr (st en) e)) (fun b => x b + acnt ids mp b)).
      { eapply QS_x_ext; [|apply (QS_dcr o D en (fun b => x b + acnt (i :: ids) mp b) e)]; auto.
        - intros b. unfold xsub. simpl. rewrite E. lia.
        - simpl. rewrite E, N.eqb_refl. simpl. lia. }
      destruct (IH _ _ Q1) as [Q2 X2]. unfold release at 2 4. rewrite E. split; [exact Q2|].
      eapply sext_trans; [apply (sext_dcr (st en) D e)|exact X2].
    + unfold release at 2 4. rewrite E. apply IH. eapply QS_x_ext; [|exact Q]. intros b. simpl. rewrite E. lia.
Qed.

(** ** Changing associations under the invariant *)

Definition with_assoc (m : mgr) (en : eng) (ca : cache) (l : list assoc) (t : assoc) (c : option N) : mgr :=
  M en (mo m) (muone m) (mvb m) ca l t c (mtop m) (mlim m) (mnl m) (mov m).

Lemma MInv_assoc m hs lk D en ca l t c : MInv m hs lk D ->
  QS (mo m) D en (fun b => hcnt hs b + asum (ord (mo m)) (t :: l) b + lk b + perm m b) ->
  sext (st (me m)) D (st en) D ->
  (forall a, In a (t :: l) -> AOk (mo m) (st en) a) ->
  StronglySorted N.lt (map aid l) -> (forall a, In a l -> 1 <= arc a /\ aid a < 4096) ->
  (forall i, c = Some i -> In i (map aid l)) -> (exists G, CInv G (with_assoc m en ca l t c) D) ->
  MInv (with_assoc m en ca l t c) hs lk D /\
  (forall h, In h hs -> forall rho, hv (with_assoc m en ca l t c) D h rho = hv m D h rho).
Proof.
  intros I Q X Ha Hs Hr Hc HG. pose proof I as [B1 B2 B3 B4 B5 B6 B7 B8 B9 B10 B11]. split.
  - constructor; auto.
    + simpl. destruct B4 as [I1 E1]. destruct (se_node _ _ _ _ X 0 _ I1) as [I1' [T1 _]]. split; auto. now rewrite T1.
    + simpl. intros i Ii. destruct (B5 i Ii) as (V1 & V2 & V3 & V4).
      destruct (se_node _ _ _ _ X _ _ V2) as [V2' [T1 T2]]. rewrite T1, T2. auto.
    + intros h Ih. simpl. eapply sext_uok; eauto.
    + split; [exact Hr|apply B9].
  - intros h Ih rho. simpl. destruct (sext_uok _ _ _ _ h X (B6 h Ih)) as [_ ->].
    eapply sext_dv; eauto. eapply MI_int; eauto.
Qed.

(** ** A new association *)

(** Quantification of the variables that [mp] mentions. *)
Fixpoint exq (mp : N -> option edge) (ids : list N) (k : bf) (rho : N -> bool) : bool :=
  match ids with
  | [] => k rho
  | i :: ids => match mp i with
                | Some _ => exq mp ids k (upd rho i true) || exq mp ids k (upd rho i false)
                | None => exq mp ids k rho
                end
  end.
Lemma exq_iff mp ids k : bext k -> forall rho, exq mp ids k rho = true <->
  exists rho', (forall i, ~ In i ids \/ mp i = None -> rho' i = rho i) /\ k rho' = true.
Proof.
  intros Ek. induction ids as [|i ids IH]; intros rho; cbn [exq].
  - split; [intros H; exists rho; auto|]. intros (r & E & H). rewrite <- H. apply Ek. intros i. symmetry. apply E. auto.
  - destruct (mp i) as [e|] eqn:M.
    + rewrite orb_true_iff, !IH. split.
      * assert (G : forall b rho', (forall j, ~ In j ids \/ mp j = None -> rho' j = upd rho i b j) -> k rho' = true ->
          exists rho', (forall j, ~ In j (i :: ids) \/ mp j = None -> rho' j = rho j) /\ k rho' = true).
        { intros b r E H. exists r. split; auto. intros j Hj. rewrite E; [|destruct Hj as [Hj|Hj]; [left; intros C; apply Hj; now right|auto]].
          apply upd_other. intros ->. destruct Hj as [Hj|Hj]; [apply Hj; now left|congruence]. }
        intros [(r & E & H)|(r & E & H)]; eapply G; eauto.
      * intros (r & E & H). destruct (r i) eqn:Ri; [left|right]; exists r; (split; [|auto]); intros j Hj;
          (destruct (N.eq_dec j i) as [->|Ne]; [now rewrite upd_same|]); rewrite upd_other by auto; apply E;
          (destruct Hj as [Hj|Hj]; [left; intros [C|C]; [congruence|tauto]|now right]).
    + rewrite IH. split; intros (r & E & H); exists r; (split; [|auto]); intros j Hj; apply E.
      * destruct Hj as [Hj|Hj]; [left; intros C; apply Hj; now right|auto].
      * destruct (N.eq_dec j i) as [->|Ne]; [right; exact M|]. destruct Hj as [Hj|Hj]; [left; intros [C|C]; [congruence|tauto]|now right].
Qed.
Lemma exq_ext mp ids k k' : (forall r, k r = k' r) -> forall rho, exq mp ids k rho = exq mp ids k' rho.
Proof.
  intros E. induction ids as [|i ids IH]; intros rho; simpl; auto. destruct (mp i); auto. now rewrite !IH.
Qed.

Definition sub_env (D : den) (mp : N -> option edge) (rho : N -> bool) : N -> bool :=
  fun i => match mp i with Some e => dv D e rho | None => rho i end.

(** The meaning of the operation codes after association [j] was created. *)
Definition ghost_add (G : ghost) (D : den) (mp : N -> option edge) (ids : list N) (j : N) : ghost := fun c f g =>
  if (c =? 16384 + j) || (c =? 20480 + j) then exq mp ids (fun r => f r && g r)
  else if c =? 32768 + j then (fun rho => f (sub_env D mp rho) && g (sub_env D mp rho))
  else G c f g.

Lemma CInv_add G m D en ca l t c mp last j n :
  CInv G m D -> (forall a, In a (massoc m) -> aid a < 4096) -> 36864 <= mtop m -> j < 4096 ->
  (forall a, In a (massoc m) -> aid a <> j) ->
  (forall i e, mp i = Some e -> In i (ord (mo m))) ->
  Permutation l (A j mp last n :: massoc m) -> ca = mca m ->
  (forall e, vedge (nodeR (st (me m))) e -> vedge (nodeR (st en)) e) ->
  CInv (ghost_add G D mp (ord (mo m)) j) (with_assoc m en ca l t c) D.
Proof.
  intros [C1 C2 C3 C4 C5 C6 C7] Hs Ht Hj Hn Hd P -> Vx.
  assert (In_ : forall a, In a l <-> a = A j mp last n \/ In a (massoc m)).
  { intros a. split; intros H.
    - apply (Permutation_in a P) in H. destruct H; auto.
    - apply (Permutation_in a (Permutation_sym P)). destruct H; [left|right]; auto. }
  assert (Old : forall c f g, live m c -> ghost_add G D mp (ord (mo m)) j c f g = G c f g).
  { intros k f g L. unfold ghost_add.
    assert (N3 : k <> 16384 + j /\ k <> 20480 + j /\ k <> 32768 + j).
    { destruct L as [(a & Ia & Ea)|[L|L]]; [|lia|lia]. pose proof (Hs a Ia). pose proof (Hn a Ia). lia. }
    destruct (N.eqb_spec k (16384 + j)); [tauto|]. destruct (N.eqb_spec k (20480 + j)); [tauto|].
    destruct (N.eqb_spec k (32768 + j)); [tauto|]. reflexivity. }
  assert (New : sem_quant mp (fun f g => exq mp (ord (mo m)) (fun r => f r && g r))).
  { intros f g Ef Eg rho. rewrite exq_iff.
    - split; intros (r & E & H).
      + apply andb_true_iff in H as [H1 H2]. exists r. auto.
      + exists r. split; [|apply andb_true_iff; auto]. intros i [Hi|Hi]; auto. apply E. destruct (mp i) eqn:Em; auto.
        elim Hi. eapply Hd; eauto.
    - intros r1 r2 E. now rewrite (Ef r1 r2 E), (Eg r1 r2 E). }
  constructor.
  - intros k f f' g g' E1 E2 r. unfold ghost_add. destruct (_ || _); [apply exq_ext; intros q; now rewrite E1, E2|].
    destruct (k =? 32768 + j); [now rewrite E1, E2|]. now apply C1.
  - intros k f g r. unfold ghost_add. destruct (_ || _); [apply exq_ext; intros q; apply andb_comm|].
    destruct (k =? 32768 + j); [apply andb_comm|]. apply C2.
  - intros k e H. destruct (C3 k e H) as (E0 & E1 & E2 & E3 & E4 & E5). split; auto.
    do 3 (split; [now apply Vx|]). split.
    + destruct E4 as [(a & Ia & Ea)|E4]; [left; exists a; split; auto; apply In_; auto|now right].
    + intros rho. rewrite E5. now rewrite Old.
  - intros a Ia. apply In_ in Ia as [->|Ia].
    + cbn [amap aid]. intros f g Ef Eg rho. unfold ghost_add. rewrite N.eqb_refl. simpl. now apply New.
    + intros f g Ef Eg rho. rewrite Old; [now apply C4|]. left. exists a. auto.
  - intros a Ia. apply In_ in Ia as [->|Ia].
    + cbn [amap aid]. intros f g Ef Eg rho. unfold ghost_add. rewrite N.eqb_refl, orb_true_r. now apply New.
    + intros f g Ef Eg rho. rewrite Old; [now apply C5|]. left. exists a. auto.
  - intros a Ia. apply In_ in Ia as [->|Ia].
    + cbn [amap aid]. intros f g Ef Eg rho. unfold ghost_add. rewrite N.eqb_refl.
      destruct (N.eqb_spec (32768 + j) (16384 + j)); [lia|]. destruct (N.eqb_spec (32768 + j) (20480 + j)); [lia|]. reflexivity.
    + intros f g Ef Eg rho. rewrite Old; [now apply C6|]. left. exists a. auto.
  - intros f g rho. rewrite Old; [apply C7|]. right. now right.
Qed.

(** The first unused id. *)
Lemma insert_spec mk l : forall i, StronglySorted N.lt (map aid l) -> (forall a, In a l -> i <= aid a) ->
  (forall k, aid (mk k) = k) ->
  let '(j, r) := assoc_insert mk i l in
  Permutation r (mk j :: l) /\ StronglySorted N.lt (map aid r) /\ (forall a, In a l -> aid a <> j) /\
  i <= j /\ j <= i + N.of_nat (length l).
Proof.
  induction l as [|p l IH]; intros i S Hi Hk; cbn [assoc_insert].
  - split; auto. split; [repeat constructor|]. split; [intros a []|]. simpl. lia.
  - simpl in S. apply StronglySorted_inv in S as [S F].
    destruct (N.eqb_spec (aid p) i) as [E|Ne].
    + specialize (IH (i + 1) S).
      destruct (assoc_insert mk (i + 1) l) as [j r].
      destruct IH as (P & S' & Nj & L1 & L2); auto.
      { intros a Ia. rewrite Forall_forall in F. specialize (F (aid a) (in_map aid _ _ Ia)). lia. }
      split; [rewrite P; apply perm_swap|]. split.
      * simpl. constructor; auto. rewrite Forall_forall. intros k Ik. apply in_map_iff in Ik as (a & <- & Ia).
        apply (Permutation_in a P) in Ia as [<-|Ia]; [rewrite Hk; lia|].
        rewrite Forall_forall in F. apply F. now apply in_map.
      * split; [intros a [<-|Ia]; [lia|auto]|]. simpl length. lia.
    + assert (Li : i < aid p) by (specialize (Hi p (or_introl eq_refl)); lia).
      assert (Fi : forall a, In a (p :: l) -> i < aid a).
      { intros a [<-|Ia]; auto. rewrite Forall_forall in F. specialize (F (aid a) (in_map aid _ _ Ia)). lia. }
      split; auto. split.
      * simpl. constructor; [constructor; auto|]. rewrite Hk. rewrite Forall_forall. intros k Ik.
        change (aid p :: map aid l) with (map aid (p :: l)) in Ik. apply in_map_iff in Ik as (a & <- & Ia). auto.
      * split; [intros a Ia; specialize (Fi a Ia); lia|]. lia.
Qed.

Lemma new_assoc m hs lk D (pr : bool) (ps : list (N * edge)) last j l :
  MInv m hs lk D -> (length (massoc m) < 4096)%nat ->
  (forall p, In p ps -> In (fst p) (ord (mo m)) /\ vedge (nodeR (st (me m))) (snd p)) ->
  (if pr then NoDup (map fst ps) else forall p, In p ps -> snd p = one) ->
  last = fold_left (last_put (mo m)) ps (-1)%Z ->
  assoc_insert (fun i => A i (fold_left assoc_put ps (fun _ => None)) last 1) 0 (massoc m) = (j, l) ->
  let m' := set_massoc (set_mst m (if pr then fold_left (fun s p => icr s (snd p)) ps (st (me m)) else st (me m))) l in
  MInv m' hs lk D /\ (forall h, In h hs -> forall rho, hv m' D h rho = hv m D h rho) /\
  Permutation l (A j (fold_left assoc_put ps (fun _ => None)) last 1 :: massoc m) /\ (forall a, In a (massoc m) -> aid a <> j).
Proof.
  intros I Hlen Hps Hpr -> HI. set (mp := fold_left assoc_put ps (fun _ => None)) in *.
  set (mk := fun i : N => A i mp (fold_left (last_put (mo m)) ps (-1)%Z) 1) in *.
  pose proof (insert_spec mk (massoc m) 0 (mi_srt _ _ _ _ I)) as IS. rewrite HI in IS.
  destruct IS as (P & S & Nj & _ & Lj); [intros; lia|reflexivity|].
  set (s1 := if pr then fold_left (fun s p => icr s (snd p)) ps (st (me m)) else st (me m)).
  set (en := set_st (me m) s1). intros m'.
  assert (E0 : m' = with_assoc m en (mca m) l (mtemp m) (mcur m)) by reflexivity.
  assert (Dom : forall i e, mp i = Some e -> In (i, e) ps).
  { intros i e H. unfold mp in H. apply put_dom in H as [H|H]; [discriminate|auto]. }
  assert (Q : QS (mo m) D en (fun b => hcnt hs b + asum (ord (mo m)) (mtemp m :: l) b + lk b + perm m b) /\ sext (st (me m)) D (st en) D).
  { assert (As : forall b, asum (ord (mo m)) (mtemp m :: l) b = acnt (ord (mo m)) mp b + asum (ord (mo m)) (mtemp m :: massoc m) b).
    { intros b. cbn [asum]. rewrite (asum_lperm _ _ _ b P). cbn [asum]. change (amap (mk j)) with mp. lia. }
    destruct pr.
    - destruct (QS_icrs (mo m) D ps (me m) (xr m hs lk)) as [Q X].
      { intros p Ip. apply vedge_ptr_node. now apply Hps. }
      { apply I. }
      split; [|exact X]. eapply QS_x_ext; [|exact Q]. intros b. rewrite As. unfold mp.
      rewrite (acnt_put (ord (mo m)) ps b); auto.
      + rewrite acnt_none. unfold xr. lia.
      + apply (wfo_nodup _ (mi_wfo _ _ _ _ I)).
      + intros p Ip. now apply Hps.
    - split; [|apply sext_refl]. apply (QS_x_one (mo m) D en (xr m hs lk)).
      + intros b Nb. rewrite As. enough (acnt (ord (mo m)) mp b = 0) as -> by (unfold xr; lia).
        assert (H : forall i e, mp i = Some e -> e = one) by (intros i e H; apply (Hpr (i, e)); auto).
        clear - H Nb. induction (ord (mo m)) as [|i ids IH]; simpl; auto. rewrite IH.
        destruct (mp i) as [e|] eqn:E; auto. rewrite (H i e E). simpl. destruct (N.eqb_spec ONE b); [congruence|reflexivity].
      + pose proof (mi_q _ _ _ _ I) as Q0. unfold en, s1. destruct (me m). exact Q0. }
  destruct Q as [Q X].
  assert (Al : forall a, In a l -> a = mk j \/ In a (massoc m)).
  { intros a Ia. apply (Permutation_in a P) in Ia as [<-|Ia]; auto. }
  rewrite E0. destruct (MInv_assoc m hs lk D en (mca m) l (mtemp m) (mcur m) I Q X) as [I' K]; auto.
  - intros a [<-|Ia]; [eapply AOk_sext; eauto; apply (mi_as _ _ _ _ I); now left|].
    apply Al in Ia as [->|Ia]; [|eapply AOk_sext; eauto; apply (mi_as _ _ _ _ I); now right].
    destruct (last_fold (mo m) ps (-1)%Z) as (_ & L2 & L3). constructor; cbn [mk amap alast].
    + intros i e H. apply Dom in H. destruct (Hps _ H) as [H1 H2]. split; auto. eapply sext_vedge; eauto.
    + intros i e H. apply Dom in H. apply (L2 _ H).
    + destruct L3 as [L3|(p & Ip & Ep)]; auto. right. destruct p as [i e]. simpl in Ep.
      assert (exists e', mp i = Some e') as [e' He'].
      { unfold mp. destruct pr; [exists e; apply put_in; auto|]. exists one. apply put_const; auto. apply (in_map fst _ _ Ip). }
      exists i, e'. auto.
  - intros a Ia. apply Al in Ia as [->|Ia]; [|now apply (mi_rc _ _ _ _ I)]. cbn [mk arc aid]. lia.
  - intros i Ei. apply (mi_cur _ _ _ _ I) in Ei. apply in_map_iff in Ei as (a & <- & Ia). apply in_map.
    apply (Permutation_in a (Permutation_sym P)). now right.
  - destruct (mi_cache _ _ _ _ I) as [G CG]. exists (ghost_add G D mp (ord (mo m)) j).
    eapply (CInv_add G m D en (mca m) l (mtemp m) (mcur m) mp _ j 1); eauto.
    + intros a Ia. now apply (mi_rc _ _ _ _ I).
    + apply (mi_rc _ _ _ _ I).
    + lia.
    + intros i e H. apply Dom in H. apply (Hps _ H).
    + intros e V. eapply sext_vedge; eauto.
Qed.

(** ** One more or one less use of an association *)

Lemma CInv_same G m D en ca l t c :
  CInv G m D -> (forall a, In a l -> exists a', In a' (massoc m) /\ aid a' = aid a /\ amap a' = amap a) ->
  (forall k e, ca k = Some e -> mca m k = Some e /\ live (with_assoc m en ca l t c) (cop e)) ->
  (forall e, vedge (nodeR (st (me m))) e -> vedge (nodeR (st en)) e) ->
  CInv G (with_assoc m en ca l t c) D.
Proof.
  intros [C1 C2 C3 C4 C5 C6 C7] Hl Hc Vx. constructor; auto.
  - intros k e H. destruct (Hc k e H) as [H1 H2]. destruct (C3 k e H1) as (E0 & E1 & E2 & E3 & E4 & E5). split; [exact E0|].
    do 3 (split; [now apply Vx|]). split; auto.
  - intros a Ia. destruct (Hl a Ia) as (a' & Ia' & <- & <-). now apply C4.
  - intros a Ia. destruct (Hl a Ia) as (a' & Ia' & <- & <-). now apply C5.
  - intros a Ia. destruct (Hl a Ia) as (a' & Ia' & <- & <-). now apply C6.
Qed.

Lemma set_st_same en : set_st en (st en) = en.
Proof. now destruct en. Qed.

(** The same associations with other counts. *)
Definition recount (f : assoc -> N) (l : list assoc) : list assoc := map (fun a => A (aid a) (amap a) (alast a) (f a)) l.
Lemma recount_spec m hs lk D f c : MInv m hs lk D -> (forall a, In a (massoc m) -> 1 <= f a) ->
  (forall i, c = Some i -> In i (map aid (massoc m))) ->
  let m' := set_mcur (set_massoc m (recount f (massoc m))) c in
  MInv m' hs lk D /\ (forall h, In h hs -> forall rho, hv m' D h rho = hv m D h rho).
Proof.
  intros I Hf Hc m'. unfold m'. clear m'.
  assert (E : set_mcur (set_massoc m (recount f (massoc m))) c = with_assoc m (me m) (mca m) (recount f (massoc m)) (mtemp m) c) by reflexivity.
  rewrite E. clear E.
  assert (Ad : map aid (recount f (massoc m)) = map aid (massoc m)) by (unfold recount; rewrite map_map; reflexivity).
  assert (Un : forall a, In a (recount f (massoc m)) -> exists b, In b (massoc m) /\ a = A (aid b) (amap b) (alast b) (f b)).
  { intros a Ia. unfold recount in Ia. apply in_map_iff in Ia as (b & <- & Ib). exists b. auto. }
  apply MInv_assoc; auto.
  - eapply QS_x_ext; [|apply I]. intros b. unfold xr. f_equal. f_equal. f_equal. cbn [asum]. f_equal.
    unfold recount. clear. induction (massoc m) as [|a l IH]; simpl; auto. rewrite <- IH. reflexivity.
  - apply sext_refl.
  - intros a [<-|Ia]; [apply (mi_as _ _ _ _ I); now left|]. destruct (Un a Ia) as (b & Ib & ->).
    destruct (mi_as _ _ _ _ I b (or_intror Ib)) as [B1 B2 B3]. constructor; auto.
  - rewrite Ad. apply I.
  - intros a Ia. destruct (Un a Ia) as (b & Ib & ->). cbn [arc aid]. split; auto. now apply (mi_rc _ _ _ _ I).
  - rewrite Ad. auto.
  - destruct (mi_cache _ _ _ _ I) as [G CG]. exists G. apply CInv_same; auto.
    + intros a Ia. destruct (Un a Ia) as (b & Ib & ->). exists b. auto.
    + intros k e H. split; auto. destruct CG as [_ _ C3 _ _ _ _]. destruct (C3 k e H) as (_ & _ & _ & _ & L & _).
      destruct L as [(a & Ia & Ea)|L]; [left|right; exact L].
      exists (A (aid a) (amap a) (alast a) (f a)). split; [|exact Ea]. simpl. unfold recount.
      apply (in_map (fun a => A (aid a) (amap a) (alast a) (f a)) _ _ Ia).
Qed.

Lemma share_spec ids mp l j l' : assoc_share ids mp l = Some (j, l') ->
  exists l1 p l2, l = l1 ++ p :: l2 /\ aid p = j /\ amap_eq ids (amap p) mp = true /\
    l' = l1 ++ A (aid p) (amap p) (alast p) (arc p + 1) :: l2.
Proof.
  revert j l'. induction l as [|p l IH]; simpl; intros j l'; [discriminate|].
  destruct (amap_eq ids (amap p) mp) eqn:E.
  - intros [= <- <-]. exists [], p, l. auto.
  - destruct (assoc_share ids mp l) as [[j0 l0]|]; [|discriminate]. intros [= <- <-].
    destruct (IH j0 l0 eq_refl) as (l1 & q & l2 & -> & Eq & Em & ->). exists (p :: l1), q, l2. auto.
Qed.
Lemma share_none ids mp l : assoc_share ids mp l = None -> forall p, In p l -> amap_eq ids (amap p) mp = false.
Proof.
  induction l as [|p l IH]; simpl; [tauto|]. destruct (amap_eq ids (amap p) mp) eqn:E; [discriminate|].
  destruct (assoc_share ids mp l) as [[]|]; [discriminate|]. intros _ q [<-|Iq]; auto.
Qed.

Lemma sorted_split (l1 : list assoc) p l2 : StronglySorted N.lt (map aid (l1 ++ p :: l2)) ->
  forall a, In a (l1 ++ l2) -> aid a <> aid p.
Proof.
  induction l1 as [|q l1 IH]; simpl; intros S a Ia; apply StronglySorted_inv in S as [S F].
  - rewrite Forall_forall in F. specialize (F (aid a) (in_map aid _ _ Ia)). lia.
  - destruct Ia as [<-|Ia]; [|now apply IH]. rewrite Forall_forall in F.
    specialize (F (aid p)). rewrite map_app in F. simpl in F. assert (aid q < aid p) by (apply F; apply in_or_app; right; now left). lia.
Qed.
Lemma recount_one l1 p l2 n : StronglySorted N.lt (map aid (l1 ++ p :: l2)) ->
  l1 ++ A (aid p) (amap p) (alast p) n :: l2 =
  recount (fun a => if aid a =? aid p then n else arc a) (l1 ++ p :: l2).
Proof.
  intros S. pose proof (sorted_split l1 p l2 S) as Ne. unfold recount. rewrite map_app. simpl. rewrite N.eqb_refl.
  assert (H : forall l, (forall a, In a l -> aid a <> aid p) ->
     map (fun a => A (aid a) (amap a) (alast a) (if aid a =? aid p then n else arc a)) l = l).
  { induction l as [|a l IH]; simpl; auto. intros Hl. f_equal; [|apply IH; auto].
    destruct (N.eqb_spec (aid a) (aid p)) as [E|_]; [elim (Hl a (or_introl eq_refl) E)|]. now destruct a. }
  rewrite !H; auto; intros a Ia; apply Ne; apply in_or_app; auto.
Qed.

Lemma quit_spec id l r : quit_list id l = Some r ->
  exists l1 p l2, l = l1 ++ p :: l2 /\ aid p = id /\
    r = (if arc p =? 1 then (l1 ++ l2, Some p) else (l1 ++ A (aid p) (amap p) (alast p) (arc p - 1) :: l2, None)).
Proof.
  revert r. induction l as [|p l IH]; simpl; intros r; [discriminate|].
  destruct (N.eqb_spec (aid p) id) as [E|E].
  - intros [= <-]. exists [], p, l. auto.
  - destruct (quit_list id l) as [[l0 r0]|]; [|discriminate]. intros [= <-].
    destruct (IH _ eq_refl) as (l1 & q & l2 & -> & Eq & Er). exists (p :: l1), q, l2. split; auto. split; auto.
    destruct (arc q =? 1); injection Er as -> ->; reflexivity.
Qed.
Lemma quit_none id l : quit_list id l = None -> ~ In id (map aid l).
Proof.
  induction l as [|p l IH]; simpl; [tauto|]. destruct (N.eqb_spec (aid p) id) as [E|E]; [discriminate|].
  destruct (quit_list id l) as [[]|]; [discriminate|]. intros _ [H|H]; [congruence|]. now apply IH.
Qed.

(** Without an association. *)
Lemma drop_assoc m hs lk D l1 p l2 c : MInv m hs lk D -> massoc m = l1 ++ p :: l2 ->
  (forall i, c = Some i -> In i (map aid (l1 ++ l2))) ->
  let m' := set_mcur (set_mca (set_massoc (set_mst m (fold_left (release (amap p)) (varids m) (st (me m)))) (l1 ++ l2))
                     (flush_assoc (aid p) (mca m))) c in
  MInv m' hs lk D /\ (forall h, In h hs -> forall rho, hv m' D h rho = hv m D h rho).
Proof.
  intros I El Hc m'. unfold m'. clear m'.
  assert (P : Permutation (massoc m) (p :: l1 ++ l2)) by (rewrite El; symmetry; apply Permutation_middle).
  assert (Sub : forall a, In a (l1 ++ l2) -> In a (massoc m)).
  { intros a Ia. apply (Permutation_in a (Permutation_sym P)). now right. }
  set (en := set_st (me m) (fold_left (release (amap p)) (varids m) (st (me m)))).
  assert (E : set_mcur (set_mca (set_massoc (set_mst m (fold_left (release (amap p)) (varids m) (st (me m)))) (l1 ++ l2))
                     (flush_assoc (aid p) (mca m))) c = with_assoc m en (flush_assoc (aid p) (mca m)) (l1 ++ l2) (mtemp m) c) by reflexivity.
  rewrite E. clear E.
  assert (Q : QS (mo m) D en (fun b => hcnt hs b + asum (ord (mo m)) (mtemp m :: l1 ++ l2) b + lk b + perm m b) /\ sext (st (me m)) D (st en) D).
  { apply QS_release. eapply QS_x_ext; [|apply I]. intros b. unfold xr. cbn [asum].
    rewrite (asum_lperm _ _ _ b P), (acnt_perm _ _ _ b (varids_perm m (mi_wfo _ _ _ _ I) (mi_ids _ _ _ _ I))). cbn [asum]. lia. }
  destruct Q as [Q X]. apply MInv_assoc; auto.
  - intros a [<-|Ia]; eapply AOk_sext; eauto; apply (mi_as _ _ _ _ I); [now left|right; auto].
  - pose proof (mi_srt _ _ _ _ I) as S. rewrite El in S. clear - S. induction l1 as [|q l1 IH]; simpl in *.
    + now apply StronglySorted_inv in S.
    + apply StronglySorted_inv in S as [S F]. constructor; auto. rewrite Forall_forall in *. intros k Ik. apply F.
      rewrite map_app in *. simpl. apply in_app_or in Ik. apply in_or_app. destruct Ik; auto. right. now right.
  - intros a Ia. now apply (mi_rc _ _ _ _ I), Sub.
  - destruct (mi_cache _ _ _ _ I) as [G CG]. exists G. apply CInv_same; auto.
    + intros a Ia. exists a. auto.
    + intros k e H. unfold flush_assoc in H. destruct (mca m k) as [e0|] eqn:Ek; [|discriminate].
      destruct (_ || _) eqn:Fl; [discriminate|]. injection H as <-. split; auto.
      destruct CG as [_ _ C3 _ _ _ _]. destruct (C3 k e0 Ek) as (_ & _ & _ & _ & L & _).
      destruct L as [(a & Ia & Ea)|L]; [left|right; exact L]. exists a. split; auto. simpl.
      apply (Permutation_in a P) in Ia as [<-|Ia]; auto. exfalso.
      apply orb_false_iff in Fl as [Fl F3]. apply orb_false_iff in Fl as [F1 F2]. apply N.eqb_neq in F1, F2, F3. lia.
    + intros e V. eapply sext_vedge; eauto.
Qed.

(** [Cal_AssociationQuit]. *)
Lemma assoc_quit_spec m hs lk D id : MInv m hs lk D ->
  let m' := cal_assoc_quit m id in
  MInv m' hs lk D /\ (forall h, In h hs -> forall rho, hv m' D h rho = hv m D h rho).
Proof.
  intros I m'. unfold m', cal_assoc_quit. clear m'.
  set (c := match mcur m with Some j => if j =? id then None else Some j | None => None end).
  assert (Hc : forall i, c = Some i -> i <> id /\ In i (map aid (massoc m))).
  { intros i. unfold c. destruct (mcur m) as [j|] eqn:Ec; [|discriminate]. destruct (N.eqb_spec j id); [discriminate|].
    intros [= <-]. split; auto. now apply (mi_cur _ _ _ _ I). }
  change (massoc (set_mcur m c)) with (massoc m). change (st (me (set_mcur m c))) with (st (me m)).
  change (varids (set_mcur m c)) with (varids m). change (mca (set_mcur m c)) with (mca m).
  destruct (quit_list id (massoc m)) as [r|] eqn:Eq.
  - destruct (quit_spec _ _ _ Eq) as (l1 & p & l2 & El & Ep & Er).
    destruct (N.eqb_spec (arc p) 1) as [R1|R1]; subst r.
    + rewrite <- Ep. apply (drop_assoc m hs lk D l1 p l2 c I El).
      intros i Ei. destruct (Hc i Ei) as [Ni Ii]. rewrite El, map_app in Ii. simpl in Ii. rewrite map_app.
      apply in_app_or in Ii. apply in_or_app. destruct Ii as [Ii|[Ii|Ii]]; auto. congruence.
    + assert (E : set_massoc (set_mcur m c) (l1 ++ A (aid p) (amap p) (alast p) (arc p - 1) :: l2) =
         set_mcur (set_massoc m (recount (fun a => if aid a =? aid p then arc p - 1 else arc a) (massoc m))) c).
      { rewrite El. rewrite <- recount_one; [reflexivity|]. rewrite <- El. apply I. }
      rewrite E. apply recount_spec; auto.
      * intros a Ia. pose proof (proj1 (proj1 (mi_rc _ _ _ _ I) a Ia)). destruct (aid a =? aid p); [|lia].
        assert (Ip : In p (massoc m)) by (rewrite El; apply in_or_app; right; now left).
        pose proof (proj1 (proj1 (mi_rc _ _ _ _ I) p Ip)). lia.
      * intros i Ei. now apply Hc.
  - assert (E : set_mcur m c = set_mcur (set_massoc m (recount arc (massoc m))) c).
    { unfold recount. replace (map _ (massoc m)) with (massoc m); [reflexivity|]. clear. induction (massoc m) as [|a l IH]; simpl; auto.
      rewrite <- IH. now destruct a. }
    rewrite E. apply recount_spec; auto.
    + intros a Ia. now apply (mi_rc _ _ _ _ I).
    + intros i Ei. now apply Hc.
Qed.

(** [Cal_AssociationSetCurrent]. *)
Lemma recount_id l : recount arc l = l.
Proof. induction l as [|a l IH]; simpl; auto. rewrite IH. now destruct a. Qed.
Lemma set_current_spec m hs lk D id : MInv m hs lk D ->
  let m' := snd (cal_assoc_set_current m id) in
  MInv m' hs lk D /\ (forall h, In h hs -> forall rho, hv m' D h rho = hv m D h rho).
Proof.
  intros I m'. unfold m'. clear m'.
  assert (G : forall c, (forall i, c = Some i -> In i (map aid (massoc m))) ->
     MInv (set_mcur m c) hs lk D /\ (forall h, In h hs -> forall rho, hv (set_mcur m c) D h rho = hv m D h rho)).
  { intros c Hc. assert (E : set_mcur m c = set_mcur (set_massoc m (recount arc (massoc m))) c) by (rewrite recount_id; reflexivity).
    rewrite E. apply recount_spec; auto. intros a Ia. now apply (mi_rc _ _ _ _ I). }
  destruct id as [j|]; cbn [cal_assoc_set_current snd]; [|apply G; discriminate].
  destruct (existsb _ (massoc m)) eqn:Ex; apply G; [|discriminate].
  intros i [= <-]. apply existsb_exists in Ex as (a & Ia & Ea). apply N.eqb_eq in Ea. subst j. now apply in_map.
Qed.

(** ** The temporary association *)

Lemma MInv_temp m hs lk D s t : MInv m hs lk D ->
  QS (mo m) D (set_st (me m) s) (fun b => hcnt hs b + asum (ord (mo m)) (t :: massoc m) b + lk b + perm m b) ->
  sext (st (me m)) D s D -> AOk (mo m) s t ->
  let m' := set_mtemp (set_mst m s) t in
  MInv m' hs lk D /\ (forall h, In h hs -> forall rho, hv m' D h rho = hv m D h rho).
Proof.
  intros I Q X At m'. assert (E : m' = with_assoc m (set_st (me m) s) (mca m) (massoc m) t (mcur m)) by reflexivity.
  rewrite E. apply MInv_assoc; auto.
  - intros a [<-|Ia]; auto. eapply AOk_sext; eauto. apply (mi_as _ _ _ _ I). now right.
  - apply I.
  - apply I.
  - apply I.
  - destruct (mi_cache _ _ _ _ I) as [G CG]. exists G. apply CInv_same; auto.
    + intros a Ia. exists a. auto.
    + intros k e H. split; auto. apply (ci_entry _ _ _ CG k e H).
    + intros e V. simpl. eapply sext_vedge; eauto.
Qed.

Lemma augment1_spec m hs lk D (pr : bool) p : MInv m hs lk D -> In (fst p) (ord (mo m)) -> vedge (nodeR (st (me m))) (snd p) ->
  (pr = false -> snd p = one) ->
  let m' := augment1 pr m p in
  MInv m' hs lk D /\ (forall h, In h hs -> forall rho, hv m' D h rho = hv m D h rho).
Proof.
  intros I Ip Vp Hpr m'. unfold m', augment1. clear m'. set (a := mtemp m).
  set (s1 := match amap a (fst p) with Some e => dcr (st (me m)) e | None => st (me m) end).
  assert (At : AOk (mo m) (st (me m)) a) by (apply (mi_as _ _ _ _ I); now left).
  assert (Nd : NoDup (ord (mo m))) by apply (wfo_nodup _ (mi_wfo _ _ _ _ I)).
  assert (Q1 : QS (mo m) D (set_st (me m) s1) (fun b => xr m hs lk b - ocnt (amap a (fst p)) b) /\ sext (st (me m)) D s1 D).
  { unfold s1. destruct (amap a (fst p)) as [e|] eqn:Ea.
    - split; [|apply sext_dcr]. apply (QS_dcr (mo m) D (me m) (xr m hs lk) e); [|apply I].
      pose proof (xr_as m hs lk a (fst p) e (or_introl eq_refl) Ip Ea). lia.
    - rewrite set_st_same. split; [|apply sext_refl]. eapply QS_x_ext; [|apply I]. intros b. simpl. lia. }
  destruct Q1 as [Q1 X1].
  set (s2 := if pr then icr s1 (snd p) else s1).
  set (t := A (aid a) (assoc_put (amap a) p) (last_put (mo m) (alast a) p) (arc a)).
  assert (Le : forall b, ocnt (amap a (fst p)) b <= acnt (ord (mo m)) (amap a) b).
  { intros b. clear - Ip. induction (ord (mo m)) as [|i ids IH]; [destruct Ip|]. cbn [acnt].
    destruct Ip as [->|Ip]; [unfold ocnt; destruct (amap a (fst p)); lia|]. specialize (IH Ip). lia. }
  assert (As : forall b, acnt (ord (mo m)) (amap t) b + ocnt (amap a (fst p)) b = acnt (ord (mo m)) (amap a) b + b2n (eptr (snd p) =? b)).
  { intros b. apply acnt_upd; auto. }
  assert (Q2 : QS (mo m) D (set_st (me m) s2) (fun b => hcnt hs b + asum (ord (mo m)) (t :: massoc m) b + lk b + perm m b) /\ sext (st (me m)) D s2 D).
  { unfold s2. destruct pr.
    - split; [|eapply sext_trans; [exact X1|apply sext_icr]].
      eapply QS_x_ext; [|apply (QS_icr (mo m) D (set_st (me m) s1) (fun b => xr m hs lk b - ocnt (amap a (fst p)) b) (snd p)); [|exact Q1]].
      + intros b. specialize (As b). specialize (Le b). unfold xadd, xr. cbn [asum]. fold a. lia.
      + apply vedge_ptr_node. eapply sext_vedge; eauto.
    - split; auto. eapply QS_x_one; [|exact Q1]. intros b Nb. specialize (As b). specialize (Le b). unfold xr. cbn [asum]. fold a.
      rewrite (Hpr eq_refl) in As. change (eptr one) with ONE in As. destruct (N.eqb_spec ONE b); [congruence|]. unfold b2n in As.
      replace (acnt (ord (mo m)) (amap t) b) with (acnt (ord (mo m)) (amap a) b - ocnt (amap a (fst p)) b) by lia. lia. }
  destruct Q2 as [Q2 X2]. apply MInv_temp; auto.
  destruct At as [B1 B2 B3]. constructor; cbn [t amap alast].
  - intros i e H. unfold assoc_put in H. unfold upd in H. destruct (N.eqb_spec i (fst p)) as [->|Ni].
    + injection H as <-. split; auto. eapply sext_vedge; eauto.
    + destruct (B1 i e H) as [H1 H2]. split; auto. eapply sext_vedge; eauto.
  - intros i e H. unfold assoc_put in H. unfold upd in H. unfold last_put.
    destruct (N.eqb_spec i (fst p)) as [->|Ni].
    + destruct (Z.ltb_spec (alast a) (Z.of_N (idx (mo m) (fst p)))); lia.
    + specialize (B2 i e H). destruct (Z.ltb_spec (alast a) (Z.of_N (idx (mo m) (fst p)))); lia.
  - unfold last_put. destruct (Z.ltb_spec (alast a) (Z.of_N (idx (mo m) (fst p)))).
    + right. exists (fst p), (snd p). split; auto. unfold assoc_put. apply upd_same.
    + destruct B3 as [B3|(i & e & E1 & E2)]; auto. right. unfold assoc_put.
      destruct (N.eq_dec i (fst p)) as [->|Ni]; [exists (fst p), (snd p)|exists i, e]; (split; [|auto]).
      * apply upd_same.
      * rewrite upd_other; auto.
Qed.

Lemma augment_spec hs lk D (pr : bool) ps : forall m, MInv m hs lk D ->
  (forall p, In p ps -> In (fst p) (ord (mo m)) /\ vedge (nodeR (st (me m))) (snd p) /\ (pr = false -> snd p = one)) ->
  let m' := fold_left (augment1 pr) ps m in
  MInv m' hs lk D /\ (forall h, In h hs -> forall rho, hv m' D h rho = hv m D h rho) /\
  massoc m' = massoc m /\ mcur m' = mcur m /\ mo m' = mo m /\ sext (st (me m)) D (st (me m')) D /\
  amap (mtemp m') = fold_left assoc_put ps (amap (mtemp m)).
Proof.
  induction ps as [|p ps IH]; intros m I H; cbn [fold_left].
  - split; auto. split; auto. do 3 (split; [reflexivity|]). split; [apply sext_refl|reflexivity].
  - destruct (H p (or_introl eq_refl)) as (H1 & H2 & H3).
    destruct (augment1_spec m hs lk D pr p I H1 H2 H3) as [I1 K1].
    assert (X1 : sext (st (me m)) D (st (me (augment1 pr m p))) D).
    { unfold augment1. simpl. destruct (amap (mtemp m) (fst p)); destruct pr;
        repeat (first [apply sext_refl|apply sext_icr|apply sext_dcr|eapply sext_trans; [apply sext_dcr|apply sext_icr]]). }
    destruct (IH (augment1 pr m p) I1) as (I2 & K2 & E1 & E2 & E3 & X2 & E4).
    { intros q Iq. destruct (H q (or_intror Iq)) as (G1 & G2 & G3). split; auto. split; auto. eapply sext_vedge; eauto. }
    split; auto. split; [intros h Ih rho; rewrite K2, K1; auto|].
    do 3 (split; [assumption|]). split; [eapply sext_trans; eauto|]. rewrite E4. reflexivity.
Qed.

Lemma temp_quit_spec m hs lk D : MInv m hs lk D ->
  let m' := cal_temp_quit m in
  MInv m' hs lk D /\ (forall h, In h hs -> forall rho, hv m' D h rho = hv m D h rho) /\
  (forall i, amap (mtemp m') i = None) /\ massoc m' = massoc m.
Proof.
  intros I m'. unfold m', cal_temp_quit. clear m'. set (a := mtemp m).
  set (s := fold_left (release (amap a)) (varids m) (st (me m))).
  set (t := A (aid a) (fun i => if existsb (N.eqb i) (varids m) then None else amap a i) (-1) (arc a)).
  assert (At : AOk (mo m) (st (me m)) a) by (apply (mi_as _ _ _ _ I); now left).
  assert (Tn : forall i, amap t i = None).
  { intros i. cbn [t amap]. destruct (existsb (N.eqb i) (varids m)) eqn:Ex; auto. destruct (amap a i) as [e|] eqn:Ea; auto.
    exfalso. apply not_true_iff_false in Ex. apply Ex. apply existsb_exists. exists i. split; [|apply N.eqb_refl].
    apply varids_in; [apply I|]. apply (ao_dom _ _ _ At i e Ea). }
  assert (Q : QS (mo m) D (set_st (me m) s) (fun b => hcnt hs b + asum (ord (mo m)) (t :: massoc m) b + lk b + perm m b) /\ sext (st (me m)) D s D).
  { apply QS_release. eapply QS_x_ext; [|apply I]. intros b. unfold xr. cbn [asum]. fold a.
    rewrite (acnt_perm _ _ _ b (varids_perm m (mi_wfo _ _ _ _ I) (mi_ids _ _ _ _ I))).
    rewrite (acnt_ext _ (amap t) (fun _ => None)) by auto. rewrite acnt_none. lia. }
  destruct Q as [Q X]. destruct (MInv_temp m hs lk D s t I Q X) as [I1 K1].
  - constructor; auto; intros i e H; rewrite Tn in H; discriminate.
  - auto.
Qed.

(** ** The calls that take an array of handles *)

Lemma check_pairs_iff mm n : forall l, (length l < n)%nat ->
  (check_pairs mm l = true <-> forall p, In p (pairs l) -> type_aux mm (uint mm (fst p)) = TYPE_POSVAR).
Proof.
  induction n; intros l H; [lia|]. destruct l as [|a [|b l]]; simpl; try (split; [tauto|auto]).
  rewrite andb_true_iff, N.eqb_eq, (IHn l) by (simpl in H; lia). split.
  - intros [H1 H2] p [<-|Ip]; auto.
  - intros G. split; [apply (G (a, b)); auto|]. intros p Ip. apply G. auto.
Qed.

(** What the elements of the array stand for. *)
Definition lists (m : mgr) (D : den) (pr : bool) (l : list ubdd) (i : N) (e : edge) : Prop :=
  if pr then exists p, In p (pairs l) /\ (forall rho, hv m D (fst p) rho = rho i) /\ e = uint (mmem m) (snd p)
  else exists h, In h l /\ i = eid (uint (mmem m) h) /\ e = one.
Definition listable (m : mgr) (D : den) (pr : bool) (l : list ubdd) : Prop :=
  if pr then forall p, In p (pairs l) -> exists i, forall rho, hv m D (fst p) rho = rho i else True.

Section Listed.
Variables (m : mgr) (hs : list ubdd) (lk : N -> N) (D : den) (pr : bool) (l : list ubdd).
Hypothesis I : MInv m hs lk D.
Hypothesis Hl : forall h, In h l -> In h hs.

Lemma listable_iff : (if pr then check_pairs (mmem m) l else true) = true <-> listable m D pr l.
Proof.
  unfold listable. destruct pr; [|tauto]. rewrite (check_pairs_iff (mmem m) (S (length l)) l) by lia.
  split; intros H p Ip; destruct (pairs_in (S (length l)) l p (Nat.lt_succ_diag_r _) Ip) as [H1 _];
    pose proof (type_lit (mo m) D (st (me m)) (mi_wfo _ _ _ _ I) (MI_swf _ _ _ _ I) (MI_dok _ _ _ _ I) _ true (MI_int _ _ _ _ (fst p) I (Hl _ H1))) as L; cbv iota in L.
  - destruct (proj1 L (H p Ip)) as [i Hi]. exists i. intros rho. rewrite Hi. now destruct (rho i).
  - apply L. destruct (H p Ip) as [i Hi]. exists i. intros rho. rewrite Hi. now destruct (rho i).
Qed.
Lemma var_handle h i : In h hs -> (forall rho, hv m D h rho = rho i) -> eid (uint (mmem m) h) = i /\ In i (ord (mo m)).
Proof.
  intros Ih H. pose proof (MI_int _ _ _ _ h I Ih) as V.
  destruct (literal_edge (mo m) D (st (me m)) (mi_wfo _ _ _ _ I) (MI_swf _ _ _ _ I) (MI_dok _ _ _ _ I) _ i true V) as (C & E & _).
  { intros rho. rewrite H. now destruct (rho i). }
  split; auto. rewrite <- E. now apply (top_depends m hs lk D h I Ih C).
Qed.

Hypothesis Hc : pr = false -> forall h, In h l -> isconst (uint (mmem m) h) = false.
Hypothesis Ok_ : listable m D pr l.

Let ps := assoc_list (mmem m) pr l.
Let mp := fold_left assoc_put ps (fun _ => None).

Lemma list_in i e : In (i, e) ps <-> lists m D pr l i e.
Proof.
  unfold ps, assoc_list, lists, listable in *. destruct pr; rewrite in_map_iff.
  - split.
    + intros (p & Ep & Ip). apply pair_equal_spec in Ep as [<- <-]. exists p. split; auto. split; auto. destruct (Ok_ p Ip) as [i0 Hi].
      destruct (pairs_in (S (length l)) l p (Nat.lt_succ_diag_r _) Ip) as [H1 _].
      destruct (var_handle (fst p) i0 (Hl _ H1) Hi) as [-> _]. auto.
    + intros (p & Ip & Hi & ->). exists p. split; auto. destruct (pairs_in (S (length l)) l p (Nat.lt_succ_diag_r _) Ip) as [H1 _].
      destruct (var_handle (fst p) i (Hl _ H1) Hi) as [-> _]. auto.
  - split; [intros (h & Ep & Ih); apply pair_equal_spec in Ep as [<- <-]|intros (h & Ih & -> & ->)]; exists h; auto.
Qed.
Lemma list_ok p : In p ps -> In (fst p) (ord (mo m)) /\ vedge (nodeR (st (me m))) (snd p) /\ (pr = false -> snd p = one).
Proof.
  destruct p as [i e]. intros Ip. apply list_in in Ip. unfold lists in Ip. cbn [fst snd]. destruct pr.
  - destruct Ip as (p & Ip & Hi & ->). destruct (pairs_in (S (length l)) l p (Nat.lt_succ_diag_r _) Ip) as [H1 H2].
    split; [now apply (var_handle (fst p) i (Hl _ H1))|]. split; [eapply MI_int; eauto|discriminate].
  - destruct Ip as (h & Ih & -> & ->). split; [apply (top_depends m hs lk D h I (Hl _ Ih) (Hc eq_refl h Ih))|]. split; auto. apply vedge_one.
Qed.
Hypothesis Hn : pr = true -> NoDup (map fst (pairs l)).
Lemma list_nodup : if pr then NoDup (map fst ps) else forall p, In p ps -> snd p = one.
Proof.
  pose proof list_ok as LO. pose proof list_in as LI. unfold ps, assoc_list, listable in *. destruct pr; [|intros p Ip; now apply LO].
  rewrite map_map. cbn [fst]. rewrite <- map_map with (g := fun h => eid (uint (mmem m) h)) (f := fst).
  assert (G : forall k, NoDup k -> (forall h, In h k -> In h hs /\ exists i, forall rho, hv m D h rho = rho i) -> NoDup (map (fun h => eid (uint (mmem m) h)) k)).
  { clear - I Hl. induction k as [|h k IH]; simpl; intros Nd H; [constructor|]. apply NoDup_cons_iff in Nd as [Nh Nd]. constructor; [|auto].
    intros Ie. apply in_map_iff in Ie as (h' & Ee & Ih'). apply Nh. destruct (H h (or_introl eq_refl)) as (J1 & i & Hi).
    destruct (H h' (or_intror Ih')) as (J2 & i' & Hi'). destruct (var_handle h i J1 Hi) as [E1 _]. destruct (var_handle h' i' J2 Hi') as [E2 _].
    assert (i = i') by (rewrite <- E1, <- E2; symmetry; exact Ee). clear E1 E2. subst i'.
    assert (Eq : ueq h h' = true). { apply (handle_eq m hs lk D h h' I J1 J2). intros rho. transitivity (rho i); [apply Hi|symmetry; apply Hi']. }
    unfold ueq in Eq. apply andb_true_iff in Eq as [Q1 Q2]. apply N.eqb_eq in Q1. apply Bool.eqb_prop in Q2.
    destruct h, h'. simpl in *. subst. exact Ih'. }
  apply G; [auto|]. intros h Ih. apply in_map_iff in Ih as (p & <- & Ip). destruct (pairs_in (S (length l)) l p (Nat.lt_succ_diag_r _) Ip) as [H1 _]. auto.
Qed.
Lemma list_map i e : mp i = Some e <-> lists m D pr l i e.
Proof.
  rewrite <- list_in. unfold mp. pose proof list_nodup as N. split.
  - intros H. destruct (put_dom ps _ _ _ H); [discriminate|auto].
  - intros H. destruct pr; [now apply put_in|]. rewrite (put_const ps one N); [|exact (in_map fst _ _ H)]. f_equal. symmetry. exact (N _ H).
Qed.

(** Edges of the store are equal when their functions are. *)
Definition msame (mp1 mp2 : N -> option edge) : Prop :=
  forall i, match mp1 i, mp2 i with Some a, Some b => forall rho, dv D a rho = dv D b rho | None, None => True | _, _ => False end.
Lemma amap_eq_iff (mp1 mp2 : N -> option edge) :
  (forall i e, mp1 i = Some e -> In i (ord (mo m)) /\ vedge (nodeR (st (me m))) e) ->
  (forall i e, mp2 i = Some e -> In i (ord (mo m)) /\ vedge (nodeR (st (me m))) e) ->
  (amap_eq (varids m) mp1 mp2 = true <-> msame mp1 mp2).
Proof.
  intros V1 V2. unfold amap_eq, msame. rewrite forallb_forall. split.
  - intros H i. assert (J : In i (ord (mo m)) \/ mp1 i = None /\ mp2 i = None).
    { destruct (mp1 i) eqn:E1; [left; now apply (V1 i _ E1)|]. destruct (mp2 i) eqn:E2; [left; now apply (V2 i _ E2)|auto]. }
    destruct J as [Ii|[-> ->]]; auto. specialize (H i). rewrite (varids_in m i (mi_ids _ _ _ _ I)) in H. specialize (H Ii).
    unfold oeq in H. destruct (mp1 i) as [a|] eqn:E1, (mp2 i) as [b|] eqn:E2; try discriminate; auto.
    intros rho. now rewrite (eeq_valid (mo m) (st (me m)) a b (MI_swf _ _ _ _ I) (proj2 (V1 _ _ E1)) (proj2 (V2 _ _ E2)) H).
  - intros H i _. specialize (H i). unfold oeq. destruct (mp1 i) as [a|] eqn:E1, (mp2 i) as [b|] eqn:E2; auto; try tauto.
    rewrite (canon (mo m) D (st (me m)) (mi_wfo _ _ _ _ I) (MI_swf _ _ _ _ I) (MI_dok _ _ _ _ I) a b (proj2 (V1 _ _ E1)) (proj2 (V2 _ _ E2)) H).
    apply eeq_refl.
Qed.
End Listed.

Lemma check_assoc_ok ds m hs lk D l pr : MInv m hs lk D -> (forall h, In h l -> In h hs) ->
  exists m1 D1, MInv m1 hs lk D1 /\ mext hs m D m1 D1 /\
    check_assoc ds m l pr = Ok (if pr then check_pairs (mmem m1) l else true, m1).
Proof.
  intros I Hl. destruct (preproc_each_spec hs lk l D ds m I Hl) as (m1 & D1 & E & I1 & X1).
  exists m1, D1. split; auto. split; auto. unfold check_assoc, array_preproc. rewrite E. reflexivity.
Qed.

(** The arguments a client may pass: without pairs no constants. *)
Definition alist (m : mgr) (pr : bool) (l : list ubdd) : Prop := pr = false -> forall h, In h l -> cal_isconst m h = false.
Lemma alist_int m hs lk D pr l : MInv m hs lk D -> (forall h, In h l -> In h hs) -> alist m pr l ->
  pr = false -> forall h, In h l -> isconst (uint (mmem m) h) = false.
Proof. intros I Hl H P h Ih. rewrite (isconst_int m hs lk D h I); auto. Qed.
Lemma alist_mext m hs lk D m1 D1 pr l : MInv m hs lk D -> MInv m1 hs lk D1 -> mext hs m D m1 D1 -> (forall h, In h l -> In h hs) ->
  alist m pr l -> alist m1 pr l.
Proof.
  intros I I1 X Hl H P h Ih. specialize (H P h Ih).
  unfold cal_isconst, cal_isone, cal_iszero, cal_one, cal_zero in *. now rewrite (mx_one _ _ _ _ _ X).
Qed.

Theorem assoc_init_spec ds m hs lk D l pr : MInv m hs lk D -> (forall h, In h l -> In h hs) ->
  (length (massoc m) < 4096)%nat -> alist m pr l -> (pr = true -> NoDup (map fst (pairs l))) ->
  exists m1 D1, MInv m1 hs lk D1 /\ mext hs m D m1 D1 /\
   ((~ listable m1 D1 pr l /\ cal_assoc_init ds m l pr = Ok (None, m1)) \/
    (listable m1 D1 pr l /\ exists mp last j m', (forall i e, mp i = Some e <-> lists m1 D1 pr l i e) /\
       cal_assoc_init ds m l pr = Ok (Some j, m') /\ MInv m' hs lk D1 /\
       (forall h, In h hs -> forall rho, hv m' D1 h rho = hv m1 D1 h rho) /\ mo m' = mo m1 /\ mcur m' = mcur m1 /\
       ((exists l1 p l2, massoc m1 = l1 ++ p :: l2 /\ aid p = j /\ msame D1 (amap p) mp /\
           massoc m' = l1 ++ A (aid p) (amap p) (alast p) (arc p + 1) :: l2) \/
        ((forall p, In p (massoc m1) -> ~ msame D1 (amap p) mp) /\ (forall a, In a (massoc m1) -> aid a <> j) /\
         Permutation (massoc m') (A j mp last 1 :: massoc m1))))).
Proof.
  intros I Hl Len Al Nd. destruct (check_assoc_ok ds m hs lk D l pr I Hl) as (m1 & D1 & I1 & X1 & Ec).
  exists m1, D1. split; auto. split; auto. unfold cal_assoc_init. rewrite (upto_null_live m hs lk D l I Hl), Ec. cbn [obind].
  pose proof (listable_iff m1 hs lk D1 pr l I1 Hl) as L.
  destruct (if pr then check_pairs (mmem m1) l else true).
  2:{ left. split; auto. intros H. apply L in H. discriminate. }
  right. assert (Lok : listable m1 D1 pr l) by now apply L. clear L. split; auto.
  assert (Hc := alist_int m1 hs lk D1 pr l I1 Hl (alist_mext m hs lk D m1 D1 pr l I I1 X1 Hl Al)).
  pose proof (list_ok m1 hs lk D1 pr l I1 Hl Hc Lok) as LO.
  pose proof (list_nodup m1 hs lk D1 pr l I1 Hl Hc Lok Nd) as LN. pose proof (list_map m1 hs lk D1 pr l I1 Hl Hc Lok Nd) as LM.
  cbv zeta in LO, LN, LM. cbn [negb]. cbv zeta.
  set (ps := assoc_list (mmem m1) pr l) in *. set (mp := fold_left assoc_put ps (fun _ => None)) in *.
  exists mp, (fold_left (last_put (mo m1)) ps (-1)%Z).
  assert (Len1 : (length (massoc m1) < 4096)%nat).
  { pose proof (mx_as _ _ _ _ _ X1) as F. assert (length (massoc m) = length (massoc m1)) by (clear -F; induction F; simpl; congruence). lia. }
  assert (Vm : forall i e, mp i = Some e -> In i (ord (mo m1)) /\ vedge (nodeR (st (me m1))) e).
  { intros i e H. unfold mp in H. destruct (put_dom ps _ _ _ H) as [|Ip]; [discriminate|]. destruct (LO _ Ip) as (H1 & H2 & _). auto. }
  assert (Va : forall p, In p (massoc m1) -> forall i e, amap p i = Some e -> In i (ord (mo m1)) /\ vedge (nodeR (st (me m1))) e).
  { intros p Ip i e H. exact (ao_dom _ _ _ (mi_as _ _ _ _ I1 p (or_intror Ip)) i e H). }
  destruct (assoc_share (varids m1) mp (massoc m1)) as [[j l']|] eqn:Es.
  - destruct (share_spec _ _ _ _ _ Es) as (l1 & p & l2 & El & Ej & Em & El'). exists j, (set_massoc m1 l'). split; auto. split; auto.
    assert (Ip : In p (massoc m1)) by (rewrite El; apply in_or_app; right; now left).
    pose proof (recount_one l1 p l2 (arc p + 1)) as RO. 
    assert (S1 : StronglySorted N.lt (map aid (l1 ++ p :: l2))) by (rewrite <- El; apply I1). specialize (RO S1).
    match type of RO with _ = recount ?f _ => destruct (recount_spec m1 hs lk D1 f (mcur m1) I1) as [I2 K2] end.
    { intros a Ia. cbv beta. destruct (aid a =? aid p); [lia|]. now apply (mi_rc _ _ _ _ I1). }
    { apply I1. }
    rewrite El, <- RO in I2, K2. rewrite El'. split; [exact I2|]. split; [exact K2|]. split; [reflexivity|]. split; [reflexivity|].
    left. exists l1, p, l2. split; auto. split; auto. split; auto.
    exact (proj1 (amap_eq_iff m1 hs lk D1 I1 (amap p) mp (Va p Ip) Vm) Em).
  - destruct (assoc_insert _ 0 (massoc m1)) as [j l'] eqn:Ei. 
    assert (LO' : forall p, In p ps -> In (fst p) (ord (mo m1)) /\ vedge (nodeR (st (me m1))) (snd p)).
    { intros p Ip. destruct (LO p Ip) as (H1 & H2 & _). auto. }
    destruct (new_assoc m1 hs lk D1 pr ps _ j l' I1 Len1 LO' LN eq_refl Ei) as (I2 & K2 & P2 & N2).
    eexists j, _. split; auto. split; [reflexivity|]. split; [exact I2|]. split; [exact K2|]. split; [reflexivity|]. split; [reflexivity|].
    right. split; [|split; auto]. intros p Ip Hs. apply (amap_eq_iff m1 hs lk D1 I1 (amap p) mp (Va p Ip) Vm) in Hs.
    now rewrite (share_none _ _ _ Es p Ip) in Hs.
Qed.

Lemma put_override ps : forall mp0 i, fold_left assoc_put ps mp0 i = match fold_left assoc_put ps (fun _ => None) i with Some e => Some e | None => mp0 i end.
Proof.
  induction ps as [|p ps IH]; intros mp0 i; cbn [fold_left]; auto. rewrite IH, (IH (assoc_put (fun _ => None) p)).
  destruct (fold_left assoc_put ps (fun _ => None) i); auto. unfold assoc_put, upd. now destruct (i =? fst p).
Qed.

Theorem temp_augment_full ds m hs lk D l pr : MInv m hs lk D -> (forall h, In h l -> In h hs) -> alist m pr l ->
  exists m1 D1 m', MInv m1 hs lk D1 /\ mext hs m D m1 D1 /\ cal_temp_augment ds m l pr = Ok m' /\ MInv m' hs lk D1 /\
    (forall h, In h hs -> forall rho, hv m' D1 h rho = hv m1 D1 h rho) /\ massoc m' = massoc m1 /\ mo m' = mo m1 /\
    ((~ listable m1 D1 pr l /\ m' = m1) \/
     (listable m1 D1 pr l /\ amap (mtemp m') = fold_left assoc_put (assoc_list (mmem m1) pr l) (amap (mtemp m1)))).
Proof.
  intros I Hl Al. destruct (check_assoc_ok ds m hs lk D l pr I Hl) as (m1 & D1 & I1 & X1 & Ec).
  unfold cal_temp_augment. rewrite (upto_null_live m hs lk D l I Hl), Ec. cbn [obind].
  pose proof (listable_iff m1 hs lk D1 pr l I1 Hl) as L.
  destruct (if pr then check_pairs (mmem m1) l else true).
  2:{ exists m1, D1, m1. cbn [negb]. do 5 (split; [auto|]). split; auto. split; auto. left. split; auto. intros H. apply L in H. discriminate. }
  assert (Lok : listable m1 D1 pr l) by now apply L. clear L. cbn [negb].
  assert (Hc := alist_int m1 hs lk D1 pr l I1 Hl (alist_mext m hs lk D m1 D1 pr l I I1 X1 Hl Al)).
  pose proof (list_ok m1 hs lk D1 pr l I1 Hl Hc Lok) as LO. cbv zeta in LO.
  destruct (augment_spec hs lk D1 pr (assoc_list (mmem m1) pr l) m1 I1 LO) as (I2 & K2 & E1 & E2 & E3 & E4 & E5).
  eexists m1, D1, _. split; [exact I1|]. split; [exact X1|]. split; [reflexivity|]. split; [exact I2|]. split; [exact K2|].
  split; [exact E1|]. split; [exact E3|]. right. auto.
Qed.

Theorem temp_augment_spec ds m hs lk D l pr : MInv m hs lk D -> (forall h, In h l -> In h hs) -> alist m pr l ->
  exists m' D', cal_temp_augment ds m l pr = Ok m' /\ MInv m' hs lk D' /\
    (forall h, In h hs -> forall rho, hv m' D' h rho = hv m D h rho) /\ Forall2 (arel D D') (massoc m) (massoc m').
Proof.
  intros I Hl Al. destruct (temp_augment_full ds m hs lk D l pr I Hl Al) as (m1 & D1 & m' & I1 & X1 & E & I' & K & E1 & _).
  exists m', D1. split; auto. split; auto. rewrite E1. split; [|apply X1].
  intros h Ih rho. rewrite K by auto. now apply X1.
Qed.
