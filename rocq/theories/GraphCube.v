(** * Satisfying cubes. *)
From Coq Require Import Permutation Sorted.
From Verif Require Import Base BFModel ITEModel MgrModel ApiModel StoreInv Own EngInv ApplyProof BinopProof ReduceProof
  EngineProof OpProof MultiProof QProof GCProof VarProof MInv ApiProof ApiOps ApiStruct GraphModel GraphProof.
Open Scope N_scope.

Section Cube.
Variables (o : order) (x : N -> N).
Hypothesis Wo : wfo o.

Lemma cube_node_spec D en i pos t r s' : QS o D en x -> In i (ord o) -> vedge (nodeR (st en)) t -> gt_idx o i t ->
  cube_node (st en) i pos t = (r, s') ->
  exists D', QS o D' (set_st en s') x /\ sext (st en) D s' D' /\ vedge (nodeR s') r /\ idx o i <= idx o (eid r) /\
    forall rho, dv D' r rho = Bool.eqb (rho i) pos && dv D t rho.
Proof.
  intros Q Ii Vt Gt H. pose proof (QS_dok _ _ _ _ Q) as K.
  assert (Gz : gt_idx o i zero) by (unfold gt_idx; change (eid zero) with 0; rewrite (wfo_const o Wo); now apply wfo_lt_const).
  unfold cube_node in H. destruct pos.
  - destruct (find_or_add (st en) i t zero) as [[r0 found] s1] eqn:FA. injection H as <- <-.
    destruct (mk_spec o D en x i t zero r0 found s1 (if found then s1 else icr s1 t) Wo Q Ii)
      as (D3 & Q3 & X3 & V3 & I3 & E3); auto.
    + apply vedge_zero.
    + intros ->. apply seqv_refl.
    + intros ->. apply seqv_icr_c2; auto. apply (find_or_add_one o D en x i t zero r0 false s1 Q FA).
    + exists D3. do 4 (split; [auto|]). intros rho. rewrite E3, (dv_zero D (st en)) by auto. now destruct (rho i).
  - destruct (find_or_add (st en) i zero t) as [[r0 found] s1] eqn:FA. injection H as <- <-.
    destruct (mk_spec o D en x i zero t r0 found s1 (if found then s1 else icr s1 t) Wo Q Ii)
      as (D3 & Q3 & X3 & V3 & I3 & E3); auto.
    + apply vedge_zero.
    + intros ->. apply seqv_refl.
    + intros ->. apply seqv_icr_c1; auto. apply (find_or_add_one o D en x i zero t r0 false s1 Q FA).
    + exists D3. do 4 (split; [auto|]). intros rho. rewrite E3, (dv_zero D (st en)) by auto. now destruct (rho i).
Qed.

(** Result of a step: a consistent cube below level [k] that implies [f]. *)
Definition cube_post (D : den) (en : eng) (f : edge) (sup : list N) (k : N) (q : option (edge * store)) : Prop :=
  exists r s' D' L, q = Some (r, s') /\ QS o D' (set_st en s') x /\ sext (st en) D s' D' /\
    vedge (nodeR s') r /\ k <= idx o (eid r) /\
    NoDup (map fst L) /\ (forall i, In i (map fst L) -> In i (ord o) /\ k <= idx o i) /\
    (forall v, In v sup -> In v (map fst L)) /\
    (forall rho, dv D' r rho = cube L rho) /\
    (forall rho, cube L rho = true -> dv D f rho = true).

Lemma cube_post_node D en f g i pos sup sup' k q :
  In i (ord o) -> k <= idx o i -> cube_post D en g sup' (idx o i + 1) q ->
  (forall v, In v sup -> v = i \/ In v sup') ->
  (forall rho, rho i = pos -> dv D g rho = true -> dv D f rho = true) ->
  cube_post D en f sup k (match q with None => None | Some (r, s1) => Some (cube_node s1 i pos r) end).
Proof.
  intros Ii Hk (r & s' & D' & L & -> & Q & X & V & Lr & ND & In1 & Sup & Er & Imp) Hsup Hf.
  destruct (cube_node s' i pos r) as [r2 s2] eqn:CN.
  destruct (cube_node_spec D' (set_st en s') i pos r r2 s2) as (D2 & Q2 & X2 & V2 & I2 & E2); auto.
  { unfold gt_idx. lia. }
  exists r2, s2, D2, ((i, pos) :: L). split; auto. split; [exact Q2|]. split; [eapply sext_trans; eauto|].
  split; auto. split; [lia|]. split.
  { simpl. constructor; auto. intros A. destruct (In1 i A). lia. }
  split. { intros j [<-|A]; [auto|]. destruct (In1 j A). split; auto. lia. }
  split. { intros v Iv. destruct (Hsup v Iv) as [-> |A]; simpl; auto. }
  split. { intros rho. rewrite E2, Er. reflexivity. }
  intros rho H. simpl in H. apply andb_true_iff in H as [H1 H2]. apply Bool.eqb_prop in H1. auto.
Qed.

Lemma satisfy_step_spec fuel : forall D en f k, QS o D en x -> vedge (nodeR (st en)) f -> f <> zero ->
  (rank o f < fuel)%nat -> k <= idx o (eid f) -> cube_post D en f [] k (satisfy_step fuel (st en) f).
Proof.
  induction fuel as [|fuel IH]; intros D en f k Q Vf Nz L Hk; [lia|]. simpl.
  pose proof (QS_swf _ _ _ _ Q) as W. pose proof (QS_dok _ _ _ _ Q) as K.
  destruct (isconst f) eqn:C.
  { destruct (const_cases _ f Vf C) as [-> | ->]; [|congruence].
    exists one, (st en), D, []. split; auto. split; [now rewrite set_st_id|]. split; [apply sext_refl|].
    split; auto. split; auto. split; [constructor|]. split; [intros i []|]. split; [intros v []|].
    split; [intros rho|intros rho _]; now rewrite (dv_one D (st en)). }
  destruct (node_split o (st en) Wo W f Vf C) as (N0 & I1 & I2 & V1 & V2 & G1 & G2 & R1 & R2).
  destruct (iszero (thenof (mem (st en)) f)) eqn:Z.
  - apply (iszero_iff o (st en) W) in Z; auto.
    apply (cube_post_node D en f (elseof (mem (st en)) f) (eid f) false [] [] k); auto.
    + apply IH; auto; [|lia|lia]. intros E. apply (children_differ o (st en) Wo W f Vf C). congruence.
    + intros rho Hr H. rewrite (dv_split o D (st en) Wo W K f rho Vf C), Hr. exact H.
  - apply (cube_post_node D en f (thenof (mem (st en)) f) (eid f) true [] [] k); auto.
    + apply IH; auto; [|lia|lia]. intros E. rewrite E in Z. discriminate.
    + intros rho Hr H. rewrite (dv_split o D (st en) Wo W K f rho Vf C), Hr. exact H.
Qed.

Definition before (i j : N) : Prop := idx o i < idx o j.

Lemma satisfy_support_spec fuel : forall sup D en f k, QS o D en x -> vedge (nodeR (st en)) f -> f <> zero ->
  StronglySorted before sup -> (forall v, In v sup -> In v (ord o) /\ k <= idx o v) ->
  (rank o f + length sup < fuel)%nat -> k <= idx o (eid f) ->
  cube_post D en f sup k (satisfy_support_step o fuel (st en) f sup).
Proof.
  induction fuel as [|fuel IH]; intros sup D en f k Q Vf Nz So In0 L Hk; [lia|]. cbn [satisfy_support_step].
  pose proof (QS_swf _ _ _ _ Q) as W. pose proof (QS_dok _ _ _ _ Q) as K.
  destruct sup as [|v rest]; [apply satisfy_step_spec; auto; eapply rank_depth; eauto|].
  inversion So as [|? ? So' Fa]; subst. rewrite Forall_forall in Fa.
  destruct (In0 v (or_introl eq_refl)) as [Iv Kv]. pose proof (wfo_lt_const o v Wo Iv) as Cv.
  destruct (N.leb_spec (idx o (eid f)) (idx o v)) as [Le|Gt].
  - assert (C : isconst f = false).
    { destruct (isconst f) eqn:C; auto. exfalso. unfold isconst in C. apply N.eqb_eq in C. rewrite C, (wfo_const o Wo) in Le. lia. }
    destruct (node_split o (st en) Wo W f Vf C) as (N0 & I1 & I2 & V1 & V2 & G1 & G2 & R1 & R2).
    set (sup' := if eid f =? v then rest else v :: rest).
    assert (P1 : StronglySorted before sup') by (unfold sup'; destruct (eid f =? v); auto).
    assert (P2 : forall u, In u sup' -> In u (ord o) /\ idx o (eid f) + 1 <= idx o u).
    { intros u Hu. unfold sup' in Hu. destruct (N.eqb_spec (eid f) v) as [E|Ne].
      - destruct (In0 u (or_intror Hu)). split; auto. specialize (Fa u Hu). unfold before in Fa. rewrite E. lia.
      - assert (idx o (eid f) <> idx o v) by (intros E; apply Ne; now apply (wfo_inj o)).
        destruct (In0 u Hu). split; auto. destruct Hu as [<-|Hu]; [lia|]. specialize (Fa u Hu). unfold before in Fa. lia. }
    assert (P3 : (length sup' <= length (v :: rest))%nat) by (unfold sup'; destruct (eid f =? v); simpl; lia).
    assert (P4 : forall u, In u (v :: rest) -> u = eid f \/ In u sup').
    { intros u [<-|Hu]; unfold sup'; destruct (N.eqb_spec (eid f) v); simpl; auto. }
    destruct (iszero (thenof (mem (st en)) f)) eqn:Z.
    + apply (iszero_iff o (st en) W) in Z; auto.
      apply (cube_post_node D en f (elseof (mem (st en)) f) (eid f) false (v :: rest) sup' k); auto.
      * apply IH; auto; [|simpl in *; lia|lia]. intros E. apply (children_differ o (st en) Wo W f Vf C). congruence.
      * intros rho Hr H. rewrite (dv_split o D (st en) Wo W K f rho Vf C), Hr. exact H.
    + apply (cube_post_node D en f (thenof (mem (st en)) f) (eid f) true (v :: rest) sup' k); auto.
      * apply IH; auto; [|simpl in *; lia|lia]. intros E. rewrite E in Z. discriminate.
      * intros rho Hr H. rewrite (dv_split o D (st en) Wo W K f rho Vf C), Hr. exact H.
  - apply (cube_post_node D en f f v false (v :: rest) rest k); auto.
    + apply IH; auto; [|simpl in L; lia|lia].
      intros u Hu. destruct (In0 u (or_intror Hu)). split; auto. specialize (Fa u Hu). unfold before in Fa. lia.
    + intros u [<-|Hu]; auto.
Qed.

Lemma ord_sorted : StronglySorted before (ord o).
Proof.
  assert (G : forall l k, (forall j i, nth_error l j = Some i -> idx o i = N.of_nat (k + j)) -> StronglySorted before l).
  { induction l as [|i l IH]; intros k H; constructor.
    - apply (IH (S k)). intros j i' E. rewrite (H (S j) i' E). f_equal. lia.
    - apply Forall_forall. intros j Ij. apply In_nth_error in Ij as [q Hq]. unfold before.
      rewrite (H (S q) j Hq), (H 0%nat i eq_refl). lia. }
  apply (G (ord o) 0%nat). intros j i E. apply (wfo_idx o Wo j i E).
Qed.
Lemma filter_sorted p l : StronglySorted before l -> StronglySorted before (filter p l).
Proof.
  induction 1 as [|a l S IH F]; simpl; [constructor|]. destruct (p a); auto. constructor; auto.
  rewrite Forall_forall in *. intros y Hy. apply F. now apply filter_In in Hy.
Qed.
End Cube.

(** A cube with at most one literal per variable can be satisfied. *)
Lemma cube_sat L : NoDup (map fst L) -> exists rho, cube L rho = true.
Proof.
  induction L as [|[i b] L IH]; simpl; intros ND; [exists (fun _ => true); auto|]. inversion ND; subst.
  destruct IH as [rho H]; auto. exists (flip rho i b). simpl. rewrite flip_same, cube_out.
  - rewrite H. now destruct b.
  - intros c Hc. apply H1. change i with (fst (i, c)). now apply in_map.
Qed.

(** ** Interface *)

Lemma len_filter {A} (p : A -> bool) l : (length (filter p l) <= length l)%nat.
Proof. induction l as [|a l IH]; simpl; auto. destruct (p a); simpl; lia. Qed.

Definition associated (m : mgr) (i : N) : Prop := amap (current m) i <> None.

Lemma arel_dom D D' a a' i : arel D D' a a' -> (amap a i <> None <-> amap a' i <> None).
Proof. intros (_ & _ & H). specialize (H i). destruct (amap a i), (amap a' i); try tauto; split; congruence. Qed.
Lemma find_arel D D' l l' i : Forall2 (arel D D') l l' ->
  match find (fun a => aid a =? i) l, find (fun a => aid a =? i) l' with
  | Some a, Some a' => arel D D' a a'
  | None, None => True
  | _, _ => False
  end.
Proof.
  induction 1 as [|a a' l l' R F IH]; simpl; auto. rewrite (proj1 R). destruct (aid a =? i); auto.
Qed.
Lemma current_arel hs m D m' D' : mext hs m D m' D' -> arel D D' (current m) (current m').
Proof.
  intros X. unfold current. rewrite (mx_cur _ _ _ _ _ X). destruct (mcur m) as [i|]; [|apply X].
  pose proof (find_arel D D' _ _ i (mx_as _ _ _ _ _ X)) as H.
  destruct (find (fun a => aid a =? i) (massoc m)), (find (fun a => aid a =? i) (massoc m')); try tauto. apply X.
Qed.
Lemma current_in m : In (current m) (mtemp m :: massoc m).
Proof.
  unfold current. destruct (mcur m); [|now left]. destruct (find _ _) eqn:E; [|now left]. right. now apply find_some in E.
Qed.

Lemma satisfy_gen step sup d m hs lk D f : MInv m hs lk D -> In f hs -> ~ (forall rho, hv m D f rho = false) ->
  (forall m1 D1, MInv m1 hs lk D1 -> mext hs m D m1 D1 -> uint (mmem m1) f <> zero ->
     cube_post (mo m1) (xr m1 hs lk) D1 (me m1) (uint (mmem m1) f) (sup m1) 0 (step m1 (st (me m1)) (uint (mmem m1) f))) ->
  exists h m' D' L m1 D1, satisfy_with step d m f = Ok (h, m') /\ mext hs m D m' D' /\ MInv m' (h :: hs) lk D' /\
    NoDup (map fst L) /\ (forall rho, hv m' D' h rho = cube L rho) /\
    (forall rho, cube L rho = true -> hv m D f rho = true) /\
    MInv m1 hs lk D1 /\ mext hs m D m1 D1 /\ (forall v, In v (sup m1) -> In v (map fst L)).
Proof.
  intros I If Nz Hs. destruct (pre1 d m hs lk D f I If) as (m1 & D1 & P & I1 & X1).
  unfold satisfy_with. rewrite P. cbn [obind negb].
  pose proof (MI_swf _ _ _ _ I1) as W. pose proof (MI_dok _ _ _ _ I1) as K. pose proof (mi_wfo _ _ _ _ I1) as Wo.
  pose proof (MI_int _ _ _ _ f I1 If) as V. set (F := uint (mmem m1) f) in *.
  assert (Ef : forall rho, dv D1 F rho = hv m D f rho) by (intros; now apply (mx_h _ _ _ _ _ X1)).
  assert (NF : F <> zero).
  { intros E. apply Nz. intros rho. rewrite <- Ef, E. eapply dv_zero; eauto. }
  destruct (iszero F) eqn:Z; [exfalso; apply NF; now apply (iszero_true _ _ _ W V)|].
  destruct (Hs m1 D1 I1 X1 NF) as (r & s' & D2 & L & E & Q2 & S2 & V2 & _ & ND & _ & Sup & Er & Imp).
  change (uint (mmem m1) f) with F in E. rewrite E.
  destruct (MInv_step m1 hs lk D1 (set_st (me m1) s') D2 I1 Q2 S2) as [I2 X2].
  fold (set_mst m1 s') in I2, X2. destruct (ret (set_mst m1 s') r) as [h m'] eqn:Rt.
  destruct (ret_spec _ hs lk D2 r h m' I2 V2 Rt) as (D3 & I3 & X3 & _ & _ & E3).
  exists h, m', D3, L, m1, D1. split; auto. split; [eapply mext_trans; [exact X1|]; eapply mext_trans; eauto|].
  split; auto. split; auto. split; [intros rho; now rewrite E3|]. split; auto. intros rho H. rewrite <- Ef. apply Imp. auto.
Qed.

Lemma satisfy_spec d m hs lk D f : MInv m hs lk D -> In f hs -> ~ (forall rho, hv m D f rho = false) ->
  exists h m' D' L, cal_satisfy d m f = Ok (h, m') /\ mext hs m D m' D' /\ MInv m' (h :: hs) lk D' /\
    NoDup (map fst L) /\ (forall rho, hv m' D' h rho = cube L rho) /\ (forall rho, cube L rho = true -> hv m D f rho = true).
Proof.
  intros I If Nz. destruct (satisfy_gen (fun m s F => satisfy_step (depth (mo m)) s F) (fun _ => []) d m hs lk D f I If Nz)
    as (h & m' & D' & L & m1 & D1 & E & X & I' & ND & Er & Imp & _).
  - intros m1 D1 I1 X1 NF. apply satisfy_step_spec; auto; [apply I1|apply I1|eapply MI_int; eauto| |lia].
    eapply rank_depth; eapply MI_int; eauto.
  - exists h, m', D', L. auto 10.
Qed.
Lemma satisfy_support_spec' d m hs lk D f : MInv m hs lk D -> In f hs -> ~ (forall rho, hv m D f rho = false) ->
  exists h m' D' L, cal_satisfy_support d m f = Ok (h, m') /\ mext hs m D m' D' /\ MInv m' (h :: hs) lk D' /\
    NoDup (map fst L) /\ (forall rho, hv m' D' h rho = cube L rho) /\ (forall rho, cube L rho = true -> hv m D f rho = true) /\
    (forall i, associated m i -> In i (map fst L)).
Proof.
  intros I If Nz.
  destruct (satisfy_gen (fun m s F => satisfy_support_step (mo m) (depth (mo m) + length (ord (mo m))) s F (support_ids m))
      support_ids d m hs lk D f I If Nz) as (h & m' & D' & L & m1 & D1 & E & X & I' & ND & Er & Imp & I1 & X1 & Sup).
  - intros m1 D1 I1 X1 NF. apply satisfy_support_spec; auto; [apply I1|apply I1|eapply MI_int; eauto| | | |lia].
    + apply filter_sorted, ord_sorted, I1.
    + intros v Hv. apply filter_In in Hv as [Hv _]. split; auto. lia.
    + pose proof (len_filter (fun i => match amap (current m1) i with Some _ => true | None => false end) (ord (mo m1))).
      assert (rank (mo m1) (uint (mmem m1) f) < depth (mo m1))%nat by (eapply rank_depth; eapply MI_int; eauto).
      unfold support_ids. lia.
  - exists h, m', D', L. do 6 (split; [auto|]). intros i Hi. apply Sup. unfold support_ids.
    unfold associated in Hi. apply (arel_dom D D1 (current m) (current m1) i (current_arel _ _ _ _ _ X1)) in Hi.
    destruct (amap (current m1) i) as [e|] eqn:Ea; [|congruence].
    apply filter_In. split; [|now rewrite Ea].
    apply (ao_dom _ _ _ (mi_as _ _ _ _ I1 _ (current_in m1)) i e Ea).
Qed.

(** On zero the argument itself is returned. *)
Lemma satisfy_zero step d m hs lk D f : MInv m hs lk D -> In f hs -> (forall rho, hv m D f rho = false) ->
  exists m' D', satisfy_with step d m f = Ok (f, m') /\ mext hs m D m' D' /\ MInv m' hs lk D' /\ f = U (muone m) true.
Proof.
  intros I If Z. destruct (pre1 d m hs lk D f I If) as (m1 & D1 & P & I1 & X1).
  unfold satisfy_with. rewrite P. cbn [obind negb].
  assert (E : uint (mmem m1) f = zero).
  { apply (is_zero_fun (mo m1) D1 (st (me m1))); [apply I1|eapply MI_swf; eauto|eapply MI_dok; eauto|eapply MI_int; eauto|].
    intros rho. rewrite <- (Z rho). now apply (mx_h _ _ _ _ _ X1). }
  rewrite E. cbn [iszero eeq eptr eneg zero]. exists m1, D1. split; auto. do 2 (split; [auto|]).
  apply (iszero_spec m hs lk D f I If) in Z. unfold cal_iszero, ueq, cal_zero in Z. simpl in Z.
  apply andb_true_iff in Z as [Z1 Z2]. apply N.eqb_eq in Z1. apply Bool.eqb_prop in Z2. destruct f; simpl in *; congruence.
Qed.
