(** * Correctness of the interface calls: operations. *)
From Coq Require Import Permutation Sorted.
From Verif Require Import Base BFModel ITEModel MgrModel ApiModel StoreInv Own EngInv ApplyProof BinopProof ReduceProof
  EngineProof OpProof MultiProof ITEProof QProof GCProof VarProof MInv ApiProof.

(** The function of a handle. *)
Notation hv m D h := (dv D (uint (mmem m) h)).

Section Ops.
Variable enum : memory -> list N -> list N.
Hypothesis enum_perm : forall m l, Permutation (enum m l) l.

Lemma binary_spec op neg d1 d2 m hs lk D f g : binop_ok op -> MInv m hs lk D -> In f hs -> In g hs ->
  exists h m', binary enum op neg d1 d2 m f g = Ok (h, m') /\
    result m hs lk D (fun rho => xorb neg (bsem op (hv m D f rho) (hv m D g rho))) h m'.
Proof using enum_perm.
  intros Ho I If Ig.
  destruct (preproc_live d1 m hs lk D [f; g] I) as (m1 & D1 & P & I1 & X1). { now intros h [<-|[<-|[]]]. }
  unfold binary. rewrite P. simpl.
  destruct (opBF enum (mo m1) op (me m1) (uint (mmem m1) f) (uint (mmem m1) g)) as [r en] eqn:Op.
  destruct (opBF_QS enum enum_perm _ _ _ _ _ _ _ _ _ (mi_wfo _ _ _ _ I1) Ho (mi_q _ _ _ _ I1)
              (MI_int _ _ _ _ f I1 If) (MI_int _ _ _ _ g I1 Ig) Op) as (D2 & Q2 & S2 & V2 & E2).
  destruct (MInv_step m1 hs lk D1 en D2 I1 Q2 S2) as [I2 X2].
  destruct (finish d2 (set_me m1 en) (ephase r neg)) as [h m'] eqn:Fi.
  exists h, m'. split; auto.
  eapply result_pre; [eapply mext_trans; [exact X1|exact X2]|].
  eapply result_f; [|eapply finish_spec; [exact I2| |exact Fi]].
  - intros rho. rewrite dv_ephase, E2. now rewrite !(mx_h _ _ _ _ _ X1) by auto.
  - now apply vedge_ephase.
Qed.

Lemma binary_null op neg d1 d2 m hs lk D f g : MInv m hs lk D ->
  uisnull f = true \/ In f hs -> uisnull g = true \/ In g hs -> uisnull f = true \/ uisnull g = true ->
  binary enum op neg d1 d2 m f g = Ok (unull, m).
Proof.
  intros I Hf Hg Hn. unfold binary. rewrite (preproc_null d1 m hs lk D [f; g] I); auto.
  - now intros h [<-|[<-|[]]].
  - destruct Hn; [exists f|exists g]; simpl; auto.
Qed.

Lemma ite_spec d1 d2 m hs lk D f g h : MInv m hs lk D -> In f hs -> In g hs -> In h hs ->
  exists r m', cal_ite enum d1 d2 m f g h = Ok (r, m') /\
    result m hs lk D (fun rho => if hv m D f rho then hv m D g rho else hv m D h rho) r m'.
Proof using enum_perm.
  intros I If Ig Ih.
  destruct (preproc_live d1 m hs lk D [f; g; h] I) as (m1 & D1 & P & I1 & X1). { now intros k [<-|[<-|[<-|[]]]]. }
  unfold cal_ite. rewrite P. simpl.
  destruct (opITEBF enum (mo m1) (me m1) (uint (mmem m1) f) (uint (mmem m1) g) (uint (mmem m1) h)) as [r en] eqn:Op.
  destruct (opITEBF_QS enum enum_perm _ _ _ _ _ _ _ _ _ (mi_wfo _ _ _ _ I1) (mi_q _ _ _ _ I1)
              (MI_int _ _ _ _ f I1 If) (MI_int _ _ _ _ g I1 Ig) (MI_int _ _ _ _ h I1 Ih) Op) as (D2 & Q2 & S2 & V2 & E2).
  destruct (MInv_step m1 hs lk D1 en D2 I1 Q2 S2) as [I2 X2].
  destruct (finish d2 (set_me m1 en) r) as [k m'] eqn:Fi.
  exists k, m'. split; auto.
  eapply result_pre; [eapply mext_trans; [exact X1|exact X2]|].
  eapply result_f; [|eapply finish_spec; [exact I2|exact V2|exact Fi]].
  intros rho. rewrite E2. now rewrite !(mx_h _ _ _ _ _ X1) by auto.
Qed.

Lemma ite_null d1 d2 m hs lk D f g h : MInv m hs lk D ->
  (forall k, In k [f; g; h] -> uisnull k = true \/ In k hs) -> (exists k, In k [f; g; h] /\ uisnull k = true) ->
  cal_ite enum d1 d2 m f g h = Ok (unull, m).
Proof. intros I Hk Hn. unfold cal_ite. now rewrite (preproc_null d1 m hs lk D [f; g; h] I). Qed.

(** ** Arrays *)

Lemma upto_null_live m hs lk D l : MInv m hs lk D -> (forall h, In h l -> In h hs) -> upto_null l = l.
Proof.
  intros I H. induction l as [|h l IH]; simpl; auto.
  rewrite (uok_notnull m hs lk D h I) by (apply H; now left). f_equal. apply IH. intros. apply H. now right.
Qed.

Lemma preproc_each_spec hs lk l : forall D ds m, MInv m hs lk D -> (forall h, In h l -> In h hs) ->
  exists m1 D1, preproc_each ds m l = Ok m1 /\ MInv m1 hs lk D1 /\ mext hs m D m1 D1.
Proof.
  induction l as [|h l IH]; intros D ds m I H; simpl.
  - exists m, D. split; auto. split; auto. apply mext_refl.
  - destruct (preproc_live (ds 0%nat) m hs lk D [h] I) as (m1 & D1 & -> & I1 & X1).
    { intros k [<-|[]]. apply H. now left. }
    simpl. destruct (IH D1 (fun k => ds (S k)) m1 I1) as (m2 & D2 & E & I2 & X2). { intros. apply H. now right. }
    exists m2, D2. split; auto. split; auto. eapply mext_trans; eauto.
Qed.

Lemma map_int hs m D m1 D1 l : mext hs m D m1 D1 -> (forall h, In h l -> In h hs) ->
  forall rho, map (fun e => dv D1 e rho) (map (uint (mmem m1)) l) = map (fun h => hv m D h rho) l.
Proof.
  intros X H rho. rewrite map_map. apply map_ext_in. intros h Ih. apply (mx_h _ _ _ _ _ X). auto.
Qed.

Lemma fold_right_dv op u (D : den) rho es :
  fold_right (fun e b => bsem op (dv D e rho) b) u es = fold_right (bsem op) u (map (fun e => dv D e rho) es).
Proof. induction es as [|e es IH]; simpl; congruence. Qed.

Lemma multiway_spec op u ds m hs lk D l : binop_ok op ->
  (forall b, bsem op u b = b) -> (forall b, bsem op b u = b) ->
  (forall a b c, bsem op a (bsem op b c) = bsem op (bsem op a b) c) ->
  MInv m hs lk D -> (forall h, In h l -> In h hs) -> l <> [] -> N.of_nat (length l) <= 1024 ->
  exists h m', multiway enum op ds m l = Ok (h, m') /\
    result' m hs lk D (fun rho => fold_right (bsem op) u (map (fun h => hv m D h rho) l)) h m'.
Proof using enum_perm.
  intros Ho Hu Hu' Ha I Hl Hne Hlen. unfold multiway.
  rewrite (upto_null_live m hs lk D l I Hl).
  destruct (preproc_each_spec hs lk l D ds m I Hl) as (m1 & D1 & -> & I1 & X1). cbn [obind].
  destruct l as [|a [|b l]]; [congruence| |].
  - unfold cal_identity. rewrite (uok_notnull m1 hs lk D1 a I1) by (apply Hl; now left).
    exists a, (uinc m1 a). split; auto.
    destruct (uinc_spec m1 hs lk D1 a a I1) as [I2 X2]; auto. { apply Hl; now left. }
    exists D1. split; [eapply mext_trans; eauto|]. split; auto.
    intros rho. simpl fold_right. rewrite Hu'. rewrite (mx_h _ _ _ _ _ X2) by (apply Hl; now left).
    apply (mx_h _ _ _ _ _ X1). apply Hl; now left.
  - remember (a :: b :: l) as ls eqn:El.
    destruct (multiwayOp_QS enum enum_perm (mo m1) op u D1 (me m1) _ (map (uint (mmem m1)) ls) (mi_wfo _ _ _ _ I1) Ho Hu Ha (mi_q _ _ _ _ I1))
      as (r & en & D2 & -> & Q2 & S2 & V2 & E2).
    { intros e Ie. apply in_map_iff in Ie as (h & <- & Ih). eapply MI_int; eauto. }
    { rewrite map_length, El. simpl. lia. }
    { rewrite map_length. auto. }
    cbn [obind]. destruct (MInv_step m1 hs lk D1 en D2 I1 Q2 S2) as [I2 X2].
    destruct (ret (set_me m1 en) r) as [h m'] eqn:Rt. exists h, m'. split; auto.
    eapply result_pre'; [eapply mext_trans; [exact X1|exact X2]|].
    eapply result_f'; [|eapply ret_result; [exact I2|exact V2|exact Rt]].
    intros rho. rewrite E2, fold_right_dv. now rewrite (map_int hs m D m1 D1 ls X1 Hl).
Qed.

Lemma multiway_empty op ds m : multiway enum op ds m [] = Ok (unull, m).
Proof. reflexivity. Qed.

Lemma multiway_fatal op ds m hs lk D l : MInv m hs lk D -> (forall h, In h l -> In h hs) ->
  1024 < N.of_nat (length l) -> multiway enum op ds m l = Fatal.
Proof.
  intros I Hl Hlen. unfold multiway. rewrite (upto_null_live m hs lk D l I Hl).
  destruct (preproc_each_spec hs lk l D ds m I Hl) as (m1 & D1 & -> & I1 & X1). cbn [obind].
  destruct l as [|a [|b l]]; [simpl in Hlen; lia|simpl in Hlen; lia|].
  rewrite multiwayOp_fatal; auto. rewrite map_length. auto.
Qed.

(** Result handles of an array operation. *)
Lemma rets_spec lk (fs : list bf) : forall rs m hs D us m',
  MInv m hs lk D ->
  Forall2 (fun r (f : bf) => vedge (nodeR (st (me m))) r /\ forall rho, dv D r rho = f rho) rs fs ->
  rets m rs = (us, m') ->
  exists D', mext hs m D m' D' /\ MInv m' (us ++ hs) lk D' /\
    sext (st (me m)) D (st (me m')) D' /\
    Forall2 (fun h (f : bf) => forall rho, hv m' D' h rho = f rho) us fs.
Proof.
  induction fs as [|f fs IH]; intros rs m hs D us m' I F H; inversion F as [|r f' rs' fs' [Vr Er] Fr]; subst.
  - injection H as <- <-. exists D. split; [apply mext_refl|]. split; auto. split; [apply sext_refl|constructor].
  - simpl in H. destruct (ret m r) as [h m1] eqn:Rt. destruct (rets m1 rs') as [us1 m2] eqn:Rs. injection H as <- <-.
    destruct (ret_spec m hs lk D r h m1 I Vr Rt) as (D1 & I1 & X1 & S1 & Ei & E1).
    destruct (IH rs' m1 (h :: hs) D1 us1 m2 I1) as (D2 & X2 & I2 & S2 & F2); auto.
    { eapply Forall2_impl_in; [|exact Fr]. intros r0 f0 _ [V0 E0]. split.
      - eapply sext_vedge; eauto.
      - intros rho. rewrite (sext_dv _ _ _ _ _ _ S1 V0). auto. }
    exists D2. split; [eapply mext_trans; [exact X1|eapply mext_sub; [|exact X2]; intros; now right]|].
    split; [eapply MInv_perm; [|exact I2]; simpl; symmetry; apply Permutation_middle|].
    split; [eapply sext_trans; eauto|]. constructor; auto.
    intros rho. rewrite (mx_h _ _ _ _ _ X2 h) by (now left). rewrite E1. auto.
Qed.

Lemma pairs_map {A B} (f : A -> B) n : forall l, (length l < n)%nat -> pairs (map f l) = map (fun p => (f (fst p), f (snd p))) (pairs l).
Proof.
  induction n; intros l H; [lia|]. destruct l as [|a [|b l]]; auto. simpl. f_equal. apply IHn. simpl in H. lia.
Qed.
Lemma pairs_in {A} n : forall (l : list A) p, (length l < n)%nat -> In p (pairs l) -> In (fst p) l /\ In (snd p) l.
Proof.
  induction n; intros l p H; [lia|]. destruct l as [|a [|b l]]; simpl; try tauto.
  intros [<-|Ip]; simpl; auto. destruct (IHn l p) as [H1 H2]; auto. simpl in H; lia.
Qed.

(** Pairwise operations, when the last pair that is not decided at once has the topmost variable. *)
Lemma pairwise_spec op post ds d m hs lk D l : binop_ok op -> MInv m hs lk D -> (forall h, In h l -> In h hs) ->
  l <> [] -> Nat.even (length l) = true ->
  (forall m1, preproc_each ds m l = Ok m1 -> last_is_top (mo m1) op (pairs (map (uint (mmem m1)) l))) ->
  exists us m', pairwise enum op post ds d m l = Ok (Some us, m') /\
    exists D', mext hs m D m' D' /\
    ((post = true /\ ovf m' /\ us = map (fun _ => unull) (pairs l) /\ MInv m' hs lk D') \/
     (MInv m' (us ++ hs) lk D' /\
      Forall2 (fun h p => forall rho, hv m' D' h rho = bsem op (hv m D (fst p) rho) (hv m D (snd p) rho)) us (pairs l))).
Proof using enum_perm.
  intros Ho I Hl Hne Hev Hlast. unfold pairwise. rewrite (upto_null_live m hs lk D l I Hl).
  destruct (preproc_each_spec hs lk l D ds m I Hl) as (m1 & D1 & Ep & I1 & X1). rewrite Ep. cbn [obind].
  assert (E0 : Nat.eqb (length l) 0 = false) by (destruct l; [congruence|auto]).
  rewrite E0. unfold Nat.odd. rewrite Hev. cbn [orb negb].
  destruct (arrayOpBF enum (mo m1) op (me m1) (pairs (map (uint (mmem m1)) l))) as [rs en] eqn:Op.
  specialize (Hlast m1 Ep).
  rewrite (pairs_map (uint (mmem m1)) (S (length l))) in * by lia.
  assert (Vp : forall p, In p (map (fun p : ubdd * ubdd => (uint (mmem m1) (fst p), uint (mmem m1) (snd p))) (pairs l)) ->
     vedge (nodeR (st (me m1))) (fst p) /\ vedge (nodeR (st (me m1))) (snd p)).
  { intros p Ip. apply in_map_iff in Ip as (q & <- & Iq). destruct (pairs_in (S (length l)) l q) as [H1 H2]; auto.
    split; eapply MI_int; eauto. }
  destruct (arrayOpBF_QS enum enum_perm _ _ _ _ _ _ _ _ (mi_wfo _ _ _ _ I1) Ho (mi_q _ _ _ _ I1) Vp Hlast Op)
    as (D2 & Q2 & S2 & F2).
  destruct (MInv_step m1 hs lk D1 en D2 I1 Q2 S2) as [I2 X2].
  set (fs := map (fun p rho => bsem op (hv m D (fst p) rho) (hv m D (snd p) rho)) (pairs l)).
  assert (Ff : Forall2 (fun r (f : bf) => vedge (nodeR (st (me (set_me m1 en)))) r /\ forall rho, dv D2 r rho = f rho) rs fs).
  { assert (Hp : forall p, In p (pairs l) -> In (fst p) hs /\ In (snd p) hs).
    { intros p Ip. destruct (pairs_in (S (length l)) l p) as [H1 H2]; auto. }
    unfold fs. clear -F2 X1 Hp. revert rs F2. induction (pairs l) as [|p ps IH]; simpl; intros rs F2; inversion F2 as [|? r ? rs' [V E] F]; subst; constructor.
    - split; auto. intros rho. rewrite E. simpl. destruct (Hp p); [now left|]. now rewrite !(mx_h _ _ _ _ _ X1) by auto.
    - apply IH; auto. intros q Iq. apply Hp. now right. }
  destruct (rets (set_me m1 en) rs) as [us m2] eqn:Rs.
  destruct (rets_spec lk fs rs (set_me m1 en) hs D2 us m2 I2 Ff Rs) as (D3 & X3 & I3 & S3 & F3).
  assert (X03 : mext hs m D m2 D3).
  { eapply mext_trans; [exact X1|]. eapply mext_trans; [exact X2|exact X3]. }
  assert (Fp : Forall2 (fun h p => forall rho, hv m2 D3 h rho = bsem op (hv m D (fst p) rho) (hv m D (snd p) rho)) us (pairs l)).
  { unfold fs in F3. clear -F3. revert us F3. induction (pairs l); simpl; intros us F3; inversion F3; subst; constructor; auto. }
  destruct post.
  - destruct (postproc d m2) as [ov m3] eqn:Pp.
    destruct (postproc_MInv d m2 (us ++ hs) lk D3 ov m3 I3 Pp) as (D4 & I4 & X4 & O4).
    assert (X4' : mext hs m2 D3 m3 D4) by (eapply mext_sub; [|exact X4]; intros; apply in_or_app; now right).
    destruct ov.
    + eexists _, _. split; [reflexivity|]. exists D4.
      assert (Dl : forall us m3, MInv m3 (us ++ hs) lk D4 ->
         MInv (fold_left udec us m3) hs lk D4 /\ mext hs m3 D4 (fold_left udec us m3) D4 /\ (ovf m3 -> ovf (fold_left udec us m3))).
      { clear. induction us as [|h us IH]; intros m3 I; simpl.
        - split; auto. split; auto. apply mext_refl.
        - destruct (udec_spec m3 (us ++ hs) lk D4 h I) as [I1 X1]. destruct (IH _ I1) as (I2 & X2 & M2).
          split; auto. split; [|intros O; apply M2; exact O]. eapply mext_trans; [|exact X2].
          eapply mext_sub; [|exact X1]. intros; apply in_or_app; now right. }
      destruct (Dl us m3 I4) as (I5 & X5 & M5). destruct (gc_MInv _ hs lk D4 I5) as [I6 X6].
      split; [eapply mext_trans; [exact X03|]; eapply mext_trans; [exact X4'|]; eapply mext_trans; eauto|].
      left. split; auto. split; [apply gc_ovf; auto|]. split; auto.
      clear -Fp. induction Fp; simpl; congruence.
    + exists us, m3. split; auto. exists D4. split; [eapply mext_trans; eauto|]. right. split; auto.
      eapply Forall2_impl_in; [|exact Fp]. intros h p Ih E rho. rewrite <- E. apply (mx_h _ _ _ _ _ X4). apply in_or_app; now left.
  - exists us, m2. split; auto. exists D3. split; auto.
Qed.

Lemma pairwise_odd op post ds d m hs lk D l : MInv m hs lk D -> (forall h, In h l -> In h hs) ->
  l = [] \/ Nat.odd (length l) = true ->
  exists m' D', pairwise enum op post ds d m l = Ok (None, m') /\ MInv m' hs lk D' /\ mext hs m D m' D'.
Proof.
  intros I Hl Ho. unfold pairwise. rewrite (upto_null_live m hs lk D l I Hl).
  destruct (preproc_each_spec hs lk l D ds m I Hl) as (m1 & D1 & -> & I1 & X1). cbn [obind].
  assert (E : Nat.eqb (length l) 0 || Nat.odd (length l) = true).
  { destruct Ho as [->|Ho]; auto. rewrite Ho. apply orb_true_r. }
  rewrite E. eauto.
Qed.
End Ops.
