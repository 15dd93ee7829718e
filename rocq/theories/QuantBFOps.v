(** * The breadth-first routines with the computed table: proof. *)
From Coq Require Import Permutation.
From Verif Require Import Base BFModel BatchModel MgrModel ApiModel QuantModel QuantBFModel StoreInv Own EngInv ApplyProof BinopProof
  StepProof RunProof ReduceProof EngineProof OpProof MultiProof NestProof ITEProof QProof ApiProof ApiStruct MInv QuantProof PlaceProof SubstProof
  QuantBFProof QuantBFRun QuantBFEx QuantBFRel.

(** The queues are empty before and after an operation; which engine holds the store does not matter. *)
Lemma EInv_queues o own D en en' : st en = st en' -> (forall d i, que en' d i = []) -> (forall d i, don en' d i = []) ->
  EInv o own D en -> EInv o own D en'.
Proof.
  destruct en as [s q d], en' as [s' q' d']. cbn [st que don]. intros <- Eq Ed [B1 B2 B3 B4 B5 B6]. cbn [st que don] in *.
  constructor; auto. eapply acc_perm; [exact B1|]. intros t _. destruct t; simpl; auto; [now rewrite B4, Eq|now rewrite B5, Ed].
Qed.

Section BF.
Variable enum : memory -> list N -> list N.
Hypothesis enum_perm : forall m l, Permutation (enum m l) l.
Variable slot : N -> edge -> edge -> N.
Variable o : order.
Hypothesis Wo : wfo o.
Variable x : N -> N.
Variable en : eng.
Variable G : ghost.
Variable Lv : N -> Prop.
Hypothesis Gext : forall c f f' g g', (forall r, f r = f' r) -> (forall r, g r = g' r) -> forall r, G c f g r = G c f' g' r.
Hypothesis Gsym : forall c f g r, G c f g r = G c g f r.
Variable mp : N -> option edge.
Variable last : Z.
Hypothesis Dom : forall i e, mp i = Some e -> In i (ord o).
Hypothesis Hlast : forall i e, mp i = Some e -> (Z.of_N (idx o i) <= last)%Z.
Hypothesis Hconst : (last < Z.of_N CONST_INDEX)%Z.
Notation exf := (ex mp (ord o)).
Notation cval := (cval G Lv).
Notation SQ := (SQ o x en G Lv).
Notation dpost := (dpost o x en G Lv).
Variable op : N.
Hypothesis Lop : Lv op.
Hypothesis Gop : forall f g, bext f -> bext g -> forall rho, G op f g rho = exf (fun r => f r && g r) rho.

Lemma look_cases own D s c f g r : EInv o own D (start s) -> cval D s c -> cache_lookup slot op f g c = Some r ->
  vedge (vnode own) r /\ exists f0 g0, vedge (vnode own) f0 /\ vedge (vnode own) g0 /\
    (eeq f0 f = true /\ eeq g0 g = true \/ eeq f0 g = true /\ eeq g0 f = true) /\ forall rho, dv D r rho = exf (andf (dv D f0) (dv D g0)) rho.
Proof using Wo Gop.
  intros Iv Cv H. pose proof (ei_acc _ _ _ _ Iv) as AC. pose proof (ei_swf _ _ _ _ Iv) as W. pose proof (ei_dok _ _ _ _ Iv) as DK.
  unfold cache_lookup in H.
  assert (T : forall a b, (let '(a, b) := (a, b) in
    match c (slot op f g) with Some e => if eeq (cf e) a && eeq (cg e) b && (cop e =? op) then Some (cres e) else None | None => None end) = Some r ->
    vedge (vnode own) r /\ exists f0 g0, vedge (vnode own) f0 /\ vedge (vnode own) g0 /\ eeq f0 a = true /\ eeq g0 b = true /\
      forall rho, dv D r rho = exf (andf (dv D f0) (dv D g0)) rho).
  { intros a b T. destruct (c (slot op f g)) as [e|] eqn:Ce; [|discriminate]. destruct (Cv _ _ Ce) as (_ & E1 & E2 & E3 & _ & E5).
    destruct (eeq (cf e) a) eqn:Q1; [|discriminate]. destruct (eeq (cg e) b) eqn:Q2; [|discriminate].
    destruct (N.eqb_spec (cop e) op) as [Q3|]; [|discriminate]. injection T as <-.
    pose proof (vnode_nodeR own (start s)) as VN.
    split; [now apply (VN _ AC)|]. exists (cf e), (cg e). split; [now apply (VN _ AC)|]. split; [now apply (VN _ AC)|]. split; auto. split; auto.
    intros rho. rewrite E5, Q3. apply Gop; now apply (dv_bext o D s). }
  destruct (csort_cases f g) as [E|E]; rewrite E in H; destruct (T _ _ H) as (Vr & f0 & g0 & V0 & V1 & Q0 & Q1 & Er);
    (split; [exact Vr|]); exists f0, g0; auto 8.
Qed.

Lemma cval_QL own D s c : EInv o own D (start s) -> cval D s c -> QL o mp (fun h => cache_lookup slot op h one c) own D.
Proof using Wo Gop.
  intros Iv Cv f r H. pose proof (ei_dok _ _ _ _ Iv) as DK.
  destruct (look_cases own D s c f one r Iv Cv H) as (Vr & f0 & g0 & V0 & V1 & [[Q0 Q1]|[Q0 Q1]] & Er); (split; [exact Vr|]).
  - exists f0. split; auto. split; auto. intros rho. rewrite Er. apply ex_ext. intros r0. unfold andf.
    now rewrite (dv_eeq D g0 one r0 Q1), (dv_one D s r0 DK), andb_true_r.
  - exists g0. split; auto. split; auto. intros rho. rewrite Er. apply ex_ext. intros r0. unfold andf.
    now rewrite (dv_eeq D f0 one r0 Q0), (dv_one D s r0 DK).
Qed.
Lemma cval_QL2 own D s c : EInv o own D (start s) -> cval D s c -> QL2 o mp (fun h k => cache_lookup slot op h k c) own D.
Proof using Wo Gop. intros Iv Cv f g r H. exact (look_cases own D s c f g r Iv Cv H). Qed.

Lemma bf_post {P} (Q : (N -> tag) -> den -> Prop) okp (val : den -> P -> bf) nb D s c p : bspec o Q okp val nb ->
  SQ D s c -> (forall own, EInv o own D (start s) -> Q own D /\ okp own D p) ->
  exists r s' D', nb s [p] = ([r], s') /\ SQ D' s' c /\ sext s D s' D' /\ vedge (nodeR s') r /\ forall rho, dv D' r rho = val D p rho.
Proof using Gext.
  intros B [(own & L & Iv & R) Cv] H.
  assert (I0 : EInv o own D (start s)) by (apply (EInv_queues o own D (set_st en s)); auto).
  destruct (H own I0) as [HQ Hp]. destruct (nb s [p]) as [rs s'] eqn:E.
  destruct (B own D s L x [p] rs s' I0 R HQ) as (own' & D' & I' & (L' & R') & X & F); auto.
  { intros q [<-|[]]. exact Hp. }
  inversion F as [|p0 r l1 l2 [Vr Er] F' Ep Ers]; subst. inversion F'; subst.
  assert (Xs : sext s D s' D').
  { apply (nk_sext own D (start s) own' D' (start s')); [apply I0|apply I'|]. eapply oext_nk; eauto. }
  exists r, s', D'. split; auto. split; [|split; [exact Xs|split; [exact Vr|exact Er]]].
  split; [|exact (cval_sext G Lv Gext _ _ _ _ _ Xs Cv)]. exists own', L'. split; [|exact R'].
  apply (EInv_queues o own' D' (start s')); auto; intros d i; [exact (ei_que _ _ _ _ Iv d i)|exact (ei_don _ _ _ _ Iv d i)].
Qed.

Lemma idx_length e s : SWF o s -> vedge (nodeR s) e -> eid e <> 0 -> (N.to_nat (eidx o e) < length (ord o))%nat.
Proof using Wo.
  intros W V Ne. destruct (node_facts o s e W V Ne) as (Ii & _). apply nth_error_Some. unfold eidx. rewrite (wfo_nth o _ Wo Ii). discriminate.
Qed.

Lemma exists_bf_spec D s c f : SQ D s c -> vedge (nodeR s) f -> dpost D s (exf (dv D f)) (Some (exists_bf enum slot o mp last op s c f)).
Proof using Wo Gext Gsym Dom Hlast Hconst Lop Gop enum_perm.
  intros S V. pose proof (SQ_swf _ _ _ _ _ _ _ _ S) as W. pose proof (SQ_dok _ _ _ _ _ _ _ _ S) as K. unfold exists_bf.
  destruct (Z.ltb_spec last (Z.of_N (eidx o f))) as [L|L].
  { apply dpost_here; auto. intros rho. symmetry. apply (ex_id mp (ord o)); [exact Dom|exact (dvb o Wo x en G Lv _ _ _ _ S V)|].
    intros i e M. now apply (below_last o Wo x en G Lv mp last Dom Hlast D s c f rho S V L i e M). }
  assert (Go : forall rho, exf (dv D f) rho = G op (dv D f) (dv D one) rho).
  { intros rho. rewrite Gop; [|exact (dvb o Wo x en G Lv _ _ _ _ S V)|exact (dvb o Wo x en G Lv _ _ _ _ S (vedge_one _))].
    apply ex_ext. intros r. rewrite (dv_one D s r K). now rewrite andb_true_r. }
  destruct (cache_lookup slot op f one c) as [r|] eqn:Lo.
  { destruct (lookup_spec slot o x en G Lv Gsym D s c _ f one r S V (vedge_one _) Lo) as [Vr Er]. apply dpost_here; auto. intros rho. now rewrite Er, Go. }
  assert (Nc : eid f <> 0) by (intros E; unfold eidx in L; rewrite E, (wfo_const o Wo) in L; lia).
  pose proof (idx_length f s W V Nc) as Lf.
  destruct (bf_post _ _ _ _ D s c f (existB_ok o Wo mp last Dom Hlast enum enum_perm Hconst (fun h => cache_lookup slot op h one c)
    (length (ord o)) (N.to_nat (eidx o f)) ltac:(lia) ltac:(lia)) S) as (r & s' & D' & E & S' & X & Vr & Er).
  { intros own Iv. split; [apply (cval_QL own D s c Iv (proj2 S))|]. split; [|lia]. apply (vnode_nodeR own (start s)); auto. exact (ei_acc _ _ _ _ Iv). }
  rewrite E. cbn [hd]. eexists r, s', _, D'. split; [reflexivity|]. split; [|split; [exact X|split; [exact Vr|exact Er]]].
  apply insert_spec; auto.
  - exact (sext_vedge _ _ _ _ _ X V).
  - apply vedge_one.
  - intros rho. rewrite Er. unfold valE. rewrite Go. apply Gext; intros r0; [symmetry; now apply (sext_dv _ _ _ _ _ _ X)|].
    rewrite (dv_one D s r0 K). symmetry. apply (dv_one D' s'). exact (SQ_dok _ _ _ _ _ _ _ _ S').
Qed.

Lemma relprod_bf_spec D s c f g : SQ D s c -> vedge (nodeR s) f -> vedge (nodeR s) g ->
  dpost D s (exf (andf (dv D f) (dv D g))) (Some (relprod_bf enum slot o mp last op s c f g)).
Proof using Wo Gext Gsym Dom Hlast Hconst Lop Gop enum_perm.
  intros S Vf0 Vg0. pose proof (SQ_swf _ _ _ _ _ _ _ _ S) as W. pose proof (SQ_dok _ _ _ _ _ _ _ _ S) as K. unfold relprod_bf.
  destruct (relprod_case f g) as [r|] eqn:Rc.
  { unfold relprod_case in Rc. destruct (iszero f || iszero g || eeq f (enot g)) eqn:Z.
    - injection Rc as <-. apply dpost_here; [auto|apply vedge_zero|]. intros rho. rewrite (dv_zero D s rho K). symmetry.
      rewrite (ex_ext mp (ord o) _ (fun _ => false)).
      { apply (ex_id mp (ord o)); [exact Dom|intros ? ? ?; reflexivity|intros ? ? ? ? ?; reflexivity]. }
      intros r. unfold andf. apply orb_true_iff in Z as [Z|Z].
      + apply orb_true_iff in Z as [Z|Z]; apply (iszero_true o s) in Z; auto; subst; rewrite (dv_zero D s r K); auto using andb_false_r.
      + apply (eeq_valid o s) in Z; [|exact W|exact Vf0|now apply vedge_enot]. rewrite Z, dv_enot. destruct (dv D g r); auto.
    - destruct (isone f && isone g) eqn:O1; [|discriminate]. injection Rc as <-. apply andb_true_iff in O1 as [O1 O2].
      apply (isone_true o s) in O1; auto. apply (isone_true o s) in O2; auto. subst f g.
      apply dpost_here; [auto|apply vedge_one|]. intros rho. rewrite (dv_one D s rho K). symmetry.
      rewrite (ex_ext mp (ord o) _ (fun _ => true)).
      { apply (ex_id mp (ord o)); [exact Dom|intros ? ? ?; reflexivity|intros ? ? ? ? ?; reflexivity]. }
      intros r. unfold andf. now rewrite (dv_one D s r K). }
  assert (Nc : eid f <> 0 \/ eid g <> 0).
  { destruct (N.eq_dec (eid f) 0) as [E0|]; [|now left]. destruct (N.eq_dec (eid g) 0) as [E1|]; [|now right]. exfalso.
    unfold relprod_case in Rc. apply N.eqb_eq in E0, E1.
    destruct (const_cases _ f Vf0 E0) as [->| ->], (const_cases _ g Vg0 E1) as [->| ->]; discriminate. }
  assert (Main : forall f g, vedge (nodeR s) f -> vedge (nodeR s) g -> eid f <> 0 \/ eid g <> 0 ->
    dpost D s (exf (andf (dv D f) (dv D g)))
      (Some (match cache_lookup slot op f g c with
      | Some r => (r, s, c)
      | None =>
          let '(rs, s1) := relprodB enum o mp last (fun h k => cache_lookup slot op h k c)
                             (skipn (N.to_nat (minindex2 o f g)) (ord o)) s [(f, g)] in
          let r := hd one rs in (r, s1, cache_insert slot op f g r c)
      end))).
  2:{ destruct (normalize_cases f g) as [E|E]; rewrite E; [now apply Main|].
      eapply dpost_F; [|apply Main; auto; tauto]. intros rho. apply ex_ext. intros r. apply andb_comm. }
  clear f g Vf0 Vg0 Nc Rc. intros f g Vf Vg Nc.
  assert (Go : forall rho, exf (andf (dv D f) (dv D g)) rho = G op (dv D f) (dv D g) rho).
  { intros rho. rewrite Gop; [reflexivity| |]; [exact (dvb o Wo x en G Lv _ _ _ _ S Vf)|exact (dvb o Wo x en G Lv _ _ _ _ S Vg)]. }
  destruct (cache_lookup slot op f g c) as [r|] eqn:Lo.
  { destruct (lookup_spec slot o x en G Lv Gsym D s c _ f g r S Vf Vg Lo) as [Vr Er]. apply dpost_here; auto. intros rho. now rewrite Er, Go. }
  assert (Li : (N.to_nat (minindex2 o f g) <= length (ord o))%nat /\ minindex2 o f g <= eidx o f /\ minindex2 o f g <= eidx o g).
  { assert (Mi : minindex2 o f g = N.min (eidx o f) (eidx o g)) by (unfold minindex2; destruct (N.ltb_spec (eidx o f) (eidx o g)); lia).
    rewrite Mi. destruct Nc as [Nc|Nc]; [pose proof (idx_length f s W Vf Nc)|pose proof (idx_length g s W Vg Nc)]; lia. }
  destruct Li as (Li & L1 & L2).
  destruct (bf_post _ _ _ _ D s c (f, g) (relprodB_ok o Wo mp last Dom Hlast Hconst enum enum_perm (fun h k => cache_lookup slot op h k c)
    (length (ord o)) (N.to_nat (minindex2 o f g)) ltac:(lia) Li) S) as (r & s' & D' & E & S' & X & Vr & Er).
  { intros own Iv. split; [apply (cval_QL2 own D s c Iv (proj2 S))|].
    split; [apply (vnode_nodeR own (start s)); auto; exact (ei_acc _ _ _ _ Iv)|].
    split; [apply (vnode_nodeR own (start s)); auto; exact (ei_acc _ _ _ _ Iv)|]. cbn [fst snd]. lia. }
  rewrite E. cbn [hd]. eexists r, s', _, D'. split; [reflexivity|]. split; [|split; [exact X|split; [exact Vr|exact Er]]].
  apply insert_spec; auto.
  - exact (sext_vedge _ _ _ _ _ X Vf).
  - exact (sext_vedge _ _ _ _ _ X Vg).
  - intros rho. rewrite Er. unfold valR. cbn [fst snd]. rewrite Go. apply Gext; intros r0; symmetry; now apply (sext_dv _ _ _ _ _ _ X).
Qed.
End BF.
