(** * Breadth-first existential quantification: proof. *)
From Coq Require Import Permutation.
From Verif Require Import Base BFModel BatchModel MgrModel ApiModel QuantModel QuantBFModel StoreInv Own EngInv ApplyProof BinopProof
  StepProof RunProof ReduceProof EngineProof OpProof MultiProof NestProof ITEProof ApiStruct MInv QuantProof PlaceProof SubstProof
  QuantBFProof QuantBFRun.

(** Suffixes of the order. *)
Lemma skipn_at {A} (l : list A) : forall c x, nth_error l c = Some x -> skipn c l = x :: skipn (S c) l.
Proof. induction l as [|y l IH]; intros [|c] x E; try discriminate; cbn in *; [now injection E as ->|]. now apply IH. Qed.
Lemma rall_cons rt ds i l en : rall rt ds (i :: l) en = fold_left (fun en d => rt d i en) ds (rall rt ds l en).
Proof. unfold rall. cbn [rev]. now rewrite fold_left_app. Qed.
Lemma vnode_0 own e : vedge (lvl own 0) e -> vedge (vnode own) e.
Proof. apply vedge_mono. intros i a _ [H|(d & Hd & _)]; [exact H|lia]. Qed.
Lemma vnode_wext own D m own' D' m' e : wext own D m own' D' m' -> vedge (vnode own) e ->
  vedge (vnode own') e /\ forall rho, dv D' e rho = dv D e rho.
Proof.
  intros (W1 & _ & W3) V. split.
  - revert V. apply vedge_mono. intros i a _ Oa. now apply W1.
  - intros rho. unfold dv. f_equal. destruct V as [[_ P]|[_ Oa]]; [rewrite P; apply W3|]. eapply W1; exact Oa.
Qed.

Section Common.
Variable o : order.
Hypothesis Wo : wfo o.
Variable mp : N -> option edge.
Variable last : Z.
Hypothesis Dom : forall i e, mp i = Some e -> In i (ord o).
Hypothesis Hlast : forall i e, mp i = Some e -> (Z.of_N (idx o i) <= last)%Z.
Notation exf := (ex mp (ord o)).

Section Facts.
Variables (D : den) (s : store).
Hypothesis W : SWF o s.
Hypothesis K : Dok D s.
Lemma q_past f rho : vedge (nodeR s) f -> (last < Z.of_N (eidx o f))%Z -> exf (dv D f) rho = dv D f rho.
Proof using Wo Dom Hlast W K.
  intros V L. apply (ex_id mp (ord o) Dom); [now apply (dv_bext o D s)|].
  intros i e M r b. apply (dv_flip o D s); auto; [now apply (Dom i e)|]. unfold gt_idx. pose proof (Hlast i e M). unfold eidx in L. lia.
Qed.
(** A node with a function that does not depend on the variables above a level lies below them. *)
Lemma q_level r lv (F : bf) : vedge (nodeR s) r -> lv <= CONST_INDEX -> (forall rho, dv D r rho = F rho) ->
  (forall j, In j (ord o) -> idx o j < lv -> indep F j) -> lv <= eidx o r.
Proof using Wo W K.
  intros V Lc E H. destruct (N.lt_ge_cases (eidx o r) lv) as [L|L]; auto. exfalso.
  destruct (vedge_idx o s r Wo W V) as [[_ E0]|(N0 & Ir & _)].
  - unfold eidx in L. lia.
  - assert (G : gt_idx o (eid r) r); [|unfold gt_idx in G; lia].
    apply (indep_gt o D s); auto. intros j Ij Lj rho b. rewrite !E. apply H; auto. unfold eidx in L. lia.
Qed.
Lemma q_indep e lv j : vedge (nodeR s) e -> lv <= eidx o e -> In j (ord o) -> idx o j < lv -> indep (dv D e) j.
Proof using Wo W K. intros V L Ij Lj rho b. apply (dv_flip o D s); auto. unfold gt_idx. unfold eidx in L. lia. Qed.
End Facts.

Section Exists.
Variable enum : memory -> list N -> list N.
Hypothesis enum_perm : forall m l, Permutation (enum m l) l.
Hypothesis Hconst : (last < Z.of_N CONST_INDEX)%Z.
Variable look : edge -> option edge.

Definition kcbE (_ : nat) (i : N) (rho : N -> bool) (t e : bfn) : bool :=
  if quantified mp i then t rho || e rho else if rho i then t rho else e rho.
Lemma kcbE_ext : forall d i rho (f f' g g' : bfn), (forall r, f' r = f r) -> (forall r, g' r = g r) -> kcbE d i rho f' g' = kcbE d i rho f g.
Proof. intros d i rho f f' g g' Ef Eg. unfold kcbE. now rewrite Ef, Eg. Qed.
Definition kelE (own : N -> tag) (D : den) (m : memory) (i : N) (e : edge) (v : bfn) : Prop :=
  vedge (vnode own) e /\ gt_idx o i e /\ forall r, v r = exf (dv D e) r.
Lemma kelE_ext : forall own D m own' D' m' i e v, wext own D m own' D' m' -> kelE own D m i e v -> kelE own' D' m' i e v.
Proof.
  intros own D m own' D' m' i e v Wx (V & G & E). destruct (vnode_wext _ _ _ _ _ _ _ Wx V) as [V' E'].
  split; auto. split; auto. intros r. rewrite E. apply ex_ext. intros r0. now rewrite E'.
Qed.
Definition kex : kind := K false true (fun _ => 1%nat) kcbE kcbE_ext (fun _ i => quantified mp i) kelE kelE_ext.

(** The entries of the computed table are right. *)
Definition QL (own : N -> tag) (D : den) : Prop := forall f r, look f = Some r ->
  vedge (vnode own) r /\ exists f0, vedge (vnode own) f0 /\ eeq f0 f = true /\ forall rho, dv D r rho = exf (dv D f0) rho.
Lemma QL_wext own D m own' D' m' : wext own D m own' D' m' -> QL own D -> QL own' D'.
Proof.
  intros Wx HQ f r E. destruct (HQ f r E) as (Vr & f0 & V0 & E0 & Er).
  destruct (vnode_wext _ _ _ _ _ _ _ Wx Vr) as [Vr' Dr]. destruct (vnode_wext _ _ _ _ _ _ _ Wx V0) as [V0' D0].
  split; auto. exists f0. split; auto. split; auto. intros rho. rewrite Dr, Er. apply ex_ext. intros r0. now rewrite D0.
Qed.
Lemma QL_ext : forall H own D en own' D' en', EAcc own en -> ext H own D en own' D' en' -> QL own D -> QL own' D'.
Proof. intros H own D en own' D' en' A X. eapply QL_wext, ext_wext; eauto. Qed.
Lemma QL_rext : forall own D en own' D' en', rext own D en own' D' en' -> QL own D -> QL own' D'.
Proof. intros own D en own' D' en' X. eapply QL_wext, rext_wext; eauto. Qed.
Lemma QL_hd : hdQ QL.
Proof.
  intros own D HQ f r E. destruct (HQ f r E) as (Vr & f0 & V0 & E0 & Er). split; [now apply vnode_hid|].
  exists f0. split; [now apply vnode_hid|]. auto.
Qed.

Record PendE (own : N -> tag) (D : den) (en : eng) (d : nat) (i a : N) : Prop := {
  pe_F : vedge (lvl own 0) (ct (mem (st en) a));
  pe_i : eid (ct (mem (st en) a)) = i;
  pe_ind : forall p, own p <> OInd a;
  pe_D : forall rho, D a rho = exf (dv D (ct (mem (st en) a))) rho;
  pe_Q : QL own D
}.
Lemma PendE_ext : forall H own D en own' D' en' d i a,
  EAcc own en -> EAcc own' en' -> SWF o (st en) ->
  ext H own D en own' D' en' -> own a = OQue d i -> ~ H a ->
  (forall p, own p = OInd a -> ~ H p) -> PendE own D en d i a -> PendE own' D' en' d i a.
Proof.
  intros H own D en own' D' en' d i a A A' W X Oa Ha _ [B1 B3 B7 B6 B8].
  destruct (x_mem _ _ _ _ _ _ _ X a) as [Et Ee]; [right; rewrite Oa; auto|auto|].
  constructor; rewrite ?Et, ?Ee; auto; try (eapply ext_vedge; eauto).
  { intros p Op. apply (B7 p). eapply (x_ind _ _ _ _ _ _ _ X); eauto. }
  { intros rho. rewrite (x_D _ _ _ _ _ _ _ X) by (rewrite ?Oa; try discriminate; right; rewrite Oa; auto).
    rewrite B6. apply ex_ext. intros r. symmetry. exact (ext_dv _ _ _ _ _ _ _ _ _ _ X A B1). }
  exact (QL_ext _ _ _ _ _ _ _ A X B8).
Qed.

Notation AInv := (AInv o kex PendE).
Local Notation RC := (RCq (kun kex)).
Definition nevE : nat -> nat -> Prop := fun _ _ => False.

Lemma node_edge h own D S en e : AInv h own D S en -> vedge (lvl own 0) e -> vedge (nodeR (st en)) e.
Proof. intros A V. apply (vnode_nodeR _ _ _ (ai_acc _ _ _ _ _ _ _ _ A)). now apply vnode_0. Qed.

Lemma exreq_ok a lv own D S en L x f :
  AInv a own D S en -> RC own S idn (mem (st en)) L x -> (forall q, own a <> OInd q) ->
  vedge (lvl own 0) f -> lv <= eidx o f -> QL own D ->
  (forall d' j b, own b = OQue d' j -> lv <= idx o j -> ~ In b S /\ b <> a) ->
  good o kex PendE a 1 lv S own D en L x (Some (exf (dv D f))) (exreq o last look en f).
Proof using Wo Dom Hlast Hconst.
  intros A R Oa Vf Lf HQ HS. unfold exreq.
  pose proof (ai_swf _ _ _ _ _ _ _ _ A) as W. pose proof (ai_dok _ _ _ _ _ _ _ _ A) as DK.
  pose proof (node_edge _ _ _ _ _ _ A Vf) as Nf.
  destruct (Z.ltb_spec last (Z.of_N (eidx o f))) as [Gt|Le].
  - apply good_keep; auto. split; [eapply vedge_lvl_mono; [|exact Vf]; lia|]. split; auto.
    intros rho. symmetry. now apply (q_past D (st en)).
  - destruct (look f) as [r|] eqn:El.
    + destruct (HQ f r El) as (Vr & f0 & V0 & E0 & Er).
      assert (Er' : forall rho, dv D r rho = exf (dv D f) rho).
      { intros rho. rewrite Er. apply ex_ext. intros r0. now apply dv_eeq. }
      apply good_keep; auto. split; [now apply vnode_lvl|]. split; auto.
      apply (q_level D (st en) W DK r lv (exf (dv D f))); auto.
      * now apply (vnode_nodeR _ _ _ (ai_acc _ _ _ _ _ _ _ _ A)).
      * pose proof (lvl_idx_le _ _ _ _ _ _ _ _ _ _ Wo A Vf). unfold eidx in Lf. lia.
      * intros j Ij Lj. apply (ex_indep mp (ord o) Dom); [now apply (dv_bext o D (st en))|]. eapply (q_indep D (st en)); eauto.
    + assert (N0 : eid f <> 0).
      { intros E0. unfold eidx in Le. rewrite E0, (wfo_const o Wo) in Le. lia. }
      apply (good_request o Wo kex PendE PendE_ext); auto.
      * eapply lvl_ord; eauto.
      * intros c [B1 B4 B5 B6 B7] Ef _ rho. rewrite B6. apply ex_ext. intros r. symmetry. now apply dv_eeq.
      * intros own' D' en' c AC' X Oc Fc Mc Dc NI Dv.
        constructor; rewrite ?Mc; simpl; auto; try (eapply ext_vedge; eauto).
        -- intros rho. rewrite Dc. apply ex_ext. intros r. now rewrite (Dv _ 0%nat).
        -- eapply QL_ext; [exact (ai_acc _ _ _ _ _ _ _ _ A)|exact X|exact HQ].
Qed.

Lemma exists1_ok d : step_ok o kex PendE nevE (fun _ => exists1 o mp last look) d.
Proof using Wo Dom Hlast Hconst.
  intros own D S en L x i a A0 R Oa Na _ HSi _.
  pose proof (ai_acc _ _ _ _ _ _ _ _ A0) as AC.
  assert (R3 : 2 < a) by (apply (acc_rng _ _ _ AC); congruence).
  destruct (ai_que _ _ _ _ _ _ _ _ A0 _ _ _ Oa) as [Ii Hst].
  destruct Hst as [[? _]|[_ Pe]]; [lia|tauto|].
  destruct Pe as [VF Ei NI DF HQ].
  set (F := ct (mem (st en) a)) in *.
  assert (NF : eid F <> 0) by (rewrite Ei; apply (wfo_in o i Wo Ii)).
  destruct (expand0 _ _ _ _ _ _ _ _ F A0 VF NF) as (V1 & V0 & G1 & G0 & EF). rewrite Ei in G1, G0, EF.
  set (ft := thenof (mem (st en)) F) in *. set (fe := elseof (mem (st en)) F) in *.
  pose proof (ai_swf _ _ _ _ _ _ _ _ A0) as W. pose proof (ai_dok _ _ _ _ _ _ _ _ A0) as DK.
  assert (EE : forall rho, D a rho = if quantified mp i then exf (dv D ft) rho || exf (dv D fe) rho
                                     else if rho i then exf (dv D ft) rho else exf (dv D fe) rho).
  { intros rho. rewrite DF. pose proof (node_edge _ _ _ _ _ _ A0 V1) as N1. pose proof (node_edge _ _ _ _ _ _ A0 V0) as N0.
    apply (ex_step o mp Dom (dv D F) (dv D ft) (dv D fe) i); auto.
    - now apply (dv_bext o D (st en)).
    - now apply (dv_bext o D (st en)).
    - eapply (gt_indep o D (st en)); eauto. lia.
    - eapply (gt_indep o D (st en)); eauto. lia. }
  assert (P : forall f, vedge (lvl own 0) f -> gt_idx o i f ->
     pok o kex PendE a d i S own D en (Some (exf (dv D f))) (fun en => exreq o last look en f)).
  { intros f Vf Gf own1 D1 en1 L1 x1 A1 R1 Oa1 X1 HS1.
    eapply good_v; [|apply (exreq_ok a (idx o i + 1) own1 D1 S en1 L1 x1 f); auto].
    - intros rho. apply ex_ext. intros r. exact (ext_dv _ _ _ _ _ _ _ _ _ _ X1 AC Vf).
    - rewrite Oa1. discriminate.
    - exact (ext_vedge _ _ _ _ _ _ _ _ _ X1 Vf).
    - unfold gt_idx, eidx in *. lia.
    - eapply QL_ext; eauto. }
  unfold exists1. fold F ft fe. cbn [kun kex]. destruct (quantified mp i) eqn:Qi.
  - pose proof (AInv_h o kex PendE a _ _ _ _ A0) as A.
    destruct (P ft V1 G1 own D en L x A R Oa) as (own1 & D1 & A1 & R1 & X1 & (Vr & Gr & Er) & N1).
    { eapply ext_weaken; [|apply ext_refl]. simpl. tauto. }
    { intros d' j b Ob Lj. split; [apply (HSi d' j b Ob); lia|]. intros ->. assert (j = i) by congruence. subst j. lia. }
    destruct (exreq o last look en ft) as [r en1]. cbn [fst snd] in *.
    assert (Oa1 : own1 a = OQue d i) by (eapply oque_ext; eauto).
    pose proof (ai_acc _ _ _ _ _ _ _ _ A1) as AC1.
    destruct (one_write o Wo kex PendE PendE_ext a d i own1 D1 S en1 L x r fe (exf (dv D fe)) A1 R1 Oa1 Qi Na) as (A2 & R2 & X2); auto.
    + intros p Op. apply (NI p). eapply (x_ind _ _ _ _ _ _ _ X1); eauto.
    + unfold gt_idx, eidx in *. lia.
    + split; [eapply vnode_ext; [exact AC|exact X1|now apply vnode_0]|]. split; auto. intros r0. apply ex_ext. intros r1.
      symmetry. exact (ext_dv _ _ _ _ _ _ _ _ _ _ X1 AC V0).
    + intros rho. rewrite (x_D _ _ _ _ _ _ _ X1) by (rewrite ?Oa; try discriminate; right; rewrite Oa; auto).
      rewrite EE. cbn [kcb kex]. unfold kcbE. now rewrite Qi, Er.
    + exists own1, D1. split; [exact A2|]. split; [exact R2|]. split.
      * eapply ext_weaken; [|exact (ext_trans _ _ _ _ _ _ _ _ _ _ _ AC AC1 X1 X2)]. simpl. tauto.
      * intros b d' j Ob. destruct (N1 b d' j Ob) as [?|[? ?]]; auto. right. split; auto. lia.
  - change (exists own' D',
      AInv 0 own' D' (a :: S) (two icr (fun en => exreq o last look en ft) (fun en => exreq o last look en fe) en a) /\
      RC own' (a :: S) idn (mem (st (two icr (fun en => exreq o last look en ft) (fun en => exreq o last look en fe) en a))) (a :: L) x /\
      ext (fun b => b = a \/ own b = OInd a) own D en own' D' (two icr (fun en => exreq o last look en ft) (fun en => exreq o last look en fe) en a) /\
      (forall b d' j, own' b = OQue d' j -> own b = OQue d' j \/ ((d' < klv kex d)%nat /\ idx o i < idx o j))).
    apply (two_ok o kex PendE PendE_ext icr (fun s r => or_introl eq_refl) a d i own D S en L x
      (Some (exf (dv D ft))) (Some (exf (dv D fe)))); auto; try discriminate.
    intros rho. rewrite EE. cbn [kcb kex]. unfold kcbE. now rewrite Qi.
Qed.

Lemma exists_table_ok d i : table_ok o kex PendE nevE (stable (fun _ => exists1 o mp last look) enum d i) d i.
Proof using Wo Dom Hlast Hconst enum_perm. apply stable_ok; auto. apply exists1_ok. Qed.

(** The batch over the variables from a position on. *)
Definition okE (c : nat) (own : N -> tag) (D : den) (f : edge) : Prop := vedge (vnode own) f /\ N.of_nat c <= eidx o f.
Definition valE (D : den) (f : edge) : bfn := exf (dv D f).
Lemma okE_hd c : hd_ok (okE c).
Proof. intros own D f [V Lf]. split; auto. now apply vnode_hid. Qed.

Notation EB := (existB enum o mp last look).
Definition rtE (d : nat) (i : N) (en : eng) : eng :=
  if quantified mp i then qreduce enum o (fun m a => ce (m a)) (EB (skipn (S (N.to_nat (idx o i))) (ord o))) d i en
  else reduce_table enum en d i.
Definition reduE : list N -> eng -> eng :=
  fix redu (l : list N) (en : eng) {struct l} : eng :=
    match l with
    | [] => en
    | i :: l' =>
        let en' := redu l' en in
        if quantified mp i then qreduce enum o (fun m a => ce (m a)) (EB l') 0 i en'
        else reduce_table enum en' 0 i
    end.
Lemma reduE_rall : forall n c en, (length (ord o) - c <= n)%nat -> reduE (skipn c (ord o)) en = rall rtE [0%nat] (skipn c (ord o)) en.
Proof using Wo.
  induction n as [|n IH]; intros c en Hn.
  - rewrite skipn_all2 by lia. reflexivity.
  - destruct (nth_error (ord o) c) as [i|] eqn:E.
    + destruct (wfo_idx o Wo c i E) as [_ Ei]. rewrite (skipn_at _ _ _ E). cbn [reduE].
      rewrite rall_cons. cbn [fold_left]. rewrite <- (IH (S c)) by lia. unfold rtE. rewrite Ei, Nat2N.id. reflexivity.
    + apply nth_error_None in E. rewrite skipn_all2 by lia. reflexivity.
Qed.
Lemma existB_eq ids s fs : EB ids s fs =
  let '(rs, en1) := reqs (exreq o last look) (start s) fs in
  let en2 := fold_left (exists_table enum o mp last look) ids en1 in
  let en3 := reduE ids en2 in
  (map (fwd (mem (st en3))) rs, st (cleanup_all [0%nat] ids en3)).
Proof. destruct ids; reflexivity. Qed.

Lemma existB_ok : forall n c, (length (ord o) - c <= n)%nat -> (c <= length (ord o))%nat -> bspec o QL (okE c) valE (EB (skipn c (ord o))).
Proof using Wo Dom Hlast Hconst enum_perm.
  induction n as [n IH] using lt_wf_ind. intros c Hn Hc.
  intros own D s L x ps rs s' I0 R0 HQ Hp E. rewrite existB_eq in E.
  destruct (batch_specQ (exreq o last look) o Wo kex PendE 1 (N.of_nat c) QL QL_ext (okE c) valE) with
     (Need := nevE) (tstep := stable (fun _ => exists1 o mp last look) enum) (rt := rtE) (c := c) (ds := [0%nat]) (rds := [0%nat])
     (cds := [0%nat]) (cids := skipn c (ord o)) (ps := ps)
     (own := own) (D := D) (en := start s) (L := L) (x := x)
     as (own' & D' & I4 & (L4 & R4) & X4 & F4).
  - intros own1 D1 en1 own1' D1' en1' p AC X [V Lp]. split.
    + split; auto. eapply vnode_ext; eauto.
    + intros rho. apply ex_ext. intros r. exact (ext_dv _ _ _ _ _ _ _ _ _ _ X AC (vnode_lvl _ 0 _ V)).
  - intros own1 D1 en1 L1 x1 p A1 R1 HQ1 [V Lp].
    assert (Z0 : own1 0 = ONone) by (eapply acc_low; [exact (ai_acc _ _ _ _ _ _ _ _ A1)|lia]).
    apply exreq_ok; auto.
    + intros q Eq. congruence.
    + now apply vnode_lvl.
    + intros d' j b Ob _. split; auto. intros ->. congruence.
  - exact PendE_ext.
  - intros d i. apply exists_table_ok.
  - exact QL_rext.
  - intros d i Ii Ci. unfold rtE. destruct (quantified mp i) eqn:Qi.
    + assert (Bi : (N.to_nat (idx o i) < length (ord o))%nat).
      { apply nth_error_Some. rewrite (wfo_nth o i Wo Ii). discriminate. }
      apply (qreduce_ok o Wo enum enum_perm kex d i Ii) with (okp := okE (S (N.to_nat (idx o i)))) (val := valE); auto.
      * intros rho t e. cbn [kcb kex]. unfold kcbE. now rewrite Qi.
      * exact QL_rext.
      * exact QL_hd.
      * apply okE_hd.
      * apply (IH (length (ord o) - S (N.to_nat (idx o i)))%nat); lia.
      * intros own1 D1 m a v _ (Ve & Ge & Ev). split; [split|]; auto. unfold gt_idx, eidx in *. lia.
      * intros own1 D1 en1 p RI [V Lp] j Ij Lj.
        pose proof (proj1 (vnode_nodeR _ _ _ (ri_acc _ _ _ _ _ RI)) V) as Np.
        pose proof (ri_swf _ _ _ _ _ RI) as W1. pose proof (ri_dok _ _ _ _ _ RI) as K1.
        apply (ex_indep mp (ord o) Dom); [now apply (dv_bext o D1 (st en1))|]. apply (q_indep D1 (st en1) W1 K1 p _ j Np Lp Ij). lia.
    + intros x1 S1 own1 D1 en1 RS _ Low. apply (reduce_table_ok o Wo enum enum_perm kex eq_refl eq_refl d i Qi); auto.
      * intros rho t e. cbn [kcb kex]. unfold kcbE. now rewrite Qi.
      * exact Logic.I.
  - simpl. unfold nevE. intuition lia.
  - intros d. simpl. lia.
  - intros d. simpl. lia.
  - intros d. simpl. lia.
  - intros d Hd. assert (d = 0%nat) by lia. subst d. now left.
  - auto.
  - lia.
  - exact I0.
  - exact R0.
  - exact HQ.
  - exact Hp.
  - cbv zeta in I4, R4, X4, F4.
    destruct (reqs (exreq o last look) (start s) ps) as [qs en1]. cbn [fst snd] in *. cbv zeta in E.
    rewrite (reduE_rall (length (ord o)) c) in E by lia.
    change (sweep (stable (fun _ => exists1 o mp last look) enum) [0%nat] (skipn c (ord o)) en1) with
      (fold_left (exists_table enum o mp last look) (skipn c (ord o)) en1) in *.
    apply pair_equal_spec in E as [<- <-].
    set (en4 := cleanup_all [0%nat] _ _) in *.
    exists own', D'. split; [|split; [|split; [|exact F4]]]; auto.
    + destruct I4 as [B1 B2 B3 B4 B5 B6]. constructor; auto.
      eapply acc_perm; [exact B1|]. intros t _. destruct t; simpl; auto; [now rewrite B4|now rewrite B5].
    + eauto.
    + destruct X4. constructor; auto.
Qed.
End Exists.
End Common.
