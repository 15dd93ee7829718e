(** * Correctness of the exchange of two variables. *)
From Coq Require Import Permutation.
From Verif Require Import Base BFModel ITEModel MgrModel ApiModel CofactorModel ComposeModel SwapModel StoreInv Own EngInv ApplyProof BinopProof
  StepProof RunProof ReduceProof EngineProof OpProof MultiProof NestProof ITEProof QProof GCProof VarProof MInv ApiProof ApiOps ApiStruct ComposeProof SwapStep.

(** The assignment with the values of two variables exchanged. *)
Definition exch (g h : N) (rho : N -> bool) : N -> bool := flip (flip rho h (rho g)) g (rho h).

Section Swap.
Variable o : order.
Hypothesis Wo : wfo o.
Variables g h : N.
Hypothesis Ig : In g (ord o).
Hypothesis Ih : In h (ord o).
Notation gi := (idx o g).
Notation hi := (idx o h).
Hypothesis Lgh : gi < hi.

Definition kswap : kind := K false true (fun d => Nat.max 5 (S d)) kite kite_ext nowhere noel noel_ext.

(** A pending exchange. *)
Record PendW0 (own : N -> tag) (D : den) (en : eng) (i a : N) : Prop := {
  w0_F : vedge (lvl own 0) (ct (mem (st en) a));
  w0_i : (eidx o (ct (mem (st en) a)) < gi /\ i = eid (ct (mem (st en) a))) \/ (gi <= eidx o (ct (mem (st en) a)) /\ i = g);
  w0_ind : forall p, own p <> OInd a;
  w0_D : forall rho, D a rho = dv D (ct (mem (st en) a)) (exch g h rho)
}.
(** A pending choice by the lower variable between two functions at [b]. *)
Record PendW (b : bool) (own : N -> tag) (D : den) (en : eng) (i a : N) : Prop := {
  w_F : vedge (lvl own 0) (ct (mem (st en) a));
  w_G : vedge (lvl own 0) (ce (mem (st en) a));
  w_i : i = minid2 o (ct (mem (st en) a)) (ce (mem (st en) a));
  w_h : idx o i < hi;
  w_ind : forall p, own p <> OInd a;
  w_D : forall rho : N -> bool, D a rho = if rho h then dv D (ct (mem (st en) a)) (flip rho h b) else dv D (ce (mem (st en) a)) (flip rho h b)
}.

Lemma PendW0_ext : forall H own D en own' D' en' d i a,
  EAcc own en -> EAcc own' en' -> SWF o (st en) ->
  ext H own D en own' D' en' -> own a = OQue d i -> ~ H a ->
  (forall p, own p = OInd a -> ~ H p) -> PendW0 own D en i a -> PendW0 own' D' en' i a.
Proof.
  intros H own D en own' D' en' d i a A A' W X Oa Ha _ [B1 B2 B3 B4].
  destruct (x_mem _ _ _ _ _ _ _ X a) as [Et Ee]; [right; rewrite Oa; auto|auto|].
  constructor; rewrite ?Et, ?Ee; auto; try (eapply ext_vedge; eauto).
  { intros p Op. apply (B3 p). eapply (x_ind _ _ _ _ _ _ _ X); eauto. }
  intros rho. rewrite (x_D _ _ _ _ _ _ _ X) by (rewrite ?Oa; try discriminate; right; rewrite Oa; auto).
  rewrite B4, !(ext_dv _ _ _ _ _ _ _ _ _ _ X A) by eauto. auto.
Qed.
Lemma PendW_ext b : forall H own D en own' D' en' d i a,
  EAcc own en -> EAcc own' en' -> SWF o (st en) ->
  ext H own D en own' D' en' -> own a = OQue d i -> ~ H a ->
  (forall p, own p = OInd a -> ~ H p) -> PendW b own D en i a -> PendW b own' D' en' i a.
Proof.
  intros H own D en own' D' en' d i a A A' W X Oa Ha _ [B1 B2 B3 B4 B5 B6].
  destruct (x_mem _ _ _ _ _ _ _ X a) as [Et Ee]; [right; rewrite Oa; auto|auto|].
  constructor; rewrite ?Et, ?Ee; auto; try (eapply ext_vedge; eauto).
  { intros p Op. apply (B5 p). eapply (x_ind _ _ _ _ _ _ _ X); eauto. }
  intros rho. rewrite (x_D _ _ _ _ _ _ _ X) by (rewrite ?Oa; try discriminate; right; rewrite Oa; auto).
  rewrite B6, !(ext_dv _ _ _ _ _ _ _ _ _ _ X A) by eauto. auto.
Qed.

Definition PendX (own : N -> tag) (D : den) (en : eng) (d : nat) (i a : N) : Prop :=
  match d with
  | 0%nat => PendW0 own D en i a
  | 1%nat => PendW true own D en i a
  | 2%nat => PendW false own D en i a
  | 3%nat => PendC o h own D en i a
  | _ => PendI o own D en i a
  end.
Lemma PendX_ext : forall H own D en own' D' en' d i a,
  EAcc own en -> EAcc own' en' -> SWF o (st en) ->
  ext H own D en own' D' en' -> own a = OQue d i -> ~ H a ->
  (forall p, own p = OInd a -> ~ H p) -> PendX own D en d i a -> PendX own' D' en' d i a.
Proof.
  intros H own D en own' D' en' d i a.
  destruct d as [|[|[|[|d]]]]; [apply PendW0_ext|apply PendW_ext|apply PendW_ext|apply (PendC_ext o h)|apply (PendI_ext o)].
Qed.
Lemma PendX_b (b : bool) own D en i a : PendX own D en (if b then 1%nat else 2%nat) i a <-> PendW b own D en i a.
Proof. destruct b; apply iff_refl. Qed.

Notation AInv := (AInv o kswap PendX).
Notation good := (good o kswap PendX).
Notation goodx := (goodx o kswap PendX).

Lemma bel hh own D S en e i rho b : AInv hh own D S en -> vedge (lvl own 0) e -> In i (ord o) -> idx o i < eidx o e ->
  dv D e (flip rho i b) = dv D e rho.
Proof. intros A V Ii L. exact (below_dv o Wo kswap PendX hh own D S en e i rho b A V Ii L). Qed.
Lemma bel_exch hh own D S en e rho : AInv hh own D S en -> vedge (lvl own 0) e -> gi < eidx o e ->
  dv D e (exch g h rho) = dv D e (flip rho h (rho g)).
Proof. intros A V L. unfold exch. eapply bel; eauto. Qed.
Lemma Nh hh own D S en n e : AInv hh own D S en -> vedge (lvl own n) e -> eidx o e <= hi -> eid e <> 0.
Proof. intros A V L. exact (eidx_ord o Wo h Ih kswap PendX hh own D S en n e A V L). Qed.
Lemma exch_other rho j : j <> g -> j <> h -> exch g h rho j = rho j.
Proof. intros A B. unfold exch, flip. destruct (N.eqb_spec j g); [tauto|]. destruct (N.eqb_spec j h); tauto. Qed.
Lemma exch_g rho : exch g h rho g = rho h.
Proof. unfold exch. now rewrite flip_same. Qed.

Lemma request0 a n lv own D S en L x f i :
  AInv a own D S en -> RC own S idn (mem (st en)) L x -> (forall q, own a <> OInd q) ->
  vedge (lvl own 0) f -> In i (ord o) -> lv <= idx o i -> (0 < n)%nat ->
  (eidx o f < gi /\ i = eid f) \/ (gi <= eidx o f /\ i = g) ->
  (forall d' j b, own b = OQue d' j -> lv <= idx o j -> ~ In b S /\ b <> a) ->
  good a n lv S own D en L x (Some (fun rho : N -> bool => dv D f (exch g h rho))) (request en 0 i f bnull).
Proof using Wo Ig Ih Lgh.
  intros A R Oa Vf Ii Li Ln Hi HS.
  apply (good_request o Wo kswap PendX PendX_ext); auto.
  - intros c [B1 B2 B3 B4] Ef Eh rho. rewrite B4. symmetry. exact (dv_eeq D f _ _ Ef).
  - intros own' D' en' c AC' X Oc Fc Mc Dc NI Dv.
    constructor; rewrite ?Mc; simpl; auto; try (eapply ext_vedge; eauto).
    intros rho. rewrite Dc, !(Dv _ 0%nat) by auto. reflexivity.
Qed.

Lemma req0_good a n lv own D S en L x f :
  AInv a own D S en -> RC own S idn (mem (st en)) L x -> (forall q, own a <> OInd q) ->
  vedge (lvl own 0) f -> lv <= eidx o f -> lv <= gi -> (0 < n)%nat ->
  (forall d' j b, own b = OQue d' j -> lv <= idx o j -> ~ In b S /\ b <> a) ->
  good a n lv S own D en L x (Some (fun rho : N -> bool => dv D f (exch g h rho))) (swap_req o g h en f).
Proof using Wo Ig Ih Lgh.
  intros A R Oa Vf Lf Lg Ln HS. unfold swap_req.
  destruct (N.leb_spec (eidx o f) hi) as [C1|C1].
  - pose proof (Nh _ _ _ _ _ _ _ A Vf C1) as Nf.
    assert (If : In (eid f) (ord o)) by (eapply lvl_ord; eauto).
    destruct (N.ltb_spec gi (eidx o f)) as [C2|C2].
    + apply request0; auto. right. split; [lia|auto].
    + apply request0; auto. destruct (N.eq_dec (eidx o f) gi) as [E|E]; [|left; split; auto; lia].
      right. split; [lia|]. apply (wfo_inj o _ _ Wo); auto.
  - apply good_keep; auto. split; [eapply vedge_lvl_mono; [|exact Vf]; lia|]. split; auto.
    intros rho. rewrite (bel_exch a own D S en) by (auto; lia). symmetry. eapply bel; eauto.
Qed.

Lemma constE_facts b own D S en a n rho : AInv a own D S en ->
  vedge (lvl own n) (constE b) /\ eidx o (constE b) = CONST_INDEX /\ dv D (constE b) rho = b.
Proof using Wo Ig Ih Lgh.
  intros A. pose proof (ai_dok _ _ _ _ _ _ _ _ A) as DK.
  destruct b; cbn [constE]; (split; [first [apply vedge_one|apply vedge_zero]|]); (split; [exact (wfo_const o Wo)|]).
  - now rewrite (dv_one D (st en)).
  - now rewrite (dv_zero D (st en)).
Qed.

Lemma cofh_spec a own D S en b f lv : AInv a own D S en -> vedge (lvl own 0) f -> lv <= eidx o f ->
  let t := cofh o h b (mem (st en)) f in
  vedge (lvl own 0) t /\ lv <= eidx o t /\ eidx o t <> hi /\ forall rho, dv D f (flip rho h b) = dv D t (flip rho h b).
Proof using Wo Ig Ih Lgh.
  intros A V L. unfold cofh. destruct (N.eqb_spec (eidx o f) hi) as [E|E]; [|cbv zeta; auto].
  assert (Nf : eid f <> 0) by (eapply Nh; eauto; lia).
  assert (Ef : eid f = h). { apply (wfo_inj o _ _ Wo); auto. eapply lvl_ord; eauto. }
  destruct (expand0 _ _ _ _ _ _ _ _ f A V Nf) as (V1 & V0 & G1 & G0 & DF). rewrite Ef in *. unfold gt_idx, eidx in *.
  destruct b; cbv zeta; (split; [auto|]); (split; [lia|]); (split; [lia|]); intros rho; rewrite DF, flip_same; auto.
Qed.

Lemma two_good b a n lv own D S en L x f1 f2 :
  AInv a own D S en -> RC own S idn (mem (st en)) L x -> (forall q, own a <> OInd q) ->
  vedge (lvl own 0) f1 -> vedge (lvl own 0) f2 -> lv <= eidx o f1 -> lv <= eidx o f2 -> lv <= hi -> (3 < n)%nat ->
  (forall d' j b, own b = OQue d' j -> lv <= idx o j -> ~ In b S /\ b <> a) ->
  goodx a n lv S own D en x (Some (fun rho : N -> bool => if rho h then dv D f1 (flip rho h b) else dv D f2 (flip rho h b)))
    (swap_two o h b en f1 f2).
Proof using Wo Ig Ih Lgh.
  intros A R Oa V1 V2 L1 L2 Lh Ln HS.
  destruct (cofh_spec a own D S en b f1 lv A V1 L1) as (Vt & Lt & Nt & Et).
  destruct (cofh_spec a own D S en b f2 lv A V2 L2) as (Ve & Le & Ne & Ee).
  unfold swap_two. set (t := cofh o h b (mem (st en)) f1) in *. set (e := cofh o h b (mem (st en)) f2) in *.
  apply (goodx_v o kswap PendX a n lv S own D en x (fun rho : N -> bool => if rho h then dv D t (flip rho h b) else dv D e (flip rho h b))).
  { intros rho. now rewrite Et, Ee. }
  cbv zeta. destruct (eeq t e) eqn:Q.
  - apply (goodx_v o kswap PendX a n lv S own D en x (fun rho => dv D t (flip rho h b))).
    { intros rho. rewrite (dv_eeq D t e _ Q). now destruct (rho h). }
    destruct (N.ltb_spec (eidx o t) hi) as [C1|C1]; eapply good_goodx with (L := L).
    + destruct (constE_facts b own D S en a 0 (fun _ => true) A) as (Vc & Ic & _).
      assert (Nt0 : eid t <> 0) by (eapply Nh; eauto; lia).
      assert (It : In (eid t) (ord o)) by (eapply lvl_ord; eauto).
      apply (good_request o Wo kswap PendX PendX_ext); auto.
      * intros c [B1 B2 B3 B4 B5 B6] Ef Eh rho. rewrite B6, (dv_eeq D t _ _ Ef). f_equal. f_equal.
        rewrite <- (dv_eeq D _ _ rho Eh). now apply (constE_facts b own D S en a 0 rho A).
      * intros own' D' en' c AC' X Oc Fc Mc Dc NI Dv.
        constructor; rewrite ?Mc; cbn [ct ce]; auto; try (eapply ext_vedge; eauto).
        -- destruct (minid2_cases o t (constE b)) as [[E _]|[_ L3]]; auto.
           rewrite Ic in L3. pose proof (wfo_lt_const o h Wo Ih). lia.
        -- intros rho. rewrite Dc, !(Dv _ 0%nat) by auto. now rewrite (proj2 (proj2 (constE_facts b own D S en a 0 rho A))).
    + apply good_keep; auto. split; [eapply vedge_lvl_mono; [|exact Vt]; lia|]. split; auto.
      intros rho. symmetry. eapply bel; eauto. lia.
  - destruct ((hi <? eidx o t) && (hi <? eidx o e)) eqn:C2.
    + apply andb_true_iff in C2 as [C2 C3]. apply N.ltb_lt in C2, C3. unfold swap_node.
      destruct (find_or_add (st en) h t e) as [[r found] s1] eqn:FA.
      eapply goodx_v; [|apply (goodx_node o Wo kswap PendX PendX_ext a n lv S own D en L x h t e r found s1); auto].
      intros rho. cbv beta. now rewrite !(bel a own D S en) by auto.
    + apply andb_false_iff in C2. rewrite !N.ltb_ge in C2.
      assert (Lm : idx o (minid2 o t e) < hi).
      { destruct (minid2_cases o t e) as [[E L3]|[E L3]]; rewrite E; fold (eidx o t); fold (eidx o e); unfold eidx in *; lia. }
      assert (Im : In (minid2 o t e) (ord o)).
      { destruct (minid2_cases o t e) as [[E L3]|[E L3]]; rewrite E in *; eapply lvl_ord; eauto; eapply Nh; eauto; unfold eidx; lia. }
      eapply good_goodx with (L := L). apply (good_request o Wo kswap PendX PendX_ext); auto.
      * destruct (minid2_cases o t e) as [[E _]|[E _]]; rewrite E; auto.
      * destruct b; lia.
      * intros c Pc Ef Eg rho. apply PendX_b in Pc. destruct Pc as [B1 B2 B3 B4 B5 B6].
        now rewrite B6, (dv_eeq D t _ _ Ef), (dv_eeq D e _ _ Eg).
      * intros own' D' en' c AC' X Oc Fc Mc Dc NI Dv. apply PendX_b.
        constructor; rewrite ?Mc; cbn [ct ce]; auto; try (eapply ext_vedge; eauto).
        intros rho. now rewrite Dc, !(Dv _ 0%nat) by auto.
Qed.

(** ** The steps *)

Lemma swap1_ok : stepx_ok o kswap PendX never (fun _ _ => swap1 o g h) 0.
Proof using Wo Ig Ih Lgh.
  intros own D S en L x i a A0 R Oa Na _ HSi _.
  assert (R3 : 2 < a) by (apply (acc_rng _ _ _ (ai_acc _ _ _ _ _ _ _ _ A0)); congruence).
  destruct (ai_que _ _ _ _ _ _ _ _ A0 _ _ _ Oa) as [Ii Hst].
  destruct Hst as [[? _]|[_ Pe]]; [lia|tauto|].
  destruct Pe as [VF Ei NI DF]. pose proof (ai_acc _ _ _ _ _ _ _ _ A0) as AC.
  set (F := ct (mem (st en) a)) in *.
  unfold swap1. fold F. set (ft := thenof (mem (st en)) F). set (fe := elseof (mem (st en)) F).
  destruct (N.ltb_spec (eidx o F) gi) as [C1|C1]; [|destruct (N.eqb_spec (eidx o F) gi) as [C2|C2]].
  - assert (Nf : eid F <> 0) by (eapply Nh; eauto; lia).
    destruct Ei as [[_ ->]|[? _]]; [|lia].
    destruct (expand0 _ _ _ _ _ _ _ _ F A0 VF Nf) as (V1 & V0 & G1 & G0 & EF). fold ft fe in V1, V0, G1, G0, EF.
    assert (Ng : eid F <> g) by (intros E; unfold eidx in C1; rewrite E in C1; lia).
    assert (Nh' : eid F <> h) by (intros E; unfold eidx in C1; rewrite E in C1; lia).
    assert (P : forall f, vedge (lvl own 0) f -> gt_idx o (eid F) f ->
      pokx o kswap PendX a 0 (eid F) S own D en (Some (fun rho : N -> bool => dv D f (exch g h rho))) (fun en => swap_req o g h en f)).
    { intros f Vf Gf own1 D1 en1 L1 x1 A1 R1 Oa1 X1 HS1. eapply good_goodx.
      eapply good_v; [|apply (req0_good a _ (idx o (eid F) + 1) own1 D1 S en1 L1 x1 f); auto].
      - intros rho. simpl. now rewrite !(ext_dv _ _ _ _ _ _ _ _ _ _ X1 AC) by eauto.
      - rewrite Oa1. discriminate.
      - exact (ext_vedge _ _ _ _ _ _ _ _ _ X1 Vf).
      - unfold gt_idx, eidx in *. lia.
      - unfold eidx in *. lia.
      - simpl. lia. }
    apply (twox_ok o kswap PendX PendX_ext a 0 (eid F) own D S en L x
      (Some (fun rho : N -> bool => dv D ft (exch g h rho))) (Some (fun rho : N -> bool => dv D fe (exch g h rho)))); auto; try discriminate.
    intros rho. rewrite DF, EF, exch_other by auto. reflexivity.
  - assert (Nf : eid F <> 0) by (eapply Nh; eauto; lia).
    destruct Ei as [[? _]|[_ ->]]; [lia|].
    assert (Eg : eid F = g). { apply (wfo_inj o _ _ Wo); auto. eapply lvl_ord; eauto. }
    destruct (expand0 _ _ _ _ _ _ _ _ F A0 VF Nf) as (V1 & V0 & G1 & G0 & EF). fold ft fe in V1, V0, G1, G0, EF. rewrite Eg in *.
    assert (P : forall b, pokx o kswap PendX a 0 g S own D en
       (Some (fun rho : N -> bool => if rho h then dv D ft (flip rho h b) else dv D fe (flip rho h b))) (fun en => swap_two o h b en ft fe)).
    { intros b own1 D1 en1 L1 x1 A1 R1 Oa1 X1 HS1.
      eapply goodx_v; [|apply (two_good b a _ (gi + 1) own1 D1 S en1 L1 x1 ft fe); auto].
      - intros rho. cbv beta. now rewrite !(ext_dv _ _ _ _ _ _ _ _ _ _ X1 AC) by eauto.
      - rewrite Oa1. discriminate.
      - exact (ext_vedge _ _ _ _ _ _ _ _ _ X1 V1).
      - exact (ext_vedge _ _ _ _ _ _ _ _ _ X1 V0).
      - unfold gt_idx, eidx in *. lia.
      - unfold gt_idx, eidx in *. lia.
      - lia.
      - simpl. lia. }
    apply (twox_ok o kswap PendX PendX_ext a 0 g own D S en L x
      (Some (fun rho : N -> bool => if rho h then dv D ft (flip rho h true) else dv D fe (flip rho h true)))
      (Some (fun rho : N -> bool => if rho h then dv D ft (flip rho h false) else dv D fe (flip rho h false)))); auto; try discriminate.
    intros rho. rewrite DF, EF, exch_g, !(bel_exch 0 own D S en) by (auto; unfold gt_idx, eidx in *; lia).
    cbn [kcb kswap]. unfold kite. now destruct (rho g), (rho h).
  - destruct Ei as [[? _]|[_ ->]]; [lia|].
    assert (P : forall b, pokx o kswap PendX a 0 g S own D en
       (Some (fun rho : N -> bool => dv D F (flip rho h b))) (fun en => compose_req o hi 3 4 en F (constE b))).
    { intros b own1 D1 en1 L1 x1 A1 R1 Oa1 X1 HS1. eapply good_goodx.
      pose proof (fun rho => constE_facts b own1 D1 S en1 a 0 rho A1) as Cb.
      eapply good_v; [|apply (req_good o Wo h Ih kswap PendX PendX_ext 3 4 (fun _ _ _ _ _ => iff_refl _) (fun _ _ _ _ _ => iff_refl _)
                         a _ (gi + 1) own1 D1 S en1 L1 x1 F (constE b)); auto].
      - intros rho. cbv beta. rewrite (proj2 (proj2 (Cb rho))). now rewrite !(ext_dv _ _ _ _ _ _ _ _ _ _ X1 AC) by eauto.
      - rewrite Oa1. discriminate.
      - exact (ext_vedge _ _ _ _ _ _ _ _ _ X1 VF).
      - exact (proj1 (Cb (fun _ => true))).
      - lia.
      - rewrite (proj1 (proj2 (Cb (fun _ => true)))). pose proof (wfo_lt_const o h Wo Ih). lia.
      - simpl. lia. }
    apply (twox_ok o kswap PendX PendX_ext a 0 g own D S en L x
      (Some (fun rho : N -> bool => dv D F (flip rho h true)))
      (Some (fun rho : N -> bool => dv D F (flip rho h false)))
      (fun en => compose_req o hi 3 4 en F (constE true)) (fun en => compose_req o hi 3 4 en F (constE false))); auto; try discriminate.
    intros rho. rewrite DF, (bel_exch 0 own D S en) by (auto; lia).
    cbn [kcb kswap]. unfold kite. now destruct (rho g).
Qed.

Lemma swap_pm_ok (b : bool) : stepx_ok o kswap PendX never (fun _ _ => swap_pm o h b) (if b then 1%nat else 2%nat).
Proof using Wo Ig Ih Lgh.
  intros own D S en L x i a A0 R Oa Na _ HSi _. set (d := if b then 1%nat else 2%nat) in *.
  assert (R3 : 2 < a) by (apply (acc_rng _ _ _ (ai_acc _ _ _ _ _ _ _ _ A0)); congruence).
  destruct (ai_que _ _ _ _ _ _ _ _ A0 _ _ _ Oa) as [Ii Hst].
  destruct Hst as [[? _]|[_ Pe]]; [lia|tauto|]. unfold d in Pe. apply PendX_b in Pe.
  destruct Pe as [VF VG Ei Lh NI DF]. pose proof (ai_acc _ _ _ _ _ _ _ _ A0) as AC.
  set (F := ct (mem (st en) a)) in *. set (G := ce (mem (st en) a)) in *.
  destruct (cofactors2_spec o Wo kswap PendX 0 own D S en F G i A0 VF VG Ei Ii) as
     (fx & fxb & gx & gxb & EC & V1 & V2 & V3 & V4 & G1 & G2 & G3 & G4 & DvF & DvG).
  assert (Nh' : i <> h) by (intros ->; lia).
  unfold swap_pm. fold F G. rewrite EC.
  assert (P : forall f1 f2, vedge (lvl own 0) f1 -> vedge (lvl own 0) f2 -> gt_idx o i f1 -> gt_idx o i f2 ->
     pokx o kswap PendX a d i S own D en (Some (fun rho : N -> bool => if rho h then dv D f1 (flip rho h b) else dv D f2 (flip rho h b)))
       (fun en => swap_two o h b en f1 f2)).
  { intros f1 f2 W1 W2 K1 K2 own1 D1 en1 L1 x1 A1 R1 Oa1 X1 HS1.
    eapply goodx_v; [|apply (two_good b a _ (idx o i + 1) own1 D1 S en1 L1 x1 f1 f2); auto].
    - intros rho. cbv beta. now rewrite !(ext_dv _ _ _ _ _ _ _ _ _ _ X1 AC) by eauto.
    - rewrite Oa1. discriminate.
    - exact (ext_vedge _ _ _ _ _ _ _ _ _ X1 W1).
    - exact (ext_vedge _ _ _ _ _ _ _ _ _ X1 W2).
    - unfold gt_idx, eidx in *. lia.
    - unfold gt_idx, eidx in *. lia.
    - lia.
    - unfold d. destruct b; simpl; lia. }
  apply (twox_ok o kswap PendX PendX_ext a d i own D S en L x
    (Some (fun rho : N -> bool => if rho h then dv D fx (flip rho h b) else dv D gx (flip rho h b)))
    (Some (fun rho : N -> bool => if rho h then dv D fxb (flip rho h b) else dv D gxb (flip rho h b)))
    (fun en => swap_two o h b en fx gx) (fun en => swap_two o h b en fxb gxb)); auto; try discriminate.
  intros rho. rewrite DF, DvF, DvG. cbn [kcb kswap]. unfold kite.
  assert (Fi : flip rho h b i = rho i) by (unfold flip; destruct (N.eqb_spec i h); tauto).
  rewrite Fi. now destruct (rho i), (rho h).
Qed.

Variable enum : memory -> list N -> list N.
Hypothesis enum_perm : forall m l, Permutation (enum m l) l.

Lemma swap_step_ok d i : table_ok o kswap PendX never (stable (swap_step o g h) enum d i) d i.
Proof using Wo Ig Ih Lgh enum_perm.
  destruct d as [|[|[|[|d]]]].
  - exact (stablex_ok o kswap PendX never (swap_step o g h) 0 swap1_ok enum enum_perm i).
  - exact (stablex_ok o kswap PendX never (swap_step o g h) 1 (swap_pm_ok true) enum enum_perm i).
  - exact (stablex_ok o kswap PendX never (swap_step o g h) 2 (swap_pm_ok false) enum enum_perm i).
  - apply (stable_ok o kswap PendX never (swap_step o g h) 3); auto.
    apply (compose1_ok o Wo h Ih kswap PendX PendX_ext 3 4 (fun _ _ _ _ _ => iff_refl _) (fun _ _ _ _ _ => iff_refl _)); simpl; auto; lia.
  - apply (stable_ok o kswap PendX never (swap_step o g h) (S (S (S (S d))))); auto.
    apply (ite_apply1_ok o Wo kswap PendX PendX_ext (S (S (S (S d)))) (fun _ _ _ _ _ => iff_refl _)); auto.
Qed.

Lemma swapBF_spec n own D en L x F i r en' :
  (forall j, In j (ord o) -> 1 <= j <= n) ->
  EInv o own D en -> RC own [] idn (mem (st en)) L x ->
  vedge (nodeR (st en)) F -> In i (ord o) ->
  (eidx o F < gi /\ i = eid F) \/ (gi <= eidx o F /\ i = g) ->
  swapBF enum o g h n en i F = (r, en') ->
  exists own' D', EInv o own' D' en' /\ (exists L', RC own' [] idn (mem (st en')) L' x) /\
    oext own D en own' D' en' /\ vedge (nodeR (st en')) r /\
    forall rho, dv D' r rho = dv D F (exch g h rho).
Proof using Wo Ig Ih Lgh enum_perm.
  intros Hid I R VF Ii Hi Eq. unfold swapBF in Eq.
  assert (Gd : good 0 5 0 [] own D en L x (Some (fun rho : N -> bool => dv D F (exch g h rho))) (request en 0 i F bnull)).
  { apply request0; auto; try lia.
    - exact (EInv_AInv o kswap PendX own D en I).
    - intros q E. exact (ei_ind _ _ _ _ I _ _ E).
    - eapply vedge_lvl0; [exact (ei_acc _ _ _ _ I)|exact VF].
    - intros d' j b Ob. destruct (EInv_nq _ _ _ _ _ _ _ I Ob). }
  destruct (run_spec o Wo kswap PendX PendX_ext never (stable (swap_step o g h) enum) swap_step_ok
    (fun d i en => reduce_table enum en d i)) with (n := 5%nat) (ds := swap_queues) (rds := swap_queues)
    (cds := swap_queues) (cids := map N.of_nat (seq 1 (N.to_nat n))) (c := 0%nat) (lv := 0)
    (own := own) (D := D) (en := en) (L := L) (x := x)
    (v := fun rho => dv D F (exch g h rho)) (res := request en 0 i F bnull)
    as (own2 & D2 & I2 & R2 & X2 & V2 & E2); auto.
  { intros d j _. apply reduce_table_ok; auto. }
  { simpl. unfold never. intuition lia. }
  { intros d. simpl. lia. } { intros d. simpl. lia. } { intros d Hd. unfold kswap. cbn [klv]. lia. } { intros d. simpl. lia. }
  { intros j Ij. simpl in Ij. apply Hid in Ij. apply in_map_iff. exists (N.to_nat j). split; [lia|]. apply in_seq. lia. }
  { lia. }
  cbv zeta in I2, R2, X2, V2, E2. destruct (request en 0 i F bnull) as [r1 en2]. cbn [fst snd] in *.
  apply pair_equal_spec in Eq as [<- <-].
  exists own2, D2. auto.
Qed.
End Swap.

(** ** The interface function *)

Section Api.
Variable enum : memory -> list N -> list N.
Hypothesis enum_perm : forall m l, Permutation (enum m l) l.

Lemma swapBF_QS o g h n D en x F i r en' : wfo o -> In g (ord o) -> In h (ord o) -> idx o g < idx o h ->
  (forall j, In j (ord o) -> 1 <= j <= n) ->
  QS o D en x -> vedge (nodeR (st en)) F -> In i (ord o) ->
  (eidx o F < idx o g /\ i = eid F) \/ (idx o g <= eidx o F /\ i = g) ->
  swapBF enum o g h n en i F = (r, en') ->
  exists D', QS o D' en' x /\ sext (st en) D (st en') D' /\ vedge (nodeR (st en')) r /\
    forall rho, dv D' r rho = dv D F (exch g h rho).
Proof using enum_perm.
  intros Wo Ig Ih Lt Hid (own & L & I & R) VF Ii Hi Hr.
  destruct (swapBF_spec o Wo g h Ig Ih Lt enum enum_perm n own D en L x F i r en' Hid I R VF Ii Hi Hr) as (own' & D' & I' & (L' & R') & X & V & E).
  exists D'. split; [exists own', L'; auto|]. split; [|auto].
  apply (nk_sext own D en own' D' en'); [apply I|apply I'|]. now apply oext_nk.
Qed.

Lemma exch_sym g h rho j : exch g h rho j = exch h g rho j.
Proof.
  unfold exch, flip. destruct (N.eqb_spec j g) as [E1|E1], (N.eqb_spec j h) as [E2|E2]; auto. now rewrite <- E1, <- E2.
Qed.
Lemma exch_refl g rho j : exch g g rho j = rho j.
Proof. unfold exch, flip. destruct (N.eqb_spec j g) as [E1|E1]; auto. now rewrite E1. Qed.
Lemma hv_bext m hs lk D f : MInv m hs lk D -> In f hs -> bext (hv m D f).
Proof.
  intros I If. apply (dv_bext (mo m) D (st (me m))).
  - exact (mi_wfo _ _ _ _ I). - exact (MI_swf _ _ _ _ I). - exact (MI_dok _ _ _ _ I). - exact (MI_int _ _ _ _ f I If).
Qed.

Lemma swapvars_spec d m hs lk D f g h : MInv m hs lk D -> In f hs -> In g hs -> In h hs ->
  (forall i, topvar m D g i -> topvar m D h i -> forall rho, hv m D g rho = hv m D h rho) ->
  exists r m', cal_swapvars enum d m f g h = Ok (r, m') /\
    (cal_isconst m g || cal_isconst m h = true -> r = unull /\ exists D', MInv m' hs lk D' /\ mext hs m D m' D') /\
    (cal_isconst m g || cal_isconst m h = false -> exists i j, topvar m D g i /\ topvar m D h j /\
       result' m hs lk D (fun rho => hv m D f (exch i j rho)) r m').
Proof using enum_perm.
  intros I If Ig Ih Hgh.
  destruct (preproc_live d m hs lk D [f; g; h] I) as (m1 & D1 & P & I1 & X1). { now intros k [<-|[<-|[<-|[]]]]. }
  assert (Tv : forall k i, In k hs -> topvar m1 D1 k i -> topvar m D k i).
  { intros k i Ik. unfold topvar. rewrite (preproc_order _ _ _ _ _ P). intros (T1 & (rho0 & T2) & T3). split; auto. split.
    - exists rho0. now rewrite <- !(mx_h _ _ _ _ _ X1) by auto.
    - intros j Ij Hj rho b. rewrite <- !(mx_h _ _ _ _ _ X1) by auto. now apply T3. }
  unfold cal_swapvars. rewrite P. cbn [obind negb]. cbv zeta.
  rewrite (isconst_int m1 hs lk D1 g I1 Ig), (isconst_int m1 hs lk D1 h I1 Ih), !(isconst_mext _ _ _ _ _ _ X1).
  destruct (cal_isconst m g || cal_isconst m h) eqn:Cg.
  - exists unull, m1. split; auto. split; [|discriminate]. intros _. split; auto. exists D1. auto.
  - apply orb_false_iff in Cg as [Cg Ch].
    assert (Cg1 : isconst (uint (mmem m1) g) = false).
    { now rewrite (isconst_int m1 hs lk D1 g I1 Ig), (isconst_mext _ _ _ _ _ _ X1). }
    assert (Ch1 : isconst (uint (mmem m1) h) = false).
    { now rewrite (isconst_int m1 hs lk D1 h I1 Ih), (isconst_mext _ _ _ _ _ _ X1). }
    pose proof (top_depends m1 hs lk D1 g I1 Ig Cg1) as Tg. pose proof (top_depends m1 hs lk D1 h I1 Ih Ch1) as Th.
    cbv zeta in Tg, Th. pose proof (mi_wfo _ _ _ _ I1) as Wo.
    set (G := uint (mmem m1) g) in *. set (H := uint (mmem m1) h) in *.
    pose proof (proj1 Tg) as Og. pose proof (proj1 Th) as Oh.
    pose proof (Tv g _ Ig Tg) as Tg'. pose proof (Tv h _ Ih Th) as Th'.
    destruct (eeq G H) eqn:Q.
    + destruct (ret m1 (uint (mmem m1) f)) as [k m'] eqn:Rt. exists k, m'. split; auto. split; [discriminate|]. intros _.
      exists (eid G), (eid H). split; auto. split; auto.
      assert (EGH : G = H).
      { apply (eeq_valid (mo m1) (st (me m1))); auto; [exact (MI_swf _ _ _ _ I1)|exact (MI_int _ _ _ _ g I1 Ig)|exact (MI_int _ _ _ _ h I1 Ih)]. }
      eapply result_pre'; [exact X1|].
      eapply result_f'; [|eapply ret_result; [exact I1|exact (MI_int _ _ _ _ f I1 If)|exact Rt]].
      intros rho. cbv beta. rewrite EGH. change (hv m1 D1 f rho = hv m D f (exch (eid H) (eid H) rho)).
      rewrite (mx_h _ _ _ _ _ X1) by auto. apply (hv_bext m hs lk D f I If). intros j. symmetry. apply exch_refl.
    + assert (Ne : G <> H). { intros E. rewrite E, eeq_refl in Q. discriminate. }
      assert (Nid : eid G <> eid H).
      { intros E. rewrite <- E in Th'. pose proof (Hgh _ Tg' Th') as Eq.
        destruct (differ (mo m1) D1 (st (me m1)) G H Wo (MI_swf _ _ _ _ I1) (MI_dok _ _ _ _ I1) (MI_int _ _ _ _ g I1 Ig) (MI_int _ _ _ _ h I1 Ih) Ne) as (rho & Df).
        apply Df. change (hv m1 D1 g rho = hv m1 D1 h rho). rewrite !(mx_h _ _ _ _ _ X1) by auto. apply Eq. }
      assert (Nix : eidx (mo m1) G <> eidx (mo m1) H).
      { intros E. apply Nid. apply (wfo_inj (mo m1) _ _ Wo); auto. }
      assert (St : forall A B, In (eid A) (ord (mo m1)) -> In (eid B) (ord (mo m1)) -> eidx (mo m1) A < eidx (mo m1) B ->
         (forall rho, hv m D f (exch (eid A) (eid B) rho) = hv m D f (exch (eid G) (eid H) rho)) ->
         exists r m', (let '(r, en) := swapBF enum (mo m1) (eid A) (eid B) (N.of_nat (length (ord (mo m1)))) (me m1)
             (minid2 (mo m1) (uint (mmem m1) f) A) (uint (mmem m1) f) in Ok (ret (set_me m1 en) r)) = Ok (r, m') /\
           result' m hs lk D (fun rho => hv m D f (exch (eid G) (eid H) rho)) r m').
      { intros A B OA OB Lt Sy.
        destruct (swapBF _ _ _ _ _ _ _ _) as [r en] eqn:Op.
        assert (OI : In (minid2 (mo m1) (uint (mmem m1) f) A) (ord (mo m1)) /\
           ((eidx (mo m1) (uint (mmem m1) f) < idx (mo m1) (eid A) /\ minid2 (mo m1) (uint (mmem m1) f) A = eid (uint (mmem m1) f)) \/
            (idx (mo m1) (eid A) <= eidx (mo m1) (uint (mmem m1) f) /\ minid2 (mo m1) (uint (mmem m1) f) A = eid A))).
        { pose proof (wfo_lt_const (mo m1) (eid A) Wo OA) as LA.
          destruct (minid2_cases (mo m1) (uint (mmem m1) f) A) as [[E L]|[E L]]; rewrite E; unfold eidx in *.
          - assert (If1 : In (eid (uint (mmem m1) f)) (ord (mo m1))).
            { pose proof (MI_int _ _ _ _ f I1 If) as V. destruct (vedge_idx (mo m1) (st (me m1)) (uint (mmem m1) f) Wo (MI_swf _ _ _ _ I1) V) as [[_ Z]|(_ & Z & _)]; auto. lia. }
            split; auto.
          - split; auto. }
        destruct (swapBF_QS (mo m1) (eid A) (eid B) _ D1 (me m1) _ _ _ r en Wo OA OB Lt
            (fun j Ij => proj1 (mi_ids _ _ _ _ I1 j) Ij) (mi_q _ _ _ _ I1) (MI_int _ _ _ _ f I1 If) (proj1 OI) (proj2 OI) Op) as (D2 & Q2 & S2 & V2 & E2).
        destruct (MInv_step m1 hs lk D1 en D2 I1 Q2 S2) as [I2 X2].
        destruct (ret (set_me m1 en) r) as [k m'] eqn:Rt.
        exists k, m'. split; auto.
        eapply result_pre'; [eapply mext_trans; [exact X1|exact X2]|].
        eapply result_f'; [|eapply ret_result; [exact I2|exact V2|exact Rt]].
        intros rho. rewrite E2. cbv beta. rewrite <- Sy. exact (mx_h _ _ _ _ _ X1 f If _). }
      destruct (N.ltb_spec (eidx (mo m1) H) (eidx (mo m1) G)) as [C|C].
      * destruct (St H G Oh Og C) as (r & m' & E & R).
        { intros rho. apply (hv_bext m hs lk D f I If). intros j. apply exch_sym. }
        exists r, m'. split; auto. split; [discriminate|]. intros _. exists (eid G), (eid H). auto.
      * destruct (St G H Og Oh) as (r & m' & E & R); auto. { lia. }
        exists r, m'. split; auto. split; [discriminate|]. intros _. exists (eid G), (eid H). auto.
Qed.

Lemma swapvars_null d m hs lk D f g h : MInv m hs lk D ->
  (forall k, In k [f; g; h] -> uisnull k = true \/ In k hs) -> (exists k, In k [f; g; h] /\ uisnull k = true) ->
  cal_swapvars enum d m f g h = Ok (unull, m).
Proof. intros I Hk Hn. unfold cal_swapvars. now rewrite (preproc_null d m hs lk D [f; g; h] I). Qed.
End Api.
