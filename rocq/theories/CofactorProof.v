(** * Correctness of the generalized cofactor. *)
From Coq Require Import Permutation.
From Verif Require Import Base BFModel ITEModel MgrModel ApiModel CofactorModel StoreInv Own EngInv ApplyProof BinopProof
  StepProof RunProof ReduceProof EngineProof OpProof MultiProof ITEProof QProof GCProof VarProof MInv ApiProof ApiOps ApiStruct ComposeProof CofSem.

Section Cofactor.
Variable o : order.
Hypothesis Wo : wfo o.
(** Whether variables only the care set depends on are quantified (as in [Cal_BddReduce]). *)
Variable red : bool.

(** One queue; children may be null. *)
Definition kcof : kind := K true true (fun _ => 1%nat) kite kite_ext nowhere noel noel_ext.
Definition cval (F C : bf) : bf := gc (ord o) red (ord o) F C.

Record PendR (own : N -> tag) (D : den) (en : eng) (d : nat) (i a : N) : Prop := {
  pr_F : vedge (lvl own 0) (ct (mem (st en) a));
  pr_C : vedge (lvl own 0) (ce (mem (st en) a));
  pr_n : eid (ct (mem (st en) a)) <> 0;
  pr_s : exists rho, dv D (ce (mem (st en) a)) rho = true;
  pr_i : i = minid2 o (ct (mem (st en) a)) (ce (mem (st en) a));
  pr_d : d = 0%nat;
  pr_ind : forall p, own p <> OInd a;
  pr_D : forall rho, D a rho = cval (dv D (ct (mem (st en) a))) (dv D (ce (mem (st en) a))) rho
}.

(** No queue has to wait for another one. *)
Definition never : nat -> nat -> Prop := fun _ _ => False.

Lemma cval_ext F C G H rho : (forall r, F r = G r) -> (forall r, C r = H r) -> cval F C rho = cval G H rho.
Proof. apply gc_ext. Qed.

Lemma PendR_ext : forall H own D en own' D' en' d i a,
  EAcc own en -> EAcc own' en' -> SWF o (st en) ->
  ext H own D en own' D' en' -> own a = OQue d i -> ~ H a ->
  (forall p, own p = OInd a -> ~ H p) -> PendR own D en d i a -> PendR own' D' en' d i a.
Proof.
  intros H own D en own' D' en' d i a A A' W X Oa Ha _ [B1 B2 B3 B4 B5 B8 B7 B6].
  destruct (x_mem _ _ _ _ _ _ _ X a) as [Et Ee]; [right; rewrite Oa; auto|auto|].
  constructor; rewrite ?Et, ?Ee; auto; try (eapply ext_vedge; eauto).
  { destruct B4 as [rho B4]. exists rho. now rewrite (ext_dv _ _ _ _ _ _ _ _ _ _ X A) by eauto. }
  { intros p Op. apply (B7 p). eapply (x_ind _ _ _ _ _ _ _ X); eauto. }
  intros rho. rewrite (x_D _ _ _ _ _ _ _ X) by (rewrite ?Oa; try discriminate; right; rewrite Oa; auto).
  rewrite B6. apply cval_ext; intros r; symmetry; eapply (ext_dv _ _ _ _ _ _ _ _ _ _ X A); eauto.
Qed.

Notation AInv := (AInv o kcof PendR).

Lemma lvl0_node own en e : EAcc own en -> vedge (lvl own 0) e -> vedge (nodeR (st en)) e.
Proof.
  intros A V. eapply vedge_mono; [|exact V]. intros i a _ [H|(d & Hd & _)]; [|lia].
  apply (acc_node _ _ _ _ A). exact H.
Qed.
Section State.
Variables (h : N) (own : N -> tag) (D : den) (S : list N) (en : eng).
Hypothesis A : AInv h own D S en.
Lemma below_dv e i rho b : vedge (lvl own 0) e -> In i (ord o) -> idx o i < eidx o e -> dv D e (flip rho i b) = dv D e rho.
Proof using Wo A.
  intros V Ii Lt. eapply (dv_flip o D (st en)); auto.
  - apply (ai_swf _ _ _ _ _ _ _ _ A).
  - apply (ai_dok _ _ _ _ _ _ _ _ A).
  - eapply lvl0_node; eauto. apply (ai_acc _ _ _ _ _ _ _ _ A).
Qed.
Lemma only_dv e : vedge (lvl own 0) e -> only (ord o) (dv D e).
Proof using Wo A.
  intros V r1 r2 H. apply (dv_agree o D (st en) Wo (ai_swf _ _ _ _ _ _ _ _ A) (ai_dok _ _ _ _ _ _ _ _ A)).
  - eapply lvl0_node; eauto. apply (ai_acc _ _ _ _ _ _ _ _ A).
  - intros j Ij _. auto.
Qed.
Lemma zero_edge e : vedge (lvl own 0) e -> eid e <> 0 -> exists rho, dv D e rho = true.
Proof using Wo A.
  intros V Ne. pose proof (only_dv e V) as O. apply (sat_iff (ord o)); auto. destruct (sat (ord o) (dv D e)) eqn:Z; auto. exfalso.
  pose proof (sat_false _ _ O Z) as K. pose proof (ai_swf _ _ _ _ _ _ _ _ A) as W. pose proof (ai_dok _ _ _ _ _ _ _ _ A) as Dk.
  assert (e = zero) as ->; [|now elim Ne].
  apply (canon_dv o D (st en)); auto.
  - eapply lvl0_node; eauto. apply (ai_acc _ _ _ _ _ _ _ _ A).
  - apply vedge_zero.
  - intros rho. rewrite K. symmetry. eapply dv_zero; eauto.
Qed.
Lemma minid_ord f e : vedge (lvl own 0) f -> vedge (lvl own 0) e -> eid f <> 0 -> In (minid2 o f e) (ord o).
Proof using Wo A.
  intros Vf Ve Nf. destruct (minid2_cases o f e) as [[E _]|[E L]]; rewrite E.
  - eapply lvl_ord; eauto.
  - assert (eid e <> 0); [|eapply lvl_ord; eauto]. intros Z. unfold eidx in L. rewrite Z, (wfo_const o Wo) in L.
    pose proof (wfo_lt_const o _ Wo (lvl_ord _ _ _ _ _ _ _ _ _ _ A Vf Nf)). lia.
Qed.
Lemma minid_le f e i : vedge (lvl own 0) f -> vedge (lvl own 0) e -> i = minid2 o f e -> idx o i <= eidx o f /\ idx o i <= eidx o e.
Proof using.
  intros Vf Ve ->. unfold eidx. destruct (minid2_cases o f e) as [[E L]|[E L]]; rewrite E; unfold eidx in L; lia.
Qed.
End State.

(** The order around a variable. *)
Lemma ord_split i : In i (ord o) -> exists l1 l2, ord o = l1 ++ i :: l2 /\ forall j, In j l1 -> In j (ord o) /\ idx o j < idx o i.
Proof using Wo.
  intros Ii. destruct (in_split i (ord o) Ii) as (l1 & l2 & E). exists l1, l2. split; auto.
  intros j Ij. assert (Ij' : In j (ord o)) by (rewrite E; apply in_or_app; auto). split; auto.
  apply In_nth_error in Ij as [n Hn].
  assert (Hj : nth_error (ord o) n = Some j).
  { rewrite E. rewrite nth_error_app1; auto. apply nth_error_Some. congruence. }
  assert (Hi : nth_error (ord o) (length l1) = Some i).
  { rewrite E, nth_error_app2, Nat.sub_diag; auto. }
  destruct (wfo_idx o Wo _ _ Hj) as [_ ->]. destruct (wfo_idx o Wo _ _ Hi) as [_ ->].
  assert ((n < length l1)%nat) by (apply nth_error_Some; congruence). lia.
Qed.

(** The value of a request in terms of those of its children. *)
Section Expand.
Variables (i : N) (F Ft Fe C Ct Ce : bf).
Hypothesis Ii : In i (ord o).
Hypothesis O1 : only (ord o) Ft. Hypothesis O2 : only (ord o) Fe.
Hypothesis O3 : only (ord o) Ct. Hypothesis O4 : only (ord o) Ce.
Hypothesis O5 : only (ord o) F. Hypothesis O6 : only (ord o) C.
Hypothesis EF : forall rho, F rho = if rho i then Ft rho else Fe rho.
Hypothesis EC : forall rho, C rho = if rho i then Ct rho else Ce rho.
Hypothesis Up : forall j G rho b, In j (ord o) -> idx o j <= idx o i -> In G [Ft; Fe; Ct; Ce] -> G (flip rho j b) = G rho.
Hypothesis Sc : exists rho, C rho = true.
Lemma flip_other rho j b : j <> i -> flip rho j b i = rho i.
Proof. intros N0. unfold flip. destruct (N.eqb_spec i j); congruence. Qed.
Lemma Up' : forall j rho b, In j (ord o) -> idx o j < idx o i -> F (flip rho j b) = F rho /\ C (flip rho j b) = C rho.
Proof using EF EC Up.
  intros j rho b Ij Lt. assert (j <> i) by (intros ->; lia).
  rewrite !EF, !EC, flip_other by auto. split; destruct (rho i); apply Up; simpl; auto; lia.
Qed.
Lemma co_F rho : co F i true rho = Ft rho /\ co F i false rho = Fe rho /\ co C i true rho = Ct rho /\ co C i false rho = Ce rho.
Proof using Ii EF EC Up.
  unfold co. rewrite !EF, !EC, !flip_same. repeat split; apply Up; simpl; auto; lia.
Qed.
Lemma skip_to G H rho : only (ord o) G -> only (ord o) H -> sat (ord o) H = true ->
  (forall j r b, In j (ord o) -> idx o j < idx o i -> G (flip r j b) = G r /\ H (flip r j b) = H r) ->
  exists l, (forall G' H', only (ord o) G' -> only (ord o) H' -> sat (ord o) H' = true ->
     (forall j r b, In j (ord o) -> idx o j <= idx o i -> G' (flip r j b) = G' r /\ H' (flip r j b) = H' r) -> cval G' H' rho = gc (ord o) red l G' H' rho) /\
   cval G H rho = gc (ord o) red (i :: l) G H rho.
Proof using Wo Ii.
  intros OG OH SH Hj. destruct (ord_split i Ii) as (l1 & l2 & E & Hl). exists l2. unfold cval. split.
  - intros G' H' OG' OH' SH' K. rewrite E at 2. change (i :: l2) with ([i] ++ l2). rewrite app_assoc. apply gc_skips; auto.
    + intros j r b Ij. apply K; apply in_app_or in Ij as [Ij|[<-|[]]]; auto; [now apply Hl|apply Hl in Ij; lia|lia].
    + intros j r b Ij. apply K; apply in_app_or in Ij as [Ij|[<-|[]]]; auto; [now apply Hl|apply Hl in Ij; lia|lia].
  - rewrite E at 2. apply gc_skips; auto; intros j r b Ij; apply Hj; now apply Hl.
Qed.
Lemma cval_expand rho : (red = true -> dep (ord o) F i = true) ->
  cval F C rho = if negb (sat (ord o) Ct) then cval Fe Ce rho
                 else if negb (sat (ord o) Ce) then cval Ft Ct rho
                 else if rho i then cval Ft Ct rho else cval Fe Ce rho.
Proof using Wo Ii O1 O2 O3 O4 O5 O6 EF EC Up Sc.
  intros Hr. destruct (skip_to F C rho) as (l & K & E); auto.
  { now apply sat_iff. } { intros j r b Ij Lt. now apply Up'. }
  rewrite E. cbn [gc].
  assert (red && negb (dep (ord o) F i) = false) as ->. { destruct red; auto. now rewrite Hr. }
  assert (E1 : sat (ord o) (co C i true) = sat (ord o) Ct) by (apply sat_ext; intros r; apply co_F).
  assert (E2 : sat (ord o) (co C i false) = sat (ord o) Ce) by (apply sat_ext; intros r; apply co_F).
  assert (E3 : gc (ord o) red l (co F i true) (co C i true) rho = gc (ord o) red l Ft Ct rho) by (apply gc_ext; intros r; apply co_F).
  assert (E4 : gc (ord o) red l (co F i false) (co C i false) rho = gc (ord o) red l Fe Ce rho) by (apply gc_ext; intros r; apply co_F).
  rewrite E1, E2, E3, E4.
  assert (T : sat (ord o) Ct = true -> cval Ft Ct rho = gc (ord o) red l Ft Ct rho).
  { intros S. apply K; auto. intros j r b Ij Lt. split; apply Up; simpl; auto. }
  assert (T' : sat (ord o) Ce = true -> cval Fe Ce rho = gc (ord o) red l Fe Ce rho).
  { intros S. apply K; auto. intros j r b Ij Lt. split; apply Up; simpl; auto. }
  destruct (sat (ord o) Ct) eqn:S1; cbn [negb].
  - destruct (sat (ord o) Ce) eqn:S2; cbn [negb]; [|now rewrite T]. destruct (rho i); [now rewrite T|now rewrite T'].
  - rewrite T'; auto. destruct Sc as [r Hc]. rewrite EC in Hc. apply sat_iff; auto. destruct (r i); [|eauto].
    pose proof (sat_false _ _ O3 S1 r). congruence.
Qed.
Lemma cval_quantify rho : red = true -> dep (ord o) F i = false ->
  cval F C rho = cval F (fun r => Ct r || Ce r) rho.
Proof using Wo Ii O3 O4 O5 O6 EF EC Up Sc.
  intros Hr Hd. assert (OO : only (ord o) (fun r => Ct r || Ce r)) by now apply only_or.
  destruct (skip_to F C rho) as (l & K & E); auto.
  { now apply sat_iff. } { intros j r b Ij Lt. now apply Up'. }
  rewrite E. cbn [gc]. rewrite Hr, Hd. cbn [andb negb]. rewrite K; auto.
  - rewrite Hr. apply gc_ext; [reflexivity|]. intros r. cbn beta. destruct (co_F r) as (_ & _ & -> & ->). reflexivity.
  - apply sat_iff; auto. destruct Sc as [r Hc]. exists r. rewrite EC in Hc. destruct (r i); rewrite Hc; auto. apply orb_true_r.
  - intros j r b Ij Le. split.
    + destruct (N.eq_dec j i) as [->|Nj]; [now apply (dep_false (ord o))|]. apply Up'; auto. assert (idx o j <> idx o i); [|lia].
      intros Ex. apply Nj. exact (wfo_inj o _ _ Wo Ij Ii Ex).
    + now rewrite !(Up j) by (simpl; auto).
Qed.
End Expand.

(** A child. *)
Definition cres (D : den) (f c : edge) : option bf := if isconst c && eneg c then None else Some (cval (dv D f) (dv D c)).

Lemma dv_zero' D e : (forall rho, D ONE rho = true) -> eptr e = ONE -> forall rho, dv D e rho = negb (eneg e).
Proof. intros H E rho. unfold dv. rewrite E, H. now destruct (eneg e). Qed.

Lemma req_good a lv own D S en L x f c :
  AInv a own D S en -> RC own S idn (mem (st en)) L x -> (forall q, own a <> OInd q) ->
  vedge (lvl own 0) f -> vedge (lvl own 0) c -> lv <= eidx o f -> lv <= eidx o c ->
  (forall d' j b, own b = OQue d' j -> lv <= idx o j -> ~ In b S /\ b <> a) ->
  good o kcof PendR a 1 lv S own D en L x (cres D f c) (cofactor_req o 0 en f c).
Proof.
  intros A R Oa Vf Vc Lf Lc HS. unfold cofactor_req, tcofactor, cres.
  pose proof (only_dv _ _ _ _ _ A f Vf) as Of.
  assert (D1 : forall rho, D ONE rho = true) by apply (dok_one _ _ (ai_dok _ _ _ _ _ _ _ _ A)).
  destruct (isconst c) eqn:Ec.
  - unfold isconst in Ec. apply N.eqb_eq in Ec. cbn [andb].
    assert (Pc : eptr c = ONE). { destruct Vc as [[_ P]|[N0 _]]; [auto|congruence]. }
    destruct (eneg c) eqn:Nc.
    + apply good_keep; auto.
    + apply good_keep; auto. split; [eapply vedge_lvl_mono; [|exact Vf]; lia|]. split; auto. intros rho. symmetry.
      apply gc_one; auto. intros r. now rewrite (dv_zero' D c D1 Pc), Nc.
  - unfold isconst in Ec. apply N.eqb_neq in Ec. cbn [andb].
    destruct (isconst f) eqn:Ef.
    + unfold isconst in Ef. apply N.eqb_eq in Ef. assert (Pf : eptr f = ONE) by (destruct Vf as [[_ P]|[N0 _]]; [auto|congruence]).
      apply good_keep; auto. split; [eapply vedge_lvl_mono; [|exact Vf]; lia|]. split; auto. intros rho. rewrite (dv_zero' D f D1 Pf). symmetry.
      apply gc_const. intros r. now rewrite (dv_zero' D f D1 Pf).
    + unfold isconst in Ef. apply N.eqb_neq in Ef.
      apply (good_request o Wo kcof PendR PendR_ext); auto.
      * eapply minid_ord; eauto.
      * destruct (minid2_cases o f c) as [[E _]|[E _]]; rewrite E; auto.
      * intros b [B1 B2 B3 B4 B5 B8 B7 B6] E1 E2 rho. rewrite B6. apply cval_ext; intros r; (symmetry; now apply dv_eeq).
      * intros own' D' en' b AC' X Ob Fb Mb Db NI Dv.
        constructor; rewrite ?Mb; simpl; auto; try (eapply ext_vedge; eauto).
        -- destruct (zero_edge _ _ _ _ _ A c Vc Ec) as [rho Hr]. exists rho. now rewrite (Dv _ 0%nat).
        -- intros rho. rewrite Db. apply cval_ext; intros r; symmetry; now apply (Dv _ 0%nat).
Qed.

Lemma inc_nn s r : icr_nn s r = icr s r \/ (isnul r = true /\ icr_nn s r = s).
Proof. unfold icr_nn, isbnull, isnul, NUL. destruct (eptr r =? 2) eqn:E; auto. Qed.

(** The expansion of a request; with quantification the function must depend on its variable. *)
Lemma cofactor1_gen own D S en L x i a :
  AInv 0 own D S en -> RC own S idn (mem (st en)) L x -> own a = OQue 0 i -> ~ In a S ->
  (forall d' j b, own b = OQue d' j -> idx o i < idx o j -> ~ In b S) ->
  (red = true -> eid (ct (mem (st en) a)) = i) ->
  exists own' D',
    AInv 0 own' D' (a :: S) (cofactor1 o 0 i en a) /\
    RC own' (a :: S) idn (mem (st (cofactor1 o 0 i en a))) (a :: L) x /\
    ext (fun b => b = a \/ own b = OInd a) own D en own' D' (cofactor1 o 0 i en a) /\
    (forall b d' j, own' b = OQue d' j -> own b = OQue d' j \/ ((d' < 1)%nat /\ idx o i < idx o j)).
Proof.
  intros A0 R Oa Na HSi Hred.
  assert (R3 : 2 < a) by (apply (acc_rng _ _ _ (ai_acc _ _ _ _ _ _ _ _ A0)); congruence).
  destruct (ai_que _ _ _ _ _ _ _ _ A0 _ _ _ Oa) as [Ii Hst].
  destruct Hst as [[? _]|[_ Pe]]; [lia|tauto|].
  destruct Pe as [VF VC Nf Sc Ei _ NI DF].
  set (F := ct (mem (st en) a)) in *. set (C := ce (mem (st en) a)) in *.
  destruct (cofactors2_spec o Wo kcof PendR 0 own D S en F C i A0 VF VC Ei Ii) as
     (fx & fxb & cx & cxb & EC & V1 & V2 & V3 & V4 & G1 & G2 & G3 & G4 & DvF & DvC).
  unfold cofactor1. fold F C. rewrite EC.
  change (exists own' D',
    AInv 0 own' D' (a :: S) (two icr_nn (fun en => cofactor_req o 0 en fx cx) (fun en => cofactor_req o 0 en fxb cxb) en a) /\
    RC own' (a :: S) idn (mem (st (two icr_nn (fun en => cofactor_req o 0 en fx cx) (fun en => cofactor_req o 0 en fxb cxb) en a))) (a :: L) x /\
    ext (fun b => b = a \/ own b = OInd a) own D en own' D' (two icr_nn (fun en => cofactor_req o 0 en fx cx) (fun en => cofactor_req o 0 en fxb cxb) en a) /\
    (forall b d' j, own' b = OQue d' j -> own b = OQue d' j \/ ((d' < klv kcof 0)%nat /\ idx o i < idx o j))).
  pose proof (ai_acc _ _ _ _ _ _ _ _ A0) as AC.
  assert (P : forall f c, vedge (lvl own 0) f -> vedge (lvl own 0) c -> gt_idx o i f -> gt_idx o i c ->
     pok o kcof PendR a 0 i S own D en (cres D f c) (fun en => cofactor_req o 0 en f c)).
  { intros f c Vf Vc Gf Gc own1 D1 en1 L1 x1 A1 R1 Oa1 X1 HS1.
    assert (Gd : good o kcof PendR a 1 (idx o i + 1) S own1 D1 en1 L1 x1 (cres D1 f c) (cofactor_req o 0 en1 f c)).
    { apply req_good; auto.
      - rewrite Oa1. discriminate.
      - exact (ext_vedge _ _ _ _ _ _ _ _ _ X1 Vf).
      - exact (ext_vedge _ _ _ _ _ _ _ _ _ X1 Vc).
      - unfold gt_idx, eidx in *. lia.
      - unfold gt_idx, eidx in *. lia. }
    unfold cres in *. destruct (isconst c && eneg c); [exact Gd|]. eapply good_v; [|exact Gd].
    intros rho. apply cval_ext; intros r; eapply (ext_dv _ _ _ _ _ _ _ _ _ _ X1 AC); eauto. }
  assert (Cz : forall c, vedge (lvl own 0) c -> (isconst c && eneg c = negb (sat (ord o) (dv D c)))).
  { intros c Vc. pose proof (only_dv _ _ _ _ _ A0 c Vc) as Oc. symmetry. destruct (sat (ord o) (dv D c)) eqn:Z; cbn [negb]; symmetry.
    - apply satl_true in Z as [r Hr]. destruct (isconst c) eqn:Ec; auto. destruct (eneg c) eqn:Nc; auto. unfold isconst in Ec. apply N.eqb_eq in Ec.
      assert (Pc : eptr c = ONE) by (destruct Vc as [[_ Pc]|[N0 _]]; [auto|congruence]).
      rewrite (dv_zero' D c (dok_one _ _ (ai_dok _ _ _ _ _ _ _ _ A0)) Pc), Nc in Hr. discriminate.
    - destruct (isconst c) eqn:Ec.
      + unfold isconst in Ec. apply N.eqb_eq in Ec. assert (Pc : eptr c = ONE) by (destruct Vc as [[_ Pc]|[N0 _]]; [auto|congruence]).
        pose proof (sat_false _ _ Oc Z (fun _ => false)) as Hr. rewrite (dv_zero' D c (dok_one _ _ (ai_dok _ _ _ _ _ _ _ _ A0)) Pc) in Hr. now destruct (eneg c).
      + unfold isconst in Ec. apply N.eqb_neq in Ec. destruct (zero_edge _ _ _ _ _ A0 c Vc Ec) as [r Hr].
        rewrite (sat_false _ _ Oc Z r) in Hr. discriminate. }
  pose proof (only_dv _ _ _ _ _ A0 cx V3) as Ocx. pose proof (only_dv _ _ _ _ _ A0 cxb V4) as Ocxb.
  assert (Both : sat (ord o) (dv D cx) = false -> sat (ord o) (dv D cxb) = false -> False).
  { intros Z1 Z2. destruct Sc as [r Hr]. rewrite DvC in Hr. destruct (r i); [rewrite (sat_false _ _ Ocx Z1) in Hr|rewrite (sat_false _ _ Ocxb Z2) in Hr]; discriminate. }
  assert (Bl : forall e j rho b, vedge (lvl own 0) e -> gt_idx o i e -> In j (ord o) -> idx o j <= idx o i -> dv D e (flip rho j b) = dv D e rho).
  { intros e j rho b Ve Ge Ij Lj. eapply below_dv; eauto. unfold gt_idx, eidx in *. lia. }
  assert (Dp : red = true -> dep (ord o) (dv D F) i = true).
  { intros Hr. destruct (dep (ord o) (dv D F) i) eqn:Z; auto. exfalso. specialize (Hred Hr).
    pose proof (proj1 (dep_false _ _ _ (only_dv _ _ _ _ _ A0 F VF)) Z) as K.
    destruct (expand0 _ _ _ _ _ _ _ _ F A0 VF Nf) as (W1 & W0 & X1 & X0 & DX). rewrite Hred in *.
    assert (Es : thenof (mem (st en)) F = elseof (mem (st en)) F).
    { apply (canon_dv o D (st en)).
      - exact Wo.
      - exact (ai_swf _ _ _ _ _ _ _ _ A0).
      - exact (ai_dok _ _ _ _ _ _ _ _ A0).
      - eapply lvl0_node; eauto.
      - eapply lvl0_node; eauto.
      - intros rho. pose proof (K rho true) as K1. pose proof (K rho false) as K2. rewrite DX, flip_same in K1. rewrite DX, flip_same in K2.
        rewrite (Bl _ i rho true W1 X1 Ii (N.le_refl _)) in K1. rewrite (Bl _ i rho false W0 X0 Ii (N.le_refl _)) in K2. congruence. }
    assert (VN : In (eptr F) (ut (st en) (eid F))).
    { pose proof (lvl0_node _ _ _ AC VF) as VFn. destruct VFn as [[Z0 _]|[_ Hn]]; [congruence|exact Hn]. }
    assert (NO : nodeok o (st en) (eid F) (eptr F)).
    { apply (swf_node _ _ (ai_swf _ _ _ _ _ _ _ _ A0)); [congruence|exact VN]. }
    pose proof (no_red _ _ _ _ NO) as Nr. unfold thenof, elseof, ephase in Es. unfold eeq in Nr.
    pose proof (f_equal eptr Es) as Ep. pose proof (f_equal eneg Es) as En. simpl in Ep, En. rewrite Ep, N.eqb_refl in Nr.
    destruct (eneg (ct (mem (st en) (eptr F)))), (eneg (ce (mem (st en) (eptr F)))), (eneg F); simpl in *; congruence. }
  apply (two_ok o kcof PendR PendR_ext icr_nn inc_nn a 0 i own D S en L x (cres D fx cx) (cres D fxb cxb)); auto.
  - unfold cres. rewrite (Cz _ V3), (Cz _ V4). destruct (sat (ord o) (dv D cx)) eqn:Z1; [discriminate|]. intros _. split; auto.
    destruct (sat (ord o) (dv D cxb)) eqn:Z2; [discriminate|]. now elim (Both eq_refl eq_refl).
  - unfold cres. rewrite (Cz _ V3), (Cz _ V4). destruct (sat (ord o) (dv D cxb)) eqn:Z1; [discriminate|]. intros _. split; auto.
    destruct (sat (ord o) (dv D cx)) eqn:Z2; [discriminate|]. now elim (Both eq_refl eq_refl).
  - intros rho. rewrite DF. unfold cres. rewrite (Cz _ V3), (Cz _ V4).
    rewrite (cval_expand i (dv D F) (dv D fx) (dv D fxb) (dv D C) (dv D cx) (dv D cxb)); auto; try (eapply only_dv; eauto; fail).
    + destruct (sat (ord o) (dv D cx)) eqn:Z1, (sat (ord o) (dv D cxb)) eqn:Z2; cbn [negb]; auto. now elim (Both eq_refl eq_refl).
    + intros j G r b Ij Lj [<-|[<-|[<-|[<-|[]]]]]; apply Bl; auto.
Qed.
(** Reduction: a request with one null child stands for its other child. *)
Section One.
Variables (own : N -> tag) (D : den) (en : eng) (rs : N -> N) (S : list N) (L : list N) (x : N -> N).
Variables (d : nat) (i a : N) (l : list N).
Hypothesis I : RInv o kcof own D (set_que en d i (a :: l)).
Hypothesis R : RC own S rs (mem (st en)) L x.
Hypothesis RO : rs_ok own (mem (st en)) rs.
Hypothesis HS : forall b d j, own b = OQue d j -> In b S.
Hypothesis Hx : forall b d j, own b = OQue d j -> x b = 0.
Hypothesis Low : forall d j b, own b = OQue d j -> idx o j <= idx o i.
Notation m := (mem (st en)).

Definition fwdto (r : edge) : eng :=
  let s1 := addref (st en) r (Z.of_N (cr (m a)) - 1) in add_don (set_st en (put s1 a (C r efwd (cr (mem s1 a))))) d i a.

Lemma null_case z z' : isnul z = false -> isnul z' = true -> (ct (m a) = z /\ ce (m a) = z') \/ (ct (m a) = z' /\ ce (m a) = z) ->
  vedge (RL own) z -> gt_idx o i z -> (forall rho, D a rho = dv D z rho) ->
  Post o kcof own D en S x d i a l (set_que (fwdto (fwd m z)) d i l).
Proof using Wo I R RO HS Hx Low.
  intros Nz Nz' Hc Vz Gz Dz.
  pose proof (ri_acc _ _ _ _ _ I) as A. pose proof (Oa o kcof own D en d i a l I) as O_a. pose proof (ri_swf _ _ _ _ _ I) as W.
  change (st (set_que en d i (a :: l))) with (st en) in W.
  assert (R3 : 2 < a) by (apply (acc_rng _ _ _ A); congruence).
  destruct (fwd_spec o kcof own D _ rs i z I RO Vz Gz Low) as (Vt & Gt & Dt & Pt).
  change (st (set_que en d i (a :: l))) with (st en) in *.
  destruct (Lsplit o kcof own D en rs S L x d i a l I R HS eq_refl) as [L1 PL].
  set (t := fwd m z) in *. set (n := cr (m a)) in *.
  assert (Nta : eptr t <> a).
  { destruct Vt as [[_ P]|[_ P]]; intros E; [rewrite P in E; unfold ONE in E; lia|]. unfold vnode in P. rewrite E in P. congruence. }
  assert (VnX : forall b, own b = OX -> b <> eptr t).
  { destruct Vt as [[_ P]|[_ P]]; intros b E Eb.
    - rewrite P in Eb. subst b. rewrite (acc_one_none _ _ A) in E. discriminate.
    - unfold vnode in P. congruence. }
  assert (Pn : forall b, counted own b -> (rs (eptr z') =? b) = false).
  { intros b Cb. apply N.eqb_neq. unfold isnul in Nz'. apply N.eqb_eq in Nz'. rewrite Nz'. destruct RO as [_ R2].
    assert (O2 : own NUL = ONone).
    { destruct (own NUL) eqn:E2; auto; assert (Q : own NUL <> ONone) by congruence; apply (acc_rng _ _ _ A) in Q; unfold NUL in Q; lia. }
    rewrite R2 by (left; apply N.le_refl). intros <-. destruct Cb as [[j Cb]|[d' [j Cb]]]; congruence. }
  assert (Oc : forall b, counted own b -> occ rs m L b = b2n (eptr t =? b) + occ rs m L1 b).
  { intros b Cb. rewrite (occ_perm _ _ _ _ _ PL). simpl. f_equal. unfold wt. specialize (Pn b Cb).
    destruct Hc as [[-> ->]|[-> ->]]; rewrite <- Pt, Pn; simpl; lia. }
  assert (Ca : counted own a) by (right; eauto).
  assert (Oca : occ rs m L a = occ rs m L1 a).
  { rewrite Oc by auto. destruct (N.eqb_spec (eptr t) a); [congruence|]. reflexivity. }
  assert (Cn : n <= MAXREF) by (apply (rc_max _ _ _ _ _ _ R); auto).
  assert (Cn' : n = MAXREF \/ n = occ rs m L1 a).
  { destruct (rc_cnt _ _ _ _ _ _ R a Ca) as [E|E]; [left; auto|].
    right. unfold n. rewrite E, Oca, (Hx _ _ _ O_a). lia. }
  assert (Mcr : forall b, counted own b -> cr (m b) <= MAXREF) by apply (rc_max _ _ _ _ _ _ R).
  pose proof (swf_onerc _ _ W) as M1.
  unfold fwdto. fold t n. set (s1 := addref (st en) t (Z.of_N n - 1)).
  assert (Cr : forall b, cr (mem s1 b) = if b =? eptr t then rc_add (cr (m b)) (Z.of_N n - 1) else cr (m b))
    by (intros b; unfold s1; now rewrite cr_addref).
  assert (Sm : forall b, sameTE m (mem s1) b) by (intros b; apply sameTE_addref).
  assert (Pu : forall b, b <> a -> mem (put s1 a (C t efwd (cr (mem s1 a)))) b = mem s1 b)
    by (intros b Nb; simpl; now rewrite upd_other).
  apply (forward_case o Wo kcof own D en rs S L x d i a l I R RO HS Hx Low _ t (cr (mem s1 a)) L1); auto.
  - intros _. specialize (Gt eq_refl). unfold gt_idx in Gt. lia.
  - intros rho. now rewrite Dz.
  - simpl. apply upd_same.
  - intros b Nb. unfold sameTE. rewrite Pu by auto. apply Sm.
  - intros b Ob. assert (b <> a) by congruence. rewrite Pu by auto. apply mem_cell_eq; [apply Sm|]. rewrite Cr.
    pose proof (VnX _ Ob). destruct (N.eqb_spec b (eptr t)); [congruence|auto].
  - intros _. rewrite Pu by (unfold ONE; lia). rewrite Cr, M1. destruct (ONE =? eptr t); reflexivity.
  - intros b Cb Nb. rewrite Pu by auto. rewrite Cr. specialize (Mcr b Cb). rewrite (Oc b Cb).
    destruct (rc_cnt _ _ _ _ _ _ R b Cb) as [E|E]; rewrite ?(Oc b Cb) in E;
    rewrite ?(N.eqb_sym (eptr t) b) in *; destruct (N.eqb_spec b (eptr t)) as [Eb|Eb]; simpl b2n in *.
    + rewrite E. unfold rc_add. simpl. repeat split; auto; lia.
    + rewrite E. repeat split; auto; lia.
    + unfold MAXREF in *. rewrite rc_add_spec by (unfold MAXREF; lia). unfold MAXREF.
      destruct (N.eqb_spec (cr (m b)) 255); [repeat split; auto; lia|].
      split; [lia|]. split; [lia|]. intros _. destruct Cn' as [C|C]; [left; lia|]. lia.
    + split; [lia|]. split; [lia|]. intros _. right. lia.
Qed.

Lemma cofreduce1_ok : Post o kcof own D en S x d i a l (set_que (cofreduce1 d i en a) d i l).
Proof using Wo I R RO HS Hx Low.
  pose proof (Oa o kcof own D en d i a l I) as O_a.
  destruct (ri_que _ _ _ _ _ I _ _ _ O_a) as [Ii [B1 B2 B3 B4 B5]].
  change (st (set_que en d i (a :: l))) with (st en) in *. unfold comb in B5.
  unfold cofreduce1. change (isbnull (ct (m a))) with (isnul (ct (m a))). change (isbnull (ce (m a))) with (isnul (ce (m a))).
  destruct (isnul (ct (m a))) eqn:N1.
  - destruct B3 as [B3|[_ N2]]; [congruence|]. destruct (B2 N2) as [V2 G2].
    apply (null_case (ce (m a)) (ct (m a))); auto.
  - destruct (isnul (ce (m a))) eqn:N2.
    + destruct (B1 eq_refl) as [V1 G1]. apply (null_case (ct (m a)) (ce (m a))); auto.
    + destruct (B1 eq_refl) as [V1 G1]. destruct (B2 eq_refl) as [V2 G2].
      destruct (fwd_spec o kcof own D _ rs i _ I RO V1 G1 Low) as (_ & Gt & _).
      destruct (fwd_spec o kcof own D _ rs i _ I RO V2 G2 Low) as (_ & Ge & _).
      apply (reduce1_gen o Wo kcof own D en rs S L x d i a l); auto.
Qed.
End One.

Section Tables.
Variable enum : memory -> list N -> list N.
Hypothesis enum_perm : forall m l, Permutation (enum m l) l.
Lemma cofreduce_table_ok d i : rtable_ok o kcof (fun en => cofreduce_table enum en d i) d i.
Proof using Wo enum_perm.
  apply (requests_ok o enum enum_perm kcof d i (cofreduce1 d i)).
  - intros. unfold cofreduce1. simpl. destruct (isbnull _); auto. destruct (isbnull _); auto. apply reduce1_que.
  - intros. unfold cofreduce1. simpl. destruct (isbnull _); auto. destruct (isbnull _); auto. now rewrite reduce1_qq.
  - intros own D en rs S L x a l I R RO HS Hx Low. eapply cofreduce1_ok; eauto.
Qed.

Lemma cofactor1_ok d : red = false -> step_ok o kcof PendR never (fun _ i => cofactor1 o 0 i) d.
Proof using Wo.
  intros Hr own D S en L x i a A0 R Oa Na _ HSi _.
  assert (d = 0%nat) as ->.
  { destruct (ai_que _ _ _ _ _ _ _ _ A0 _ _ _ Oa) as [_ Hst].
    assert (2 < a) by (apply (acc_rng _ _ _ (ai_acc _ _ _ _ _ _ _ _ A0)); congruence).
    destruct Hst as [[? _]|[_ Pe]]; [lia|tauto|]. apply Pe. }
  eapply cofactor1_gen; eauto. congruence.
Qed.
Lemma cofactor_table_ok d i : red = false -> table_ok o kcof PendR never (stable (fun _ i => cofactor1 o 0 i) enum d i) d i.
Proof using Wo enum_perm. intros Hr. apply (stable_ok o kcof PendR never (fun _ i => cofactor1 o 0 i) d); auto. now apply cofactor1_ok. Qed.

Lemma zero_dv o' D s c : wfo o' -> SWF o' s -> Dok D s -> vedge (nodeR s) c ->
  (isconst c && eneg c = true <-> forall rho, dv D c rho = false).
Proof using.
  intros Wo' W K V. split.
  - intros Hc. apply andb_true_iff in Hc as [Ec Nc]. unfold isconst in Ec. apply N.eqb_eq in Ec.
    assert (Pc : eptr c = ONE) by (destruct V as [[_ P]|[N0 _]]; [auto|congruence]).
    intros rho. now rewrite (dv_zero' D c (dok_one _ _ K) Pc), Nc.
  - intros H. assert (c = zero) as ->; [|reflexivity]. apply (canon_dv o' D s); auto; [apply vedge_zero|].
    intros rho. rewrite H. symmetry. eapply dv_zero; eauto.
Qed.

Lemma cofactorBF_spec own D en L x F C r en' : red = false ->
  EInv o own D en -> RC own [] idn (mem (st en)) L x ->
  vedge (nodeR (st en)) F -> vedge (nodeR (st en)) C ->
  cofactorBF enum o en F C = (r, en') ->
  exists own' D', EInv o own' D' en' /\ (exists L', RC own' [] idn (mem (st en')) L' x) /\
    nodes_kept own D en own' D' en' /\ vedge (nodeR (st en')) r /\
    forall rho, dv D' r rho = if isconst C && eneg C then true else cval (dv D F) (dv D C) rho.
Proof using Wo enum_perm.
  intros Hr I R VF VC Eq. unfold cofactorBF in Eq.
  assert (U : forall e, vedge (nodeR (st en)) e -> vedge (lvl own 0) e).
  { intros e V. eapply vedge_lvl0; [exact (ei_acc _ _ _ _ I)|]. exact V. }
  pose proof (EInv_AInv o kcof PendR own D en I) as A1.
  destruct (isconst C && eneg C) eqn:Z.
  { apply pair_equal_spec in Eq as [<- <-]. exists own, D. split; auto. split; [eauto|]. split; [apply oext_nk; apply oext_refl|].
    split; [apply vedge_one|]. intros rho. eapply dv_one. exact (ei_dok _ _ _ _ I). }
  assert (Gd : good o kcof PendR 0 1 (N.min (eidx o F) (eidx o C)) [] own D en L x (cres D F C) (cofactor_req o 0 en F C)).
  { apply req_good; auto; try lia. intros q E. exact (ei_ind _ _ _ _ I _ _ E).
    intros d' j b Ob. destruct (EInv_nq _ _ _ _ _ _ _ I Ob). }
  unfold cres in Gd. rewrite Z in Gd. unfold cofactor_req in Gd.
  destruct (tcofactor F C) as [r0|] eqn:Tc.
  { apply pair_equal_spec in Eq as [<- <-]. pose proof (ei_dok _ _ _ _ I) as K. pose proof (dok_one _ _ K) as D1.
    assert (vedge (nodeR (st en)) r0 /\ forall rho, dv D r0 rho = cval (dv D F) (dv D C) rho) as [V0 E0].
    { unfold tcofactor in Tc. destruct (isconst C) eqn:Ec.
      - cbn [andb] in Z. rewrite Z in Tc. injection Tc as <-. split; auto. intros rho. symmetry.
        unfold isconst in Ec. apply N.eqb_eq in Ec. assert (Pc : eptr C = ONE) by (destruct VC as [[_ P]|[N0 _]]; [auto|congruence]).
        apply gc_one; [eapply only_dv; eauto|]. intros q. now rewrite (dv_zero' D C D1 Pc), Z.
      - destruct (isconst F) eqn:Ef; [|discriminate]. injection Tc as <-. split; auto. intros rho. symmetry.
        unfold isconst in Ef. apply N.eqb_eq in Ef. assert (Pf : eptr F = ONE) by (destruct VF as [[_ P]|[N0 _]]; [auto|congruence]).
        rewrite (dv_zero' D F D1 Pf). apply gc_const. intros q. now rewrite (dv_zero' D F D1 Pf). }
    exists own, D. split; auto. split; [eauto|]. split; [|split; auto]. apply oext_nk. apply oext_refl. }
  set (res := request en 0 (minid2 o F C) F C) in *.
  destruct (run_spec o Wo kcof PendR PendR_ext never (stable (fun _ i => cofactor1 o 0 i) enum) (fun d i => cofactor_table_ok d i Hr)
    (fun d i en => cofreduce_table enum en d i)) with (n := 1%nat) (ds := [0%nat]) (rds := [0%nat])
    (cds := [0%nat]) (cids := skipn (N.to_nat (minindex2 o F C)) (ord o)) (c := N.to_nat (minindex2 o F C)) (lv := N.min (eidx o F) (eidx o C))
    (own := own) (D := D) (en := en) (L := L) (x := x)
    (v := cval (dv D F) (dv D C)) (res := res)
    as (own2 & D2 & I2 & (L2 & R2) & X2 & V2 & E2); auto.
  { intros d i _. apply cofreduce_table_ok. }
  { simpl. unfold never. intuition lia. }
  { intros d. simpl. lia. } { intros d. simpl. lia. } { intros d. simpl. lia. }
  { unfold minindex2. destruct (N.ltb_spec (eidx o F) (eidx o C)); lia. }
  cbv zeta in I2, R2, X2, V2, E2. destruct res as [r1 en2]. cbn [fst snd] in *.
  apply pair_equal_spec in Eq as [<- <-].
  exists own2, D2. split; [exact I2|]. split; [exists L2; exact R2|]. split; [apply oext_nk; exact X2|]. split; [exact V2|exact E2].
Qed.
End Tables.
End Cofactor.

Section Api.
Variable enum : memory -> list N -> list N.
Hypothesis enum_perm : forall m l, Permutation (enum m l) l.

Lemma cofactorBF_QS o D en x F C r en' : wfo o -> QS o D en x -> vedge (nodeR (st en)) F -> vedge (nodeR (st en)) C ->
  cofactorBF enum o en F C = (r, en') ->
  exists D', QS o D' en' x /\ sext (st en) D (st en') D' /\ vedge (nodeR (st en')) r /\
    forall rho, dv D' r rho = if isconst C && eneg C then true else cval o false (dv D F) (dv D C) rho.
Proof using enum_perm.
  intros Wo (own & L & I & R) VF VC Hr.
  destruct (cofactorBF_spec o Wo false enum enum_perm own D en L x F C r en' eq_refl I R VF VC Hr) as (own' & D' & I' & (L' & R') & X & V & E).
  exists D'. split; [exists own', L'; auto|]. split; [|auto].
  apply (nk_sext own D en own' D' en'); [apply I|apply I'|]. exact X.
Qed.

(** What is known of the result: everywhere one if the care set is empty, the generalized cofactor otherwise. *)
Definition cofactor_of (o : order) (F C R : bf) : Prop :=
  ((forall rho, C rho = false) -> forall rho, R rho = true) /\
  ((exists rho, C rho = true) -> forall rho, R rho = gc (ord o) false (ord o) F C rho).

Lemma only_hv m hs lk D f : MInv m hs lk D -> In f hs -> only (ord (mo m)) (hv m D f).
Proof.
  intros I If r1 r2 H. apply (dv_agree (mo m) D (st (me m)) (mi_wfo _ _ _ _ I) (MI_swf _ _ _ _ I) (MI_dok _ _ _ _ I)).
  - exact (MI_int _ _ _ _ f I If).
  - intros j Ij _. auto.
Qed.

Lemma cofactor_spec d1 d2 m hs lk D f c : MInv m hs lk D -> In f hs -> In c hs ->
  exists r m' R, cal_cofactor enum d1 d2 m f c = Ok (r, m') /\ cofactor_of (mo m) (hv m D f) (hv m D c) R /\ result m hs lk D R r m'.
Proof using enum_perm.
  intros I If Ic.
  destruct (preproc_live d1 m hs lk D [f; c] I) as (m1 & D1 & P & I1 & X1). { now intros k [<-|[<-|[]]]. }
  unfold cal_cofactor. rewrite P. cbn [obind negb].
  destruct (cofactorBF enum (mo m1) (me m1) (uint (mmem m1) f) (uint (mmem m1) c)) as [r en] eqn:Op.
  destruct (cofactorBF_QS _ _ _ _ _ _ _ _ (mi_wfo _ _ _ _ I1) (mi_q _ _ _ _ I1)
              (MI_int _ _ _ _ f I1 If) (MI_int _ _ _ _ c I1 Ic) Op) as (D2 & Q2 & S2 & V2 & E2).
  destruct (MInv_step m1 hs lk D1 en D2 I1 Q2 S2) as [I2 X2].
  destruct (finish d2 (set_me m1 en) r) as [k m'] eqn:Fi.
  pose proof (zero_dv (mo m1) D1 _ _ (mi_wfo _ _ _ _ I1) (MI_swf _ _ _ _ I1) (MI_dok _ _ _ _ I1) (MI_int _ _ _ _ c I1 Ic)) as Z.
  change (dv D1 (uint (mmem m1) c)) with (hv m1 D1 c) in *. change (dv D1 (uint (mmem m1) f)) with (hv m1 D1 f) in *.
  assert (Eo : mo m1 = mo m) by (eapply preproc_order; eauto).
  exists k, m', (fun rho => if isconst (uint (mmem m1) c) && eneg (uint (mmem m1) c) then true else cval (mo m1) false (hv m1 D1 f) (hv m1 D1 c) rho).
  split; auto. split.
  - split; intros Hc rho.
    + replace (isconst (uint (mmem m1) c) && eneg (uint (mmem m1) c)) with true; auto. symmetry. apply Z. intros q.
      rewrite (mx_h _ _ _ _ _ X1) by auto. apply Hc.
    + destruct (isconst (uint (mmem m1) c) && eneg (uint (mmem m1) c)) eqn:Ez.
      * exfalso. destruct Hc as [q Hq]. rewrite <- (mx_h _ _ _ _ _ X1) in Hq by auto. pose proof (proj1 Z eq_refl q). congruence.
      * unfold cval. rewrite Eo. apply gc_ext; intros q; apply (mx_h _ _ _ _ _ X1); auto.
  - eapply result_pre; [eapply mext_trans; [exact X1|exact X2]|].
    eapply result_f; [|eapply finish_spec; [exact I2|exact V2|exact Fi]]. exact E2.
Qed.

Lemma cofactor_null d1 d2 m hs lk D f c : MInv m hs lk D ->
  (forall k, In k [f; c] -> uisnull k = true \/ In k hs) -> (exists k, In k [f; c] /\ uisnull k = true) ->
  cal_cofactor enum d1 d2 m f c = Ok (unull, m).
Proof. intros I Hk Hn. unfold cal_cofactor. now rewrite (preproc_null d1 m hs lk D [f; c] I). Qed.
End Api.
