(** * Apply phase of the binary operators. *)
From Coq Require Import Permutation.
From Verif Require Import Base BFModel StoreInv Own EngInv ApplyProof.

(** ** What the proofs need to know about an operator *)
Record binop_ok (op : binop) : Prop := {
  bo_some : forall F G r (v : N -> bool), v ONE = true ->
     (eid F = 0 -> eptr F = ONE) -> (eid G = 0 -> eptr G = ONE) -> tcase op F G = Some r ->
     xorb (eneg r) (v (eptr r)) = bsem op (xorb (eneg F) (v (eptr F))) (xorb (eneg G) (v (eptr G)));
  bo_src : forall F G r, (eid F = 0 -> eptr F = ONE) -> (eid G = 0 -> eptr G = ONE) -> tcase op F G = Some r ->
     (eid r = eid F /\ eptr r = eptr F) \/ (eid r = eid G /\ eptr r = eptr G) \/ (eid r = 0 /\ eptr r = ONE);
  bo_none : forall F G, tcase op F G = None -> eid F <> 0 /\ eid G <> 0;
  bo_comm : forall a b, bsem op a b = bsem op b a
}.

Lemma isone_spec F : eid F = 0 -> eptr F = ONE -> isone F = negb (eneg F).
Proof. intros _ P. unfold isone, eeq; simpl. rewrite P. simpl. now destruct (eneg F). Qed.

Ltac op_case :=
  intros F G r v V1 HF HG H; simpl in *;
  destruct (isconst F) eqn:CF; unfold isconst in CF;
  [apply N.eqb_eq in CF; rewrite (isone_spec F CF (HF CF)) in H; rewrite (HF CF), ?V1 in *
  |destruct (isconst G) eqn:CG; unfold isconst in CG;
   [apply N.eqb_eq in CG; rewrite (isone_spec G CG (HG CG)) in H; rewrite (HG CG), ?V1 in *
   |destruct (sameptr F G) eqn:SP; [unfold sameptr in SP; apply N.eqb_eq in SP; rewrite SP|discriminate]]];
  repeat match type of H with context [if ?c then _ else _] => destruct c eqn:? end;
  injection H as <-; simpl; rewrite ?HF, ?HG, ?V1 by auto;
  try match goal with Hs : eptr _ = eptr _ |- _ => rewrite ?Hs end;
  repeat match goal with |- context [eneg ?e] => destruct (eneg e) end;
  repeat match goal with |- context [v ?e] => destruct (v e) end; simpl in *; try reflexivity; try discriminate.

Ltac op_src :=
  intros F G r HF HG H; simpl in *;
  destruct (isconst F) eqn:CF; [|destruct (isconst G) eqn:CG; [|destruct (sameptr F G) eqn:SP; [|discriminate]]];
  repeat match type of H with context [if ?c then _ else _] => destruct c eqn:? end;
  injection H as <-; simpl; auto.

Ltac op_none :=
  intros F G H; simpl in *; unfold isconst in H;
  destruct (N.eqb_spec (eid F) 0); [destruct (isone F); discriminate|];
  destruct (N.eqb_spec (eid G) 0); [destruct (isone G); discriminate|]; auto.

Lemma op_and_ok : binop_ok op_and.
Proof. split; [op_case|op_src|op_none|intros [] []; auto]. Qed.
Lemma op_nand_ok : binop_ok op_nand.
Proof. split; [op_case|op_src|op_none|intros [] []; auto]. Qed.
Lemma op_or_ok : binop_ok op_or.
Proof. split; [op_case|op_src|op_none|intros [] []; auto]. Qed.
Lemma op_xor_ok : binop_ok op_xor.
Proof. split; [op_case|op_src|op_none|intros [] []; auto]. Qed.

(** ** New cells *)

Lemma que_set_que en s d i l d' i' : que (set_que (set_st en s) d i l) d' i' = upd2 (que en) d i l d' i'.
Proof. reflexivity. Qed.

(** Allocating a request: ownership and frame. *)
Lemma new_request own D en i a s1 c v d j :
  EAcc own en -> alloc (st en) i = (a, s1) ->
  let own' := upd (upd own a OX) a (OQue d j) in
  let en' := set_que (set_st en (put s1 a c)) d j (a :: que en d j) in
  EAcc own' en' /\ ext (fun _ => False) own D en own' (upd D a v) en' /\
  (forall i, ut (st en') i = ut (st en) i).
Proof.
  intros A Al own' en'.
  destruct (alloc_spec _ _ _ _ _ _ _ A Al) as (Fa & Ra & Rx & A1 & Em & Eu & En).
  assert (Oa : forall b, ~ freeish (own b) -> b <> a) by congruence.
  assert (La : forall b, b <= 2 -> b <> a) by (intros; lia).
  assert (Ka : forall b, kept own b -> b <> a) by (intros b [?|?]; auto).
  split.
  - unfold EAcc, own'. apply (acc_give _ (kont s1 (que en) (don en))).
    + exact A1.
    + apply upd_same.
    + reflexivity.
    + unfold en'; simpl. rewrite upd2_same. apply Permutation_refl.
    + intros t Lt Nt. unfold en'; destruct t; simpl; auto. rewrite upd2_other; auto.
      destruct (Nat.eq_dec d0 d); [right|left]; congruence.
  - split; [|intros k; unfold en'; simpl; now rewrite Eu]. constructor; unfold en'; simpl; auto.
    + intros b Nf _. unfold own'. rewrite !upd_other by auto. auto.
    + intros b rho Kb _. rewrite upd_other by auto. auto.
    + intros b Kb _. unfold sameTE. rewrite Em, !upd_other by auto. auto.
    + intros b Ob. rewrite Em, !upd_other; auto; intros ->; rewrite Ob in Fa; destruct Fa as [?|[? ?]]; discriminate.
    + rewrite Em, !upd_other by (unfold ONE; lia). auto.
    + now rewrite Eu.
    + intros p q d' k Oq. unfold own'. destruct (N.eq_dec p a) as [->|Np].
      * rewrite upd_same. discriminate.
      * rewrite !upd_other by auto. auto.
Qed.

Lemma ext_same own D en en' :
  mem (st en') = mem (st en) -> (forall i, ut (st en') i = ut (st en) i) -> (forall d i, don en' d i = don en d i) ->
  ext (fun _ => False) own D en own D en'.
Proof.
  intros Em Eu Ed. constructor; auto.
  - intros. unfold sameTE. rewrite Em. auto.
  - intros. now rewrite Em.
  - now rewrite Em.
Qed.

Lemma EAcc_same own en en' :
  (forall i, ut (st en') i = ut (st en) i) -> (forall i, fl (st en') i = fl (st en) i) ->
  (forall d i, que en' d i = que en d i) -> (forall d i, don en' d i = don en d i) -> nx (st en') = nx (st en) ->
  EAcc own en -> EAcc own en'.
Proof.
  intros E1 E2 E3 E4 E5 A. unfold EAcc. rewrite E5. eapply acc_ext; [|exact A].
  intros t _. destruct t; simpl; auto.
Qed.

Lemma tfind_some m l t e a : tfind m l t e = Some a -> In a l /\ eeq t (ct (m a)) = true /\ eeq e (ce (m a)) = true.
Proof. intros H. apply find_some in H. rewrite andb_true_iff in H. tauto. Qed.

Lemma dv_eeq D a b rho : eeq a b = true -> dv D a rho = dv D b rho.
Proof. intros H. apply eeq_true in H as [Hp Hn]. unfold dv. now rewrite Hp, Hn. Qed.

Lemma lvl_tgt own k e : vedge (lvl own k) e -> tgt own (eptr e).
Proof.
  intros [[_ E]|[_ [E|(d & _ & E)]]]; unfold tgt, counted; eauto 6.
Qed.

(** Writing one result into an expanded request ([icr] then store), at the hole [a]. *)
Lemma write_child o k (Pend : (N -> tag) -> den -> eng -> nat -> N -> N -> Prop) (PE : forall H own D en own' D' en' d i a,
    EAcc own en -> EAcc own' en' -> SWF o (st en) ->
    ext H own D en own' D' en' -> own a = OQue d i -> ~ H a ->
    (forall p, own p = OInd a -> ~ H p) -> Pend own D en d i a -> Pend own' D' en' d i a)
  a own D S en L x r d i f :
  AInv o k Pend a own D S en -> RCq (kun k) own S idn (mem (st en)) L x ->
  own a = OQue d i -> ~ In a S -> tgt own (eptr r) -> (forall c, cr (f c) = cr c) ->
  let s1 := icr (st en) r in
  let en' := set_st en (put s1 a (f (mem s1 a))) in
  AInv o k Pend a own D S en' /\ RCq (kun k) own S idn (mem (st en')) L (xadd x (eptr r)) /\
  ext (fun b => b = a) own D en own D en' /\
  exists n, mem (st en') a = f (set_cr (mem (st en) a) n).
Proof.
  intros A R Oa Na Tr Hf s1 en'. pose proof (ai_acc _ _ _ _ _ _ _ _ A) as AC.
  assert (R3 : 2 < a) by (apply (acc_rng _ _ _ AC); congruence).
  assert (NaL : ~ In a L).
  { rewrite (rc_L _ _ _ _ _ _ R), Oa. intros [(? & ?)|(? & ? & ? & ?)]; [discriminate|tauto]. }
  assert (Mb : forall b, b <> a -> mem (st en') b = mem s1 b).
  { intros b Nb. unfold en'; simpl. now rewrite upd_other. }
  assert (X : ext (fun b => b = a) own D en own D en').
  { constructor; auto.
    - intros b Kb Hb. destruct (N.eq_dec b a) as [->|Nb].
      + exfalso. apply Hb; auto. rewrite Oa; simpl; auto.
      + unfold sameTE. rewrite Mb by auto. apply sameTE_icr.
    - intros b Ob. rewrite Mb by congruence. unfold s1, icr, put; simpl. rewrite upd_other; auto.
      intros E. apply tgt_nf in Tr as T'. rewrite <- E in *. destruct Tr as [E1|[[(j & E1)|(d1 & j & E1)]|(d1 & j & E1)]].
      + rewrite (acc_low _ _ _ _ AC E1) in Ob. discriminate.
      + congruence. + congruence. + congruence.
    - intros Hone. rewrite Mb by (unfold ONE; lia). unfold s1. rewrite cr_icr.
      destruct (ONE =? eptr r); auto. rewrite Hone. reflexivity. }
  split; [|split; [|split]]; auto.
  - eapply (AInv_ext o k Pend PE a _ own D S en own D en' A X).
    + apply (EAcc_same _ en); auto.
    + auto.
    + auto.
    + rewrite Oa. discriminate.
    + auto.
    + auto.
  - eapply (RC_frame own S idn (mem s1)).
    + intros b Ib. unfold sameTE. rewrite Mb by congruence. auto.
    + intros b _. destruct (N.eq_dec b a) as [->|Nb]; [|now rewrite Mb].
      unfold en'; simpl. now rewrite upd_same, Hf.
    + apply RC_icr; auto.
  - unfold en'; simpl. rewrite upd_same.
    destruct (N.eq_dec a (eptr r)) as [E|E].
    + exists (rc_icr (cr (mem (st en) a))). unfold s1, icr, put; simpl. rewrite E at 1. rewrite upd_same. now rewrite E.
    + exists (cr (mem (st en) a)). unfold s1, icr, put; simpl. rewrite upd_other by auto. now destruct (mem (st en) a).
Qed.

(** Find-or-add of a request with operands [F], [G] in queue [d] at level [i], for any kind of
    engine; [v] is the value the request stands for. *)
Lemma request_gen o k (Pend : (N -> tag) -> den -> eng -> nat -> N -> N -> Prop) (PE : forall H own D en own' D' en' d i a,
    EAcc own en -> EAcc own' en' -> SWF o (st en) ->
    ext H own D en own' D' en' -> own a = OQue d i -> ~ H a ->
    (forall p, own p = OInd a -> ~ H p) -> Pend own D en d i a -> Pend own' D' en' d i a)
  h own D S en L x d i F G v r en' :
  AInv o k Pend h own D S en -> RCq (kun k) own S idn (mem (st en)) L x -> (forall q, own h <> OInd q) ->
  In i (ord o) ->
  (forall b, own b = OQue d i -> ~ In b S /\ b <> h) ->
  (forall a, Pend own D en d i a -> eeq F (ct (mem (st en) a)) = true -> eeq G (ce (mem (st en) a)) = true ->
     forall rho, D a rho = v rho) ->
  (forall own' D' en' a, EAcc own' en' -> ext (fun _ => False) own D en own' D' en' ->
     own' a = OQue d i -> freeish (own a) -> mem (st en') a = C F G 0 -> (forall rho, D' a rho = v rho) ->
     (forall p, own' p <> OInd a) -> (forall e kk rho, vedge (lvl own kk) e -> dv D' e rho = dv D e rho) ->
     Pend own' D' en' d i a) ->
  request en d i F G = (r, en') ->
  exists own' D',
    AInv o k Pend h own' D' S en' /\ RCq (kun k) own' S idn (mem (st en')) L x /\
    ext (fun _ => False) own D en own' D' en' /\
    eid r = i /\ eneg r = false /\ own' (eptr r) = OQue d i /\
    (forall rho, D' (eptr r) rho = v rho) /\
    (forall d' j, d' <> d \/ j <> i -> que en' d' j = que en d' j) /\
    (forall b d' j, own' b = OQue d' j -> own b = OQue d' j \/ (d' = d /\ j = i)).
Proof.
  intros A R Hh Ii HS HF HN Rq. pose proof (ai_acc _ _ _ _ _ _ _ _ A) as AC.
  unfold request, tfindadd in Rq.
  destruct (tfind (mem (st en)) (que en d i) F G) as [a|] eqn:T.
  - injection Rq as <- <-. apply tfind_some in T as (Ia & Ef & Eg).
    apply (acc_que _ _ _ _ _ AC) in Ia.
    set (en' := set_que (set_st en (st en)) d i (que en d i)).
    assert (Qs : forall d' j, que en' d' j = que en d' j).
    { intros d' j. unfold en'. simpl. unfold upd2. destruct (Nat.eqb_spec d' d), (N.eqb_spec j i); simpl; subst; auto. }
    assert (X : ext (fun _ => False) own D en own D en') by (apply ext_same; auto).
    assert (A' : AInv o k Pend h own D S en').
    { eapply (AInv_ext o k Pend PE h (fun _ => False) own D S en own D en'); auto.
      - apply (EAcc_same _ en); auto.
      - intros; tauto. }
    exists own, D. split; auto. split; [exact R|]. split; auto. simpl. split; auto. split; auto. split; auto.
    split; [|split; [intros d' j _; apply Qs|auto]].
    destruct (HS a Ia) as [Na Nh]. destruct (ai_que _ _ _ _ _ _ _ _ A _ _ _ Ia) as [_ Hst].
    destruct (Hst Nh) as [[? _]|[_ Pe]]; [tauto|]. auto.
  - destruct (alloc (st en) i) as [a s1] eqn:Al. injection Rq as <- <-.
    destruct (alloc_spec _ _ _ _ _ _ _ AC Al) as (Fa & Ra & Rx & A1 & Em & Eu & En).
    destruct (new_request own D en i a s1 (C F G 0) v d i AC Al) as (AC' & X & Ut).
    set (own' := upd (upd own a OX) a (OQue d i)) in *.
    set (en' := set_que (set_st en (put s1 a (C F G 0))) d i (a :: que en d i)) in *.
    assert (Oa : own' a = OQue d i) by apply upd_same.
    assert (Ob : forall b, b <> a -> own' b = own b) by (intros; unfold own'; rewrite !upd_other; auto).
    assert (Ma : mem (st en') a = C F G 0) by (unfold en'; simpl; apply upd_same).
    assert (Mb : forall b, b <> a -> mem (st en') b = mem (st en) b).
    { intros b Nb. unfold en'; simpl. rewrite upd_other, Em, upd_other by auto. auto. }
    exists own', (upd D a v). split; [|split; [|split; [exact X|]]].
    + eapply (AInv_ext o k Pend PE h (fun _ => False) own D S en); eauto.
      * intros; tauto.
      * intros b d' j Obb. destruct (N.eq_dec b a) as [->|Nb].
        -- right. split; auto. rewrite Oa in Obb. injection Obb as <- <-. split; auto.
           apply HN; auto.
           ++ intros rho. now rewrite upd_same.
           ++ intros p Op. destruct (N.eq_dec p a) as [->|Np]; [congruence|]. rewrite Ob in Op by auto.
              destruct (ai_ind _ _ _ _ _ _ _ _ A p a Op) as [_ (d1 & i1 & E)]. rewrite E in Fa. destruct (nf_que _ _ Fa).
           ++ intros e kk rho Ve. eapply ext_dv; eauto.
        -- left. rewrite <- Obb. symmetry; auto.
      * intros p b Op. destruct (N.eq_dec p a) as [->|Np]; [congruence|]. left. rewrite <- Op; symmetry; auto.
    + eapply (RC_new own own' S (mem (st en)) _ L x a d i F G); eauto; [lia|].
      intros Ia. destruct (ai_S _ _ _ _ _ _ _ _ A a Ia) as (d1 & i1 & E). rewrite E in Fa. destruct (nf_que _ _ Fa).
    + simpl. split; auto. split; auto. split; auto. split; [|split].
      * intros rho. now rewrite upd_same.
      * intros d' j Hd. unfold en'; simpl. now rewrite upd2_other.
      * intros b d' j Obb. destruct (N.eq_dec b a) as [->|Nb].
        -- rewrite Oa in Obb. injection Obb as <- <-. auto.
        -- left. rewrite <- Obb. symmetry; auto.
Qed.

Lemma minid2_cases o F G : (minid2 o F G = eid F /\ eidx o F < eidx o G) \/ (minid2 o F G = eid G /\ eidx o G <= eidx o F).
Proof. unfold minid2. destruct (N.ltb_spec (eidx o F) (eidx o G)); auto. Qed.

Lemma lvl_idx_le o k Pend h own D S en n e : wfo o -> AInv o k Pend h own D S en -> vedge (lvl own n) e -> idx o (eid e) <= CONST_INDEX.
Proof.
  intros Wo A V. destruct (N.eq_dec (eid e) 0) as [E|E].
  - rewrite E, (wfo_const o Wo). lia.
  - pose proof (wfo_lt_const o _ Wo (lvl_ord _ _ _ _ _ _ _ _ _ _ A V E)). lia.
Qed.

Section Bin.
Variable o : order.
Hypothesis Wo : wfo o.
Variable op : binop.
Hypothesis Hop : binop_ok op.

(** A pending binary request. *)
Record PendB (own : N -> tag) (D : den) (en : eng) (d : nat) (i a : N) : Prop := {
  pb_F : vedge (lvl own d) (ct (mem (st en) a));
  pb_G : vedge (lvl own d) (ce (mem (st en) a));
  pb_Fn : eid (ct (mem (st en) a)) <> 0;
  pb_Gn : eid (ce (mem (st en) a)) <> 0;
  pb_i : i = minid2 o (ct (mem (st en) a)) (ce (mem (st en) a));
  pb_ind : forall p, own p <> OInd a;
  pb_D : forall rho, D a rho = bsem op (dv D (ct (mem (st en) a)) rho) (dv D (ce (mem (st en) a)) rho)
}.

Lemma PendB_ext : forall H own D en own' D' en' d i a,
  EAcc own en -> EAcc own' en' -> SWF o (st en) ->
  ext H own D en own' D' en' -> own a = OQue d i -> ~ H a ->
  (forall p, own p = OInd a -> ~ H p) -> PendB own D en d i a -> PendB own' D' en' d i a.
Proof.
  intros H own D en own' D' en' d i a A A' W X Oa Ha _ [B1 B2 B3 B4 B5 B7 B6].
  destruct (x_mem _ _ _ _ _ _ _ X a) as [Et Ee]; [right; rewrite Oa; auto|auto|].
  constructor; rewrite ?Et, ?Ee; auto; try (eapply ext_vedge; eauto).
  { intros p Op. apply (B7 p). eapply (x_ind _ _ _ _ _ _ _ X); eauto. }
  intros rho. rewrite (x_D _ _ _ _ _ _ _ X) by (rewrite ?Oa; try discriminate; right; rewrite Oa; auto).
  rewrite B6, !(ext_dv _ _ _ _ _ _ _ _ _ _ X A) by eauto. auto.
Qed.

Notation AInv := (AInv o kstd PendB).

Lemma request_spec h own D S en L x d i F G r en' :
  AInv h own D S en -> RC own S idn (mem (st en)) L x -> (forall q, own h <> OInd q) ->
  vedge (lvl own d) F -> vedge (lvl own d) G -> eid F <> 0 -> eid G <> 0 -> i = minid2 o F G ->
  (forall b, own b = OQue d i -> ~ In b S /\ b <> h) ->
  request en d i F G = (r, en') ->
  exists own' D',
    AInv h own' D' S en' /\ RC own' S idn (mem (st en')) L x /\
    ext (fun _ => False) own D en own' D' en' /\
    eid r = i /\ eneg r = false /\ own' (eptr r) = OQue d i /\
    (forall rho, D' (eptr r) rho = bsem op (dv D F rho) (dv D G rho)) /\
    (forall d' j, d' <> d \/ j <> i -> que en' d' j = que en d' j) /\
    (forall b d' j, own' b = OQue d' j -> own b = OQue d' j \/ (d' = d /\ j = i)).
Proof.
  intros A R Hh VF VG NF NG Ei HS Rq.
  eapply (request_gen o kstd PendB PendB_ext h own D S en L x d i F G (fun rho => bsem op (dv D F rho) (dv D G rho))); eauto.
  - destruct (minid2_cases o F G) as [[E _]|[E _]]; rewrite Ei, E; eapply lvl_ord; eauto.
  - intros a Pe Ef Eg rho. rewrite (pb_D _ _ _ _ _ _ Pe). now rewrite (dv_eeq D F _ _ Ef), (dv_eeq D G _ _ Eg).
  - intros own1 D1 en1 a AC1 X1 O1 Fa Ma Da NI Dv.
    constructor; rewrite ?Ma; simpl; auto; try (eapply ext_vedge; eauto).
    intros rho. rewrite Da, !(Dv _ d) by auto. reflexivity.
Qed.

(** Terminal case or request; [k] bounds the levels involved from above. *)
Lemma opreq_spec h own D S en L x d (k : N) F G r en' :
  AInv h own D S en -> RC own S idn (mem (st en)) L x -> (forall q, own h <> OInd q) ->
  vedge (lvl own d) F -> vedge (lvl own d) G -> k <= eidx o F -> k <= eidx o G ->
  (forall d' j b, own b = OQue d' j -> k <= idx o j -> ~ In b S /\ b <> h) ->
  opreq o op d en F G = (r, en') ->
  exists own' D',
    AInv h own' D' S en' /\ RC own' S idn (mem (st en')) L x /\
    ext (fun _ => False) own D en own' D' en' /\
    vedge (lvl own' (Datatypes.S d)) r /\ k <= eidx o r /\
    (forall rho, dv D' r rho = bsem op (dv D F rho) (dv D G rho)) /\
    (forall d' j, idx o j < k -> que en' d' j = que en d' j) /\
    (forall b d' j, own' b = OQue d' j -> own b = OQue d' j \/ (d' = d /\ k <= idx o j)).
Proof.
  intros A R Hh VF VG KF KG HS Rq. pose proof (ai_acc _ _ _ _ _ _ _ _ A) as AC.
  unfold opreq in Rq.
  assert (HF : eid F = 0 -> eptr F = ONE) by (destruct VF as [[? ?]|[? ?]]; congruence).
  assert (HG : eid G = 0 -> eptr G = ONE) by (destruct VG as [[? ?]|[? ?]]; congruence).
  destruct (tcase op F G) as [r0|] eqn:T.
  - injection Rq as <- <-. exists own, D. split; auto. split; auto. split; [apply ext_refl|].
    assert (Vr : vedge (lvl own d) r0 /\ k <= eidx o r0).
    { pose proof (lvl_idx_le _ _ _ _ _ _ _ _ _ _ Wo A VF).
      unfold eidx in *. destruct (bo_src op Hop F G r0 HF HG T) as [[E1 E2]|[[E1 E2]|[E1 E2]]].
      - unfold vedge in *. now rewrite E1, E2.
      - unfold vedge in *. now rewrite E1, E2.
      - split; [left; auto|]. rewrite E1, (wfo_const o Wo). lia. }
    split; [eapply vedge_lvl_mono; [|apply Vr]; lia|]. split; [tauto|]. split; [|split; auto].
    intros rho. unfold dv. apply (bo_some op Hop F G r0 (fun a => D a rho)); auto.
    apply (dok_one _ _ (ai_dok _ _ _ _ _ _ _ _ A)).
  - destruct (bo_none op Hop F G T) as [NF NG].
    destruct (normalize F G) as [F1 G1] eqn:Nm.
    assert (exists sw : bool, F1 = (if sw then G else F) /\ G1 = (if sw then F else G)) as (sw & E1 & E2).
    { unfold normalize in Nm. destruct (eptr G <? eptr F); injection Nm as <- <-; [exists true|exists false]; auto. }
    assert (VF1 : vedge (lvl own d) F1) by (subst; destruct sw; auto).
    assert (VG1 : vedge (lvl own d) G1) by (subst; destruct sw; auto).
    assert (NF1 : eid F1 <> 0) by (subst; destruct sw; auto).
    assert (NG1 : eid G1 <> 0) by (subst; destruct sw; auto).
    assert (Kf1 : k <= eidx o F1) by (subst; destruct sw; auto).
    assert (Kg1 : k <= eidx o G1) by (subst; destruct sw; auto).
    assert (Ki : k <= idx o (minid2 o F1 G1)).
    { destruct (minid2_cases o F1 G1) as [[E _]|[E _]]; rewrite E; auto. }
    destruct (request_spec h own D S en L x d _ F1 G1 r en' A R Hh VF1 VG1 NF1 NG1 eq_refl) as
      (own' & D' & A' & R' & X' & Er & En & Or & Dr & Q' & N'); auto.
    { intros b Ob. eapply HS; eauto. }
    exists own', D'. split; auto. split; auto. split; auto. split; [|split; [|split; [|split]]].
    + right. rewrite Er. split.
      * destruct (minid2_cases o F1 G1) as [[E _]|[E _]]; rewrite E; auto.
      * right. exists d. split; auto.
    + unfold eidx. rewrite Er. auto.
    + intros rho. unfold dv at 1. rewrite En, xorb_false_l, Dr. subst. destruct sw; auto. apply (bo_comm op Hop).
    + intros d' j Lj. apply Q'. destruct (N.eq_dec j (minid2 o F1 G1)); subst; [lia|auto].
    + intros b d' j Ob. destruct (N' _ _ _ Ob) as [?|[-> ->]]; auto.
Qed.

Definition bstep : nat -> N -> eng -> N -> eng := fun d _ => apply1 o op d.

Lemma apply1_ok : forall d, step_ok o kstd PendB below bstep d.
Proof.
  unfold bstep.
  intros d own D S en L x i a A0 R Oa Na HSd HSi _.
  pose proof (AInv_h o kstd PendB a _ _ _ _ A0) as A. pose proof (ai_acc _ _ _ _ _ _ _ _ A) as AC.
  assert (R3 : 2 < a) by (apply (acc_rng _ _ _ AC); congruence).
  destruct (ai_que _ _ _ _ _ _ _ _ A0 _ _ _ Oa) as [Ii Hst].
  destruct Hst as [[? _]|[_ Pe]]; [lia|tauto|].
  destruct Pe as [VF VG NF NG Ei NI DF].
  set (F := ct (mem (st en) a)) in *. set (G := ce (mem (st en) a)) in *.
  assert (IF : In (eid F) (ord o)) by (eapply lvl_ord; eauto).
  assert (IG : In (eid G) (ord o)) by (eapply lvl_ord; eauto).
  assert (Hh : forall q, own a <> OInd q) by (rewrite Oa; discriminate).
  (* expansion of an operand at level i *)
  assert (EX : forall e, vedge (lvl own d) e -> eid e = i ->
     vedge (lvl own d) (thenof (mem (st en)) e) /\ vedge (lvl own d) (elseof (mem (st en)) e) /\
     gt_idx o i (thenof (mem (st en)) e) /\ gt_idx o i (elseof (mem (st en)) e) /\
     forall rho, dv D e rho = if rho i then dv D (thenof (mem (st en)) e) rho else dv D (elseof (mem (st en)) e) rho).
  { intros e Ve Ee. subst i. rewrite <- Ee. eapply expand; eauto.
    - rewrite Ee. apply (wfo_in o); auto.
    - intros d' b Ld Ob. rewrite Ee in Ob. split; [eapply HSd; eauto|]. intros ->.
      rewrite Oa in Ob. injection Ob as E. lia. }
  assert (exists fx fxb gx gxb, cofactors2 o (mem (st en)) F G = ((fx, fxb), (gx, gxb)) /\
     vedge (lvl own d) fx /\ vedge (lvl own d) fxb /\ vedge (lvl own d) gx /\ vedge (lvl own d) gxb /\
     gt_idx o i fx /\ gt_idx o i fxb /\ gt_idx o i gx /\ gt_idx o i gxb /\
     (forall rho, dv D F rho = if rho i then dv D fx rho else dv D fxb rho) /\
     (forall rho, dv D G rho = if rho i then dv D gx rho else dv D gxb rho)) as
     (fx & fxb & gx & gxb & EC & V1 & V2 & V3 & V4 & G1 & G2 & G3 & G4 & DvF & DvG).
  { unfold cofactors2. destruct (N.eqb_spec (eidx o F) (eidx o G)) as [Eq|Neq].
    - assert (eid F = eid G) by (eapply wfo_inj; eauto).
      assert (eid F = i /\ eid G = i) as [E1 E2].
      { destruct (minid2_cases o F G) as [[E _]|[E _]]; rewrite Ei, E; auto. }
      destruct (EX F VF E1) as (P1 & P2 & P3 & P4 & P5). destruct (EX G VG E2) as (Q1 & Q2 & Q3 & Q4 & Q5).
      do 4 eexists. split; [reflexivity|]. auto 12.
    - destruct (N.ltb_spec (eidx o F) (eidx o G)) as [Lt|Ge].
      + assert (E1 : eid F = i). { destruct (minid2_cases o F G) as [[E _]|[E L2]]; [congruence|lia]. }
        destruct (EX F VF E1) as (P1 & P2 & P3 & P4 & P5).
        assert (gt_idx o i G) by (unfold gt_idx, eidx in *; congruence).
        do 4 eexists. split; [reflexivity|]. repeat match goal with |- _ /\ _ => split end; auto;
        intros rho; destruct (rho i); auto.
      + assert (E1 : eid G = i). { destruct (minid2_cases o F G) as [[E L2]|[E L2]]; [lia|congruence]. }
        destruct (EX G VG E1) as (P1 & P2 & P3 & P4 & P5).
        assert (gt_idx o i F) by (unfold gt_idx, eidx in *; rewrite <- E1; lia).
        do 4 eexists. split; [reflexivity|]. repeat match goal with |- _ /\ _ => split end; auto;
        intros rho; destruct (rho i); auto. }
  unfold apply1. fold F G. rewrite EC.
  destruct (opreq o op d en fx gx) as [r1 en1] eqn:O1.
  assert (Below : forall ow, (forall d' j b, ow b = OQue d' j -> own b = OQue d' j \/ (d' = d /\ idx o i + 1 <= idx o j)) ->
            (forall b d' j, own b = OQue d' j -> ow b = OQue d' j) ->
            forall d' j b, ow b = OQue d' j -> idx o i + 1 <= idx o j -> ~ In b S /\ b <> a).
  { intros ow H1 H2 d' j b Ob Lj. split.
    - intros Ib. destruct (ai_S _ _ _ _ _ _ _ _ A b Ib) as (d1 & i1 & E).
      pose proof (H2 _ _ _ E). assert (d' = d1 /\ j = i1) as [-> ->] by (split; congruence).
      apply (HSi _ _ _ E); [lia|auto].
    - intros ->. pose proof (H2 _ _ _ Oa). assert (j = i) by congruence. subst j. lia. }
  destruct (opreq_spec a own D S en L x d (idx o i + 1) fx gx r1 en1 A R Hh V1 V3) as
    (own1 & D1 & A1 & R1 & X1 & Vr1 & Kr1 & Dr1 & Q1 & N1); auto.
  { unfold gt_idx, eidx in *; lia. } { unfold gt_idx, eidx in *; lia. }
  { apply (Below own); auto. }
  assert (Oa1 : own1 a = OQue d i) by (eapply oque_ext; eauto).
  destruct (write_child o kstd PendB PendB_ext a own1 D1 S en1 L x r1 d i (fun c => set_ct c r1)) as
    (A2 & R2 & X2 & n2 & M2); auto; [eapply lvl_tgt; eauto|].
  cbv zeta in A2, R2, X2, M2.
  set (en1' := set_st en1 (put (icr (st en1) r1) a (set_ct (mem (icr (st en1) r1) a) r1))) in *.
  destruct (opreq o op d en1' fxb gxb) as [r0 en2] eqn:O2.
  pose proof (ai_acc _ _ _ _ _ _ _ _ A1) as AC1. pose proof (ai_acc _ _ _ _ _ _ _ _ A2) as AC2.
  assert (Hh1 : forall q, own1 a <> OInd q) by (rewrite Oa1; discriminate).
  assert (V2' : vedge (lvl own1 d) fxb) by exact (ext_vedge _ _ _ _ _ _ _ _ _ X1 V2).
  assert (V4' : vedge (lvl own1 d) gxb) by exact (ext_vedge _ _ _ _ _ _ _ _ _ X1 V4).
  destruct (opreq_spec a own1 D1 S en1' L (xadd x (eptr r1)) d (idx o i + 1) fxb gxb r0 en2 A2 R2 Hh1 V2' V4') as
    (own2 & D2 & A3 & R3' & X3 & Vr0 & Kr0 & Dr0 & Q3 & N3); auto.
  { unfold gt_idx, eidx in *; lia. } { unfold gt_idx, eidx in *; lia. }
  { apply (Below own1).
    - intros d' j b Ob. exact (N1 b d' j Ob).
    - intros b d' j Ob. exact (oque_ext _ _ _ _ _ _ _ _ _ _ X1 Ob). }
  assert (Oa2 : own2 a = OQue d i) by (eapply oque_ext; eauto).
  destruct (write_child o kstd PendB PendB_ext a own2 D2 S en2 L (xadd x (eptr r1)) r0 d i (fun c => set_ce c r0)) as
    (A4 & R4 & X4 & n4 & M4); auto; [eapply lvl_tgt; eauto|].
  cbv zeta in A4, R4, X4, M4.
  set (en3 := set_st en2 (put (icr (st en2) r0) a (set_ce (mem (icr (st en2) r0) a) r0))) in *.
  pose proof (ai_acc _ _ _ _ _ _ _ _ A3) as AC3.
  assert (XX : ext (fun b => b = a \/ own b = OInd a) own D en own2 D2 en3).
  { eapply ext_weaken; [|eapply ext_trans; [exact AC|exact AC1|exact X1|
      eapply ext_trans; [exact AC1|exact AC2|exact X2|eapply ext_trans; [exact AC2|exact AC3|exact X3|exact X4]]]].
    simpl. intros b Hb. left. tauto. }
  (* contents of the request *)
  assert (Ct2 : ct (mem (st en2) a) = r1).
  { destruct (x_mem _ _ _ _ _ _ _ X3 a) as [E _]; [right; rewrite Oa1; auto|auto|]. rewrite E, M2. reflexivity. }
  assert (Ct : ct (mem (st en3) a) = r1) by (rewrite M4; simpl; auto).
  assert (Ce : ce (mem (st en3) a) = r0) by (rewrite M4; reflexivity).
  assert (V1' : vedge (lvl own2 (Datatypes.S d)) r1) by exact (ext_vedge _ _ _ _ _ _ _ _ _ X3 Vr1).
  assert (Dva : forall e rho, vedge (lvl own d) e -> dv D1 e rho = dv D e rho).
  { intros e rho Ve. exact (ext_dv _ _ _ _ _ _ _ _ _ _ X1 AC Ve). }
  assert (Dr1' : forall rho, dv D2 r1 rho = dv D1 r1 rho).
  { intros rho. exact (ext_dv _ _ _ _ _ _ _ _ _ _ X3 AC2 Vr1). }
  assert (DDa : forall rho, D2 a rho = D a rho).
  { intros rho. apply (x_D _ _ _ _ _ _ _ XX); [right|]; rewrite Oa; auto; discriminate. }
  exists own2, D2. split; [|split; [|split; [exact XX|]]].
  - eapply AInv_close; eauto.
    + apply Applied_two; rewrite ?Ct, ?Ce; auto; try (unfold gt_idx, eidx in *; lia).
      simpl. unfold kite. intros rho. rewrite DDa, DF, DvF, DvG, Dr1', Dr1, Dr0, !Dva by auto. now destruct (rho i).
    + intros p Op. apply (NI p). eapply (x_ind _ _ _ _ _ _ _ XX); eauto.
  - change (RC own2 (a :: S) idn (mem (st en3)) (a :: L) x).
    eapply RC_apply; eauto; rewrite ?Ct, ?Ce; try (eapply lvl_tgt; eauto; fail); auto.
    intros b Lb Fb. pose proof (rc_x _ _ _ _ _ _ R4 b Lb Fb) as Hx. unfold xadd in Hx. lia.
  - intros b d' j Ob. destruct (N3 _ _ _ Ob) as [Ob1|[-> ?]]; [|right; split; simpl; lia].
    destruct (N1 _ _ _ Ob1) as [Ob2|[-> ?]]; [auto|right; split; simpl; lia].
Qed.

End Bin.
