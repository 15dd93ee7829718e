(** * Quantification: proofs about the depth-first routines. *)
From Coq Require Import Permutation Sorted.
From Verif Require Import Base BFModel MgrModel ApiModel StoreInv Own EngInv ApplyProof BinopProof ReduceProof EngineProof
  OpProof MultiProof QProof GCProof VarProof MInv ApiProof ApiOps ApiStruct GraphModel AssocModel AssocProof QuantModel.

(** ** Quantified functions *)
Definition indep (f : bf) (i : N) : Prop := forall rho b, f (flip rho i b) = f rho.
Lemma bool_iff (a b : bool) : (a = true <-> b = true) -> a = b.
Proof. destruct a, b; intuition congruence. Qed.
Lemma indep_eq f i r1 r2 : bext f -> indep f i -> (forall j, j <> i -> r1 j = r2 j) -> f r1 = f r2.
Proof.
  intros B H E. rewrite <- (H r1 (r2 i)). apply B. intros j. unfold flip. destruct (N.eqb_spec j i) as [->|Ne]; auto.
Qed.

Section Ex.
Variable mp : N -> option edge.
Variable ids : list N.
Hypothesis Dom : forall i e, mp i = Some e -> In i ids.
Definition ex (f : bf) : bf := exq mp ids f.
Lemma ex_iff f rho : bext f -> (ex f rho = true <-> exists rho', (forall i, mp i = None -> rho' i = rho i) /\ f rho' = true).
Proof using Dom.
  intros B. unfold ex. rewrite exq_iff by auto. split; intros (r & E & H); exists r; (split; [|auto]); intros i Hi; apply E; auto.
  destruct Hi as [Hi|Hi]; auto. destruct (mp i) as [e|] eqn:M; auto. destruct (Hi (Dom i e M)).
Qed.
Lemma ex_ext f g : (forall r, f r = g r) -> forall rho, ex f rho = ex g rho.
Proof. apply exq_ext. Qed.
Lemma ex_bext f : bext f -> bext (ex f).
Proof using Dom.
  intros B r1 r2 E. apply bool_iff. rewrite !ex_iff by auto.
  split; intros (r & H1 & H2); exists r; (split; [|auto]); intros i Hi; rewrite H1 by auto; auto.
Qed.
Lemma ex_id f rho : bext f -> (forall i e, mp i = Some e -> indep f i) -> ex f rho = f rho.
Proof using Dom.
  intros B H. unfold ex. clear Dom. revert rho. induction ids as [|i l IH]; intros rho; cbn [exq]; auto.
  destruct (mp i) as [e|] eqn:M; auto. rewrite !IH.
  assert (E : forall b, f (upd rho i b) = f rho) by (intros b; apply (H i e M)). rewrite !E. apply orb_diag.
Qed.
Lemma ex_indep f i : bext f -> indep f i -> indep (ex f) i.
Proof using Dom.
  intros B H rho b. apply bool_iff. rewrite !ex_iff by auto.
  assert (G : forall r1 r2, (forall j, j <> i -> r1 j = r2 j) ->
    (exists rho', (forall j, mp j = None -> rho' j = r1 j) /\ f rho' = true) ->
    exists rho', (forall j, mp j = None -> rho' j = r2 j) /\ f rho' = true).
  { intros r1 r2 E (r & H1 & H2). exists (flip r i (r2 i)). split; [|rewrite H; exact H2].
    intros j Hj. unfold flip. destruct (N.eqb_spec j i) as [->|Ne]; auto. rewrite H1 by auto. auto. }
  split; apply G; intros j Ne; unfold flip; (destruct (N.eqb_spec j i); [congruence|auto]).
Qed.
Section Shannon.
Variables (f f1 f0 : bf) (i : N).
Hypothesis B1 : bext f1.
Hypothesis B0 : bext f0.
Hypothesis H1 : indep f1 i.
Hypothesis H0 : indep f0 i.
Hypothesis Hf : forall rho, f rho = if rho i then f1 rho else f0 rho.
Lemma sh_bext : bext f.
Proof using B1 B0 Hf. intros r1 r2 E. rewrite !Hf, E. destruct (r2 i); auto. Qed.
Lemma ex_quant rho : mp i <> None -> ex f rho = ex f1 rho || ex f0 rho.
Proof using Dom B1 B0 H1 H0 Hf.
  intros M. apply bool_iff. rewrite orb_true_iff, !ex_iff by (auto using sh_bext). split.
  - intros (r & E & H). rewrite Hf in H. destruct (r i); [left|right]; eauto.
  - intros [(r & E & H)|(r & E & H)]; [exists (flip r i true)|exists (flip r i false)].
    + split; [|rewrite Hf, flip_same, H1; exact H]. intros j Hj. unfold flip. destruct (N.eqb_spec j i); [subst; congruence|auto].
    + split; [|rewrite Hf, flip_same, H0; exact H]. intros j Hj. unfold flip. destruct (N.eqb_spec j i); [subst; congruence|auto].
Qed.
Lemma ex_keep rho : mp i = None -> ex f rho = if rho i then ex f1 rho else ex f0 rho.
Proof using Dom B1 B0 H1 H0 Hf.
  intros M. apply bool_iff.
  assert (E : (if rho i then ex f1 rho else ex f0 rho) = true <-> (exists r, (forall j, mp j = None -> r j = rho j) /\ (if rho i then f1 r else f0 r) = true)).
  { destruct (rho i); apply ex_iff; auto. }
  rewrite E, ex_iff by (apply sh_bext). split; intros (r & K & H); exists r; (split; [auto|]).
  - rewrite Hf, (K i M) in H. exact H.
  - rewrite Hf, (K i M). exact H.
Qed.
End Shannon.
End Ex.

(** ** Independence and positions in the order *)
Lemma gt_indep o D s e i j : wfo o -> SWF o s -> Dok D s -> vedge (nodeR s) e -> In j (ord o) -> idx o j <= idx o i ->
  gt_idx o i e -> indep (dv D e) j.
Proof. intros Wo W K V Ij L G rho b. apply (dv_flip o D s); auto. unfold gt_idx in *. lia. Qed.
Lemma indep_gt o D s e i : wfo o -> SWF o s -> Dok D s -> vedge (nodeR s) e -> In i (ord o) ->
  (forall j, In j (ord o) -> idx o j <= idx o i -> indep (dv D e) j) -> gt_idx o i e.
Proof.
  intros Wo W K V Ii H. unfold gt_idx. destruct (vedge_idx o s e Wo W V) as [[_ ->]|(N0 & Ie & _)]; [now apply wfo_lt_const|].
  destruct (N.lt_ge_cases (idx o i) (idx o (eid e))) as [L|L]; auto. exfalso.
  destruct (node_facts o s e W V N0) as (_ & Ip & V1 & V2 & G1 & G2).
  assert (E : thenof (mem s) e = elseof (mem s) e).
  { apply (canon_dv o D s); auto. intros rho.
    rewrite <- (dv_flip o D s (thenof (mem s) e) (eid e) rho true), <- (dv_flip o D s (elseof (mem s) e) (eid e) rho false); auto.
    pose proof (H (eid e) Ie L) as J. pose proof (dv_node D s e (flip rho (eid e) true) K N0 Ip) as E1.
    pose proof (dv_node D s e (flip rho (eid e) false) K N0 Ip) as E0. rewrite flip_same in E1, E0. rewrite J in E1, E0. congruence. }
  destruct V as [[E0 _]|[_ R]]; [congruence|]. destruct (swf_node _ _ W _ _ N0 R) as [N1 N2 N3 N4 N5 N6 N7].
  unfold thenof, elseof in E. destruct (ct (mem s (eptr e))) as [a1 a2 a3], (ce (mem s (eptr e))) as [b1 b2 b3]. unfold ephase in E.
  cbn [eid eptr eneg] in E. injection E as -> -> E.
  assert (a3 = b3) by (destruct (eneg e), a3, b3; simpl in E; congruence). subst b3. rewrite eeq_refl in N7. discriminate.
Qed.

Section DF.
Variable slot : N -> edge -> edge -> N.
Variable o : order.
Hypothesis Wo : wfo o.
Variable x : N -> N.
Variable en : eng.
(** Meaning of the operation codes, and the codes in use. *)
Variable G : ghost.
Variable Lv : N -> Prop.
Hypothesis Gext : forall c f f' g g', (forall r, f r = f' r) -> (forall r, g r = g' r) -> forall r, G c f g r = G c f' g' r.
Hypothesis Gsym : forall c f g r, G c f g r = G c g f r.
Hypothesis Gnand : forall f g rho, G OP_NAND f g rho = negb (f rho && g rho).
Hypothesis Lnand : Lv OP_NAND.

Definition cval (D : den) (s : store) (c : cache) : Prop := forall k e, c k = Some e ->
  ctmp e = false /\ vedge (nodeR s) (cf e) /\ vedge (nodeR s) (cg e) /\ vedge (nodeR s) (cres e) /\ Lv (cop e) /\
  forall rho, dv D (cres e) rho = G (cop e) (dv D (cf e)) (dv D (cg e)) rho.
Definition SQ (D : den) (s : store) (c : cache) : Prop := QS o D (set_st en s) x /\ cval D s c.

Lemma SQ_swf D s c : SQ D s c -> SWF o s.
Proof. intros [Q _]. exact (QS_swf _ _ _ _ Q). Qed.
Lemma SQ_dok D s c : SQ D s c -> Dok D s.
Proof. intros [Q _]. exact (QS_dok _ _ _ _ Q). Qed.
Lemma cval_sext D s D' s' c : sext s D s' D' -> cval D s c -> cval D' s' c.
Proof using Gext.
  intros X C k e H. destruct (C k e H) as (E0 & E1 & E2 & E3 & E4 & E5). split; [exact E0|].
  split; [exact (sext_vedge _ _ _ _ _ X E1)|]. split; [exact (sext_vedge _ _ _ _ _ X E2)|]. split; [exact (sext_vedge _ _ _ _ _ X E3)|].
  split; [exact E4|]. intros rho. rewrite (sext_dv _ _ _ _ _ _ X E3), E5. apply Gext; intros r; symmetry; now apply (sext_dv _ _ _ _ _ _ X).
Qed.

Lemma csort_cases f g : csort f g = (f, g) \/ csort f g = (g, f).
Proof. unfold csort. destruct (out_of_order f g); auto. Qed.
Lemma lookup_spec D s c op f g r : SQ D s c -> vedge (nodeR s) f -> vedge (nodeR s) g -> cache_lookup slot op f g c = Some r ->
  vedge (nodeR s) r /\ forall rho, dv D r rho = G op (dv D f) (dv D g) rho.
Proof using Gsym.
  intros S Vf Vg H. pose proof (SQ_swf _ _ _ S) as W. unfold cache_lookup in H.
  assert (T : forall a b, vedge (nodeR s) a -> vedge (nodeR s) b ->
    match c (slot op f g) with Some e => if eeq (cf e) a && eeq (cg e) b && (cop e =? op) then Some (cres e) else None | None => None end = Some r ->
    vedge (nodeR s) r /\ forall rho, dv D r rho = G op (dv D a) (dv D b) rho).
  { intros a b Va Vb T. destruct (c (slot op f g)) as [e|] eqn:Ce; [|discriminate]. destruct (proj2 S _ _ Ce) as (_ & E1 & E2 & E3 & _ & E5).
    destruct (eeq (cf e) a) eqn:Q1; [|discriminate]. destruct (eeq (cg e) b) eqn:Q2; [|discriminate].
    destruct (N.eqb_spec (cop e) op) as [Q3|]; [|discriminate]. injection T as <-. split; [exact E3|].
    apply (eeq_valid o s) in Q1; auto. apply (eeq_valid o s) in Q2; auto. rewrite <- Q1, <- Q2, <- Q3. exact E5. }
  destruct (csort_cases f g) as [E|E]; rewrite E in H; [now apply T|].
  destruct (T g f Vg Vf H) as [V R]. split; auto. intros rho. rewrite R. apply Gsym.
Qed.
Lemma insert_spec D s c op f g r : SQ D s c -> Lv op -> vedge (nodeR s) f -> vedge (nodeR s) g -> vedge (nodeR s) r ->
  (forall rho, dv D r rho = G op (dv D f) (dv D g) rho) -> SQ D s (cache_insert slot op f g r c).
Proof using Gsym.
  intros [Q C] L Vf Vg Vr R. split; auto. intros k e. unfold cache_insert.
  destruct (csort_cases f g) as [E|E]; rewrite E, upd_spec; (destruct (k =? slot op f g); [|now apply C]); intros [= <-]; cbn; (split; [reflexivity|]);
    (split; [auto|]); (split; [auto|]); (split; [auto|]); (split; [auto|]); auto. intros rho. rewrite R. apply Gsym.
Qed.

(** What a routine started in [D], [s] guarantees. *)
Definition dpost (D : den) (s : store) (F : bf) (q : option (edge * store * cache)) : Prop :=
  exists r s' c' D', q = Some (r, s', c') /\ SQ D' s' c' /\ sext s D s' D' /\ vedge (nodeR s') r /\ forall rho, dv D' r rho = F rho.
Lemma dpost_here D s c r (F : bf) : SQ D s c -> vedge (nodeR s) r -> (forall rho, dv D r rho = F rho) -> dpost D s F (Some (r, s, c)).
Proof. intros S V E. exists r, s, c, D. split; auto. split; auto. split; [apply sext_refl|]. auto. Qed.
Lemma dpost_F D s (F F' : bf) q : (forall rho, F rho = F' rho) -> dpost D s F q -> dpost D s F' q.
Proof. intros E (r & s' & c' & D' & -> & S & X & V & R). exists r, s', c', D'. split; auto. split; auto. split; auto. split; auto. intros rho. now rewrite R. Qed.
Lemma dpost_pre D s D1 s1 F q : sext s D s1 D1 -> dpost D1 s1 F q -> dpost D s F q.
Proof.
  intros X (r & s' & c' & D' & -> & S & X' & V & R). exists r, s', c', D'. split; auto. split; auto. split; [eapply sext_trans; eauto|]. auto.
Qed.
Lemma dpost_insert D s op f g (F : bf) q : Lv op -> vedge (nodeR s) f -> vedge (nodeR s) g ->
  (forall rho, F rho = G op (dv D f) (dv D g) rho) -> dpost D s F q ->
  dpost D s F match q with None => None | Some (r, s', c') => Some (r, s', cache_insert slot op f g r c') end.
Proof using Gext Gsym.
  intros L Vf Vg E (r & s' & c' & D' & -> & S & X & V & R). exists r, s', (cache_insert slot op f g r c'), D'. split; auto.
  split; [|split; auto]. apply insert_spec; auto; [exact (sext_vedge _ _ _ _ _ X Vf)|exact (sext_vedge _ _ _ _ _ X Vg)|].
  intros rho. rewrite R, E. apply Gext; intros q; symmetry; now apply (sext_dv _ _ _ _ _ _ X).
Qed.

Lemma mknode_spec D s c i t e (F : bf) : SQ D s c -> In i (ord o) -> vedge (nodeR s) t -> vedge (nodeR s) e -> gt_idx o i t -> gt_idx o i e ->
  (forall rho, F rho = if rho i then dv D t rho else dv D e rho) ->
  dpost D s F (let '(r, s') := mknode s i t e in Some (r, s', c)).
Proof using Wo Gext.
  intros [Q C] Ii Vt Ve Gt Ge EF. unfold mknode. destruct (find_or_add s i t e) as [[r found] s1] eqn:Fo.
  destruct (mk_spec o D (set_st en s) x i t e r found s1 (if found then s1 else icr (icr s1 t) e) Wo Q Ii Vt Ve Gt Ge Fo)
    as (D' & Q' & X & V & _ & R).
  { intros ->. apply seqv_refl. } { intros ->. apply seqv_refl. }
  set (s2 := if found then s1 else icr (icr s1 t) e) in *. exists r, s2, c, D'. split; auto. split; [split; [exact Q'|exact (cval_sext _ _ _ _ _ X C)]|].
  split; auto. split; auto. intros rho. rewrite R. symmetry. apply EF.
Qed.

Lemma normalize_cases f g : normalize f g = (f, g) \/ normalize f g = (g, f).
Proof. unfold normalize. destruct (_ <? _); auto. Qed.

Lemma idx_pos D s c f n : SQ D s c -> vedge (nodeR s) f -> isconst f = false ->
  N.of_nat (length (ord o)) < N.of_nat n + 1 + idx o (eid f) -> (0 < n)%nat.
Proof using Wo.
  intros S V C H. unfold isconst in C. apply N.eqb_neq in C. destruct (vedge_idx o s f Wo (SQ_swf _ _ _ S) V) as [[E _]|(_ & _ & L)]; [congruence|lia].
Qed.

(** The shape of a binary step with the smaller variable. *)
Lemma cofac2 D s c f g : SQ D s c -> vedge (nodeR s) f -> vedge (nodeR s) g -> isconst f = false -> isconst g = false ->
  let i := minid2 o f g in
  In i (ord o) /\ (idx o i = idx o (eid f) \/ idx o i = idx o (eid g)) /\
  exists f1 f0 g1 g0, cofac (mem s) f i = (f1, f0) /\ cofac (mem s) g i = (g1, g0) /\
    vedge (nodeR s) f1 /\ vedge (nodeR s) f0 /\ vedge (nodeR s) g1 /\ vedge (nodeR s) g0 /\
    gt_idx o i f1 /\ gt_idx o i f0 /\ gt_idx o i g1 /\ gt_idx o i g0 /\
    (forall rho, dv D f rho = if rho i then dv D f1 rho else dv D f0 rho) /\
    (forall rho, dv D g rho = if rho i then dv D g1 rho else dv D g0 rho).
Proof using Wo.
  intros S Vf Vg Cf Cg i. pose proof (SQ_swf _ _ _ S) as W. pose proof (SQ_dok _ _ _ S) as K.
  destruct (minid2_spec o s f g Wo W Vf Vg Cf Cg) as (Ii & L1 & L2 & L3). fold i in Ii, L1, L2, L3.
  split; auto. split; auto. destruct (cofac (mem s) f i) as [f1 f0] eqn:F. destruct (cofac (mem s) g i) as [g1 g0] eqn:E.
  destruct (cofac_spec o D s f i f1 f0 Wo W K Vf Ii L1 F) as (A1 & A2 & A3 & A4 & A5).
  destruct (cofac_spec o D s g i g1 g0 Wo W K Vg Ii L2 E) as (B1 & B2 & B3 & B4 & B5).
  exists f1, f0, g1, g0. auto 14.
Qed.

Definition nandf (f g : bf) : bf := fun rho => negb (f rho && g rho).

Lemma res_gt D' s' c' r i (F : bf) : SQ D' s' c' -> vedge (nodeR s') r -> In i (ord o) -> (forall rho, dv D' r rho = F rho) ->
  (forall j, In j (ord o) -> idx o j <= idx o i -> indep F j) -> gt_idx o i r.
Proof using Wo.
  intros S V Ii E H. apply (indep_gt o D' s'); auto; [exact (SQ_swf _ _ _ S)|exact (SQ_dok _ _ _ S)|].
  intros j Ij L rho b. rewrite !E. now apply H.
Qed.

Lemma nand_df_spec : forall fuel D s c f g, SQ D s c -> vedge (nodeR s) f -> vedge (nodeR s) g ->
  N.of_nat (length (ord o)) < N.of_nat fuel + 1 + idx o (eid f) ->
  N.of_nat (length (ord o)) < N.of_nat fuel + 1 + idx o (eid g) ->
  dpost D s (nandf (dv D f) (dv D g)) (nand_df slot o (S fuel) s c f g).
Proof using Wo Gext Gsym Gnand Lnand.
  induction fuel as [|fuel IH]; intros D s c f g S Vf Vg Hf Hg.
  all: pose proof (SQ_swf _ _ _ S) as W; pose proof (SQ_dok _ _ _ S) as K; cbn [nand_df].
  all: destruct (tcase op_nand f g) as [r|] eqn:T;
    [destruct (tcase_spec o op_nand op_nand_ok s D f g r W K Vf Vg T) as [Vr Er]; now apply dpost_here|].
  all: destruct (bo_none op_nand op_nand_ok f g T) as [Nf Ng];
    assert (Cf : isconst f = false) by (now apply N.eqb_neq); assert (Cg : isconst g = false) by (now apply N.eqb_neq).
  { pose proof (idx_pos D s c f 0 S Vf Cf Hf). lia. }
  assert (Main : forall f g, vedge (nodeR s) f -> vedge (nodeR s) g -> isconst f = false -> isconst g = false ->
    N.of_nat (length (ord o)) < N.of_nat (Datatypes.S fuel) + 1 + idx o (eid f) ->
    N.of_nat (length (ord o)) < N.of_nat (Datatypes.S fuel) + 1 + idx o (eid g) ->
    dpost D s (nandf (dv D f) (dv D g))
      match cache_lookup slot OP_NAND f g c with
      | Some r => Some (r, s, c)
      | None =>
          let i := minid2 o f g in
          let '(f1, f0) := cofac (mem s) f i in
          let '(g1, g0) := cofac (mem s) g i in
          match nand_df slot o (Datatypes.S fuel) s c f1 g1 with
          | None => None
          | Some (t1, s1, c1) =>
              match nand_df slot o (Datatypes.S fuel) s1 c1 f0 g0 with
              | None => None
              | Some (t0, s2, c2) =>
                  let '(r, s3) := mknode s2 i t1 t0 in
                  Some (r, s3, cache_insert slot OP_NAND f g r c2)
              end
          end
      end).
  { clear f g Vf Vg Hf Hg T Nf Ng Cf Cg. intros f g Vf Vg Cf Cg Hf Hg.
    destruct (cache_lookup slot OP_NAND f g c) as [r|] eqn:Lo.
    { destruct (lookup_spec D s c _ f g r S Vf Vg Lo) as [Vr Er]. apply dpost_here; auto. intros rho. now rewrite Er, Gnand. }
    destruct (cofac2 D s c f g S Vf Vg Cf Cg) as (Ii & Li & f1 & f0 & g1 & g0 & Ef & Eg & V1 & V2 & V3 & V4 & G1 & G2 & G3 & G4 & Sf & Sg).
    set (i := minid2 o f g) in *. cbv zeta. rewrite Ef, Eg.
    assert (Lf : N.of_nat (length (ord o)) < N.of_nat fuel + 1 + (idx o i + 1)) by (rewrite Nat2N.inj_succ in Hf, Hg; destruct Li as [E|E]; rewrite E; lia).
    unfold gt_idx in G1, G2, G3, G4.
    destruct (IH D s c f1 g1 S V1 V3) as (t1 & s1 & c1 & D1 & -> & S1 & X1 & Vt1 & R1); [lia|lia|].
    destruct (IH D1 s1 c1 f0 g0 S1) as (t0 & s2 & c2 & D2 & -> & S2 & X2 & Vt0 & R0);
      [exact (sext_vedge _ _ _ _ _ X1 V2)|exact (sext_vedge _ _ _ _ _ X1 V4)|lia|lia|].
    assert (X : sext s D s2 D2) by (eapply sext_trans; eauto).
    assert (R0' : forall rho, dv D2 t0 rho = nandf (dv D f0) (dv D g0) rho)
      by (intros rho; rewrite R0; unfold nandf; now rewrite (sext_dv _ _ _ _ f0 rho X1 V2), (sext_dv _ _ _ _ g0 rho X1 V4)).
    assert (R1' : forall rho, dv D2 t1 rho = nandf (dv D f1) (dv D g1) rho) by (intros rho; now rewrite (sext_dv _ _ _ _ t1 rho X2 Vt1)).
    assert (Ind : forall a b, vedge (nodeR s) a -> vedge (nodeR s) b -> gt_idx o i a -> gt_idx o i b ->
       forall j, In j (ord o) -> idx o j <= idx o i -> indep (nandf (dv D a) (dv D b)) j).
    { intros a b Va Vb Ga Gb j Ij Lj rho k. unfold nandf.
      now rewrite (gt_indep o D s a i j Wo W K Va Ij Lj Ga rho k), (gt_indep o D s b i j Wo W K Vb Ij Lj Gb rho k). }
    pose proof (sext_vedge _ _ _ _ _ X2 Vt1) as Vt1'.
    assert (Gt1 : gt_idx o i t1) by (apply (res_gt D2 s2 c2 t1 i _ S2 Vt1' Ii R1'); now apply Ind).
    assert (Gt0 : gt_idx o i t0) by (apply (res_gt D2 s2 c2 t0 i _ S2 Vt0 Ii R0'); now apply Ind).
    apply (dpost_pre D s D2 s2 _ _ X).
    assert (P : dpost D2 s2 (nandf (dv D2 f) (dv D2 g)) (let '(r, s3) := mknode s2 i t1 t0 in Some (r, s3, c2))).
    { apply mknode_spec; auto. intros rho. rewrite R1', R0'. unfold nandf.
      rewrite (sext_dv _ _ _ _ f rho X Vf), (sext_dv _ _ _ _ g rho X Vg), Sf, Sg. destruct (rho i); auto. }
    apply (dpost_F _ _ (nandf (dv D2 f) (dv D2 g))).
    { intros rho. unfold nandf. now rewrite (sext_dv _ _ _ _ f rho X Vf), (sext_dv _ _ _ _ g rho X Vg). }
    pose proof (dpost_insert D2 s2 OP_NAND f g _ _ Lnand (sext_vedge _ _ _ _ _ X Vf) (sext_vedge _ _ _ _ _ X Vg)
      (fun rho => eq_sym (Gnand (dv D2 f) (dv D2 g) rho)) P) as P'.
    destruct (mknode s2 i t1 t0) as [r s3]. exact P'. }
  destruct (normalize_cases f g) as [E|E]; rewrite E; [now apply Main|].
  apply (dpost_F _ _ (nandf (dv D g) (dv D f))); [intros rho; unfold nandf; now rewrite andb_comm|]. now apply Main.
Qed.

Section Quant.
Variable mp : N -> option edge.
Variable last : Z.
Hypothesis Dom : forall i e, mp i = Some e -> In i (ord o).
Hypothesis Hlast : forall i e, mp i = Some e -> (Z.of_N (idx o i) <= last)%Z.
Hypothesis Hconst : (last < Z.of_N CONST_INDEX)%Z.
Notation exf := (ex mp (ord o)).

Lemma depth_ok e : N.of_nat (length (ord o)) < N.of_nat (length (ord o)) + 1 + idx o e.
Proof. lia. Qed.
Lemma join_spec D s c i t1 t0 (F : bf) : SQ D s c -> In i (ord o) -> vedge (nodeR s) t1 -> vedge (nodeR s) t0 -> gt_idx o i t1 -> gt_idx o i t0 ->
  (forall rho, F rho = if quantified mp i then dv D t1 rho || dv D t0 rho else if rho i then dv D t1 rho else dv D t0 rho) ->
  dpost D s F (join slot o mp i s c t1 t0).
Proof using Wo Gext Gsym Gnand Lnand.
  intros S Ii V1 V0 G1 G0 E. unfold join. destruct (quantified mp i).
  - apply (dpost_F _ _ (nandf (dv D (enot t1)) (dv D (enot t0)))).
    + intros rho. unfold nandf. rewrite E, !dv_enot. destruct (dv D t1 rho), (dv D t0 rho); reflexivity.
    + unfold depth. apply nand_df_spec; auto; try apply depth_ok; now apply vedge_enot.
  - now apply mknode_spec.
Qed.

Definition combine (op i : N) (f g : edge) (q1 : option (edge * store * cache)) (q0 : store -> cache -> option (edge * store * cache)) :=
  match q1 with
  | None => None
  | Some (t1, s1, c1) =>
      if quantified mp i && isone t1 then Some (t1, s1, cache_insert slot op f g t1 c1)
      else match q0 s1 c1 with
           | None => None
           | Some (t0, s2, c2) =>
               match join slot o mp i s2 c2 t1 t0 with
               | None => None
               | Some (r, s3, c3) => Some (r, s3, cache_insert slot op f g r c3)
               end
           end
  end.

Lemma combine_spec D s op i f g (F1 F0 F : bf) q1 q0 : vedge (nodeR s) f -> vedge (nodeR s) g -> In i (ord o) -> Lv op ->
  dpost D s F1 q1 -> (forall D1 s1 c1, SQ D1 s1 c1 -> sext s D s1 D1 -> dpost D1 s1 F0 (q0 s1 c1)) ->
  (forall j, In j (ord o) -> idx o j <= idx o i -> indep F1 j /\ indep F0 j) ->
  (forall rho, F rho = if quantified mp i then F1 rho || F0 rho else if rho i then F1 rho else F0 rho) ->
  (forall rho, F rho = G op (dv D f) (dv D g) rho) ->
  dpost D s F (combine op i f g q1 q0).
Proof using Wo Gext Gsym Gnand Lnand.
  intros Vf Vg Ii L (t1 & s1 & c1 & D1 & -> & S1 & X1 & V1 & R1) H0 Ind EF EG. unfold combine.
  assert (Tr : forall D' s' q, sext s D s' D' -> dpost D' s' F q -> dpost D s F match q with None => None | Some (r, s'', c'') => Some (r, s'', cache_insert slot op f g r c'') end).
  { intros D' s' q X P. apply (dpost_pre D s D' s' _ _ X). apply dpost_insert; auto; [exact (sext_vedge _ _ _ _ _ X Vf)|exact (sext_vedge _ _ _ _ _ X Vg)|].
    intros rho. rewrite EG. apply Gext; intros r; symmetry; now apply (sext_dv _ _ _ _ _ _ X). }
  destruct (quantified mp i && isone t1) eqn:Q.
  - apply andb_true_iff in Q as [Q O1]. apply (isone_true o s1) in O1; [|exact (SQ_swf _ _ _ S1)|auto]. subst t1.
    apply (Tr D1 s1 (Some (one, s1, c1)) X1). apply dpost_here; auto.
    intros rho. rewrite EF, Q, <- R1, (dv_one D1 s1 rho (SQ_dok _ _ _ S1)). reflexivity.
  - destruct (H0 D1 s1 c1 S1 X1) as (t0 & s2 & c2 & D2 & -> & S2 & X2 & V0 & R0).
    assert (X : sext s D s2 D2) by (eapply sext_trans; eauto).
    assert (V1' := sext_vedge _ _ _ _ _ X2 V1).
    assert (R1' : forall rho, dv D2 t1 rho = F1 rho) by (intros rho; now rewrite (sext_dv _ _ _ _ t1 rho X2 V1)).
    apply (Tr D2 s2 _ X). apply join_spec; auto.
    + apply (res_gt D2 s2 c2 t1 i F1); auto. intros j Ij Lj. now apply Ind.
    + apply (res_gt D2 s2 c2 t0 i F0); auto. intros j Ij Lj. now apply Ind.
    + intros rho. rewrite R1', R0. apply EF.
Qed.

Lemma quantified_some i : quantified mp i = true -> mp i <> None.
Proof. unfold quantified. destruct (mp i); congruence. Qed.
Lemma quantified_none i : quantified mp i = false -> mp i = None.
Proof. unfold quantified. destruct (mp i); congruence. Qed.
Lemma ex_step (f f1 f0 : bf) i rho : bext f1 -> bext f0 -> indep f1 i -> indep f0 i ->
  (forall rho, f rho = if rho i then f1 rho else f0 rho) ->
  exf f rho = if quantified mp i then exf f1 rho || exf f0 rho else if rho i then exf f1 rho else exf f0 rho.
Proof using Dom.
  intros B1 B0 I1 I0 E. destruct (quantified mp i) eqn:Q.
  - apply (ex_quant mp (ord o) Dom f f1 f0 i); auto. now apply quantified_some.
  - apply (ex_keep mp (ord o) Dom f f1 f0 i); auto. now apply quantified_none.
Qed.
Lemma below_last D s c f rho : SQ D s c -> vedge (nodeR s) f -> (last < Z.of_N (idx o (eid f)))%Z -> forall i e, mp i = Some e -> dv D f (flip rho i true) = dv D f rho /\ indep (dv D f) i.
Proof using Wo Dom Hlast.
  intros S V L i e M. assert (J : indep (dv D f) i).
  { intros r b. apply (dv_flip o D s); auto; [exact (SQ_swf _ _ _ S)|exact (SQ_dok _ _ _ S)|exact (Dom i e M)|].
    unfold gt_idx. pose proof (Hlast i e M). lia. }
  split; [apply J|exact J].
Qed.
Lemma dvb D s c f : SQ D s c -> vedge (nodeR s) f -> bext (dv D f).
Proof using Wo. intros S V. apply (dv_bext o D s); auto; [exact (SQ_swf _ _ _ S)|exact (SQ_dok _ _ _ S)]. Qed.

Section Exists.
Variable op : N.
Hypothesis Lop : Lv op.
Hypothesis Gop : forall f g, bext f -> bext g -> forall rho, G op f g rho = exf (fun r => f r && g r) rho.

Lemma exists_df_spec : forall fuel D s c f, SQ D s c -> vedge (nodeR s) f ->
  N.of_nat (length (ord o)) < N.of_nat fuel + 1 + idx o (eid f) ->
  dpost D s (exf (dv D f)) (exists_df slot o mp last op (S fuel) s c f).
Proof using Wo Gext Gsym Gnand Lnand Dom Hlast Hconst Lop Gop.
  induction fuel as [|fuel IH]; intros D s c f S V Hf.
  all: pose proof (SQ_swf _ _ _ S) as W; pose proof (SQ_dok _ _ _ S) as K; cbn [exists_df].
  all: destruct (Z.ltb_spec last (Z.of_N (idx o (eid f)))) as [L|L];
    [apply dpost_here; auto; intros rho; symmetry; apply (ex_id mp (ord o));
     [exact Dom|exact (dvb _ _ _ _ S V)|intros i e M; now apply (below_last D s c f rho S V L i e M)]|].
  all: assert (Nc : eid f <> 0) by (intros E; rewrite E, (wfo_const o Wo) in L; lia).
  { exfalso. pose proof (idx_pos D s c f 0 S V (proj2 (N.eqb_neq _ _) Nc) Hf). lia. }
  assert (Go : forall rho, exf (dv D f) rho = G op (dv D f) (dv D one) rho).
  { intros rho. rewrite Gop; [|exact (dvb _ _ _ _ S V)|exact (dvb _ _ _ _ S (vedge_one _))].
    apply ex_ext. intros r. rewrite (dv_one D s r K). now rewrite andb_true_r. }
  destruct (cache_lookup slot op f one c) as [r|] eqn:Lo.
  { destruct (lookup_spec D s c _ f one r S V (vedge_one _) Lo) as [Vr Er]. apply dpost_here; auto. intros rho. now rewrite Er, Go. }
  destruct (node_facts o s f W V Nc) as (Ii & _). set (i := eid f) in *.
  destruct (cofac (mem s) f i) as [f1 f0] eqn:Ef.
  destruct (cofac_spec o D s f i f1 f0 Wo W K V Ii (N.le_refl _) Ef) as (V1 & V0 & G1 & G0 & Sf).
  change (dpost D s (exf (dv D f)) (combine op i f one (exists_df slot o mp last op (Datatypes.S fuel) s c f1)
    (fun s1 c1 => exists_df slot o mp last op (Datatypes.S fuel) s1 c1 f0))).
  assert (Lf : N.of_nat (length (ord o)) < N.of_nat fuel + 1 + (idx o i + 1)) by (rewrite Nat2N.inj_succ in Hf; clearbody i; lia).
  unfold gt_idx in G1, G0.
  assert (Ind : forall a, vedge (nodeR s) a -> gt_idx o i a -> forall j, In j (ord o) -> idx o j <= idx o i -> indep (dv D a) j)
    by (intros a Va Ga j Ij Lj; apply (gt_indep o D s a i j); auto).
  apply (combine_spec D s op i f one (exf (dv D f1)) (exf (dv D f0))); auto.
  - apply vedge_one.
  - apply IH; auto. lia.
  - intros D1 s1 c1 S1 X1. apply (dpost_F _ _ (exf (dv D1 f0))).
    + intros rho. apply ex_ext. intros r. now apply (sext_dv _ _ _ _ _ _ X1).
    + apply IH; auto; [exact (sext_vedge _ _ _ _ _ X1 V0)|lia].
  - intros j Ij Lj. split; apply (ex_indep mp (ord o) Dom); try (now apply (dvb D s c)); now apply Ind.
  - intros rho. apply ex_step; auto; try (now apply (dvb D s c)); apply Ind; auto; lia.
Qed.
End Exists.

Section RelProd.
Variables op qop : N.
Hypothesis Lop : Lv op.
Hypothesis Gop : forall f g, bext f -> bext g -> forall rho, G op f g rho = exf (fun r => f r && g r) rho.
Hypothesis Lqop : Lv qop.
Hypothesis Gqop : forall f g, bext f -> bext g -> forall rho, G qop f g rho = exf (fun r => f r && g r) rho.

Definition andf (f g : bf) : bf := fun rho => f rho && g rho.
Lemma andf_bext f g : bext f -> bext g -> bext (andf f g).
Proof. intros H1 H2 r1 r2 E. unfold andf. now rewrite (H1 r1 r2 E), (H2 r1 r2 E). Qed.
Lemma andf_indep f g i : indep f i -> indep g i -> indep (andf f g) i.
Proof. intros H1 H2 r b. unfold andf. now rewrite H1, H2. Qed.

Lemma relprod_df_spec : forall fuel D s c f g, SQ D s c -> vedge (nodeR s) f -> vedge (nodeR s) g ->
  N.of_nat (length (ord o)) < N.of_nat fuel + 1 + idx o (eid f) ->
  N.of_nat (length (ord o)) < N.of_nat fuel + 1 + idx o (eid g) ->
  dpost D s (exf (andf (dv D f) (dv D g))) (relprod_df slot o mp last op qop (S fuel) s c f g).
Proof using Wo Gext Gsym Gnand Lnand Dom Hlast Hconst Lop Gop Lqop Gqop.
  induction fuel as [|fuel IH]; intros D s c f g S Vf Vg Hf Hg.
  all: pose proof (SQ_swf _ _ _ S) as W; pose proof (SQ_dok _ _ _ S) as K; cbn [relprod_df].
  all: assert (Bf := dvb _ _ _ _ S Vf); assert (Bg := dvb _ _ _ _ S Vg).
  all: assert (Zero : (forall rho, dv D f rho && dv D g rho = false) -> dpost D s (exf (andf (dv D f) (dv D g))) (Some (zero, s, c)))
    by (intros Z; apply dpost_here; [auto|apply vedge_zero|]; intros rho; rewrite (dv_zero D s rho K); symmetry;
        rewrite (ex_ext mp (ord o) _ (fun _ => false) Z); apply (ex_id mp (ord o)); [exact Dom|intros ? ? ?; reflexivity|intros ? ? ? ? ?; reflexivity]).
  all: destruct (isconst f || isconst g) eqn:Cs;
    [destruct (iszero f || iszero g) eqn:Zs;
     [apply Zero; intros rho; apply orb_true_iff in Zs as [Z|Z]; apply (iszero_true o s) in Z; auto; subst;
      rewrite (dv_zero D s rho K); auto using andb_false_r
     |assert (T : f = one \/ (isone f = false /\ g = one))
        by (apply orb_false_iff in Zs as [Z1 Z2]; apply orb_true_iff in Cs as [Cs|Cs];
            [left; destruct (const_cases _ f Vf Cs) as [E|E]; auto; subst f; discriminate
            |destruct (isone f) eqn:O1; [left; now apply (isone_true o s)|right; split; auto;
             destruct (const_cases _ g Vg Cs) as [E|E]; auto; subst g; discriminate]]);
      destruct T as [->|[O1 ->]];
      [change (isone one) with true; cbv iota; apply (dpost_F _ _ (exf (dv D g)));
       [intros rho; apply ex_ext; intros r; unfold andf; now rewrite (dv_one D s r K)
       |unfold depth; apply exists_df_spec; auto; apply depth_ok]
      |rewrite O1; apply (dpost_F _ _ (exf (dv D f)));
       [intros rho; apply ex_ext; intros r; unfold andf; now rewrite (dv_one D s r K), andb_true_r
       |unfold depth; apply exists_df_spec; auto; apply depth_ok]]]|].
  all: apply orb_false_iff in Cs as [Cf Cg].
  { exfalso. pose proof (idx_pos D s c f 0 S Vf Cf Hf). lia. }
  destruct ((last <? Z.of_N (idx o (eid f)))%Z && (last <? Z.of_N (idx o (eid g)))%Z) eqn:Ls.
  { apply andb_true_iff in Ls as [L1 L2]. apply Z.ltb_lt in L1. apply Z.ltb_lt in L2. unfold depth.
    destruct (nand_df_spec (length (ord o)) D s c f g S Vf Vg (depth_ok _) (depth_ok _)) as (r & s1 & c1 & D1 & -> & S1 & X1 & V1 & R1).
    exists (enot r), s1, c1, D1. split; auto. split; auto. split; auto. split; [now apply vedge_enot|].
    intros rho. rewrite dv_enot, R1. unfold nandf. rewrite negb_involutive. symmetry. apply (ex_id mp (ord o) Dom (andf (dv D f) (dv D g))).
    - now apply andf_bext.
    - intros i e M. apply andf_indep; [now apply (below_last D s c f rho S Vf L1 i e M)|now apply (below_last D s c g rho S Vg L2 i e M)]. }
  destruct (relprod_case f g) as [r|] eqn:Rc.
  { unfold relprod_case in Rc. destruct (iszero f || iszero g || eeq f (enot g)) eqn:Z.
    - injection Rc as <-. apply Zero. intros rho. apply orb_true_iff in Z as [Z|Z].
      + apply orb_true_iff in Z as [Z|Z]; apply (iszero_true o s) in Z; auto; subst; rewrite (dv_zero D s rho K); auto using andb_false_r.
      + apply (eeq_valid o s) in Z; [|exact W|exact Vf|now apply vedge_enot]. rewrite Z, dv_enot. destruct (dv D g rho); auto.
    - destruct (isone f && isone g) eqn:O1; [|discriminate]. exfalso. apply andb_true_iff in O1 as [O1 _].
      apply (isone_true o s) in O1; auto. subst f. discriminate. }
  assert (Main : forall f g, vedge (nodeR s) f -> vedge (nodeR s) g -> isconst f = false -> isconst g = false ->
    N.of_nat (length (ord o)) < N.of_nat (Datatypes.S fuel) + 1 + idx o (eid f) ->
    N.of_nat (length (ord o)) < N.of_nat (Datatypes.S fuel) + 1 + idx o (eid g) ->
    dpost D s (exf (andf (dv D f) (dv D g)))
      match cache_lookup slot op f g c with
      | Some r => Some (r, s, c)
      | None =>
          let i := minid2 o f g in
          let '(f1, f0) := cofac (mem s) f i in
          let '(g1, g0) := cofac (mem s) g i in
          combine op i f g (relprod_df slot o mp last op qop (Datatypes.S fuel) s c f1 g1)
            (fun s1 c1 => relprod_df slot o mp last op qop (Datatypes.S fuel) s1 c1 f0 g0)
      end).
  { clear f g Vf Vg Hf Hg Bf Bg Zero Cf Cg Ls Rc. intros f g Vf Vg Cf Cg Hf Hg.
    assert (Bf := dvb _ _ _ _ S Vf). assert (Bg := dvb _ _ _ _ S Vg).
    destruct (cache_lookup slot op f g c) as [r|] eqn:Lo.
    { destruct (lookup_spec D s c _ f g r S Vf Vg Lo) as [Vr Er]. apply dpost_here; auto. intros rho. rewrite Er. now apply Gop. }
    destruct (cofac2 D s c f g S Vf Vg Cf Cg) as (Ii & Li & f1 & f0 & g1 & g0 & Ef & Eg & V1 & V2 & V3 & V4 & G1 & G2 & G3 & G4 & Sf & Sg).
    set (i := minid2 o f g) in *. cbv zeta. rewrite Ef, Eg.
    assert (Lf : N.of_nat (length (ord o)) < N.of_nat fuel + 1 + (idx o i + 1)) by (rewrite Nat2N.inj_succ in Hf, Hg; destruct Li as [E|E]; rewrite E; lia).
    unfold gt_idx in G1, G2, G3, G4.
    assert (Ind : forall a b, vedge (nodeR s) a -> vedge (nodeR s) b -> gt_idx o i a -> gt_idx o i b ->
       forall j, In j (ord o) -> idx o j <= idx o i -> indep (andf (dv D a) (dv D b)) j)
      by (intros a b Va Vb Ga Gb j Ij Lj; apply andf_indep; apply (gt_indep o D s _ i j); auto).
    assert (Bx : forall a b, vedge (nodeR s) a -> vedge (nodeR s) b -> bext (andf (dv D a) (dv D b)))
      by (intros a b Va Vb; apply andf_bext; now apply (dvb D s c)).
    apply (combine_spec D s op i f g (exf (andf (dv D f1) (dv D g1))) (exf (andf (dv D f0) (dv D g0)))); auto.
    - apply IH; auto; lia.
    - intros D1 s1 c1 S1 X1. apply (dpost_F _ _ (exf (andf (dv D1 f0) (dv D1 g0)))).
      + intros rho. apply ex_ext. intros r. unfold andf. now rewrite (sext_dv _ _ _ _ f0 r X1 V2), (sext_dv _ _ _ _ g0 r X1 V4).
      + apply IH; auto; [exact (sext_vedge _ _ _ _ _ X1 V2)|exact (sext_vedge _ _ _ _ _ X1 V4)|lia|lia].
    - intros j Ij Lj. split; apply (ex_indep mp (ord o) Dom); auto.
    - intros rho. apply ex_step; auto; try (apply Ind; auto; lia). intros r. unfold andf. rewrite Sf, Sg. now destruct (r i).
    - intros rho. symmetry. now apply Gop. }
  destruct (normalize_cases f g) as [E|E]; rewrite E; [now apply Main|].
  apply (dpost_F _ _ (exf (andf (dv D g) (dv D f)))); [intros rho; apply ex_ext; intros r; unfold andf; now rewrite andb_comm|]. now apply Main.
Qed.
End RelProd.
End Quant.
End DF.
