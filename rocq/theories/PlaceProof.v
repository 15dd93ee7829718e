(** * Completing a request at another variable, or with a given result. *)
From Coq Require Import Permutation.
From Verif Require Import Base BFModel SubstModel StoreInv Own EngInv ApplyProof BinopProof ReduceProof.

Section Place.
Variable o : order.
Hypothesis Wo : wfo o.
Variable k : kind.
Hypothesis Kx : kix k = false.
Variables (own : N -> tag) (D : den) (en : eng) (rs : N -> N) (S : list N) (L : list N) (x : N -> N).
Variables (d : nat) (i a : N) (l : list N).
Hypothesis I : RInv o k own D (set_que en d i (a :: l)).
Local Notation RC := (RCq (kun k)).
Hypothesis R : RC own S rs (mem (st en)) L x.
Hypothesis RO : rs_ok own (mem (st en)) rs.
Hypothesis HS : forall b d j, own b = OQue d j -> In b S.
Hypothesis Hx : forall b d j, own b = OQue d j -> x b = 0.
Hypothesis Low : forall d j b, own b = OQue d j -> idx o j <= idx o i.
Hypothesis Nnt : isnul (ct (mem (st en) a)) = false.
Hypothesis Nne : isnul (ce (mem (st en) a)) = false.
Hypothesis Ku : kun k d i = false.
Hypothesis Kid : forall rho f g, (forall r, f r = g r) -> kcb k d i rho f g = f rho.

Notation T0 := (fwd (mem (st en)) (ct (mem (st en) a))).
Notation E0 := (fwd (mem (st en)) (ce (mem (st en) a))).
Notation Post := (Post o k own D en S x d i a l).

(** With the value of the request as a node edge. *)
Lemma sfinish_gen r : vedge (vnode own) r -> (forall rho, dv D r rho = D a rho) -> Post (set_que (sfinish d i en (a, r)) d i l).
Proof using Wo Kx I R RO HS Hx Low Nnt Nne Ku.
  intros Vr Dr.
  pose proof (ri_acc _ _ _ _ _ I) as A. pose proof (Oa o k own D en d i a l I) as O_a. pose proof (ri_swf _ _ _ _ _ I) as W.
  change (st (set_que en d i (a :: l))) with (st en) in W.
  assert (R3 : 2 < a) by (apply (acc_rng _ _ _ A); congruence).
  destruct (ri_que _ _ _ _ _ I _ _ _ O_a) as [Ii Ap]. unfold RApplied in Ap. rewrite Ku in Ap. destruct Ap as [B1' B2' _ _ B5'].
  change (st (set_que en d i (a :: l))) with (st en) in *.
  destruct (wfo_in o i Wo Ii) as [N0 Ilen].
  destruct (B1' Nnt) as [B1 B3]. destruct (B2' Nne) as [B2 B4].
  assert (B5 : forall rho, D a rho = kcb k d i rho (dv D (ct (mem (st en) a))) (dv D (ce (mem (st en) a)))).
  { intros rho. rewrite B5'. unfold comb. now rewrite Nnt, Nne. }
  destruct (fwd_spec o k own D _ rs i _ I RO B1 B3 Low) as (Vt & _ & Dt & Pt).
  destruct (fwd_spec o k own D _ rs i _ I RO B2 B4 Low) as (Ve & _ & De & Pe).
  change (st (set_que en d i (a :: l))) with (st en) in *.
  destruct (Lsplit o k own D en rs S L x d i a l I R HS Ku) as [L1 PL].
  unfold sfinish. cbn [fst snd]. set (m := mem (st en)) in *. set (t := fwd m (ct (m a))) in *. set (e := fwd m (ce (m a))) in *.
  set (n := cr (m a)).
  assert (VnA : forall z, vedge (vnode own) z -> eptr z <> a).
  { intros z [[_ P]|[_ P]] E.
    - rewrite P in E. unfold ONE in E. lia.
    - unfold vnode in P. rewrite E in P. congruence. }
  assert (VnX : forall z b, vedge (vnode own) z -> own b = OX -> b <> eptr z).
  { intros z b [[_ P]|[_ P]] E Eb.
    - rewrite P in Eb. subst b. rewrite (acc_one_none _ _ A) in E. discriminate.
    - unfold vnode in P. congruence. }
  pose proof (VnA _ Vt) as Nta. pose proof (VnA _ Ve) as Nea.
  assert (Wt : forall b, wt rs m b a = b2n (eptr t =? b) + b2n (eptr e =? b)).
  { intros b. unfold wt. now rewrite <- Pt, <- Pe. }
  assert (Oc : forall b, occ rs m L b = b2n (eptr t =? b) + b2n (eptr e =? b) + occ rs m L1 b).
  { intros b. rewrite (occ_perm _ _ _ _ _ PL). simpl. now rewrite Wt. }
  assert (Oca : occ rs m L a = occ rs m L1 a).
  { rewrite Oc. destruct (N.eqb_spec (eptr t) a), (N.eqb_spec (eptr e) a); try congruence. reflexivity. }
  assert (Cn : n <= MAXREF) by (apply (rc_max _ _ _ _ _ _ R); right; eauto).
  assert (Cn' : n = MAXREF \/ n = occ rs m L1 a).
  { destruct (rc_cnt _ _ _ _ _ _ R a) as [E|E]; [right; eauto|left; auto|].
    right. unfold n. fold m in E. rewrite E, Oca, (Hx _ _ _ O_a). lia. }
  assert (Mcr : forall b, counted own b -> cr (m b) <= MAXREF) by apply (rc_max _ _ _ _ _ _ R).
  pose proof (swf_onerc _ _ W) as M1. fold m in M1.
    set (s1 := addref (dcr (dcr (st en) t) e) r (Z.of_N n)).
    assert (Sm : forall b, sameTE m (mem s1) b).
    { intros b. eapply sameTE_trans; [eapply sameTE_trans; [apply sameTE_dcr|apply sameTE_dcr]|apply sameTE_addref]. }
    assert (Cr : forall b, cr (mem s1 b) =
       let c0 := cr (m b) in let c1 := if b =? eptr t then rc_dcr c0 else c0 in
       let c2 := if b =? eptr e then rc_dcr c1 else c1 in if b =? eptr r then rc_add c2 (Z.of_N n) else c2).
    { intros b. unfold s1. now rewrite cr_addref, !cr_dcr. }
    assert (Pu : forall b, b <> a -> mem (put s1 a (C r efwd (cr (mem s1 a)))) b = mem s1 b)
      by (intros b Nb; simpl; now rewrite upd_other).
    apply (forward_case o Wo k own D en rs S L x d i a l I R RO HS Hx Low _ r (cr (mem s1 a)) L1); auto.
    - congruence.
    - simpl. apply upd_same.
    - intros b Nb. unfold sameTE. rewrite Pu by auto. apply Sm.
    - intros b Ob. assert (b <> a) by congruence. rewrite Pu by auto. apply mem_cell_eq; auto. rewrite Cr. cbv zeta.
      pose proof (VnX _ _ Vt Ob). pose proof (VnX _ _ Ve Ob). pose proof (VnX _ _ Vr Ob).
      destruct (N.eqb_spec b (eptr t)), (N.eqb_spec b (eptr e)), (N.eqb_spec b (eptr r)); try congruence; reflexivity.
    - intros _. rewrite Pu by (unfold ONE; lia). rewrite Cr. cbv zeta. rewrite M1.
      destruct (ONE =? eptr t), (ONE =? eptr e), (ONE =? eptr r); reflexivity.
    - intros b Cb Nb. rewrite Pu by auto. rewrite Cr. cbv zeta. specialize (Mcr b Cb). fold m.
      rewrite (Oc b). rewrite (N.eqb_sym (eptr t) b), (N.eqb_sym (eptr e) b), (N.eqb_sym (eptr r) b) in *.
      assert (C0 : cr (m b) = MAXREF \/ cr (m b) <> MAXREF) by lia.
      destruct C0 as [C0|C0].
      + rewrite C0. match goal with |- ?z <= _ /\ _ => assert (Z : z = MAXREF) end.
        { destruct (b =? eptr t), (b =? eptr e), (b =? eptr r); reflexivity. }
        rewrite Z. split; [lia|]. split; auto.
      + destruct (rc_cnt _ _ _ _ _ _ R b Cb) as [E|E]; [fold m in E; congruence|]. fold m in E. rewrite (Oc b) in E.
        rewrite (N.eqb_sym (eptr t) b), (N.eqb_sym (eptr e) b) in E.
        assert (D1 : forall c, c <> 0 -> c < MAXREF -> rc_dcr c = c - 1).
        { intros c H0 H1. unfold rc_dcr, MAXREF in *. destruct (N.eqb_spec c 0), (N.eqb_spec c 255); simpl; lia. }
        assert (Lb : cr (m b) < MAXREF) by lia. rewrite E in *.
        set (w := occ rs m L1 b) in *. set (y := x b) in *.
        match goal with |- ?z <= _ /\ _ => assert (Z : z = if b =? eptr r then rc_add (w + y) (Z.of_N n) else w + y) end.
        { destruct (b =? eptr t), (b =? eptr e); simpl b2n in *; rewrite ?(D1 (1 + 1 + w + y)), ?(D1 (1 + 0 + w + y)), ?(D1 (0 + 1 + w + y)) by lia.
          - rewrite D1 by lia. now replace (1 + 1 + w + y - 1 - 1) with (w + y) by lia.
          - now replace (1 + 0 + w + y - 1) with (w + y) by lia.
          - now replace (0 + 1 + w + y - 1) with (w + y) by lia.
          - now replace (0 + 0 + w + y) with (w + y) by lia. }
        rewrite Z. assert (Lw : w + y < MAXREF) by lia. clear Z. destruct (b =? eptr r); simpl b2n.
        * unfold MAXREF in *. rewrite rc_add_spec by (unfold MAXREF; lia). destruct (N.eqb_spec (w + y) MAXREF); [unfold MAXREF in *; lia|].
          split; [unfold MAXREF in *; lia|]. split; [lia|]. intros _. destruct Cn' as [C|C]; [left; unfold MAXREF in *; lia|].
          unfold MAXREF in *. destruct (Z.min_spec 255 (Z.of_N (w + y) + Z.of_N n)) as [[? ->]|[? ->]]; [left|right]; lia.
        * split; [lia|]. split; [lia|]. intros _. right. lia.
Qed.

Variable hh : N.
Hypothesis PH : eeq T0 E0 = false -> In hh (ord o) /\ gt_idx o hh T0 /\ gt_idx o hh E0 /\ forall rho y z, kcb k d i rho y z = if rho hh then y rho else z rho.

Lemma placeat_gen : Post (set_que (placeat hh d i en a) d i l).
Proof using Wo Kx I R RO HS Hx Low Nnt Nne Ku Kid PH.
  pose proof (ri_acc _ _ _ _ _ I) as A. pose proof (Oa o k own D en d i a l I) as O_a. pose proof (ri_swf _ _ _ _ _ I) as W.
  change (st (set_que en d i (a :: l))) with (st en) in W.
  assert (R3 : 2 < a) by (apply (acc_rng _ _ _ A); congruence).
  destruct (ri_que _ _ _ _ _ I _ _ _ O_a) as [Ii Ap]. unfold RApplied in Ap. rewrite Ku in Ap. destruct Ap as [B1' B2' _ _ B5'].
  change (st (set_que en d i (a :: l))) with (st en) in *.
  destruct (wfo_in o i Wo Ii) as [N0 Ilen].
  destruct (B1' Nnt) as [B1 B3]. destruct (B2' Nne) as [B2 B4].
  assert (B5 : forall rho, D a rho = kcb k d i rho (dv D (ct (mem (st en) a))) (dv D (ce (mem (st en) a)))).
  { intros rho. rewrite B5'. unfold comb. now rewrite Nnt, Nne. }
  destruct (fwd_spec o k own D _ rs i _ I RO B1 B3 Low) as (Vt & _ & Dt & Pt).
  destruct (fwd_spec o k own D _ rs i _ I RO B2 B4 Low) as (Ve & _ & De & Pe).
  change (st (set_que en d i (a :: l))) with (st en) in *.
  destruct (Lsplit o k own D en rs S L x d i a l I R HS Ku) as [L1 PL].
  unfold placeat. set (m := mem (st en)) in *. set (t := fwd m (ct (m a))) in *. set (e := fwd m (ce (m a))) in *.
  set (n := cr (m a)).
  assert (VnA : forall z, vedge (vnode own) z -> eptr z <> a).
  { intros z [[_ P]|[_ P]] E.
    - rewrite P in E. unfold ONE in E. lia.
    - unfold vnode in P. rewrite E in P. congruence. }
  assert (VnX : forall z b, vedge (vnode own) z -> own b = OX -> b <> eptr z).
  { intros z b [[_ P]|[_ P]] E Eb.
    - rewrite P in Eb. subst b. rewrite (acc_one_none _ _ A) in E. discriminate.
    - unfold vnode in P. congruence. }
  pose proof (VnA _ Vt) as Nta. pose proof (VnA _ Ve) as Nea.
  assert (Wt : forall b, wt rs m b a = b2n (eptr t =? b) + b2n (eptr e =? b)).
  { intros b. unfold wt. now rewrite <- Pt, <- Pe. }
  assert (Oc : forall b, occ rs m L b = b2n (eptr t =? b) + b2n (eptr e =? b) + occ rs m L1 b).
  { intros b. rewrite (occ_perm _ _ _ _ _ PL). simpl. now rewrite Wt. }
  assert (Oca : occ rs m L a = occ rs m L1 a).
  { rewrite Oc. destruct (N.eqb_spec (eptr t) a), (N.eqb_spec (eptr e) a); try congruence. reflexivity. }
  assert (Cn : n <= MAXREF) by (apply (rc_max _ _ _ _ _ _ R); right; eauto).
  assert (Cn' : n = MAXREF \/ n = occ rs m L1 a).
  { destruct (rc_cnt _ _ _ _ _ _ R a) as [E|E]; [right; eauto|left; auto|].
    right. unfold n. fold m in E. rewrite E, Oca, (Hx _ _ _ O_a). lia. }
  assert (Mcr : forall b, counted own b -> cr (m b) <= MAXREF) by apply (rc_max _ _ _ _ _ _ R).
  pose proof (swf_onerc _ _ W) as M1. fold m in M1.
  destruct (eeq t e) eqn:Ete.
  { (* both children equal *)
    apply eeq_true in Ete as Ete'. destruct Ete' as [Ep En].
    set (s1 := addref (st en) t (Z.of_N n - 2)).
    assert (Cr : forall b, cr (mem s1 b) = if b =? eptr t then rc_add (cr (m b)) (Z.of_N n - 2) else cr (m b))
      by (intros b; unfold s1; now rewrite cr_addref).
    assert (Sm : forall b, sameTE m (mem s1) b) by (intros b; apply sameTE_addref).
    assert (Pu : forall b, b <> a -> mem (put s1 a (C t efwd (cr (mem s1 a)))) b = mem s1 b)
      by (intros b Nb; simpl; now rewrite upd_other).
    apply (forward_case o Wo k own D en rs S L x d i a l I R RO HS Hx Low _ t (cr (mem s1 a)) L1); auto.
    - congruence.
    - intros rho. rewrite B5, Kid; [fold m; apply Dt|]. intros r0. fold m. rewrite <- Dt, <- De. exact (dv_eeq D _ _ r0 Ete).
    - simpl. apply upd_same.
    - intros b Nb. unfold sameTE. rewrite Pu by auto. apply Sm.
    - intros b Ob. assert (b <> a) by congruence. rewrite Pu by auto. apply mem_cell_eq; [apply Sm|]. rewrite Cr.
      pose proof (VnX _ _ Vt Ob). destruct (N.eqb_spec b (eptr t)); [congruence|auto].
    - intros _. rewrite Pu by (unfold ONE; lia). rewrite Cr, M1. destruct (ONE =? eptr t); reflexivity.
    - intros b Cb Nb. rewrite Pu by auto. rewrite Cr. fold m. specialize (Mcr b Cb). rewrite (Oc b), <- Ep.
      destruct (rc_cnt _ _ _ _ _ _ R b Cb) as [E|E]; fold m in E; rewrite ?Oc, <- ?Ep in E;
      rewrite ?(N.eqb_sym (eptr t) b) in *; destruct (N.eqb_spec b (eptr t)) as [Eb|Eb]; simpl b2n in *.
      + rewrite E. unfold rc_add. simpl. repeat split; auto; lia.
      + rewrite E. repeat split; auto; lia.
      + unfold MAXREF in *. rewrite rc_add_spec by (unfold MAXREF; lia). unfold MAXREF.
        destruct (N.eqb_spec (cr (m b)) 255); [repeat split; auto; lia|].
        split; [lia|]. split; [lia|]. intros _. destruct Cn' as [C|C]; [left; lia|]. lia.
      + split; [lia|]. split; [lia|]. intros _. right. lia. }
  destruct (PH eq_refl) as (Ihh & Gt & Ge & Khh). destruct (wfo_in o hh Wo Ihh) as [Nhh Jlen].
  destruct (ulookup (st en) hh t e) as [r|] eqn:UL.
  { (* found in the unique table *)
    destruct (ulookup_spec o k own D _ hh t e r I Nhh (proj1 (vnode_nodeR _ _ _ A) Vt) (proj1 (vnode_nodeR _ _ _ A) Ve) UL)
      as (Er & Ir & Dr).
    assert (Or : own (eptr r) = ONode hh) by (apply (acc_node _ _ _ _ A); exact Ir).
    assert (Vr : vedge (vnode own) r) by (right; rewrite Er; auto).
    assert (Nrt : eptr r <> eptr t).
    { intros E. destruct Vt as [[_ P]|[_ P]].
      - rewrite E, P, (acc_one_none _ _ A) in Or. discriminate.
      - unfold vnode in P. rewrite <- E, Or in P. injection P as P. unfold gt_idx in Gt. rewrite <- P in Gt. lia. }
    assert (Nre : eptr r <> eptr e).
    { intros E. destruct Ve as [[_ P]|[_ P]].
      - rewrite E, P, (acc_one_none _ _ A) in Or. discriminate.
      - unfold vnode in P. rewrite <- E, Or in P. injection P as P. unfold gt_idx in Ge. rewrite <- P in Ge. lia. }
    set (s1 := addref (dcr (dcr (st en) t) e) r (Z.of_N n)).
    assert (Sm : forall b, sameTE m (mem s1) b).
    { intros b. eapply sameTE_trans; [eapply sameTE_trans; [apply sameTE_dcr|apply sameTE_dcr]|apply sameTE_addref]. }
    assert (Cr : forall b, cr (mem s1 b) =
       let c0 := cr (m b) in let c1 := if b =? eptr t then rc_dcr c0 else c0 in
       let c2 := if b =? eptr e then rc_dcr c1 else c1 in if b =? eptr r then rc_add c2 (Z.of_N n) else c2).
    { intros b. unfold s1. now rewrite cr_addref, !cr_dcr. }
    assert (Pu : forall b, b <> a -> mem (put s1 a (C r efwd (cr (mem s1 a)))) b = mem s1 b)
      by (intros b Nb; simpl; now rewrite upd_other).
    apply (forward_case o Wo k own D en rs S L x d i a l I R RO HS Hx Low _ r (cr (mem s1 a)) L1); auto.
    - congruence.
    - intros rho. rewrite Dr, B5, Khh. fold m. now rewrite Dt, De.
    - simpl. apply upd_same.
    - intros b Nb. unfold sameTE. rewrite Pu by auto. apply Sm.
    - intros b Ob. assert (b <> a) by congruence. rewrite Pu by auto. apply mem_cell_eq; auto. rewrite Cr. cbv zeta.
      pose proof (VnX _ _ Vt Ob). pose proof (VnX _ _ Ve Ob). pose proof (VnX _ _ Vr Ob).
      destruct (N.eqb_spec b (eptr t)), (N.eqb_spec b (eptr e)), (N.eqb_spec b (eptr r)); try congruence; reflexivity.
    - intros _. rewrite Pu by (unfold ONE; lia). rewrite Cr. cbv zeta. rewrite M1.
      destruct (ONE =? eptr t), (ONE =? eptr e), (ONE =? eptr r); reflexivity.
    - intros b Cb Nb. rewrite Pu by auto. rewrite Cr. cbv zeta. specialize (Mcr b Cb). fold m.
      rewrite (Oc b). rewrite (N.eqb_sym (eptr t) b), (N.eqb_sym (eptr e) b), (N.eqb_sym (eptr r) b) in *.
      unfold rc_dcr.
      assert (C0 : cr (m b) = MAXREF \/ cr (m b) <> MAXREF) by lia.
      destruct C0 as [C0|C0].
      + rewrite C0. match goal with |- ?z <= _ /\ _ => assert (Z : z = MAXREF) end.
        { destruct (b =? eptr t), (b =? eptr e), (b =? eptr r); reflexivity. }
        rewrite Z. split; [lia|]. split; auto.
      + split; [|split; [congruence|]].
        * unfold MAXREF in *. destruct (N.eqb_spec b (eptr r)) as [Eb|Eb].
          -- destruct (N.eqb_spec b (eptr t)); [congruence|]. destruct (N.eqb_spec b (eptr e)); [congruence|].
             rewrite rc_add_spec by (unfold MAXREF; lia). destruct (cr (m b) =? MAXREF); unfold MAXREF; lia.
          -- destruct (b =? eptr t), (b =? eptr e);
             destruct (N.eqb_spec (cr (m b)) 0), (N.eqb_spec (cr (m b)) 255); simpl; try lia;
             destruct (N.eqb_spec (cr (m b) - 1) 0), (N.eqb_spec (cr (m b) - 1) 255); simpl; lia.
        * intros E. unfold MAXREF in *. destruct (N.eqb_spec b (eptr r)) as [Eb|Eb].
          -- destruct (N.eqb_spec b (eptr t)); [congruence|]. destruct (N.eqb_spec b (eptr e)); [congruence|].
             simpl b2n in *. rewrite rc_add_spec by (unfold MAXREF; lia).
             destruct (N.eqb_spec (cr (m b)) MAXREF); [left; auto|]. destruct Cn' as [C|C]; [left; lia|].
             destruct (Z.min_spec 255 (Z.of_N (cr (m b)) + Z.of_N n)) as [[? ->]|[? ->]]; [left|right]; lia.
          -- right. destruct (b =? eptr t), (b =? eptr e); simpl b2n in *;
             destruct (N.eqb_spec (cr (m b)) 0), (N.eqb_spec (cr (m b)) 255); simpl; try lia;
             destruct (N.eqb_spec (cr (m b) - 1) 0), (N.eqb_spec (cr (m b) - 1) 255); simpl; lia. }
  assert (Vtn : vedge (nodeR (st en)) t) by exact (proj1 (vnode_nodeR _ _ _ A) Vt).
  assert (Ven : vedge (nodeR (st en)) e) by exact (proj1 (vnode_nodeR _ _ _ A) Ve).
  assert (NaU : forall j, ~ In a (ut (st en) j)).
  { intros j Ij. apply (acc_node own (set_que en d i (a :: l)) j a A) in Ij. congruence. }
  assert (Tg : tgt own (eptr t)) by (destruct Vt as [[_ P]|[_ P]]; [left; rewrite P; auto|right; left; left; eauto]).
  assert (Tge : tgt own (eptr e)) by (destruct Ve as [[_ P]|[_ P]]; [left; rewrite P; auto|right; left; left; eauto]).
  assert (RsV : forall z, vedge (vnode own) z -> rs (eptr z) = eptr z).
  { intros z [[_ P]|[_ P]]; apply RO; [left; rewrite P; auto|]. right; left; eauto. }
  set (t1 := ephase t (eneg t)). set (e1 := ephase e (eneg t)).
  assert (Tf : tfind (mem (st en)) (ut (st en) hh) t1 e1 = None).
  { unfold ulookup in UL. unfold t1, e1. destruct (eneg t) eqn:Nt; [rewrite !ephase_true|rewrite !ephase_false];
    (destruct (tfind _ _ _ _); [discriminate|auto]). }
  clear UL.
    destruct (alloc (st en) hh) as [b s1] eqn:Al.
    destruct (alloc_spec own (st en) _ (don en) hh b s1 A Al) as (Fb & Rb & Rx & A1 & Em & Eu & Enn).
    assert (Nba : b <> a) by (intros ->; rewrite O_a in Fb; destruct (nf_que _ _ Fb)).
    assert (Nb1 : b <> ONE) by (unfold ONE; lia).
    assert (Nbt : forall p, tgt own p -> p <> b).
    { intros p Tp ->. apply tgt_nf in Tp as [E|E]; [unfold NUL in *; lia|tauto]. }
    assert (NbU : forall j, ~ In b (ut (st en) j)).
    { intros j Ij. apply (acc_node own (set_que en d i (a :: l)) j b A) in Ij. rewrite Ij in Fb. destruct (nf_node _ Fb). }
    set (s2 := put s1 b (C t1 e1 n)).
    set (s3 := set_nn (set_ut s2 (upd (ut s2) hh (b :: ut s2 hh))) (nn s2 + 1)).
    set (s4 := put s3 a (C (E hh b (eneg t)) efwd (cr (mem s3 a)))).
    set (en' := set_que (add_don (set_st en s4) d i a) d i l).
    set (en0 := set_que en d i (a :: l)) in *.
    assert (Ma : mem s4 a = C (E hh b (eneg t)) efwd n).
    { unfold s4, s3, s2; simpl. rewrite !upd_same. f_equal. rewrite upd_other, Em, upd_other by auto. reflexivity. }
    assert (Mb : mem s4 b = C t1 e1 n).
    { unfold s4, s3, s2; simpl. rewrite upd_other by auto. apply upd_same. }
    assert (Mc : forall c, c <> a -> c <> b -> mem s4 c = m c).
    { intros c Ca Cb. unfold s4, s3, s2; simpl. rewrite !upd_other by auto. rewrite Em, upd_other by auto. reflexivity. }
    assert (Us : forall j, ut s4 j = if j =? hh then b :: ut (st en) hh else ut (st en) j).
    { intros j. unfold s4, s3, s2; simpl. unfold upd. rewrite Eu. destruct (N.eqb_spec j hh); auto. }
    set (own' := upd (upd (upd (upd own b OX) b (ONode hh)) a OX) a (ODon d i)).
    assert (Oa' : own' a = ODon d i) by apply upd_same.
    assert (Ob' : own' b = ONode hh) by (unfold own'; rewrite !(upd_other _ a) by auto; apply upd_same).
    assert (Oc' : forall c, c <> a -> c <> b -> own' c = own c) by (intros; unfold own'; rewrite !upd_other; auto).
    assert (A' : EAcc own' en').
    { unfold EAcc, own'.
      assert (A2 : Acc (upd (upd own b OX) b (ONode hh)) (kont s3 (que en0) (don en)) (nx s1)).
      { apply (acc_give _ (kont s1 (que en0) (don en))); [exact A1|apply upd_same|reflexivity| |].
        - simpl. rewrite upd_same. apply Permutation_refl.
        - intros t' Lt Nt'. destruct t'; simpl; auto. rewrite upd_other; auto. congruence. }
      assert (A3 : Acc (upd (upd (upd own b OX) b (ONode hh)) a OX) (kont s3 (upd2 (que en) d i l) (don en)) (nx s1)).
      { eapply (acc_take _ _ _ _ (OQue d i) a l A2); auto.
        - unfold en0; simpl. now rewrite upd2_same.
        - simpl. now rewrite upd2_same.
        - intros t' Lt Nt'. destruct t'; simpl; auto. rewrite !upd2_other; auto;
          destruct (Nat.eq_dec d0 d); [right|left|right|left]; congruence. }
      apply (acc_give _ _ _ _ (ODon d i) a A3); auto.
      - apply upd_same.
      - unfold en'; simpl. rewrite upd2_same. symmetry. rewrite Permutation_cons_append. apply Permutation_refl.
      - intros t' Lt Nt'. unfold en'; destruct t'; simpl; auto. rewrite upd2_other; auto.
        destruct (Nat.eq_dec d0 d); [right|left]; congruence. }
    set (D' := upd D b (fun rho => xorb (eneg t) (D a rho))).
    assert (Dc : forall c rho, c <> b -> D' c rho = D c rho) by (intros; unfold D'; now rewrite upd_other).
    assert (Ms : forall j c, In c (ut (st en) j) -> sameTE (mem (st en)) (mem s4) c).
    { intros j c Ic. unfold sameTE. rewrite Mc; auto; intros ->; [exact (NaU _ Ic)|exact (NbU _ Ic)]. }
    assert (S1 : sameTE (mem (st en)) (mem s4) ONE).
    { unfold sameTE. rewrite Mc; auto. unfold ONE; lia. }
    assert (NRL : forall j c, RL own j c -> c <> b).
    { intros j c [H|[(z & H)|(z & H)]] ->; rewrite H in Fb; destruct Fb as [?|[? ?]]; discriminate. }
    assert (DvR : forall z rho, vedge (vnode own) z -> dv D' z rho = dv D z rho).
    { intros z rho V. unfold dv. f_equal. apply Dc. destruct V as [[_ P]|[_ P]]; [congruence|].
      apply (NRL (eid z)). now left. }
    assert (X : rext own D en0 own' D' en').
    { constructor; auto.
      - intros j c E. assert (c <> a) by congruence. assert (c <> b) by (apply (NRL j); now left).
        rewrite Oc' by auto. split; auto. unfold sameTE. change (mem (st en')) with (mem s4). rewrite Mc by auto. auto.
      - intros c E. assert (c <> a) by congruence.
        assert (c <> b) by (intros ->; rewrite E in Fb; destruct (nf_ox Fb)).
        rewrite Oc' by auto. split; auto; change (mem (st en')) with (mem s4); rewrite Mc by auto; auto.
      - intros j c H. destruct (N.eq_dec c a) as [->|Nca].
        + destruct H as [H|[(z & H)|(z & H)]]; try congruence. assert (j = i) by congruence. subst.
          right; right. exists d. auto.
        + pose proof (NRL _ _ H). unfold RL. rewrite Oc' by auto. auto.
      - intros c rho H. apply Dc. destruct H as [->|[j H]]; auto. eapply NRL; eauto.
      - intros z j c E. assert (c <> a) by congruence. assert (c <> b) by (apply (NRL j); right; right; eauto).
        rewrite Oc' by auto. split; auto. unfold sameTE. change (mem (st en')) with (mem s4). rewrite Mc by auto. auto.
      - intros z j c E. destruct (N.eq_dec c a) as [->|Nca]; [congruence|]. destruct (N.eq_dec c b) as [->|Ncb]; [congruence|].
        rewrite Oc' in E by auto. split; auto. unfold sameTE. change (mem (st en')) with (mem s4). rewrite Mc by auto. auto.
      - intros c E. destruct (N.eq_dec c a) as [->|Nca]; [congruence|]. destruct (N.eq_dec c b) as [->|Ncb]; [congruence|].
        rewrite Oc' in E by auto. auto.
      - change (ut s4 0 = ut (st en) 0). rewrite Us. destruct (N.eqb_spec 0 hh); congruence.
      - intros z j c E. destruct (N.eq_dec c a) as [->|Nca]; [right; congruence|]. destruct (N.eq_dec c b) as [->|Ncb]; [congruence|].
        rewrite Oc' in E by auto. auto.
      - intros c Lc. unfold sameTE. change (mem (st en')) with (mem s4). rewrite Mc by lia. auto. }
    assert (Dab : forall rho, D' b rho = if rho hh then dv D' t1 rho else dv D' e1 rho).
    { intros rho. unfold D' at 1. rewrite upd_same. unfold t1, e1. rewrite !DvR by (now apply vedge_ephase). rewrite !dv_ephase.
      rewrite B5, Khh. fold m. rewrite <- Dt, <- De. now destruct (rho hh). }
    exists own', D', (upd (upd rs b b) a b), (b :: L1). split; [|split; [|split; [|split]]].
    + eapply RInv_step; eauto.
      * eapply (SWF_add o (st en) s4 hh b t1 e1); auto; try (now apply vedge_ephase).
        -- lia.
        -- unfold t1; simpl. now destruct (eneg t).
        -- unfold eeq in *. simpl. rewrite <- Ete. now destruct (eneg t), (eneg e).
        -- now rewrite Mb.
        -- now rewrite Mb.
        -- rewrite Mc; auto. unfold ONE; lia.
      * eapply (Dok_add o D D' (st en) s4 hh b); auto.
        -- exact (ri_dok _ _ _ _ _ I).
        -- rewrite Mb. exact Dab.
      * intros z j c E. destruct (N.eq_dec c a) as [->|Nca].
        -- right. rewrite Oa' in E. injection E as <- <-. split; auto.
           constructor; change (mem (st en')) with (mem s4); rewrite Ma; simpl; auto.
           ++ right. split; auto.
           ++ congruence.
           ++ intros rho. unfold dv; simpl. unfold D'. rewrite upd_same, upd_other by auto. now destruct (eneg t), (D a rho).
        -- destruct (N.eq_dec c b) as [->|Ncb]; [congruence|]. left. rewrite <- E. symmetry. auto.
      * intros q c E. destruct (N.eq_dec q a) as [->|Nca]; [congruence|].
        destruct (N.eq_dec q b) as [->|Ncb]; [congruence|]. rewrite Oc' in E by auto. exact (ri_ind _ _ _ _ _ I _ _ E).
    + change (mem (st en')) with (mem s4). pose proof R as R'. destruct R' as [K1 K2 K3 K4 K5 K6].
      assert (ND : NoDup (a :: L1)) by (eapply Permutation_NoDup; eauto).
      inversion ND as [|? ? Na1 ND1]; subst.
      assert (In1 : forall c, In c L1 -> In c L) by (intros c Ic; eapply Permutation_in; [symmetry; exact PL|now right]).
      assert (Nc1 : forall c, In c L1 -> c <> a /\ c <> b).
      { intros c Ic. split; [intros ->; auto|]. intros ->. apply In1, K2 in Ic.
        destruct Ic as [(j & E)|(z & j & E & _)]; rewrite E in Fb; destruct Fb as [?|[? ?]]; discriminate. }
      assert (Tn : forall c, tgt own c -> tgt own' c).
      { intros c Tc. destruct (N.eq_dec c a) as [->|Nca]; [right; right; eauto|].
        unfold tgt, counted. rewrite Oc' by auto. exact Tc. }
      assert (RsB : forall p, tgt own p -> rs p <> b).
      { intros p Tp. destruct RO as [Q1 Q2]. pose proof (Nbt p Tp). destruct Tp as [C|[C|(z & j & E)]].
        - rewrite Q2; auto.
        - rewrite Q2; auto.
        - rewrite (Q1 _ _ _ E). destruct (ri_don _ _ _ _ _ I _ _ _ E) as [_ [_ F2 _ _]]. simpl in F2. fold m in F2.
          apply Nbt. destruct F2 as [[_ P]|[_ P]]; [left; rewrite P; auto|right; left; left; eauto]. }
      assert (OcN : forall c, c <> a -> occ (upd (upd rs b b) a b) (mem s4) L1 c =
                    occ rs m L1 c + b2n (b =? c) * occ rs m L1 a).
      { intros c Nc. rewrite (occ_frame _ m) by (intros z Iz; destruct (Nc1 z Iz); unfold sameTE; now rewrite Mc).
        rewrite occ_redirect; auto.
        - assert (forall q, occ (upd rs b b) m L1 q = occ rs m L1 q) as Hq.
          { intros q. apply occ_rs_ext. intros z Iz. destruct (K3 z (In1 z Iz)) as [T1 T2]. fold m in T1, T2.
            split; rewrite upd_other; auto. }
          now rewrite !Hq.
        - intros z Iz. destruct (K3 z (In1 z Iz)) as [T1 T2]. fold m in T1, T2.
          split; intros Nz; rewrite upd_other by auto; apply (rs_tgt o k own D en rs d i a l I RO); auto.
        - rewrite upd_other by auto. apply RO. right; right; eauto. }
      assert (WtN : forall c, wt (upd (upd rs b b) a b) (mem s4) c b = b2n (eptr t =? c) + b2n (eptr e =? c)).
      { intros c. unfold wt. rewrite Mb; simpl. rewrite !upd_other by auto. now rewrite !RsV. }
      assert (OcB : forall r c, occ r (mem s4) (b :: L1) c = wt r (mem s4) c b + occ r (mem s4) L1 c) by reflexivity.
      constructor.
      * constructor; auto. intros Ib. destruct (Nc1 b Ib). congruence.
      * intros c. simpl. split.
        -- intros [<-|Ic]; [left; eauto|]. destruct (Nc1 c Ic). rewrite Oc' by auto. apply K2. auto.
        -- intros Hc. destruct (N.eq_dec b c) as [|Ncb]; auto. right.
           assert (Nca : c <> a).
           { intros ->. rewrite Oa' in Hc. destruct Hc as [(? & ?)|(? & ? & ? & ?)]; discriminate. }
           rewrite Oc' in Hc by auto. apply K2 in Hc. eapply Permutation_in in Hc; [|exact PL]. destruct Hc; congruence.
      * intros c [<-|Ic].
        -- rewrite Mb; simpl. auto.
        -- destruct (Nc1 c Ic). rewrite Mc by auto. destruct (K3 c (In1 c Ic)). auto.
      * intros c Hc. assert (Nca : c <> a).
        { intros ->. unfold counted in Hc. rewrite Oa' in Hc. destruct Hc as [(? & ?)|(? & ? & ?)]; discriminate. }
        rewrite OcB, OcN, WtN by auto. destruct (N.eq_dec c b) as [->|Ncb].
        -- rewrite Mb; simpl. rewrite N.eqb_refl. pose proof (Nbt _ Tg). pose proof (Nbt _ Tge).
           destruct (N.eqb_spec (eptr t) b), (N.eqb_spec (eptr e) b); try congruence. simpl b2n.
           rewrite (K6 b) by (auto; lia).
           rewrite (occ_zero rs m L1 b) by (intros z Iz; destruct (K3 z (In1 z Iz)) as [T1 T2]; fold m in T1, T2; split; apply RsB; auto).
           destruct Cn' as [C|C]; [left; auto|right; lia].
        -- rewrite Mc by auto. destruct (N.eqb_spec b c); [congruence|]. simpl b2n.
           destruct (K4 c) as [E|E].
           ++ unfold counted in *. rewrite Oc' in Hc by auto. auto.
           ++ left; auto.
           ++ right. fold m in E. rewrite E, Oc. lia.
      * intros c Hc. destruct (N.eq_dec c b) as [->|Ncb]; [rewrite Mb; auto|].
        assert (Nca : c <> a).
        { intros ->. unfold counted in Hc. rewrite Oa' in Hc. destruct Hc as [(? & ?)|(? & ? & ?)]; discriminate. }
        rewrite Mc by auto. apply K5. unfold counted in *. rewrite Oc' in Hc by auto. auto.
      * intros c Lc Fc. destruct (N.eq_dec c a) as [->|Nca]; [rewrite Oa' in Fc; destruct (nf_don _ _ Fc)|].
        destruct (N.eq_dec c b) as [->|Ncb]; [rewrite Ob' in Fc; destruct (nf_node _ Fc)|].
        rewrite Oc' in Fc by auto. auto.
    + destruct RO as [Q1 Q2]. split.
      * intros c z j E. destruct (N.eq_dec c a) as [->|Nca].
        -- rewrite upd_same. change (mem (st en')) with (mem s4). now rewrite Ma.
        -- destruct (N.eq_dec c b) as [->|Ncb]; [congruence|]. rewrite Oc' in E by auto.
           rewrite !upd_other by auto. change (mem (st en')) with (mem s4). rewrite Mc by auto. eapply Q1; eauto.
      * intros c E. assert (Nca : c <> a).
        { intros ->. unfold counted in E. rewrite Oa' in E. destruct E as [E|[(? & ?)|(? & ? & ?)]]; try discriminate. unfold NUL in E; lia. }
        rewrite upd_other by auto. destruct (N.eq_dec c b) as [->|Ncb]; [apply upd_same|].
        rewrite upd_other by auto. apply Q2. unfold counted in *. rewrite Oc' in E by auto. auto.
    + exact X.
    + intros d' j. rewrite Oa'. discriminate.
Qed.
End Place.
