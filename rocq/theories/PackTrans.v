(** Moving nodes to other cells of their variable preserves the manager invariant and everything the client holds. *)
From Coq Require Import NArith ZArith List Bool Lia Permutation Sorted.
From Verif Require Import Base BFModel StoreInv Own EngInv ApplyProof EngineProof QProof GCProof VarProof MgrModel ApiModel MInv
  ApiProof ApiVar ReorderMgr PackModel.
Import ListNotations.
Open Scope N_scope.

Lemma inb_true a l : inb a l = true <-> In a l.
Proof.
  unfold inb. rewrite existsb_exists. split; [intros (y & H & E); apply N.eqb_eq in E; now subst|].
  intros H. exists a. split; auto. apply N.eqb_refl.
Qed.
Lemma inb_false a l : inb a l = false <-> ~ In a l.
Proof. rewrite <- inb_true. destruct (inb a l); split; congruence. Qed.

Definition rede (r : N -> N) (e : edge) : edge := E (eid e) (r (eptr e)) (eneg e).
Definition redc (r : N -> N) (c : cell) : cell := C (rede r (ct c)) (rede r (ce c)) (cr c).
Definition amoved (r : N -> N) (a a' : assoc) : Prop :=
  aid a' = aid a /\ arc a' = arc a /\ alast a' = alast a /\ forall i, amap a' i = option_map (rede r) (amap a i).
Definition emoved (r : N -> N) (e : centry) : centry := CE (cop e) (rede r (cf e)) (rede r (cg e)) (rede r (cres e)) (ctmp e).

Section Trans.
Variables (m : mgr) (hs : list ubdd) (D : den) (r : N -> N) (s1 : store) (m1 : mgr).
Hypothesis Im : MInv m hs lk0 D.
Let s0 := st (me m).
Hypothesis H_one : r ONE = ONE.
Hypothesis H_usr : forall u, In u (ut s0 0) -> r u = u.
Hypothesis H_inj : forall i a b, In a (ut s0 i) -> In b (ut s0 i) -> r a = r b -> a = b.
Hypothesis H_cell : forall i a, In a (ut s0 i) -> In (r a) (ut s0 i ++ fl s0 i).
Hypothesis H_tab : forall i b, In b (ut s1 i) <-> exists a, In a (ut s0 i) /\ b = r a.
Hypothesis H_nd : forall i, NoDup (ut s1 i) /\ NoDup (fl s1 i).
Hypothesis H_fl : forall i b, In b (fl s1 i) -> In b (ut s0 i ++ fl s0 i) /\ ~ In b (ut s1 i).
Hypothesis H_nx : nx s1 = nx s0.
Hypothesis H_mem : forall i a, In a (ut s0 i) -> mem s1 (r a) = redc r (mem s0 a).
Hypothesis H_mem1 : mem s1 ONE = mem s0 ONE.
Hypothesis H_var : forall i, In i (ord (mo m)) -> r (eptr (mvb m i)) = eptr (mvb m i).
Hypothesis M1 : m1 = M (set_st (me m) s1) (mo m) (muone m) (mvb m) (mca m1) (massoc m1) (mtemp m1) (mcur m) (mtop m) (mlim m) (mnl m) (mov m).
Hypothesis H_ca : forall k, mca m1 k = option_map (emoved r) (mca m k).
Hypothesis H_as : Forall2 (amoved r) (massoc m) (massoc m1).
Hypothesis H_tmp : amoved r (mtemp m) (mtemp m1).

Theorem transport : exists D', MInv m1 hs lk0 D' /\ mext hs m D m1 D'.
Proof.
  pose proof Im as [B1 B2 B3 B4 B5 B6 B7 B8 B9 B10 [G B11]].
  assert (Q0 : exists own L, EInv (mo m) own D (me m) /\ RC own [] idn (mem s0) L (xr m hs lk0)) by exact B3.
  destruct Q0 as (own & L & EI & RC0). pose proof (ei_acc _ _ _ _ EI) as AC. unfold EAcc in AC. fold s0 in AC.
  pose proof (ei_swf _ _ _ _ EI) as W. pose proof (ei_dok _ _ _ _ EI) as Kd. fold s0 in W, Kd.
  assert (ON : forall i a, own a = ONode i <-> In a (ut s0 i)).
  { intros i a. symmetry. apply (acc_in _ _ _ AC (ONode i) a eq_refl). }
  assert (OF : forall i a, own a = OFree i <-> In a (fl s0 i)).
  { intros i a. symmetry. apply (acc_in _ _ _ AC (OFree i) a eq_refl). }
  assert (OC : forall i a, In a (ut s0 i ++ fl s0 i) -> own a = ONode i \/ own a = OFree i).
  { intros i a Ia. apply in_app_iff in Ia as [Ia|Ia]; [left; now apply ON|right; now apply OF]. }
  assert (OR : forall i a, In a (ut s0 i ++ fl s0 i) -> 2 < a < nx s0).
  { intros i a Ia. apply (acc_rng _ _ _ AC). destruct (OC i a Ia); congruence. }
  assert (OS : forall i j a, In a (ut s0 i ++ fl s0 i) -> In a (ut s0 j ++ fl s0 j) -> i = j).
  { intros i j a Ia Ja. destruct (OC i a Ia), (OC j a Ja); congruence. }
  assert (LN : forall a, In a L <-> exists i, In a (ut s0 i)).
  { intros a. rewrite (rc_L _ _ _ _ _ _ RC0 a). split.
    - intros [[i H]|(k & i & _ & [] & _)]. exists i. now apply ON.
    - intros [i H]. left. exists i. now apply ON. }
  set (okn := fun p => p = ONE \/ exists i, In p (ut s0 i)).
  assert (RI : forall p q, okn p -> okn q -> r p = r q -> p = q).
  { intros p q [->|[i Hp]] [->|[j Hq]] E; auto.
    - rewrite H_one in E. pose proof (OR _ _ (H_cell j q Hq)). unfold ONE in *. lia.
    - rewrite H_one in E. pose proof (OR _ _ (H_cell i p Hp)). unfold ONE in *. lia.
    - assert (i = j). { apply (OS i j (r p)); [now apply H_cell|]. rewrite E. now apply H_cell. }
      subst j. now apply (H_inj i). }
  assert (RE : forall p q, okn p -> okn q -> (r p =? r q) = (p =? q)).
  { intros p q Hp Hq. destruct (N.eqb_spec (r p) (r q)) as [E|E], (N.eqb_spec p q) as [E'|E']; auto; [|congruence].
    destruct E'. now apply RI. }
  assert (OE : forall e, vedge (nodeR s0) e -> okn (eptr e)).
  { intros e [[_ V]|[_ V]]; [now left|right; eauto]. }
  set (D' := fun b => match find (fun a => r a =? b) L with Some a => D a | None => D b end : (N -> bool) -> bool).
  assert (DN : forall i a rho, In a (ut s0 i) -> D' (r a) rho = D a rho).
  { intros i a rho Ia. unfold D'. destruct (find _ L) as [c|] eqn:F.
    - apply find_some in F as [Ic F]. apply N.eqb_eq in F. apply LN in Ic as [j Jc].
      f_equal. f_equal. apply RI; auto; right; eauto.
    - exfalso. assert (IaL : In a L) by (apply LN; eauto). pose proof (find_none _ _ F a IaL) as F'. cbv beta in F'.
      rewrite N.eqb_refl in F'. discriminate. }
  assert (D1 : forall rho, D' ONE rho = D ONE rho).
  { intros rho. unfold D'. destruct (find _ L) as [c|] eqn:F; auto. apply find_some in F as [Ic F]. apply N.eqb_eq in F.
    apply LN in Ic as [j Jc]. pose proof (OR _ _ (H_cell j c Jc)). unfold ONE in *. lia. }
  assert (DP : forall p rho, okn p -> D' (r p) rho = D p rho).
  { intros p rho [->|[i Hp]]; [rewrite H_one; apply D1|now apply (DN i)]. }
  assert (DV : forall e rho, vedge (nodeR s0) e -> dv D' (rede r e) rho = dv D e rho).
  { intros e rho V. unfold dv, rede. cbn [eptr eneg]. now rewrite DP by auto. }
  assert (VE : forall e, vedge (nodeR s0) e -> vedge (nodeR s1) (rede r e)).
  { intros e [[V1 V2]|[V1 V2]]; [left|right]; unfold rede; cbn [eid eptr].
    - now rewrite V2, H_one.
    - split; auto. apply H_tab. eauto. }
  assert (EQ : forall e f, vedge (nodeR s0) e -> vedge (nodeR s0) f -> eeq (rede r e) (rede r f) = eeq e f).
  { intros e f V1 V2. unfold eeq, rede. cbn [eptr eneg]. now rewrite RE by auto. }
  assert (ND1 : forall i a, i <> 0 -> In a (ut s0 i) -> vedge (nodeR s0) (ct (mem s0 a)) /\ vedge (nodeR s0) (ce (mem s0 a))).
  { intros i a Ni Ia. destruct (swf_node _ _ W i a Ni Ia) as [? ? ? ? ? ? ?]; auto. }
  assert (NDall : forall i a, In a (ut s0 i) -> vedge (nodeR s0) (ct (mem s0 a)) /\ vedge (nodeR s0) (ce (mem s0 a))).
  { intros i a Ia. destruct (N.eq_dec i 0) as [->|Ni]; [|now apply (ND1 i)].
    destruct (swf_user _ _ W a Ia) as (V1 & -> & _). split; auto. apply vedge_one. }
  assert (SW1 : SWF (mo m) s1).
  { constructor.
    - intros i b Ni Ib. apply H_tab in Ib as (a & Ia & ->). destruct (swf_node _ _ W i a Ni Ia) as [C1 C2 C3 C4 C5 C6 C7].
      constructor; rewrite ?(H_mem i a Ia); cbn [redc ct ce]; auto. rewrite EQ; auto.
    - intros b Ib. apply H_tab in Ib as (a & Ia & ->). rewrite (H_mem 0 a Ia). cbn [redc ct ce].
      destruct (swf_user _ _ W a Ia) as (V1 & V2 & V3). split; auto. rewrite V2. split; [|exact V3].
      unfold rede, one. cbn [eid eptr eneg]. now rewrite H_one.
    - intros i b b' Ib Ib'. apply H_tab in Ib as (a & Ia & ->). apply H_tab in Ib' as (a' & Ia' & ->).
      rewrite (H_mem i a Ia), (H_mem i a' Ia'). cbn [redc ct ce]. destruct (NDall i a Ia), (NDall i a' Ia').
      rewrite !EQ by auto. intros E1 E2. f_equal. now apply (swf_uniq _ _ W i).
    - intros i j b Ib Jb. apply H_tab in Ib as (a & Ia & ->). apply H_tab in Jb as (a' & Ja & E).
      apply (OS i j (r a)); [now apply H_cell|]. rewrite E. now apply H_cell.
    - intros i b Ib. apply H_tab in Ib as (a & Ia & ->). pose proof (OR _ _ (H_cell i a Ia)). lia.
    - rewrite H_mem1. apply W.
    - rewrite H_mem1. apply W. }
  assert (DK1 : Dok D' s1).
  { constructor.
    - intros rho. rewrite D1. apply Kd.
    - intros i b rho Ni Ib. apply H_tab in Ib as (a & Ia & ->). rewrite (H_mem i a Ia). cbn [redc ct ce].
      destruct (ND1 i a Ni Ia). rewrite !DV, (DN i) by auto. now apply (dok_node _ _ Kd). }
  set (own' := fun b => match find (fun a => r a =? b) L with Some a => own a | None =>
     match own b with ONode i | OFree i => if inb b (fl s1 i) then OFree i else ONone | _ => ONone end end).
  assert (FS : forall b a, find (fun a => r a =? b) L = Some a -> b = r a /\ exists i, In a (ut s0 i)).
  { intros b a F. apply find_some in F as [Ic F]. apply N.eqb_eq in F. split; auto. now apply LN. }
  assert (FN : forall b, find (fun a => r a =? b) L = None -> forall i, ~ In b (ut s1 i)).
  { intros b F i Ib. apply H_tab in Ib as (a & Ia & ->). assert (IaL : In a L) by (apply LN; eauto).
    pose proof (find_none _ _ F a IaL) as F'. cbv beta in F'. rewrite N.eqb_refl in F'. discriminate. }
  assert (O1 : forall b i, own' b = ONode i <-> In b (ut s1 i)).
  { intros b i. unfold own'. destruct (find _ L) as [a|] eqn:F.
    - destruct (FS _ _ F) as [-> [j Ja]]. rewrite (proj2 (ON j a) Ja). split.
      + intros E. injection E as <-. apply H_tab. eauto.
      + intros Ib. f_equal. apply H_tab in Ib as (a' & Ia & E). apply (OS j i (r a)); [now apply H_cell|]. rewrite E. now apply H_cell.
    - split; [|intros Ib; now destruct (FN b F i)]. destruct (own b); try discriminate; destruct (inb b _); discriminate. }
  assert (O2 : forall b i, own' b = OFree i <-> In b (fl s1 i)).
  { intros b i. unfold own'. destruct (find _ L) as [a|] eqn:F.
    - destruct (FS _ _ F) as [-> [j Ja]]. rewrite (proj2 (ON j a) Ja). split; [discriminate|]. intros Ib. exfalso.
      destruct (H_fl i _ Ib) as [C1 C2]. apply C2. assert (j = i) by (apply (OS j i (r a)); auto). subst j. apply H_tab. eauto.
    - split.
      + intros E. destruct (own b) eqn:Eo; try discriminate; destruct (inb b (fl s1 _)) eqn:Ei; try discriminate; injection E as <-; now apply inb_true.
      + intros Ib. destruct (H_fl i b Ib) as [C1 _]. apply inb_true in Ib. destruct (OC i b C1) as [-> | ->]; now rewrite Ib. }
  assert (O3 : forall b, (exists i, own' b = ONode i) \/ (exists i, own' b = OFree i) \/ own' b = ONone).
  { intros b. unfold own'. destruct (find _ L) as [a|] eqn:F.
    - destruct (FS _ _ F) as [-> [j Ja]]. rewrite (proj2 (ON j a) Ja). eauto.
    - destruct (own b); auto; destruct (inb b _); eauto. }
  assert (EI1 : EInv (mo m) own' D' (set_st (me m) s1)).
  { constructor; cbn [st set_st que don]; auto.
    - unfold EAcc. cbn [st set_st que don]. constructor.
      + intros t a Ht. destruct t as [| |v|v|k v|k v|c]; try discriminate; cbn [kont].
        * symmetry. apply O1.
        * symmetry. apply O2.
        * rewrite (ei_que _ _ _ _ EI). split; [intros []|]. intros E. destruct (O3 a) as [[w Q]|[[w Q]|Q]]; congruence.
        * rewrite (ei_don _ _ _ _ EI). split; [intros []|]. intros E. destruct (O3 a) as [[w Q]|[[w Q]|Q]]; congruence.
      + intros t Ht. destruct t as [| |v|v|k v|k v|c]; try discriminate; cbn [kont].
        * apply H_nd.
        * apply H_nd.
        * rewrite (ei_que _ _ _ _ EI). constructor.
        * rewrite (ei_don _ _ _ _ EI). constructor.
      + intros a Ha. rewrite H_nx. destruct (O3 a) as [[w Q]|[[w Q]|Q]]; [| |congruence].
        * apply O1 in Q. apply H_tab in Q as (c & Ic & ->). exact (OR _ _ (H_cell w c Ic)).
        * apply O2 in Q. apply (OR w). now apply H_fl.
      + rewrite H_nx. apply (acc_lim _ _ _ AC).
    - apply (ei_que _ _ _ _ EI).
    - apply (ei_don _ _ _ _ EI).
    - intros p a Q. destruct (O3 p) as [[w Q']|[[w Q']|Q']]; congruence. }
  (* associations *)
  assert (AM : forall a', In a' (mtemp m1 :: massoc m1) -> exists a, In a (mtemp m :: massoc m) /\ amoved r a a').
  { intros a' [<-|Ia]; [exists (mtemp m); split; [now left|exact H_tmp]|].
    pose proof H_as as HA. clear - HA Ia. induction HA as [|a b l l' Hab H IH]; [destruct Ia|]. destruct Ia as [<-|Ia].
    - exists a. split; [right; now left|auto].
    - destruct (IH Ia) as (c & [Ic|Ic] & Sc); exists c; split; auto; [now left|right; now right]. }
  assert (AM2 : forall a', In a' (massoc m1) -> exists a, In a (massoc m) /\ amoved r a a').
  { intros a' Ia. pose proof H_as as HA. clear - HA Ia. induction HA as [|a b l l' Hab H IH]; [destruct Ia|]. destruct Ia as [<-|Ia].
    - exists a. split; [now left|auto].
    - destruct (IH Ia) as (c & Ic & Sc); exists c; split; auto. now right. }
  assert (AID : map aid (massoc m1) = map aid (massoc m)).
  { pose proof H_as as HA. clear - HA. induction HA as [|a b l l' (Hab & _) H IH]; cbn [map]; auto. now rewrite IH, Hab. }
  assert (IMv : forall a i e, In a (mtemp m :: massoc m) -> amap a i = Some e -> vedge (nodeR s0) e /\ In i (ord (mo m))).
  { intros a i e Ia Ea. destruct (ao_dom _ _ _ (B7 a Ia) i e Ea) as [Ii Ve]. auto. }
  assert (AR : forall a a', In a (mtemp m :: massoc m) -> amoved r a a' -> arel D D' a a').
  { intros a a' Ia (S1 & S2 & S3 & S4). split; auto. split; auto. intros i. rewrite S4.
    destruct (amap a i) as [e|] eqn:Ee; cbn [option_map]; auto. intros rho. apply DV. now apply (IMv a i). }
  (* references from outside *)
  assert (Eo : mo m1 = mo m) by now rewrite M1. assert (Eu : muone m1 = muone m) by now rewrite M1.
  assert (Evb : mvb m1 = mvb m) by now rewrite M1. assert (Es : st (me m1) = s1) by now rewrite M1.
  assert (Ee1 : me m1 = set_st (me m) s1) by now rewrite M1.
  assert (Ecur : mcur m1 = mcur m) by now rewrite M1. assert (Etop : mtop m1 = mtop m) by now rewrite M1.
  assert (PF : forall p, In p (muone m :: map (fun i => eptr (mvb m i)) (ord (mo m))) -> r p = p /\ okn p).
  { intros p [<-|Ip].
    - destruct B4 as [U _]. split; [now apply H_usr|right; eauto].
    - apply in_map_iff in Ip as (i & <- & Ii). split; [now apply H_var|]. right. exists i. now apply B5. }
  assert (XP : forall b, In b L -> xr m1 hs lk0 (r b) = xr m hs lk0 b).
  { intros b Ib. assert (Ob : okn b) by (right; now apply LN). unfold xr, lk0. rewrite Eo.
    assert (Z1 : hcnt hs (r b) = hcnt hs b).
    { clear - B6 H_usr RE Ob okn. induction hs as [|h l IH]; cbn [hcnt]; auto. rewrite IH by (intros; apply B6; now right).
      f_equal. f_equal. pose proof (B6 h (or_introl eq_refl)) as U. rewrite <- (H_usr _ U) at 1. apply RE; auto. right. exists 0. exact U. }
    assert (A1 : forall a a' ids, In a (mtemp m :: massoc m) -> amoved r a a' -> acnt ids (amap a') (r b) = acnt ids (amap a) b).
    { intros a a' ids Ia (S1 & S2 & S3 & S4). induction ids as [|i ids IH]; cbn [acnt]; auto. rewrite IH, S4. f_equal.
      destruct (amap a i) as [e|] eqn:Ea; cbn [option_map]; auto. unfold rede. cbn [eptr]. rewrite RE; auto. apply OE. now apply (IMv a i). }
    assert (Z2 : asum (ord (mo m)) (mtemp m1 :: massoc m1) (r b) = asum (ord (mo m)) (mtemp m :: massoc m) b).
    { cbn [asum]. f_equal; [apply A1; auto; now left|].
      assert (A2 : forall l l', Forall2 (amoved r) l l' -> (forall a, In a l -> In a (mtemp m :: massoc m)) ->
           asum (ord (mo m)) l' (r b) = asum (ord (mo m)) l b).
      { induction 1 as [|a a1 l l' Ha Hl IH]; intros Hin; cbn [asum]; auto. rewrite IH by (intros; apply Hin; now right).
        f_equal. apply A1; auto. apply Hin. now left. }
      apply A2; auto. intros a Ia. now right. }
    assert (Z3 : perm m1 (r b) = perm m b).
    { unfold perm. rewrite Eo, Eu, Evb.
      assert (E : forall l, (forall p, In p l -> r p = p /\ okn p) -> existsb (N.eqb (r b)) l = existsb (N.eqb b) l).
      { induction l as [|p l IH]; intros Hl; cbn [existsb]; auto. rewrite IH by (intros; apply Hl; now right). f_equal.
        destruct (Hl p (or_introl eq_refl)) as [Ep Op]. rewrite <- Ep at 1. now apply RE. }
      now rewrite (E _ PF). }
    now rewrite Z1, Z2, Z3. }
  assert (XN : forall b, 2 < b -> (forall v, ~ In b (ut s1 v)) -> xr m1 hs lk0 b = 0).
  { intros b Hb Nb.
    assert (NR : forall c, okn c -> r c <> b).
    { intros c [->|[i Ic]] Q; [rewrite H_one in Q; unfold ONE in Q; lia|]. apply (Nb i). apply H_tab. eauto. }
    unfold xr, lk0. rewrite Eo, hcnt_zero, asum_zero.
    - destruct (N.eq_dec (perm m1 b) 0) as [->|Q]; auto. exfalso. apply perm_pos in Q. rewrite Eo, Eu, Evb in Q.
      destruct Q as [Q|(i & Ii & Q)].
      + destruct (PF (muone m)) as [P1 P2]; [now left|]. apply (NR _ P2). congruence.
      + destruct (PF (eptr (mvb m i))) as [P1 P2]; [right; apply in_map_iff; eauto|]. apply (NR _ P2). congruence.
    - intros a' i e' Ia _ Ea. destruct (AM a' Ia) as (a & Ia0 & (S1 & S2 & S3 & S4)). rewrite S4 in Ea.
      destruct (amap a i) as [e|] eqn:Ee; [|discriminate]. injection Ea as <-. cbn [rede eptr]. apply NR. apply OE. now apply (IMv a i).
    - intros h Ih Q. pose proof (B6 h Ih) as U. apply (NR (uptr h)); [right; exists 0; exact U|]. now rewrite H_usr. }
  assert (RC1 : RC own' [] idn (mem s1) (map r L) (xr m1 hs lk0)).
  { assert (IL : forall a, In a (map r L) <-> exists v, own' a = ONode v).
    { intros a. rewrite in_map_iff. split.
      - intros (c & <- & Ic). apply LN in Ic as [i Ic]. exists i. apply O1. apply H_tab. eauto.
      - intros [v Iv]. apply O1 in Iv. apply H_tab in Iv as (c & Ic & ->). exists c. split; auto. apply LN. eauto. }
    assert (CB : forall b, counted own' b -> exists c, In c L /\ b = r c).
    { intros b [Hb|(k & i & Hb)].
      - apply IL in Hb. apply in_map_iff in Hb as (c & <- & Ic). eauto.
      - destruct (O3 b) as [[w Q']|[[w Q']|Q']]; congruence. }
    assert (ML : forall c, In c L -> mem s1 (r c) = redc r (mem s0 c) /\ okn (eptr (ct (mem s0 c))) /\ okn (eptr (ce (mem s0 c)))).
    { intros c Ic. apply LN in Ic as [i Ic]. split; [now apply (H_mem i)|]. destruct (NDall i c Ic). auto. }
    constructor.
    - assert (Gn : forall l, NoDup l -> (forall a, In a l -> In a L) -> NoDup (map r l)).
      { induction 1 as [|a l Na ND IH]; intros Hl; cbn [map]; constructor.
        - intros Q. apply in_map_iff in Q as (c & E & Ic). apply RI in E; [subst; auto| |]; right; apply LN; apply Hl; [now right|now left].
        - apply IH. intros c Ic. apply Hl. now right. }
      apply Gn; [apply (rc_nd _ _ _ _ _ _ RC0)|auto].
    - intros a. rewrite IL. split; [now left|]. intros [H|(k & i & _ & [] & _)]; auto.
    - assert (TG : forall c, okn c -> tgt own' (r c)).
      { intros c [->|[i Ic]].
        - left. rewrite H_one. unfold ONE, NUL. lia.
        - right. left. left. exists i. apply O1. apply H_tab. eauto. }
      intros a Ia. apply in_map_iff in Ia as (c & <- & Ic). destruct (ML c Ic) as (-> & Q1 & Q2). cbn [redc ct ce rede eptr]. auto.
    - intros b Cb. destruct (CB b Cb) as (c & Ic & ->). destruct (ML c Ic) as (-> & _). cbn [redc cr].
      rewrite XP by auto.
      assert (Cc : counted own c). { left. apply LN in Ic as [i Ic]. exists i. now apply ON. }
      destruct (rc_cnt _ _ _ _ _ _ RC0 c Cc) as [E|E]; [now left|right]. rewrite E. f_equal.
      assert (Eo' : forall l, (forall a, In a l -> In a L) -> occ idn (mem s1) (map r l) (r c) = occ idn (mem s0) l c).
      { induction l as [|a l IH]; intros Hl; cbn [map occ]; auto. rewrite IH by (intros; apply Hl; now right). f_equal.
        destruct (ML a (Hl a (or_introl eq_refl))) as (E1 & Q1 & Q2). unfold wt, idn. rewrite E1. cbn [redc ct ce rede eptr].
        rewrite !RE; auto; right; now apply LN. }
      symmetry. apply Eo'. auto.
    - intros b Cb. destruct (CB b Cb) as (c & Ic & ->). destruct (ML c Ic) as (-> & _). cbn [redc cr].
      apply (rc_max _ _ _ _ _ _ RC0). left. apply LN in Ic as [i Ic]. exists i. now apply ON.
    - intros b Hb Fr. apply XN; auto. intros v Iv. apply O1 in Iv. rewrite Iv in Fr. destruct Fr as [Fr|[i Fr]]; discriminate. }
  assert (MU : forall u, In u (ut s0 0) -> In u (ut s1 0) /\ mem s1 u = redc r (mem s0 u)).
  { intros u Iu. pose proof (H_mem 0 u Iu) as Q. rewrite (H_usr u Iu) in Q. split; auto. apply H_tab. exists u. split; auto. symmetry. now apply H_usr. }
  assert (R1 : rede r one = one) by (unfold rede, one; cbn [eid eptr eneg]; now rewrite H_one).
  assert (R0 : rede r zero = zero) by (unfold rede, zero; cbn [eid eptr eneg]; now rewrite H_one).
  exists D'. split.
  - constructor; rewrite ?Eo, ?Eu, ?Evb, ?Es, ?Etop; auto.
    + rewrite Ee1. exists own', (map r L). split; [exact EI1|exact RC1].
    + destruct B4 as [U1 U2]. destruct (MU _ U1) as [M2 M3]. split; auto. rewrite M3. fold s0 in U2.
      cbn [redc ct]. now rewrite U2.
    + intros i Ii. destruct (B5 i Ii) as (V1 & V2 & V3 & V4). split; [exact V1|]. fold s0 in V2, V3, V4.
      pose proof (H_mem i _ V2) as Q. rewrite (H_var i Ii) in Q. split.
      * apply H_tab. eexists. split; [exact V2|]. symmetry. now apply H_var.
      * rewrite Q. cbn [redc ct ce]. now rewrite V3, V4.
    + intros h Ih. apply MU. exact (B6 h Ih).
    + intros a' Ia. destruct (AM a' Ia) as (a & Ia0 & (S1 & S2 & S3 & S4)). destruct (B7 a Ia0) as [A1 A2 A3].
      constructor; rewrite ?S3.
      * intros i e' Ea. rewrite S4 in Ea. destruct (amap a i) as [e|] eqn:Ee; [|discriminate]. injection Ea as <-.
        destruct (A1 i e Ee) as [Q1 Q2]. split; auto.
      * intros i e' Ea. rewrite S4 in Ea. destruct (amap a i) as [e|] eqn:Ee; [|discriminate]. exact (A2 i e Ee).
      * destruct A3 as [A3|(i & e & Ei & El)]; [now left|right]. exists i, (rede r e). rewrite S4, Ei. auto.
    + now rewrite AID.
    + split; [|exact (proj2 B9)]. intros a' Ia. destruct (AM2 a' Ia) as (a & Ia0 & (S1 & S2 & _)). rewrite S1, S2. exact (proj1 B9 a Ia0).
    + rewrite Ecur, AID. exact B10.
    + exists G. destruct B11 as [C1 C2 C3 C4 C5 C6 C7].
      assert (SQ : forall a' a F, arel D D' a a' -> sem_quant (amap a) F -> sem_quant (amap a') F).
      { intros a' a F (_ & _ & H) S f g Hf Hg rho. rewrite (S f g Hf Hg rho). split; intros (r' & R1' & R2'); exists r'; split; auto.
        - intros i Ei. apply R1'. specialize (H i). rewrite Ei in H. destruct (amap a i); tauto.
        - intros i Ei. apply R1'. specialize (H i). rewrite Ei in H. destruct (amap a' i); tauto. }
      constructor; auto.
      * intros k e' Q. rewrite H_ca in Q. destruct (mca m k) as [e|] eqn:Ek; [|discriminate]. injection Q as <-.
        destruct (C3 k e Ek) as (K1 & K2 & K3 & K4 & K5 & K6). fold s0 in K2, K3, K4. rewrite Es. cbn [emoved ctmp cf cg cres cop].
        do 4 (split; [auto; fail|]). split.
        -- destruct K5 as [(a & Ia & Ka)|K5]; [left|right; now rewrite Etop].
           pose proof H_as as HA. clear - Ia Ka HA. revert a Ia Ka. induction HA as [|a0 b0 l l' (S1 & _) H IH]; intros a Ia Ka; [destruct Ia|].
           destruct Ia as [<-|Ia]; [exists b0; split; [now left|now rewrite S1]|].
           destruct (IH a Ia Ka) as (b & Ib & Kb). exists b. split; [now right|auto].
        -- intros rho. rewrite DV, K6 by auto. apply C1; intros rho'; symmetry; now apply DV.
      * intros a' Ia. destruct (AM2 a' Ia) as (a & I2 & S). rewrite (proj1 S). apply (SQ a' a); [apply AR; auto; now right|exact (C4 a I2)].
      * intros a' Ia. destruct (AM2 a' Ia) as (a & I2 & S). rewrite (proj1 S). apply (SQ a' a); [apply AR; auto; now right|exact (C5 a I2)].
      * intros a' Ia. destruct (AM2 a' Ia) as (a & I2 & S). pose proof (AR a a' (or_intror I2) S) as (S1 & S2 & S3). rewrite S1.
        intros f g Hf Hg rho. rewrite (C6 a I2 f g Hf Hg rho). cbv zeta.
        assert (Er : forall i, match amap a i with Some e => dv D e rho | None => rho i end =
                               match amap a' i with Some e => dv D' e rho | None => rho i end).
        { intros i. specialize (S3 i). destruct (amap a i), (amap a' i); try tauto. symmetry. apply S3. }
        f_equal; [apply Hf|apply Hg]; exact Er.
  - constructor; rewrite ?Eo, ?Eu, ?Ecur, ?Etop; auto; try lia.
    + intros h Ih rho. pose proof (B6 h Ih) as U. destruct (MU _ U) as [_ Q]. rewrite Es. unfold uint. rewrite Q. cbn [redc ct].
      fold s0. destruct (swf_user _ _ W _ U) as (V & _). change (ephase (rede r (ct (mem s0 (uptr h)))) (uneg h)) with (rede r (ephase (ct (mem s0 (uptr h))) (uneg h))).
      apply DV. now apply vedge_ephase.
    + assert (A2 : forall l l', Forall2 (amoved r) l l' -> (forall a, In a l -> In a (mtemp m :: massoc m)) -> Forall2 (arel D D') l l').
      { induction 1 as [|a a1 l l' Ha Hl IH]; intros Hin; constructor; [apply AR; auto; apply Hin; now left|]. apply IH. intros; apply Hin; now right. }
      apply A2; auto. intros a Ia. now right.
    + apply AR; auto. now left.
Qed.
End Trans.
