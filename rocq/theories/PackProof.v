(** Compaction of all pages: nothing goes wrong, and everything the client holds keeps its meaning. *)
From Coq Require Import NArith ZArith List Bool Lia Permutation Sorted.
From Verif Require Import Base BFModel StoreInv Own EngInv ApplyProof EngineProof QProof GCProof VarProof MgrModel ApiModel MInv
  ApiProof ApiVar PackModel PackTrans PackTable.
Import ListNotations.
Open Scope N_scope.

Section Pack.
Variables (p : pack_par) (s0 : store).
Hypothesis Hp : 0 < npp p.
Hypothesis Ht : tnum p <= tden p.
Let cl i := ut s0 i ++ fl s0 i.
Hypothesis Cnd : forall i, NoDup (cl i).
Hypothesis Cdj : forall i j a, In a (cl i) -> In a (cl j) -> i = j.
Hypothesis Cgt : forall i a, In a (cl i) -> 2 < a.
Hypothesis One : eptr (ce (mem s0 ONE)) <> 0.

Definition okd (dn : list N) (b : N) : Prop := b = ONE \/ exists j, In j dn /\ In b (ut s0 j).
Definition chd (dn : list N) (a : N) : Prop := okd dn (eptr (ct (mem s0 a))) /\ okd dn (eptr (ce (mem s0 a))).

Record PI (dn : list N) (s : store) (r : N -> N) (b : bool) : Prop := {
  p_0 : ~ In 0 dn;
  p_one : r ONE = ONE;
  p_not : forall i a, ~ In i dn -> In a (ut s0 i) -> r a = a;
  p_tabn : forall i, ~ In i dn -> ut s i = ut s0 i /\ fl s i = fl s0 i;
  p_memn : forall i a, ~ In i dn -> In a (cl i) -> mem s a = mem s0 a;
  p_mem1 : mem s ONE = mem s0 ONE;
  p_cell : forall i a, In a (ut s0 i) -> In (r a) (cl i);
  p_inj : forall i a c, In a (ut s0 i) -> In c (ut s0 i) -> r a = r c -> a = c;
  p_tab : forall i c, In c (ut s i) <-> exists a, In a (ut s0 i) /\ c = r a;
  p_nd : forall i, NoDup (ut s i) /\ NoDup (fl s i);
  p_fl : forall i c, In c (fl s i) -> In c (cl i) /\ ~ In c (ut s i);
  p_nx : nx s = nx s0 /\ nn s = nn s0;
  p_mem : forall i a, In i dn -> In a (ut s0 i) -> mem s (r a) = redc r (mem s0 a);
  p_fwd : forall i a, In i dn -> In a (ut s0 i) -> r a <> a -> exists c, mem s a = C (E i (r a) false) efwd c;
  p_cl : forall i a, In i dn -> In a (ut s0 i) -> chd dn a;
  p_id : b = false -> forall i a, In a (ut s0 i) -> r a = a;
  p_stay : forall i a, In a (ut s0 i) -> stays p s0 i a = true -> r a = a;
  p_small : forall i c, In i dn -> In c (ut s i ++ fl s i) -> stays p s0 i c = true
}.

Lemma PI_init : PI [] s0 (fun a => a) false.
Proof.
  constructor; auto; try (intros; contradiction).
  - intros i a Ia. apply in_app_iff. auto.
  - intros i c. split; [eauto|]. now intros (a & Ia & ->).
  - intros i. destruct (NoDup_app_inv _ _ (Cnd i)) as (N1 & N2 & _). auto.
  - intros i c Ic. destruct (NoDup_app_inv _ _ (Cnd i)) as (N1 & N2 & N3). split; [apply in_app_iff; auto|]. intros Q. eauto.
Qed.

Lemma okr dn s r b c : PI dn s r b -> okd dn c -> r c <> 0.
Proof.
  intros P [->|(j & _ & Ic)]; [rewrite (p_one _ _ _ _ P); discriminate|].
  pose proof (Cgt _ _ (p_cell _ _ _ _ P j c Ic)). lia.
Qed.

Lemma fwd_rede dn s r b e : PI dn s r b -> okd dn (eptr e) -> (forall j, In j dn -> In (eptr e) (ut s0 j) -> eid e = j) -> fwd (mem s) e = rede r e.
Proof.
  intros P O Hid. unfold fwd, rede. cbv zeta. destruct O as [E|(j & Ij & Ie)].
  - rewrite E, (p_mem1 _ _ _ _ P), (p_one _ _ _ _ P). apply N.eqb_neq in One. rewrite One. destruct e as [e1 e2 e3]; cbn [eptr eid eneg] in *; now subst.
  - destruct (N.eq_dec (r (eptr e)) (eptr e)) as [Q|Q].
    + pose proof (p_mem _ _ _ _ P j _ Ij Ie) as Em. rewrite Q in Em |- *. rewrite Em. cbn [redc ce rede eptr].
      destruct (p_cl _ _ _ _ P j _ Ij Ie) as [_ O2]. pose proof (okr _ _ _ _ _ P O2) as Nz. apply N.eqb_neq in Nz. rewrite Nz. now destruct e.
    + destruct (p_fwd _ _ _ _ P j _ Ij Ie Q) as [c ->]. cbn [ce ct efwd eptr]. rewrite N.eqb_refl. unfold ephase. cbn [eid eptr eneg].
      rewrite (Hid j Ij Ie). now rewrite xorb_false_l.
Qed.

(** The edges of nodes carry the variable of their target. *)
Hypothesis Eid : forall i a, In a (ut s0 i) -> forall j,
  (In (eptr (ct (mem s0 a))) (ut s0 j) -> eid (ct (mem s0 a)) = j) /\ (In (eptr (ce (mem s0 a))) (ut s0 j) -> eid (ce (mem s0 a)) = j).

Lemma fixc_redc dn s r b i a : PI dn s r b -> ~ In i dn -> In a (ut s0 i) -> chd dn a -> fixc (mem s) a = redc r (mem s0 a).
Proof.
  intros P Ni Ia [O1 O2]. unfold fixc. cbv zeta. rewrite (p_memn _ _ _ _ P i a Ni) by (apply in_app_iff; auto). unfold redc.
  f_equal; apply (fwd_rede dn s r b); auto; intros j _ Q; now apply (Eid i a Ia j).
Qed.

Lemma advance dn s r b i s' ri m' T F b' :
  PI dn s r b -> ~ In i dn -> i <> 0 -> (forall a, In a (ut s0 i) -> chd dn a) ->
  moved s0 i (mem s) ri m' T F -> mem s' = m' ->
  (forall j, ut s' j = if j =? i then T else ut s j) -> (forall j, fl s' j = if j =? i then F else fl s j) ->
  nx s' = nx s /\ nn s' = nn s -> (b' = false -> b = false /\ forall a, In a (ut s0 i) -> ri a = a) ->
  (forall a, In a (ut s0 i) -> stays p s0 i a = true -> ri a = a) ->
  (forall c, In c (T ++ F) -> stays p s0 i c = true) ->
  PI (i :: dn) s' (fun a => if inb a (ut s0 i) then ri a else r a) b'.
Proof.
  intros P Ni N0 Hc V Em Eu Ef En Hb Hs Hm. set (r' := fun a => if inb a (ut s0 i) then ri a else r a).
  assert (Ri : forall a, In a (ut s0 i) -> r' a = ri a) by (intros a Ia; unfold r'; apply inb_true in Ia; now rewrite Ia).
  assert (Cu : forall j a, In a (ut s0 j) -> In a (cl j)) by (intros; apply in_app_iff; auto).
  assert (Rj : forall j a, j <> i -> In a (ut s0 j) -> r' a = r a).
  { intros j a Nj Ia. unfold r'. destruct (inb a (ut s0 i)) eqn:E; auto. apply inb_true in E. destruct Nj. now apply (Cdj j i a); auto. }
  assert (R1 : r' ONE = ONE).
  { unfold r'. destruct (inb ONE (ut s0 i)) eqn:E; [|apply (p_one _ _ _ _ P)]. apply inb_true in E. pose proof (Cgt i ONE (Cu _ _ E)). unfold ONE in *. lia. }
  assert (Rd : forall c, okd dn c -> r' c = r c).
  { intros c [->|(j & Ij & Ic)]; [rewrite R1; symmetry; apply (p_one _ _ _ _ P)|]. apply (Rj j); auto. intros ->. auto. }
  assert (Rc : forall a, chd dn a -> redc r' (mem s0 a) = redc r (mem s0 a)).
  { intros a [O1 O2]. unfold redc, rede. now rewrite !Rd. }
  assert (Od : forall c, okd dn c -> okd (i :: dn) c).
  { intros c [->|(j & Ij & Ic)]; [now left|right]. exists j. split; auto. now right. }
  assert (Mo : forall j c, j <> i -> In c (cl j) -> mem s' c = mem s c).
  { intros j c Nj Ic. rewrite Em. apply (mv_old _ _ _ _ _ _ _ V). intros Q. destruct Nj. now apply (Cdj j i c). }
  constructor.
  - intros [Q|Q]; [congruence|]. now apply (p_0 _ _ _ _ P).
  - exact R1.
  - intros j a Nj Ia. rewrite (Rj j a); auto; [|intros ->; apply Nj; now left]. apply (p_not _ _ _ _ P j); auto. intros Q. apply Nj. now right.
  - intros j Nj. rewrite Eu, Ef. destruct (N.eqb_spec j i) as [->|]; [destruct Nj; now left|]. apply (p_tabn _ _ _ _ P). intros Q. apply Nj. now right.
  - intros j a Nj Ia. rewrite (Mo j); auto; [|intros ->; apply Nj; now left]. apply (p_memn _ _ _ _ P j); auto. intros Q. apply Nj. now right.
  - rewrite Em, (mv_old _ _ _ _ _ _ _ V); [apply (p_mem1 _ _ _ _ P)|]. intros Q. pose proof (Cgt i ONE Q). unfold ONE in *. lia.
  - intros j a Ia. destruct (N.eq_dec j i) as [->|Nj]; [rewrite Ri by auto; now apply (mv_cell _ _ _ _ _ _ _ V)|].
    rewrite (Rj j) by auto. now apply (p_cell _ _ _ _ P).
  - intros j a c Ia Ic. destruct (N.eq_dec j i) as [->|Nj]; [rewrite !Ri by auto; now apply (mv_inj _ _ _ _ _ _ _ V)|].
    rewrite !(Rj j) by auto. now apply (p_inj _ _ _ _ P j).
  - intros j c. rewrite Eu. destruct (N.eqb_spec j i) as [->|Nj].
    + rewrite (mv_tab _ _ _ _ _ _ _ V). split; intros (a & Ia & ->); exists a; (split; [exact Ia|]); now rewrite Ri.
    + rewrite (p_tab _ _ _ _ P). split; intros (a & Ia & ->); exists a; (split; [exact Ia|]); now rewrite (Rj j).
  - intros j. rewrite Eu, Ef. destruct (N.eqb_spec j i); [apply (mv_nd _ _ _ _ _ _ _ V)|apply (p_nd _ _ _ _ P)].
  - intros j c. rewrite Eu, Ef. destruct (N.eqb_spec j i) as [->|]; [apply (mv_fl _ _ _ _ _ _ _ V)|apply (p_fl _ _ _ _ P)].
  - destruct En as [-> ->]. apply (p_nx _ _ _ _ P).
  - intros j a Ij Ia. destruct (N.eq_dec j i) as [->|Nj].
    + rewrite Ri, Em, (mv_mem _ _ _ _ _ _ _ V) by auto. rewrite Rc by auto. exact (fixc_redc dn s r b i a P Ni Ia (Hc a Ia)).
    + destruct Ij as [Ij|Ij]; [congruence|]. rewrite (Rj j) by auto. rewrite (Mo j); auto; [|now apply (p_cell _ _ _ _ P)].
      rewrite (p_mem _ _ _ _ P j) by auto. symmetry. apply Rc. now apply (p_cl _ _ _ _ P j).
  - intros j a Ij Ia. destruct (N.eq_dec j i) as [->|Nj].
    + rewrite Ri by auto. rewrite Em. now apply (mv_fwd _ _ _ _ _ _ _ V).
    + destruct Ij as [Ij|Ij]; [congruence|]. rewrite (Rj j) by auto. rewrite (Mo j); auto. now apply (p_fwd _ _ _ _ P).
  - intros j a [<-|Ij] Ia; [destruct (Hc a Ia)|destruct (p_cl _ _ _ _ P j a Ij Ia)]; split; auto.
  - intros Eb j a Ia. destruct (Hb Eb) as [Hb1 Hb2]. destruct (N.eq_dec j i) as [->|Nj]; [rewrite Ri; auto|].
    rewrite (Rj j) by auto. now apply (p_id _ _ _ _ P Hb1 j).
  - intros j a Ia Hj. destruct (N.eq_dec j i) as [->|Nj]; [rewrite Ri; auto|].
    rewrite (Rj j) by auto. now apply (p_stay _ _ _ _ P j).
  - intros j c Ij Ic. rewrite Eu, Ef in Ic. destruct (N.eqb_spec j i) as [->|Nj]; [auto|]. destruct Ij as [Ij|Ij]; [congruence|].
    now apply (p_small _ _ _ _ P j).
Qed.

(** The step does not depend on the stores beyond the variable at hand. *)
Lemma moved_s0 s i ri m' T F : ut s i = ut s0 i -> fl s i = fl s0 i -> moved s i (mem s) ri m' T F -> moved s0 i (mem s) ri m' T F.
Proof.
  intros Eu Ef [V1 V2 V3 V4 V5 V6 V7 V8]. rewrite Eu, Ef in *. constructor; auto.
Qed.

Lemma stays_ext s i a : ut s i = ut s0 i -> fl s i = fl s0 i -> stays p s i a = stays p s0 i a.
Proof. intros Eu Ef. unfold stays, needs, pages, required, cells. now rewrite Eu, Ef. Qed.

Lemma pack_step dn s r b i : PI dn s r b -> ~ In i dn -> i <> 0 -> (forall a, In a (ut s0 i) -> chd dn a) ->
  exists s' r' b', pack_var p (Ok (s, b)) i = Ok (s', b') /\ PI (i :: dn) s' r' b'.
Proof.
  intros P Ni N0 Hc. destruct (p_tabn _ _ _ _ P i Ni) as [Eu Ef].
  assert (ND : NoDup (ut s i ++ fl s i)) by (rewrite Eu, Ef; apply Cnd).
  assert (Hch : forall a, In a (ut s i) -> ~ In (eptr (ct (mem s a))) (ut s i ++ fl s i) /\ ~ In (eptr (ce (mem s a))) (ut s i ++ fl s i)).
  { intros a Ia. rewrite Eu in Ia. rewrite (p_memn _ _ _ _ P i a Ni) by (apply in_app_iff; auto). rewrite Eu, Ef.
    assert (Q : forall c, okd dn c -> ~ In c (ut s0 i ++ fl s0 i)).
    { intros c [->|(j & Ij & Ic)] Q; [pose proof (Cgt i ONE Q); unfold ONE in *; lia|]. assert (i = j); [|congruence].
      apply (Cdj i j c); auto. apply in_app_iff. auto. }
    destruct (Hc a Ia). auto. }
  cbn [pack_var]. destruct (needs p s i) eqn:Hn.
  - destruct (pack_table_spec p s i ND Hch Hp Ht Hn) as (m' & T & F & ri & Ep & V & Vs & Vk). rewrite Ep.
    eexists. eexists. exists true. split; [reflexivity|].
    eapply (advance dn s r b i _ ri m' T F true P Ni N0 Hc); [exact (moved_s0 s i ri m' T F Eu Ef V)|reflexivity| | | |discriminate| |]; cbn [ut fl nx nn]; auto.
    2: { intros c Ic. rewrite <- (stays_ext s i c Eu Ef). unfold stays. rewrite Hn. apply inb_true. now apply Vk. }
    intros a Ia Sa. apply Vs; [now rewrite Eu|]. rewrite <- (stays_ext s i a Eu Ef) in Sa. unfold stays in Sa. rewrite Hn in Sa. now apply inb_true in Sa.
  - assert (Sm : forall c, In c (ut s i ++ fl s i) -> stays p s0 i c = true) by (intros c _; rewrite <- (stays_ext s i c Eu Ef); unfold stays; now rewrite Hn).
    destruct b.
    + eexists. eexists. exists true. split; [reflexivity|].
      eapply (advance dn s r true i _ (fun a => a) _ (ut s i) (fl s i) true P Ni N0 Hc);
        [exact (moved_s0 s i _ _ _ _ Eu Ef (fix_moved s i ND Hch))|reflexivity| | | |discriminate| |]; unfold fix_table; cbn [ut fl nx nn set_mem]; auto;
        intros j; destruct (N.eqb_spec j i); subst; auto.
    + exists s. eexists. exists false. split; [reflexivity|].
      eapply (advance dn s r false i s (fun a => a) (mem s) (ut s i) (fl s i) false P Ni N0 Hc); auto;
        try (intros j; destruct (N.eqb_spec j i); subst; auto; fail).
      destruct (fix_moved s i ND Hch) as [V1 V2 V3 V4 V5 V6 V7 V8]. rewrite Eu, Ef in *. constructor; auto.
      * intros a Ia. rewrite (fixc_redc dn s r false i a P Ni Ia (Hc a Ia)). rewrite (p_memn _ _ _ _ P i a Ni) by (apply in_app_iff; auto).
        destruct (Hc a Ia) as [O1 O2].
        assert (Rid : forall c, okd dn c -> r c = c).
        { intros c [->|(j & Ij & Ic)]; [apply (p_one _ _ _ _ P)|now apply (p_id _ _ _ _ P eq_refl j)]. }
        unfold redc, rede. rewrite !Rid by auto. destruct (mem s0 a) as [[] [] ?]. reflexivity.
      * intros a _ Q. congruence.
Qed.

Lemma pack_loop : forall l dn s r b, PI dn s r b -> NoDup l -> (forall i, In i l -> ~ In i dn /\ i <> 0) ->
  (forall l1 i l2, l = l1 ++ i :: l2 -> forall a, In a (ut s0 i) -> chd (rev l1 ++ dn) a) ->
  exists s' r' b', fold_left (pack_var p) l (Ok (s, b)) = Ok (s', b') /\ PI (rev l ++ dn) s' r' b'.
Proof.
  induction l as [|i l IH]; intros dn s r b P ND Hl Hc; cbn [fold_left].
  { exists s, r, b. auto. }
  inversion ND as [|? ? Ni ND']; subst. destruct (Hl i (or_introl eq_refl)) as [N1 N2].
  destruct (pack_step dn s r b i P N1 N2 (Hc [] i l eq_refl)) as (s' & r' & b' & E & P'). rewrite E.
  destruct (IH (i :: dn) s' r' b' P' ND') as (s2 & r2 & b2 & E2 & P2).
  - intros j Ij. destruct (Hl j (or_intror Ij)) as [M1 M2]. split; auto. intros [<-|Q]; auto.
  - intros l1 j l2 El a Ia. specialize (Hc (i :: l1) j l2 ltac:(rewrite El; reflexivity) a Ia). cbn [rev] in Hc. now rewrite <- app_assoc in Hc.
  - exists s2, r2, b2. split; auto. cbn [rev]. now rewrite <- app_assoc.
Qed.
End Pack.

(** ** The whole operation *)

Lemma idx_pos_lt o l1 i l2 j : wfo o -> ord o = l1 ++ i :: l2 -> idx o i < idx o j -> In j (ord o) -> In j l2.
Proof.
  intros Wo El Hij Hj. pose proof (ord_sorted o Wo) as SS. apply StronglySorted_inv in SS as [SS _]. rewrite El in SS.
  rewrite El in Hj. apply in_app_iff in Hj as [Hj|[<-|Hj]]; auto; [|lia]. exfalso.
  assert (Q : rank o j < rank o i).
  { clear - SS Hj. induction l1 as [|k l1 IH]; [destruct Hj|]. cbn [app] in SS. apply StronglySorted_inv in SS as [S1 S2].
    destruct Hj as [<-|Hj]; auto. rewrite Forall_forall in S2. apply S2. apply in_app_iff. right. now left. }
  assert (Ij : In j (ord o)) by (rewrite El; apply in_app_iff; auto). assert (Ii : In i (ord o)) by (rewrite El; apply in_app_iff; right; now left).
  destruct (wfo_in o j Wo Ij) as [Zj _], (wfo_in o i Wo Ii) as [Zi _].
  unfold rank in Q. apply N.eqb_neq in Zj. apply N.eqb_neq in Zi. rewrite Zj, Zi in Q. lia.
Qed.

Lemma NoDup_map_inj (f : N -> N) l : NoDup l -> (forall a c, In a l -> In c l -> f a = f c -> a = c) -> NoDup (map f l).
Proof.
  induction 1 as [|a l Na ND IH]; intros Hf; cbn [map]; constructor.
  - intros Q. apply in_map_iff in Q as (c & E & Ic). apply Na. rewrite (Hf a c); auto; [now left|now right].
  - apply IH. intros c d Ic Id. apply Hf; now right.
Qed.

(** What compaction does to the number of nodes and of cells. *)
Definition repacked (p : pack_par) (m m1 : mgr) : Prop := forall i,
  nn (st (me m1)) = nn (st (me m)) /\
  count (ut (st (me m1)) i) = count (ut (st (me m)) i) /\
  (In i (ord (mo m)) -> needs p (st (me m)) i = true ->
   count (ut (st (me m1)) i ++ fl (st (me m1)) i) <= required p (st (me m)) i * npp p).

Theorem repack_spec p m hs D : 0 < npp p -> tnum p <= tden p -> MInv m hs lk0 D ->
  exists m1, repack p m = Ok m1 /\ repacked p m m1 /\ (vars_stay p m -> exists D', MInv m1 hs lk0 D' /\ mext hs m D m1 D').
Proof.
  intros Hp Ht Im. pose proof Im as [B1 B2 B3 B4 B5 B6 B7 B8 B9 B10 [G B11]]. set (s0 := st (me m)).
  assert (Q0 : exists own L, EInv (mo m) own D (me m) /\ RC own [] idn (mem s0) L (xr m hs lk0)) by exact B3.
  destruct Q0 as (own & L & EI & RC0). pose proof (ei_acc _ _ _ _ EI) as AC. unfold EAcc in AC. fold s0 in AC.
  pose proof (ei_swf _ _ _ _ EI) as W. fold s0 in W.
  assert (OC : forall i a, In a (ut s0 i ++ fl s0 i) -> own a = ONode i \/ own a = OFree i).
  { intros i a Ia. apply in_app_iff in Ia as [Ia|Ia]; [left; now apply (acc_in _ _ _ AC (ONode i) a eq_refl)|right; now apply (acc_in _ _ _ AC (OFree i) a eq_refl)]. }
  assert (OR : forall i a, In a (ut s0 i ++ fl s0 i) -> 2 < a).
  { intros i a Ia. assert (2 < a < nx s0); [|lia]. apply (acc_rng _ _ _ AC). destruct (OC i a Ia); congruence. }
  assert (OS : forall i j a, In a (ut s0 i ++ fl s0 i) -> In a (ut s0 j ++ fl s0 j) -> i = j).
  { intros i j a Ia Ja. destruct (OC i a Ia), (OC j a Ja); congruence. }
  assert (OND : forall i, NoDup (ut s0 i ++ fl s0 i)).
  { intros i. apply NoDup_app3; [exact (acc_nd _ _ _ AC (ONode i) eq_refl)|exact (acc_nd _ _ _ AC (OFree i) eq_refl)|].
    intros a Ia Ja. apply (acc_in _ _ _ AC (ONode i) a eq_refl) in Ia. apply (acc_in _ _ _ AC (OFree i) a eq_refl) in Ja. congruence. }
  assert (VI : forall e j, vedge (nodeR s0) e -> In (eptr e) (ut s0 j) -> eid e = j).
  { intros e j [[V1 V2]|[V1 V2]] Ie.
    - exfalso. pose proof (OR j (eptr e) ltac:(apply in_app_iff; auto)) as Q. rewrite V2 in Q. unfold ONE in Q. lia.
    - apply (OS (eid e) j (eptr e)); apply in_app_iff; auto. }
  assert (NV : forall i a, In a (ut s0 i) -> vedge (nodeR s0) (ct (mem s0 a)) /\ vedge (nodeR s0) (ce (mem s0 a))).
  { intros i a Ia. destruct (N.eq_dec i 0) as [->|Ni].
    - destruct (swf_user _ _ W a Ia) as (V1 & -> & _). split; auto. apply vedge_one.
    - destruct (swf_node _ _ W i a Ni Ia); auto. }
  assert (Eid : forall i a, In a (ut s0 i) -> forall j,
    (In (eptr (ct (mem s0 a))) (ut s0 j) -> eid (ct (mem s0 a)) = j) /\ (In (eptr (ce (mem s0 a))) (ut s0 j) -> eid (ce (mem s0 a)) = j)).
  { intros i a Ia j. destruct (NV i a Ia). auto. }
  assert (TO : forall i a, i <> 0 -> In a (ut s0 i) -> In i (ord (mo m))) by (intros i a Ni Ia; now destruct (swf_node _ _ W i a Ni Ia)).
  assert (One : eptr (ce (mem s0 ONE)) <> 0) by apply W.
  destruct (pack_loop p s0 Hp Ht OND OS OR One Eid (rev (ord (mo m))) [] s0 (fun a => a) false (PI_init p s0 OND)) as (s1 & r & b & E & P).
  { apply NoDup_rev. apply B1. }
  { intros i Ii. apply in_rev in Ii. split; auto. now apply (wfo_in (mo m)). }
  { intros l1 i l2 El a Ia. apply (f_equal (@rev N)) in El. rewrite rev_involutive, rev_app_distr in El. cbn [rev] in El. rewrite <- app_assoc in El. cbn [app] in El.
    rewrite app_nil_r. assert (Ii : In i (ord (mo m))) by (rewrite El; apply in_app_iff; right; now left).
    assert (Ni : i <> 0) by now apply (wfo_in (mo m)).
    assert (Ch : forall e, vedge (nodeR s0) e -> gt_idx (mo m) i e -> okd s0 (rev l1) (eptr e)).
    { intros e [[_ V]|[V1 V2]] Gt; [now left|right]. exists (eid e). split; auto.
      apply (idx_pos_lt (mo m) (rev l2) i (rev l1) (eid e)); auto. now apply (TO (eid e) (eptr e)). }
    destruct (swf_node _ _ W i a Ni Ia) as [C1 C2 C3 C4 C5 C6 C7]. split; auto. }
  rewrite app_nil_r, rev_involutive in P.
  assert (FW : forall e, vedge (nodeR s0) e -> fwd (mem s1) e = rede r e).
  { intros e V. apply (fwd_rede p s0 Hp Ht OR One (ord (mo m)) s1 r b e P).
    - destruct V as [[_ V]|[V1 V2]]; [now left|right]. exists (eid e). split; auto. now apply (TO (eid e) (eptr e)).
    - intros j _ Q. now apply VI. }
  assert (N0 : ~ In 0 (ord (mo m))) by (intros Q; now apply (wfo_in _ _ B1) in Q).
  destruct (p_tabn _ _ _ _ _ _ P 0 N0) as [U0 F0].
  assert (MU : forall u, In u (ut s0 0) -> mem s1 u = mem s0 u).
  { intros u Iu. apply (p_memn _ _ _ _ _ _ P 0); auto. apply in_app_iff; auto. }
  assert (FU : forall l m', incl l (ut s0 0) -> NoDup l -> (forall u, In u l -> m' u = mem s0 u) -> (forall c, ~ In c (ut s0 0) -> m' c = mem s1 c) ->
     forall c, fold_left fix_user l m' c = if inb c l then redc r (mem s0 c) else m' c).
  { induction l as [|u l IH]; intros m' Sl ND E1 E2 c; cbn [fold_left]; auto. inversion ND as [|? ? Nu ND']; subst.
    assert (Iu : In u (ut s0 0)) by (apply Sl; now left).
    assert (Fx : C (fwd m' (ct (m' u))) (ce (m' u)) (cr (m' u)) = redc r (mem s0 u)).
    { rewrite E1 by now left. destruct (swf_user _ _ W u Iu) as (V1 & V2 & V3). unfold redc. rewrite V2.
      assert (R1 : rede r one = one) by (unfold rede, one; cbn [eid eptr eneg]; now rewrite (p_one _ _ _ _ _ _ P)). rewrite R1. f_equal.
      rewrite <- FW by auto. unfold fwd. cbv zeta. rewrite E2; auto. intros Q. destruct V1 as [[_ V1]|[V1 V1']].
      - rewrite V1 in Q. pose proof (OR 0 ONE ltac:(apply in_app_iff; auto)). unfold ONE in *. lia.
      - apply V1. apply (OS _ _ (eptr (ct (mem s0 u)))); apply in_app_iff; auto. }
    rewrite IH; auto.
    - unfold fix_user. cbv zeta. rewrite Fx. unfold upd. cbn [inb existsb]. fold (inb c l). destruct (inb c l) eqn:Ec; [now rewrite orb_true_r|].
      rewrite orb_false_r. destruct (N.eqb_spec c u); subst; auto.
    - intros w Iw. apply Sl. now right.
    - intros w Iw. unfold fix_user, upd. cbv zeta. destruct (N.eqb_spec w u) as [->|]; [now destruct Nu|]. apply E1. now right.
    - intros w Iw. unfold fix_user, upd. cbv zeta. destruct (N.eqb_spec w u) as [->|]; [now destruct Iw|]. auto. }
  assert (FM : forall c, mem (fix_users s1) c = if inb c (ut s0 0) then redc r (mem s0 c) else mem s1 c).
  { unfold fix_users. cbn [mem set_mem]. rewrite U0. apply FU; auto.
    - intros u Iu. exact Iu.
    - exact (acc_nd _ _ _ AC (ONode 0) eq_refl). }
  unfold repack, pack_vars. fold s0. rewrite E. eexists. split; [reflexivity|].
  set (m1 := M _ _ _ _ _ _ _ _ _ _ _ _). split.
  { intros i. unfold m1, fix_users. cbn [me st set_st ut fl nn set_mem]. destruct (p_nd _ _ _ _ _ _ P i) as [Nd1 Nd2].
    assert (NdA : NoDup (ut s1 i ++ fl s1 i)).
    { apply NoDup_app3; auto. intros c Ic Jc. now destruct (p_fl _ _ _ _ _ _ P i c Jc). }
    split; [apply P|]. split.
    - unfold count. f_equal. change (length (ut s1 i) = length (ut s0 i)). rewrite <- (map_length r (ut s0 i)). apply Permutation_length, NoDup_Permutation; auto.
      + apply NoDup_map_inj; [exact (acc_nd _ _ _ AC (ONode i) eq_refl)|]. intros a c. apply (p_inj _ _ _ _ _ _ P i).
      + intros c. rewrite (p_tab _ _ _ _ _ _ P), in_map_iff. split; intros (a & A1 & A2); exists a; auto.
    - intros Ii Hn. assert (Sm : forall c, In c (ut s1 i ++ fl s1 i) -> In c (firstn (N.to_nat (required p s0 i * npp p)) (cells s0 i))).
      { intros c Ic. pose proof (p_small _ _ _ _ _ _ P i c Ii Ic) as Q. unfold stays in Q. fold s0 in Hn. rewrite Hn in Q. now apply inb_true in Q. }
      pose proof (NoDup_incl_length NdA Sm) as L1. pose proof (firstn_le_length (N.to_nat (required p s0 i * npp p)) (cells s0 i)) as L2.
      rewrite firstn_length in L1. fold s0. unfold count. lia. }
  intros Vs.
  assert (AM : forall a, In a (mtemp m :: massoc m) -> amoved r a (fix_images (mem s1) a)).
  { intros a Ia. unfold amoved, fix_images. cbn [aid arc alast amap]. do 3 (split; [reflexivity|]). intros i.
    destruct (amap a i) as [e|] eqn:Ea; cbn [option_map]; auto. f_equal. apply FW. now apply (ao_dom _ _ _ (B7 a Ia) i e). }
  apply (transport m hs D r (fix_users s1) m1 Im).
  - apply P.
  - intros u Iu. apply (p_not _ _ _ _ _ _ P 0); auto.
  - apply P.
  - apply P.
  - intros i c. unfold fix_users. cbn [ut set_mem]. apply P.
  - intros i. unfold fix_users. cbn [ut fl set_mem]. apply P.
  - intros i c. unfold fix_users. cbn [ut fl set_mem]. apply P.
  - unfold fix_users. cbn [nx set_mem]. apply P.
  - intros i a Ia. fold s0 in Ia |- *. rewrite FM. destruct (N.eq_dec i 0) as [->|Ni].
    + rewrite (p_not _ _ _ _ _ _ P 0 a N0 Ia). apply inb_true in Ia. now rewrite Ia.
    + destruct (inb (r a) (ut s0 0)) eqn:Eb.
      * apply inb_true in Eb. destruct Ni. apply (OS i 0 (r a)); [now apply (p_cell _ _ _ _ _ _ P)|apply in_app_iff; auto].
      * apply (p_mem _ _ _ _ _ _ P i); auto. now apply (TO i a).
  - rewrite FM. destruct (inb ONE (ut s0 0)) eqn:Eb; [|apply P]. apply inb_true in Eb. pose proof (OR 0 ONE ltac:(apply in_app_iff; auto)). unfold ONE in *. lia.
  - intros i Ii. apply (p_stay _ _ _ _ _ _ P i); [now apply B5|]. now apply Vs.
  - reflexivity.
  - intros k. unfold m1, fix_cache. cbn [mca]. destruct (mca m k) as [e|] eqn:Ek; cbn [option_map]; auto. f_equal.
    destruct B11 as [_ _ C3 _ _ _ _]. destruct (C3 k e Ek) as (_ & K2 & K3 & K4 & _). unfold fix_entry, emoved. now rewrite !FW.
  - unfold m1. cbn [massoc]. assert (A2 : forall l, (forall a, In a l -> In a (mtemp m :: massoc m)) -> Forall2 (amoved r) l (map (fix_images (mem s1)) l)).
    { induction l as [|a l IH]; intros Hl; cbn [map]; constructor; [apply AM; apply Hl; now left|]. apply IH. intros c Ic. apply Hl. now right. }
    apply A2. intros a Ia. now right.
  - unfold m1. cbn [mtemp]. apply AM. now left.
Qed.

Lemma gc_repack_spec p m hs D : 0 < npp p -> tnum p <= tden p -> MInv m hs lk0 D ->
  exists m1, repack p (gc m) = Ok m1 /\ gc_repack p m = Ok (set_gclimit m1) /\ repacked p (gc m) m1 /\
  (vars_stay p (gc m) -> exists D', MInv (set_gclimit m1) hs lk0 D' /\ mext hs m D (set_gclimit m1) D').
Proof.
  intros Hp Ht I. destruct (gc_MInv m hs lk0 D I) as [I1 X1].
  destruct (repack_spec p (gc m) hs D Hp Ht I1) as (m1 & E & R & K). exists m1. split; auto. split; [unfold gc_repack; now rewrite E|]. split; auto.
  intros V. destruct (K V) as (D' & I2 & X2). destruct (set_gclimit_MInv _ hs lk0 D' I2) as [I3 X3].
  exists D'. split; auto. eapply mext_trans; [|exact X3]. eapply mext_trans; eauto.
Qed.
