(** Packing the pages of one variable. *)
From Coq Require Import NArith ZArith List Bool Lia Permutation Sorted.
From Verif Require Import Base BFModel StoreInv MgrModel ApiModel PackModel PackTrans.
Import ListNotations.
Open Scope N_scope.

Lemma in_order_perm l : Permutation (in_order l) l.
Proof.
  induction l as [|a l IH]; cbn [in_order fold_right]; auto. fold (in_order l).
  assert (H : forall l, Permutation (insert_addr a l) (a :: l)).
  { induction l0 as [|b l0 IH0]; cbn [insert_addr]; auto. destruct (a <=? b); auto. rewrite IH0. apply perm_swap. }
  rewrite H. now constructor.
Qed.

Lemma fixc_ext m m' a : m' a = m a -> m' (eptr (ct (m a))) = m (eptr (ct (m a))) -> m' (eptr (ce (m a))) = m (eptr (ce (m a))) ->
  fixc m' a = fixc m a.
Proof. intros E1 E2 E3. unfold fixc, fwd. cbv zeta. rewrite E1, E2, E3. reflexivity. Qed.

Lemma fst_in {A B} (l : list (A * B)) a : In a (map fst l) -> exists b, In (a, b) l.
Proof. intros H. apply in_map_iff in H as ([x y] & <- & I). eauto. Qed.
Lemma snd_in {A B} (l : list (A * B)) b : In b (map snd l) -> exists a, In (a, b) l.
Proof. intros H. apply in_map_iff in H as ([x y] & <- & I). eauto. Qed.

Lemma filter_len {A} (f : A -> bool) l : (length (filter f l) + length (filter (fun a => negb (f a)) l) = length l)%nat.
Proof. induction l as [|a l IH]; cbn [filter]; auto. destruct (f a); cbn [negb length]; lia. Qed.
Lemma NoDup_app3 {A} (l1 l2 : list A) : NoDup l1 -> NoDup l2 -> (forall a, In a l1 -> In a l2 -> False) -> NoDup (l1 ++ l2).
Proof.
  induction 1 as [|a l Na ND IH]; intros N2 H; cbn [app]; auto. constructor.
  - rewrite in_app_iff. intros [Q|Q]; auto. apply (H a); auto. now left.
  - apply IH; auto. intros b Hb. apply H. now right.
Qed.
Lemma NoDup_app_inv {A} (l1 l2 : list A) : NoDup (l1 ++ l2) -> NoDup l1 /\ NoDup l2 /\ forall a, In a l1 -> In a l2 -> False.
Proof.
  induction l1 as [|a l1 IH]; cbn [app]; intros H; [split; [constructor|split; auto; intros a []]|].
  inversion H as [|? ? Na ND]; subst. destruct (IH ND) as (A1 & A2 & A3). split; [constructor; auto; intros Q; apply Na; apply in_app_iff; auto|].
  split; auto. intros b [<-|Hb] Q; [apply Na; apply in_app_iff; auto|eauto].
Qed.

Section Scan.
Variables (i : N) (tab cs : list N) (m0 : memory).
Hypothesis Hch : forall a, In a tab -> ~ In (eptr (ct (m0 a))) cs /\ ~ In (eptr (ce (m0 a))) cs.

Let lv := fun a => inb a tab.

Lemma fix_scan l : incl l cs -> incl l tab -> NoDup l -> forall m, (forall b, In b l -> m b = m0 b) -> (forall b, ~ In b cs -> m b = m0 b) ->
  forall b, fold_left fix1 l m b = if inb b l then fixc m0 b else m b.
Proof.
  induction l as [|a l IH]; intros S1 S2 ND m E1 E2 b; cbn [fold_left]; auto.
  inversion ND as [|? ? Na ND']; subst.
  assert (Fx : fixc m a = fixc m0 a).
  { assert (Ia : In a tab) by (apply S2; now left). destruct (Hch a Ia). apply fixc_ext; [apply E1; now left| |]; now apply E2. }
  rewrite IH; auto.
  - unfold fix1, upd. cbn [inb existsb]. fold (inb b l). rewrite Fx. destruct (inb b l) eqn:Ib; [now rewrite orb_true_r|].
    rewrite orb_false_r. destruct (N.eqb_spec b a); subst; auto.
  - intros c Ic. apply S1. now right.
  - intros c Ic. apply S2. now right.
  - intros c Ic. unfold fix1, upd. destruct (N.eqb_spec c a) as [->|]; [now destruct Na|]. apply E1. now right.
  - intros c Ic. unfold fix1, upd. destruct (N.eqb_spec c a) as [->|]; [destruct Ic; apply S1; now left|]. auto.
Qed.

Lemma keep_scan l : incl l cs -> NoDup l -> forall m T F, (forall b, In b l -> m b = m0 b) -> (forall b, ~ In b cs -> m b = m0 b) ->
  exists m', fold_left (pack_keep tab) l (m, T, F) = (m', rev (filter lv l) ++ T, rev (filter (fun a => negb (lv a)) l) ++ F) /\
    forall b, m' b = if inb b l && lv b then fixc m0 b else m b.
Proof.
  induction l as [|a l IH]; intros S1 ND m T F E1 E2; cbn [fold_left].
  { exists m. split; auto. }
  inversion ND as [|? ? Na ND']; subst. cbn [pack_keep filter]. change (inb a tab) with (lv a). destruct (lv a) eqn:Ia.
  - assert (Fx : fixc m a = fixc m0 a).
    { apply inb_true in Ia. destruct (Hch a Ia). apply fixc_ext; [apply E1; now left| |]; now apply E2. }
    destruct (IH (fun c Ic => S1 c (or_intror Ic)) ND' (upd m a (fixc m a)) (a :: T) F) as (m' & E & Em).
    + intros c Ic. unfold upd. destruct (N.eqb_spec c a) as [->|]; [now destruct Na|]. apply E1. now right.
    + intros c Ic. unfold upd. destruct (N.eqb_spec c a) as [->|]; [destruct Ic; apply S1; now left|]. auto.
    + exists m'. split; [refine (eq_trans E _); cbn [negb rev]; now rewrite <- app_assoc|]. intros b. rewrite Em. cbn [inb existsb]. fold (inb b l).
      unfold upd. destruct (N.eqb_spec b a) as [->|Nb]; cbn [orb].
      * rewrite Ia, andb_true_r. cbn [andb]. destruct (inb a l); auto.
      * reflexivity.
  - destruct (IH (fun c Ic => S1 c (or_intror Ic)) ND' m T (a :: F)) as (m' & E & Em); auto.
    + intros c Ic. apply E1. now right.
    + exists m'. split; [refine (eq_trans E _); cbn [negb rev]; now rewrite <- app_assoc|]. intros b. rewrite Em. cbn [inb existsb]. fold (inb b l).
      destruct (N.eqb_spec b a) as [->|Nb]; cbn [orb]; auto. rewrite Ia, !andb_false_r. reflexivity.
Qed.

Lemma move_scan l : incl l cs -> NoDup l -> forall m T F, incl F cs -> NoDup F -> (forall a, In a l -> In a F -> False) ->
  (length (filter lv l) <= length F)%nat ->
  (forall b, In b l -> m b = m0 b) -> (forall b, ~ In b cs -> m b = m0 b) ->
  exists m' mv F', fold_left (pack_move i tab) l (Ok (m, T, F)) = Ok (m', rev (map snd mv) ++ T, F') /\
    map fst mv = filter lv l /\ F = map snd mv ++ F' /\
    (forall a n, In (a, n) mv -> m' n = fixc m0 a /\ m' a = C (E i n false) efwd (cr (m0 a))) /\
    (forall b, ~ In b (map fst mv) -> ~ In b (map snd mv) -> m' b = m b).
Proof.
  induction l as [|a l IH]; intros S1 ND m T F SF NF Dj Le E1 E2; cbn [fold_left].
  { exists m, [], F. repeat split; auto; destruct H. }
  inversion ND as [|? ? Na ND']; subst. cbn [pack_move filter]. cbn [filter] in Le. change (inb a tab) with (lv a).
  destruct (lv a) eqn:Ia.
  - assert (Fx : fixc m a = fixc m0 a).
    { apply inb_true in Ia. destruct (Hch a Ia). apply fixc_ext; [apply E1; now left| |]; now apply E2. }
    destruct F as [|n F]; [cbn [length] in Le; lia|]. inversion NF as [|? ? Nn NF']; subst.
    assert (Nan : a <> n) by (intros ->; apply (Dj n); now left).
    destruct (IH (fun c Ic => S1 c (or_intror Ic)) ND' (upd (upd m n (fixc m a)) a (C (E i n false) efwd (cr (m a)))) (n :: T) F)
      as (m' & mv & F' & E & Q1 & Q2 & Q3 & Q4); auto.
    + intros c Ic. apply SF. now right.
    + intros c Ic If. apply (Dj c); now right.
    + cbn [length] in Le. lia.
    + intros c Ic. unfold upd. destruct (N.eqb_spec c a) as [->|]; [now destruct Na|]. destruct (N.eqb_spec c n) as [->|].
      * exfalso. apply (Dj n); [now right|now left].
      * apply E1. now right.
    + intros c Ic. unfold upd. destruct (N.eqb_spec c a) as [->|]; [destruct Ic; apply S1; now left|].
      destruct (N.eqb_spec c n) as [->|]; [destruct Ic; apply SF; now left|]. auto.
    + exists m', ((a, n) :: mv), F'. split; [rewrite E; cbn [map rev snd]; now rewrite <- app_assoc|].
      split; [cbn [map fst]; now rewrite Q1|]. split; [cbn [map snd app]; now rewrite Q2|].
      assert (A1 : ~ In a (map fst mv)) by (rewrite Q1; intros Q; apply filter_In in Q as [Q _]; auto).
      assert (A2 : ~ In n (map snd mv)) by (intros Q; apply Nn; rewrite Q2; apply in_app_iff; auto).
      assert (A3 : ~ In a (map snd mv)).
      { intros Q. apply (Dj a); [now left|]. right. rewrite Q2. apply in_app_iff. auto. }
      assert (A4 : ~ In n (map fst mv)).
      { rewrite Q1. intros Q. apply filter_In in Q as [Q _]. apply (Dj n); [now right|now left]. }
      split.
      * intros c k [Ec|Ic]; [|auto]. injection Ec as <- <-. rewrite !Q4 by auto. unfold upd. rewrite N.eqb_refl.
        destruct (N.eqb_spec n a) as [->|]; [congruence|]. rewrite N.eqb_refl. split; auto. f_equal. f_equal. apply E1. now left.
      * intros b N1 N2. cbn [map fst snd In] in N1, N2. rewrite Q4 by tauto. unfold upd.
        destruct (N.eqb_spec b a) as [->|]; [tauto|]. destruct (N.eqb_spec b n) as [->|]; [tauto|]. reflexivity.
  - destruct (IH (fun c Ic => S1 c (or_intror Ic)) ND' m T F) as (m' & mv & F' & E & Q1 & Q2 & Q3 & Q4); auto.
    + intros c Ic. apply Dj. now right.
    + intros c Ic. apply E1. now right.
    + exists m', mv, F'. repeat split; auto; try apply (Q3 _ _ H).
Qed.
End Scan.

(** The address to which a node is moved. *)
Definition mvd (mv : list (N * N)) (a : N) : N := match find (fun q => fst q =? a) mv with Some q => snd q | None => a end.
Lemma mvd_in mv a n : NoDup (map fst mv) -> In (a, n) mv -> mvd mv a = n.
Proof.
  induction mv as [|[b k] mv IH]; cbn [map fst]; intros ND I; [destruct I|]. inversion ND as [|? ? Nb ND']; subst.
  unfold mvd. cbn [find fst]. destruct (N.eqb_spec b a) as [->|Ne].
  - destruct I as [E|I]; [now injection E|]. destruct Nb. apply in_map_iff. exists (a, n). auto.
  - destruct I as [E|I]; [injection E as -> ->; congruence|]. now apply IH.
Qed.
Lemma mvd_out mv a : ~ In a (map fst mv) -> mvd mv a = a.
Proof.
  intros H. unfold mvd. destruct (find _ mv) as [[b k]|] eqn:F; auto. apply find_some in F as [I E]. cbn [fst] in E.
  apply N.eqb_eq in E. subst b. destruct H. apply in_map_iff. exists (a, k). auto.
Qed.

Lemma snd_inj (mv : list (N * N)) a b n : NoDup (map snd mv) -> In (a, n) mv -> In (b, n) mv -> a = b.
Proof.
  induction mv as [|[x y] mv IH]; cbn [map snd]; intros ND Ia Ib; [destruct Ia|]. inversion ND as [|? ? Ny ND']; subst.
  destruct Ia as [Ia|Ia], Ib as [Ib|Ib]; auto.
  - congruence.
  - injection Ia as -> ->. destruct Ny. apply in_map_iff. exists (b, n). auto.
  - injection Ib as -> ->. destruct Ny. apply in_map_iff. exists (a, n). auto.
Qed.

(** What happens to one variable. *)
Record moved (s0 : store) (i : N) (m0 : memory) (ri : N -> N) (m' : memory) (T F : list N) : Prop := {
  mv_cell : forall a, In a (ut s0 i) -> In (ri a) (ut s0 i ++ fl s0 i);
  mv_inj : forall a b, In a (ut s0 i) -> In b (ut s0 i) -> ri a = ri b -> a = b;
  mv_tab : forall b, In b T <-> exists a, In a (ut s0 i) /\ b = ri a;
  mv_nd : NoDup T /\ NoDup F;
  mv_fl : forall b, In b F -> In b (ut s0 i ++ fl s0 i) /\ ~ In b T;
  mv_mem : forall a, In a (ut s0 i) -> m' (ri a) = fixc m0 a;
  mv_fwd : forall a, In a (ut s0 i) -> ri a <> a -> exists c, m' a = C (E i (ri a) false) efwd c;
  mv_old : forall b, ~ In b (ut s0 i ++ fl s0 i) -> m' b = m0 b
}.

Section One.
Variables (p : pack_par) (s : store) (i : N).
Let cs0 := ut s i ++ fl s i.
Hypothesis ND : NoDup cs0.
Hypothesis Hch : forall a, In a (ut s i) -> ~ In (eptr (ct (mem s a))) cs0 /\ ~ In (eptr (ce (mem s a))) cs0.

Lemma fix_moved : moved s i (mem s) (fun a => a) (mem (fix_table s i)) (ut s i) (fl s i).
Proof.
  destruct (NoDup_app_inv _ _ ND) as (N1 & N2 & N3). unfold fix_table. cbn [mem set_mem].
  assert (F : forall b, fold_left fix1 (ut s i) (mem s) b = if inb b (ut s i) then fixc (mem s) b else mem s b).
  { apply (fix_scan (ut s i) cs0 (mem s) Hch); auto; [|intros c Ic; exact Ic]. intros c Ic. apply in_app_iff. auto. }
  constructor; auto.
  - intros a Ia. apply in_app_iff. auto.
  - intros b. split; [eauto|]. now intros (a & Ia & ->).
  - intros b Ib. split; [apply in_app_iff; auto|]. intros Q. eauto.
  - intros a Ia. rewrite F. apply inb_true in Ia. now rewrite Ia.
  - intros a _ Q. now destruct Q.
  - intros b Nb. rewrite F. destruct (inb b (ut s i)) eqn:E; auto. apply inb_true in E. destruct Nb. apply in_app_iff. auto.
Qed.

Hypothesis Hp : 0 < npp p.
Hypothesis Ht : tnum p <= tden p.
Hypothesis Hn : needs p s i = true.

Lemma pages_enough : (pages p s i <? required p s i) = false.
Proof.
  apply N.ltb_ge. unfold needs in Hn. apply andb_true_iff in Hn as [_ H]. apply N.ltb_lt in H. unfold required.
  set (c := count (ut s i)) in *. set (g := pages p s i) in *.
  assert (c < g * npp p).
  { destruct (N.lt_ge_cases c (g * npp p)) as [Q|Q]; auto. exfalso. nia. }
  assert (c / npp p < g) by (apply N.div_lt_upper_bound; lia). lia.
Qed.

Lemma pack_table_spec : exists m' T F ri,
  pack_table p s i = Ok {| mem := m'; ut := upd (ut s) i T; fl := upd (fl s) i F; nx := nx s; nn := nn s |} /\
  moved s i (mem s) ri m' T F /\
  (forall a, In a (ut s i) -> In a (firstn (N.to_nat (required p s i * npp p)) (cells s i)) -> ri a = a) /\
  forall c, In c (T ++ F) -> In c (firstn (N.to_nat (required p s i * npp p)) (cells s i)).
Proof.
  unfold pack_table. rewrite pages_enough. cbv zeta.
  set (k := N.to_nat (required p s i * npp p)). set (cs := cells s i).
  assert (PC : Permutation cs cs0) by apply in_order_perm.
  assert (NC : NoDup cs) by (eapply Permutation_NoDup; [symmetry; exact PC|exact ND]).
  assert (IC : forall b, In b cs <-> In b cs0) by (intros b; split; apply Permutation_in; [exact PC|now symmetry]).
  assert (Hch' : forall a, In a (ut s i) -> ~ In (eptr (ct (mem s a))) cs /\ ~ In (eptr (ce (mem s a))) cs).
  { intros a Ia. rewrite !IC. now apply Hch. }
  destruct (NoDup_app_inv _ _ ND) as (N1 & N2 & N3).
  set (ks := firstn k cs). set (rs := skipn k cs).
  assert (KR : ks ++ rs = cs) by apply firstn_skipn.
  assert (NKR : NoDup (ks ++ rs)) by now rewrite KR.
  destruct (NoDup_app_inv _ _ NKR) as (NK & NR & NKd).
  assert (SK : incl ks cs) by (intros b Ib; rewrite <- KR; apply in_app_iff; auto).
  assert (SR : incl rs cs) by (intros b Ib; rewrite <- KR; apply in_app_iff; auto).
  destruct (keep_scan (ut s i) cs (mem s) Hch' ks SK NK (mem s) [] []) as (m1 & E1 & Em1); auto.
  match goal with |- context [fold_left (pack_keep ?a) ?b ?c] => set (z := fold_left (pack_keep a) b c) end.
  match type of E1 with _ = ?v => assert (Ez : z = v) by exact E1 end. rewrite Ez. clear z E1 Ez. rewrite !app_nil_r.
  set (lv := fun a => inb a (ut s i)) in *. set (F1 := rev (filter (fun a => negb (lv a)) ks)) in *.
  assert (F1in : forall b, In b F1 <-> In b ks /\ ~ In b (ut s i)).
  { intros b. unfold F1. rewrite <- in_rev, filter_In. unfold lv. rewrite negb_true_iff, inb_false. tauto. }
  assert (LE : (length (filter lv rs) <= length F1)%nat).
  { unfold F1. rewrite rev_length.
    assert (L1 : (length (filter lv ks) + length (filter lv rs) = length (ut s i))%nat).
    { rewrite <- app_length, <- filter_app, KR. apply Permutation_length. apply NoDup_Permutation; auto.
      - now apply NoDup_filter.
      - intros b. rewrite filter_In. unfold lv. rewrite inb_true, IC. unfold cs0. rewrite in_app_iff. tauto. }
    pose proof (filter_len lv ks) as L2.
    destruct (Nat.le_gt_cases (length cs) k) as [Q|Q].
    - unfold rs. rewrite skipn_all2 by lia. cbn [filter length]. lia.
    - assert (L3 : length ks = k) by (unfold ks; rewrite firstn_length; lia).
      assert (L4 : (length (ut s i) < k)%nat).
      { unfold k, required, count. set (n := N.of_nat (length (ut s i))).
        pose proof (N.mul_succ_div_gt n (npp p) ltac:(lia)) as Q1.
        assert (n < (n / npp p + 1) * npp p) by (replace (n / npp p + 1) with (N.succ (n / npp p)) by lia; lia). lia. }
      lia. }
  destruct (move_scan i (ut s i) cs (mem s) Hch' rs SR NR m1 (rev (filter lv ks)) F1) as (m2 & mv & F2 & E2 & Q1 & Q2 & Q3 & Q4).
  - intros b Ib. apply SK. now apply F1in.
  - unfold F1. apply NoDup_rev. now apply NoDup_filter.
  - intros a Ia Ib. apply F1in in Ib as [Ib _]. eauto.
  - exact LE.
  - intros b Ib. rewrite Em1. destruct (inb b ks) eqn:Eb; auto. apply inb_true in Eb. destruct (NKd b Eb Ib).
  - intros b Nb. rewrite Em1. destruct (inb b ks) eqn:Eb; auto. apply inb_true in Eb. destruct (Nb (SK b Eb)).
  - fold lv in Q1.
    assert (NF : NoDup (map snd mv ++ F2)).
    { rewrite <- Q2. unfold F1. apply NoDup_rev. now apply NoDup_filter. }
    destruct (NoDup_app_inv _ _ NF) as (NS & NF2 & NSF).
    assert (NM : NoDup (map fst mv)) by (rewrite Q1; now apply NoDup_filter).
    assert (SN : forall b, In b (map snd mv) \/ In b F2 -> In b ks /\ ~ In b (ut s i)).
    { intros b Ib. apply F1in. rewrite Q2. now apply in_app_iff. }
    assert (FI : forall a, In a (map fst mv) <-> In a rs /\ In a (ut s i)).
    { intros a. rewrite Q1, filter_In. unfold lv. now rewrite inb_true. }
    assert (CA : forall a, In a (ut s i) -> (In a ks /\ ~ In a (map fst mv) /\ mvd mv a = a) \/ exists n, In (a, n) mv /\ mvd mv a = n).
    { intros a Ia. assert (Ic : In a (ks ++ rs)) by (rewrite KR; apply IC; apply in_app_iff; auto).
      apply in_app_iff in Ic as [Ic|Ic].
      - left. split; auto. assert (~ In a (map fst mv)) by (rewrite FI; intros [Q _]; eauto). split; auto. now apply mvd_out.
      - right. assert (Q : In a (map fst mv)) by now apply FI. apply fst_in in Q as [n Q]. exists n. split; auto. now apply mvd_in. }
    assert (SIn : forall a n, In (a, n) mv -> In a (map fst mv) /\ In n (map snd mv)).
    { intros a n Q. split; apply in_map_iff; exists (a, n); auto. }
    assert (TI : forall b, In b (rev (map snd mv) ++ rev (filter lv ks)) <-> exists a, In a (ut s i) /\ b = mvd mv a).
    { intros b. rewrite in_app_iff, <- !in_rev, filter_In. unfold lv. rewrite inb_true. split.
      - intros [Q|[Qk Qt]].
        + apply snd_in in Q as [a Q]. exists a. destruct (SIn _ _ Q) as [A1 A2]. split; [now apply FI|]. symmetry. now apply mvd_in.
        + exists b. split; auto. symmetry. apply mvd_out. rewrite FI. intros [Q _]. eauto.
      - intros (a & Ia & ->). destruct (CA a Ia) as [(K1 & K2 & ->)|(n & K1 & ->)]; [tauto|]. left. now apply (SIn a n). }
    exists m2, (rev (map snd mv) ++ rev (filter lv ks)), F2, (mvd mv). split.
    { match goal with |- context [fold_left (pack_move ?a ?a') ?b ?c] => set (z := fold_left (pack_move a a') b c) end.
      match type of E2 with _ = ?v => assert (Ez : z = v) by exact E2 end. now rewrite Ez. }
    split; [|split; [intros a Ia Ka; apply mvd_out; rewrite FI; intros [Q _]; exact (NKd a Ka Q)|]].
    2: { intros c Ic. apply in_app_iff in Ic as [Ic|Ic]; [|now apply SN; right]. apply TI in Ic as (a & Ia & ->).
      destruct (CA a Ia) as [(K1 & K2 & ->)|(n & K1 & ->)]; [exact K1|]. apply SN. left. now apply (SIn a n). }
    constructor.
    + intros a Ia. destruct (CA a Ia) as [(K1 & K2 & ->)|(n & K1 & ->)]; [apply in_app_iff; auto|]. apply IC. apply SK.
      apply SN. left. now apply (SIn a n).
    + intros a b Ia Ib E. destruct (CA a Ia) as [(A1 & A2 & A3)|(n & A1 & A3)], (CA b Ib) as [(B1 & B2 & B3)|(n' & B1 & B3)];
        rewrite A3, B3 in E; auto.
      * exfalso. destruct (SIn _ _ B1) as [_ C1]. destruct (SN _ (or_introl C1)) as [_ C2]. apply C2. now rewrite <- E.
      * exfalso. destruct (SIn _ _ A1) as [_ C1]. destruct (SN _ (or_introl C1)) as [_ C2]. apply C2. now rewrite E.
      * rewrite E in A1. exact (snd_inj mv a b n' NS A1 B1).
    + exact TI.
    + split; [|exact NF2]. apply NoDup_app3.
      * now apply NoDup_rev.
      * apply NoDup_rev. now apply NoDup_filter.
      * intros b Ib Jb. apply in_rev in Ib. apply in_rev in Jb. apply filter_In in Jb as [_ Jb]. apply inb_true in Jb.
        destruct (SN b (or_introl Ib)). auto.
    + intros b Ib. destruct (SN b (or_intror Ib)) as [K1 K2]. split; [apply IC; auto|]. rewrite in_app_iff, <- !in_rev, filter_In.
      intros [Q|[_ Q]]; [eauto|]. apply inb_true in Q. auto.
    + intros a Ia. destruct (CA a Ia) as [(K1 & K2 & ->)|(n & K1 & ->)]; [|now apply (Q3 a n)].
      rewrite Q4; auto.
      * rewrite Em1. unfold lv. apply inb_true in K1. apply inb_true in Ia. now rewrite K1, Ia.
      * intros Q. destruct (SN a (or_introl Q)). auto.
    + intros a Ia Ne. destruct (CA a Ia) as [(K1 & K2 & E)|(n & K1 & ->)]; [congruence|]. eexists. now apply (Q3 a n).
    + intros b Nb. rewrite Q4.
      * rewrite Em1. destruct (inb b ks) eqn:Eb; auto. apply inb_true in Eb. destruct Nb. apply IC. auto.
      * rewrite FI. intros [Q _]. apply Nb. apply IC. auto.
      * intros Q. apply Nb. apply IC. apply SK. now apply SN; left.
Qed.
End One.
