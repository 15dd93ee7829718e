(** * Chained hash tables refine finite maps. *)
From Coq Require Import Permutation.
From Verif Require Import Base HashModel SpecHash.

Lemma NoDup_app_r {A} (l1 l2 : list A) : NoDup (l1 ++ l2) -> NoDup l2.
Proof. induction l1 as [|a l1 IH]; simpl; auto. intros H. inversion H; auto. Qed.
Lemma NoDup_app_i {A} (l1 l2 : list A) : NoDup l1 -> NoDup l2 -> (forall a, In a l1 -> ~ In a l2) -> NoDup (l1 ++ l2).
Proof.
  induction l1 as [|a l1 IH]; simpl; auto. intros H1 H2 H. inversion H1 as [|? ? Na Nd]; subst. constructor.
  - rewrite in_app_iff. intros [?|?]; auto. apply (H a); auto.
  - apply IH; auto.
Qed.

Section Proof.
Variable K V : Type.
Variable keqb : K -> K -> bool.
Variable hash : N -> K -> N.
Hypothesis keqb_spec : forall x y, keqb x y = true <-> x = y.
Hypothesis hash_range : forall s k, hash s k < num_bins s.
Notation hcell := (hcell K V).
Notation table := (table K V).
Notation hkey := (hkey K V).
Notation hval := (hval K V).
Notation hnext := (hnext K V).

Fixpoint chain (m : N -> hcell) (p : N) (l : list N) : Prop :=
  match l with [] => p = 0 | a :: l => p = a /\ a <> 0 /\ chain m (hnext (m a)) l end.

Lemma updn_eq {A} (f : N -> A) a x : updn f a x a = x.
Proof. unfold updn. now rewrite N.eqb_refl. Qed.
Lemma updn_ne {A} (f : N -> A) a x b : b <> a -> updn f a x b = f b.
Proof. unfold updn. destruct (N.eqb_spec b a); congruence. Qed.

Lemma chain_frame m m' p l : (forall a, In a l -> hnext (m' a) = hnext (m a)) -> chain m p l -> chain m' p l.
Proof.
  revert p. induction l as [|a l IH]; simpl; intros p H C; auto. destruct C as (E & N0 & C). split; auto. split; auto.
  rewrite H by auto. apply IH; auto.
Qed.
Lemma chain_nz m p l a : chain m p l -> In a l -> a <> 0.
Proof. revert p. induction l as [|b l IH]; simpl; [tauto|]. intros p (E & N0 & C) [<-|H]; eauto. Qed.

Lemma hfind_spec m k : forall l n p, chain m p l -> (length l < n)%nat ->
  (exists a, hfind K V keqb n m k p = Some a /\ In a l /\ hkey (m a) = k) \/
  (hfind K V keqb n m k p = Some 0 /\ forall a, In a l -> hkey (m a) <> k).
Proof.
  induction l as [|b l IH]; simpl; intros n p C L; (destruct n; [lia|]); simpl.
  - subst p. right. split; auto.
  - destruct C as (-> & N0 & C). destruct (N.eqb_spec b 0) as [|_]; [lia|].
    destruct (keqb (hkey (m b)) k) eqn:Ek.
    + left. exists b. split; auto. split; auto. now apply keqb_spec.
    + destruct (IH n (hnext (m b)) C) as [(a & H1 & H2 & H3)|[H1 H2]]; [lia| |].
      * left. exists a. auto.
      * right. split; auto. intros a [<-|Ia]; auto. intros E. apply keqb_spec in E. congruence.
Qed.

(** The bins [bins] hold exactly the nodes of [E], each in the bin of its key. *)
Definition Bins (s : N) (bins : N -> N) (m : N -> hcell) (E : list N) : Prop :=
  exists B : N -> list N, (forall i, chain m (bins i) (B i)) /\ (forall i, NoDup (B i)) /\
    forall i a, In a (B i) <-> In a E /\ hash s (hkey (m a)) = i.

Lemma bins_link s bins m E a : NoDup (a :: E) -> a <> 0 -> Bins s bins m E ->
  Bins s (updn bins (hash s (hkey (m a))) a) (set_next K V m a (bins (hash s (hkey (m a))))) (a :: E).
Proof.
  intros Nd N0 (B & C & D & I). inversion Nd as [|? ? Na Nd']; subst. set (b := hash s (hkey (m a))).
  assert (Nin : forall i, ~ In a (B i)) by (intros i Hi; apply I in Hi; tauto).
  assert (Kx : forall x, hkey (set_next K V m a (bins b) x) = hkey (m x)).
  { intros x. unfold set_next, updn. destruct (N.eqb_spec x a); [subst; auto|auto]. }
  exists (fun i => if i =? b then a :: B i else B i). split; [|split].
  - intros i. assert (F : chain (set_next K V m a (bins b)) (bins i) (B i)).
    { eapply chain_frame; [|apply C]. intros x Hx. unfold set_next. rewrite updn_ne; auto. intros ->. now apply (Nin i). }
    destruct (N.eqb_spec i b) as [->|Ne].
    + rewrite updn_eq. simpl. split; auto. split; auto. unfold set_next at 2. rewrite updn_eq. exact F.
    + now rewrite updn_ne.
  - intros i. destruct (N.eqb_spec i b); auto. constructor; auto.
  - intros i x. rewrite Kx. destruct (N.eqb_spec i b) as [->|Ne]; simpl; rewrite I.
    + split; [intros [<-|[H1 H2]]; auto|intros [[<-|H1] H2]; auto].
    + split; [intros [H1 H2]; auto|intros [[<-|H1] H2]; auto]. fold b in H2. congruence.
Qed.

(** Moving one chain. *)
Lemma move_chain_spec s : forall l n p bins m E, chain m p l -> (length l < n)%nat -> NoDup (l ++ E) -> Bins s bins m E ->
  exists bins' m', move_chain K V hash n s (bins, m) p = Some (bins', m') /\ Bins s bins' m' (rev l ++ E) /\
    (forall a, hkey (m' a) = hkey (m a) /\ hval (m' a) = hval (m a)) /\ (forall a, ~ In a l -> m' a = m a).
Proof.
  induction l as [|a l IH]; simpl; intros n p bins m E C L Nd Bn; (destruct n; [lia|]); simpl.
  - subst p. exists bins, m. split; auto.
  - destruct C as (-> & N0 & C). destruct (N.eqb_spec a 0) as [|_]; [lia|].
    inversion Nd as [|? ? Na Nd']; subst. rewrite in_app_iff in Na.
    assert (N1 : NoDup (l ++ a :: E)).
    { apply (Permutation_NoDup (l := a :: l ++ E)); [apply Permutation_middle|auto]. }
    pose proof (bins_link s bins m E a (NoDup_app_r _ _ N1) N0 Bn) as Bn1.
    set (b := hash s (hkey (m a))) in *. set (m1 := set_next K V m a (bins b)) in *.
    destruct (IH n (hnext (m a)) (updn bins b a) m1 (a :: E)) as (bins' & m' & H1 & H2 & H3 & H4); auto; [|lia|].
    { eapply chain_frame; [|exact C]. intros x Hx. unfold m1, set_next. rewrite updn_ne; auto. intros ->. tauto. }
    exists bins', m'. split; auto. rewrite <- app_assoc. simpl. split; auto. split.
    + intros x. destruct (H3 x) as [-> ->]. unfold m1, set_next, updn. destruct (N.eqb_spec x a); [subst; auto|auto].
    + intros x Hx. rewrite H4 by tauto. unfold m1, set_next. rewrite updn_ne; auto.
Qed.

Lemma bins_perm s bins m E E' : (forall a, In a E <-> In a E') -> Bins s bins m E -> Bins s bins m E'.
Proof. intros H (B & C & D & I). exists B. split; auto. split; auto. intros i a. now rewrite I, H. Qed.

Lemma move_bins_spec s n old B : (forall j, NoDup (B j)) -> (forall i j a, In a (B i) -> In a (B j) -> i = j) ->
  forall l bins m Mv, NoDup l -> (forall j, In j l -> chain m (old j) (B j) /\ (length (B j) < n)%nat) -> NoDup Mv ->
  (forall j a, In j l -> In a (B j) -> ~ In a Mv) -> Bins s bins m Mv ->
  exists bins' m' Mv', move_bins K V hash n s old (bins, m) l = Some (bins', m') /\ Bins s bins' m' Mv' /\ NoDup Mv' /\
    (forall a, hkey (m' a) = hkey (m a) /\ hval (m' a) = hval (m a)) /\
    forall a, In a Mv' <-> In a Mv \/ exists j, In j l /\ In a (B j).
Proof.
  intros DB Dj. induction l as [|j l IH]; intros bins m Mv Nl C Nm Nv Bn.
  - exists bins, m, Mv. split; auto. split; auto. split; auto. split; auto. intros a. split; auto. intros [H|(j & [] & _)]; auto.
  - inversion Nl as [|? ? Nj Nl']; subst. simpl. destruct (C j (or_introl eq_refl)) as [Cj Lj].
    assert (N1 : NoDup (B j ++ Mv)) by (apply NoDup_app_i; auto; intros a Ha; apply (Nv j a); simpl; auto).
    destruct (move_chain_spec s (B j) n (old j) bins m Mv Cj Lj N1 Bn) as (b1 & m1 & -> & Bn1 & Kv & Fr).
    destruct (IH b1 m1 (rev (B j) ++ Mv)) as (b2 & m2 & M2 & -> & Bn2 & N2 & Kv2 & I2); auto.
    + intros i Hi. destruct (C i (or_intror Hi)) as [Ci Li]. split; auto. eapply chain_frame; [|exact Ci].
      intros a Ha. rewrite Fr; auto. intros Hj. rewrite (Dj _ _ _ Ha Hj) in Hi. tauto.
    + apply (Permutation_NoDup (l := B j ++ Mv)); auto. apply Permutation_app_tail, Permutation_rev.
    + intros i a Hi Ha. rewrite in_app_iff, <- in_rev. intros [Hj|Hm]; [rewrite (Dj _ _ _ Ha Hj) in Hi; tauto|].
      apply (Nv i a); simpl; auto.
    + exists b2, m2, M2. do 3 (split; auto). split.
      * intros a. destruct (Kv2 a) as [-> ->]. apply Kv.
      * intros a. rewrite I2, in_app_iff, <- in_rev. split.
        -- intros [[H|H]|(i & Hi & H)]; auto; right; [exists j|exists i]; simpl; auto.
        -- intros [H|(i & [<-|Hi] & H)]; auto. right. exists i. auto.
Qed.

(** ** Refinement *)
Record Rep (t : table) (M : entries K V) : Prop := {
  rp_ad : NoDup (map addr_of M);
  rp_ky : NoDup (map key_of M);
  rp_nz : forall e, In e M -> addr_of e <> 0;
  rp_n : hnum _ _ t = N.of_nat (length M);
  rp_k : forall e, In e M -> hkey (hmem _ _ t (addr_of e)) = key_of e /\ hval (hmem _ _ t (addr_of e)) = value_of e;
  rp_b : Bins (hsize _ _ t) (hbins _ _ t) (hmem _ _ t) (map addr_of M)
}.

(** The table without its count. *)
Record Rep0 (t : table) (M : entries K V) : Prop := {
  r0_ad : NoDup (map addr_of M);
  r0_nz : forall e, In e M -> addr_of e <> 0;
  r0_n : N.of_nat (length M) <= hnum _ _ t;
  r0_k : forall e, In e M -> hkey (hmem _ _ t (addr_of e)) = key_of e /\ hval (hmem _ _ t (addr_of e)) = value_of e;
  r0_b : Bins (hsize _ _ t) (hbins _ _ t) (hmem _ _ t) (map addr_of M)
}.
Lemma rep_rep0 t M : Rep t M -> Rep0 t M.
Proof. intros [H1 H2 H3 H4 H5 H6]. constructor; auto. lia. Qed.

Lemma bin_short (B : N -> list N) s m E n i : NoDup E -> (forall i, NoDup (B i)) -> (forall i a, In a (B i) <-> In a E /\ hash s (hkey (m a)) = i) ->
  N.of_nat (length E) <= n -> (length (B i) < Datatypes.S (N.to_nat n))%nat.
Proof.
  intros Ne D I L. assert (length (B i) <= length E)%nat; [|lia]. apply NoDup_incl_length; auto. intros a Ha. apply I in Ha. tauto.
Qed.

Lemma upto_bins_in s i : In i (upto_bins s) <-> i < num_bins s.
Proof.
  unfold upto_bins. rewrite in_map_iff. split.
  - intros (x & <- & H). apply in_seq in H. lia.
  - intros H. exists (N.to_nat i). rewrite in_seq. lia.
Qed.
Lemma upto_bins_nd s : NoDup (upto_bins s).
Proof. apply FinFun.Injective_map_NoDup; [intros x y H; lia|apply seq_NoDup]. Qed.

Lemma rehash_spec t M g : Rep0 t M -> exists t', hrehash K V hash t g = Some t' /\ Rep0 t' M /\ hnum _ _ t' = hnum _ _ t /\
  (forall a, hkey (hmem _ _ t' a) = hkey (hmem _ _ t a) /\ hval (hmem _ _ t' a) = hval (hmem _ _ t a)).
Proof.
  intros R. unfold hrehash. destruct (negb g && (hsize K V t <=? DEFAULT_SIZE_INDEX)); [exists t; auto|].
  set (s := if g then _ else _). destruct (r0_b _ _ R) as (B & C & D & I).
  destruct (move_bins_spec s (fuel K V t) (hbins _ _ t) B) with (l := upto_bins (hsize K V t)) (bins := fun _ : N => 0) (m := hmem _ _ t) (Mv := @nil N)
    as (b' & m' & Mv & -> & Bn & Nm & Kv & Im); auto.
  - intros i j a Hi Hj. apply I in Hi, Hj. destruct Hi as [_ <-], Hj as [_ <-]. auto.
  - apply upto_bins_nd.
  - intros j _. split; auto. unfold fuel. apply (bin_short B (hsize _ _ t) (hmem _ _ t) (map addr_of M)); auto.
    + apply (r0_ad _ _ R).
    + rewrite map_length. apply (r0_n _ _ R).
  - constructor.
  - exists (fun _ => []). split; [|split].
    + intros i. reflexivity.
    + intros i. constructor.
    + intros i a. simpl. tauto.
  - exists (HT K V s b' (hnum K V t) m'). split; auto. split; [|split; auto]. destruct R as [R1 R2 R3 R4 R5]. constructor; simpl; auto.
    + intros e He. destruct (Kv (addr_of e)) as [-> ->]. auto.
    + eapply bins_perm; [|exact Bn]. intros a. rewrite Im. split.
      * intros [[]|(j & _ & Hj)]. apply I in Hj. tauto.
      * intros Ha. right. exists (hash (hsize K V t) (hkey (hmem K V t a))). rewrite upto_bins_in, I. auto using hash_range.
Qed.

Lemma key_unique M a a' k v v' : NoDup (map (@key_of K V) M) -> In (a, k, v) M -> In (a', k, v') M -> a = a' /\ v = v'.
Proof.
  induction M as [|e M IH]; simpl; [tauto|]. intros Nd. inversion Nd as [|? ? Ne Nd']; subst.
  intros [->|H] [E|H'].
  - inversion E; auto.
  - exfalso. apply Ne. apply in_map_iff. exists (a', k, v'). auto.
  - subst e. exfalso. apply Ne. apply in_map_iff. exists (a, k, v). auto.
  - eauto.
Qed.

Lemma lookup_spec t M k : Rep t M ->
  (exists a v, In (a, k, v) M /\ hlookup K V keqb hash t k = Some a) \/ (absent k M /\ hlookup K V keqb hash t k = Some 0).
Proof.
  intros R. destruct (rp_b _ _ R) as (B & C & D & I). unfold hlookup.
  destruct (hfind_spec (hmem _ _ t) k (B (hash (hsize K V t) k)) (fuel _ _ t) (hbins _ _ t (hash (hsize K V t) k))) as [(a & H1 & H2 & H3)|[H1 H2]]; auto.
  - unfold fuel. apply (bin_short B (hsize _ _ t) (hmem _ _ t) (map addr_of M)); auto.
    + apply (rp_ad _ _ R).
    + rewrite map_length, (rp_n _ _ R). lia.
  - left. apply I in H2 as [H2 _]. apply in_map_iff in H2 as ([[a' k'] v'] & E & He). change (a' = a) in E. subst a'.
    exists a, v'. destruct (rp_k _ _ R _ He) as [Ek _]. cbn [addr_of key_of fst snd] in Ek. rewrite Ek in H3. subst. auto.
  - right. split; auto. intros Hk. apply in_map_iff in Hk as (e & E & He). destruct (rp_k _ _ R e He) as [Ek _].
    apply (H2 (addr_of e)); [|congruence]. apply I. split; [now apply in_map|]. now rewrite Ek, E.
Qed.

Lemma link_spec t M a k v : Rep0 t M -> a <> 0 -> ~ In a (map addr_of M) -> absent k M -> NoDup (map key_of M) ->
  hnum _ _ t = N.of_nat (length M) + 1 -> hkey (hmem _ _ t a) = k -> hval (hmem _ _ t a) = v ->
  Rep (hlink K V hash t a) ((a, k, v) :: M).
Proof.
  intros R N0 Na Ak Nk Hn Ek Ev. unfold hlink.
  assert (Kx : forall p x, hkey (set_next K V (hmem _ _ t) a p x) = hkey (hmem _ _ t x) /\ hval (set_next K V (hmem _ _ t) a p x) = hval (hmem _ _ t x)).
  { intros p x. unfold set_next, updn. destruct (N.eqb_spec x a); [subst; auto|auto]. }
  constructor; simpl.
  - constructor; auto. apply R.
  - constructor; auto.
  - intros e [<-|He]; auto. apply (r0_nz _ _ R e He).
  - lia.
  - intros e He. destruct (Kx (hbins K V t (hash (hsize K V t) (hkey (hmem K V t a)))) (addr_of e)) as [-> ->].
    destruct He as [<-|He]; simpl; auto. apply (r0_k _ _ R e He).
  - apply bins_link; auto; [|apply R]. constructor; auto. apply R.
Qed.

Lemma put_rep0 t M a k v : Rep0 t M -> ~ In a (map addr_of M) -> forall n, N.of_nat (length M) <= n ->
  Rep0 (HT K V (hsize _ _ t) (hbins _ _ t) n (put_cell K V (hmem _ _ t) a k v)) M.
Proof.
  intros R Na n Hn.
  assert (F : forall x, In x (map addr_of M) -> put_cell K V (hmem _ _ t) a k v x = hmem _ _ t x).
  { intros x Hx. unfold put_cell. apply updn_ne. congruence. }
  constructor; simpl; try apply R; auto.
  - intros e He. rewrite F by now apply in_map. apply (r0_k _ _ R e He).
  - destruct (r0_b _ _ R) as (B & C & D & I). exists B. split; [|split; auto].
    + intros i. eapply chain_frame; [|apply C]. intros x Hx. rewrite F; auto. apply I in Hx. tauto.
    + intros i x. rewrite I. split; intros [H1 H2]; split; auto; [rewrite F; auto|rewrite F in H2; auto].
Qed.
Lemma num_rep0 t M n : Rep0 t M -> N.of_nat (length M) <= n -> Rep0 (HT K V (hsize _ _ t) (hbins _ _ t) n (hmem _ _ t)) M.
Proof. intros [H1 H2 H3 H4 H5] L. constructor; simpl; auto. Qed.

Lemma find_or_add_spec t M k v a : Rep t M -> fresh a M ->
  (exists a' v', In (a', k, v') M /\ find_or_add K V keqb hash t k v a = Some (true, a', t)) \/
  (absent k M /\ exists t', find_or_add K V keqb hash t k v a = Some (false, a, t') /\ Rep t' ((a, k, v) :: M)).
Proof.
  intros R [N0 Na]. unfold find_or_add. destruct (lookup_spec t M k R) as [(a' & v' & H & ->)|[Ak ->]].
  - left. exists a', v'. split; auto. pose proof (rp_nz _ _ R _ H) as Nz. cbn [addr_of fst] in Nz.
    destruct (N.eqb_spec a' 0); [contradiction|]. reflexivity.
  - right. split; auto. simpl. set (t1 := HT K V (hsize K V t) (hbins K V t) (hnum K V t + 1) (hmem K V t)).
    assert (R1 : Rep0 t1 M) by (apply num_rep0; [now apply rep_rep0|rewrite (rp_n _ _ R); lia]).
    assert (exists t2, (if max_capacity (hsize K V t) <? hnum K V t + 1 then hrehash K V hash t1 true else Some t1) = Some t2 /\ Rep0 t2 M /\ hnum _ _ t2 = hnum _ _ t1)
      as (t2 & -> & R2 & Hn).
    { destruct (_ <? _); [|eauto]. destruct (rehash_spec t1 M true R1) as (t2 & H1 & H2 & H3 & _). eauto. }
    eexists. split; [reflexivity|]. apply link_spec; simpl; auto.
    + apply put_rep0; auto. apply R2.
    + apply R.
    + rewrite Hn. unfold t1. simpl. rewrite (rp_n _ _ R). auto.
    + unfold put_cell. now rewrite updn_eq.
    + unfold put_cell. now rewrite updn_eq.
Qed.

Lemma add_direct_spec t M k v a : Rep t M -> fresh a M -> absent k M ->
  exists t', add_direct K V hash t a k v = Some t' /\ Rep t' ((a, k, v) :: M).
Proof.
  intros R [N0 Na] Ak. unfold add_direct.
  set (t1 := HT K V (hsize K V t) (hbins K V t) (hnum K V t + 1) (put_cell K V (hmem K V t) a k v)).
  assert (R1 : Rep0 t1 M). { apply put_rep0; auto; [now apply rep_rep0|]. rewrite (rp_n _ _ R). lia. }
  assert (E1 : hkey (hmem _ _ t1 a) = k /\ hval (hmem _ _ t1 a) = v) by (simpl; unfold put_cell; rewrite updn_eq; auto).
  assert (exists t2, (if max_capacity (hsize K V t) <=? hnum K V t + 1 then hrehash K V hash t1 true else Some t1) = Some t2 /\ Rep0 t2 M /\
     hnum _ _ t2 = hnum _ _ t1 /\ hkey (hmem _ _ t2 a) = k /\ hval (hmem _ _ t2 a) = v)
    as (t2 & -> & R2 & Hn & Ek & Ev).
  { destruct (_ <=? _); [|exists t1; intuition]. destruct (rehash_spec t1 M true R1) as (t2 & H1 & H2 & H3 & H4).
    exists t2. destruct (H4 a) as [-> ->]. intuition. }
  eexists. split; [reflexivity|]. apply link_spec; auto; [apply R|]. rewrite Hn. unfold t1. simpl. rewrite (rp_n _ _ R). auto.
Qed.

(** ** Unlinking *)
Lemma chain_cut m p l1 x a l2 : NoDup (l1 ++ x :: a :: l2) -> chain m p (l1 ++ x :: a :: l2) ->
  chain (set_next K V m x (hnext (m a))) p (l1 ++ x :: l2).
Proof.
  revert p. induction l1 as [|y l1 IH]; simpl; intros p Nd C; inversion Nd as [|? ? Ny Nd']; subst.
  - destruct C as (-> & N0 & C). split; auto. split; auto. unfold set_next at 2. rewrite updn_eq. simpl.
    destruct C as (E & Na & C). eapply chain_frame; [|exact C]. intros z Hz. unfold set_next. rewrite updn_ne; auto.
    intros ->. apply Ny. simpl. auto.
  - destruct C as (-> & N0 & C). split; auto. split; auto. unfold set_next at 2. rewrite updn_ne.
    + apply IH; auto.
    + intros ->. apply Ny. apply in_app_iff. simpl. auto.
Qed.

Lemma unlink_spec b a bins : forall l n m pre last p, chain m p l -> (length l < n)%nat -> NoDup (pre ++ l) -> chain m (bins b) (pre ++ l) ->
  ((last = 0 /\ pre = []) \/ (last <> 0 /\ exists pre', pre = pre' ++ [last])) -> ~ In a pre ->
  (~ In a l /\ unlink K V n b a last p bins m = Some (false, bins, m)) \/
  (exists l1 l2 bins' m', l = l1 ++ a :: l2 /\ unlink K V n b a last p bins m = Some (true, bins', m') /\
     chain m' (bins' b) (pre ++ l1 ++ l2) /\ (forall i, i <> b -> bins' i = bins i) /\
     (forall x, ~ In x (pre ++ l) -> m' x = m x) /\ (forall x, hkey (m' x) = hkey (m x) /\ hval (m' x) = hval (m x))).
Proof.
  induction l as [|y l IH]; simpl; intros n m pre last p C L Nd Cb La Np; (destruct n; [lia|]); simpl.
  - subst p. left. auto.
  - destruct C as (-> & N0 & C). destruct (N.eqb_spec y 0) as [|_]; [lia|]. destruct (N.eqb_spec y a) as [->|Ne].
    + right. exists [], l. destruct La as [[-> ->]|(Nl & pre' & ->)].
      * rewrite N.eqb_refl. exists (updn bins b (hnext (m a))), m. split; auto. split; auto. simpl. rewrite updn_eq.
        split; auto. split; [intros i Hi; now apply updn_ne|]. auto.
      * destruct (N.eqb_spec last 0); [contradiction|]. exists bins, (set_next K V m last (hnext (m a))). split; auto. split; auto.
        rewrite <- app_assoc in *. simpl in *. split; [now apply chain_cut|]. split; auto. split.
        -- intros x Hx. unfold set_next. apply updn_ne. intros ->. apply Hx. rewrite !in_app_iff. simpl. auto.
        -- intros x. unfold set_next, updn. destruct (N.eqb_spec x last); [subst; auto|auto].
    + destruct (IH n m (pre ++ [y]) y (hnext (m y))) as [[H1 H2]|(l1 & l2 & bins' & m' & E & H1 & H2 & H3 & H4 & H5)]; auto.
      * lia.
      * now rewrite <- app_assoc.
      * now rewrite <- app_assoc.
      * right. split; auto. now exists pre.
      * rewrite in_app_iff. intros [H|[H|[]]]; auto.
      * left. split; auto. intros [H|H]; auto.
      * right. exists (y :: l1), l2, bins', m'. subst l. split; auto. split; auto. rewrite <- app_assoc in H2. simpl in *. split; auto.
        split; auto. split; auto. intros x Hx. apply H4. rewrite <- app_assoc. auto.
Qed.

(** Removing node [a] from the bins. *)
Lemma bins_unlink s bins m E1 a E2 n : NoDup (E1 ++ a :: E2) -> Bins s bins m (E1 ++ a :: E2) -> N.of_nat (length (E1 ++ a :: E2)) <= n ->
  forall m1 b, b = hash s (hkey (m a)) -> (forall x, x <> a -> m1 x = m x) -> hnext (m1 a) = hnext (m a) ->
  exists bins' m', unlink K V (Datatypes.S (N.to_nat n)) b a 0 (bins b) bins m1 = Some (true, bins', m') /\ Bins s bins' m' (E1 ++ E2) /\
     (forall x, hkey (m' x) = hkey (m1 x) /\ hval (m' x) = hval (m1 x)).
Proof.
  intros Nd (B & C & D & I) Ln m1 b Eb Fr Na.
  assert (C1 : forall i, chain m1 (bins i) (B i)).
  { intros i. eapply chain_frame; [|apply C]. intros x _. destruct (N.eq_dec x a) as [->|Ne]; auto. now rewrite Fr. }
  assert (Ia : In a (B b)) by (apply I; split; auto; apply in_app_iff; simpl; auto).
  destruct (unlink_spec b a bins (B b) (Datatypes.S (N.to_nat n)) m1 [] 0 (bins b)) as [[H _]|(l1 & l2 & bins' & m' & E & H1 & H2 & H3 & H4 & H5)];
    simpl; auto; [|contradiction|].
  { apply (bin_short B s m (E1 ++ a :: E2)); auto. }
  exists bins', m'. split; auto. split; auto. simpl in H2.
  pose proof (D b) as Db. rewrite E in Db.
  assert (Nl : ~ In a (l1 ++ l2)) by (apply NoDup_remove_2 in Db; auto).
  assert (Ne : ~ In a (E1 ++ E2)) by (apply NoDup_remove_2 in Nd; auto).
  exists (fun i => if i =? b then l1 ++ l2 else B i). split; [|split].
  - intros i. destruct (N.eqb_spec i b) as [->|Hi]; auto. rewrite H3 by auto. eapply chain_frame; [|apply C1].
    intros x Hx. rewrite H4; auto. simpl. intros Hb. apply I in Hx, Hb. destruct Hx as [_ <-], Hb as [_ Hb]. congruence.
  - intros i. destruct (N.eqb_spec i b) as [->|Hi]; auto. now apply NoDup_remove_1 in Db.
  - assert (Kx : forall x, x <> a -> hkey (m' x) = hkey (m x)) by (intros x Hx; destruct (H5 x) as [-> _]; now rewrite Fr).
    assert (In1 : forall x, x <> a -> (In x (l1 ++ l2) <-> In x (B b))).
    { intros x Hx. rewrite E, !in_app_iff. simpl. intuition congruence. }
    assert (In2 : forall x, x <> a -> (In x (E1 ++ E2) <-> In x (E1 ++ a :: E2))).
    { intros x Hx. rewrite !in_app_iff. simpl. intuition congruence. }
    intros i x. destruct (N.eq_dec x a) as [->|Hx].
    + split; [|tauto]. destruct (N.eqb_spec i b) as [->|Hi]; [tauto|]. intros H. apply I in H. destruct H as [_ H]. congruence.
    + rewrite (In2 x Hx), (Kx x Hx). destruct (N.eqb_spec i b) as [->|Hi]; [rewrite (In1 x Hx)|]; apply I.
Qed.

Lemma addr_split M1 e M2 : map (@addr_of K V) (M1 ++ e :: M2) = map addr_of M1 ++ addr_of e :: map addr_of M2.
Proof. now rewrite map_app. Qed.

Lemma delete_spec t a k v M1 M2 : Rep t (M1 ++ (a, k, v) :: M2) ->
  exists t', hdelete K V hash t a = Some (true, t') /\ Rep t' (M1 ++ M2).
Proof.
  intros R. destruct R as [R1 R2 R3 R4 R5 R6]. rewrite addr_split in R1, R6. simpl in R1, R6. unfold hdelete, fuel.
  destruct (bins_unlink (hsize _ _ t) (hbins _ _ t) (hmem _ _ t) (map addr_of M1) a (map addr_of M2) (hnum _ _ t) R1 R6) with
    (m1 := hmem _ _ t) (b := hash (hsize K V t) (hkey (hmem K V t a))) as (bins' & m' & -> & Bn & Kv); auto.
  { rewrite R4, !app_length. simpl. rewrite !map_length. lia. }
  eexists. split; [reflexivity|]. constructor; simpl.
  - rewrite map_app. now apply NoDup_remove_1 in R1.
  - rewrite map_app in R2 |- *. now apply NoDup_remove_1 in R2.
  - intros e He. apply R3. rewrite in_app_iff in *. simpl. tauto.
  - rewrite R4, !app_length. simpl. lia.
  - intros e He. destruct (Kv (addr_of e)) as [-> ->]. apply R5. rewrite in_app_iff in *. simpl. tauto.
  - now rewrite map_app.
Qed.

Lemma miss_spec t M a : Rep t M -> ~ In a (map addr_of M) -> hdelete K V hash t a = Some (false, t).
Proof.
  intros R Na. unfold hdelete. destruct (rp_b _ _ R) as (B & C & D & I).
  set (b := hash _ _).
  destruct (unlink_spec b a (hbins _ _ t) (B b) (fuel _ _ t) (hmem _ _ t) [] 0 (hbins _ _ t b)) as [[_ ->]|(l1 & l2 & _ & _ & E & _)]; simpl; auto.
  - unfold fuel. apply (bin_short B (hsize _ _ t) (hmem _ _ t) (map addr_of M)); auto; [apply R|].
    rewrite map_length, (rp_n _ _ R). lia.
  - exfalso. apply Na. assert (H : In a (B b)) by (rewrite E, in_app_iff; simpl; auto). apply I in H. tauto.
Qed.

Lemma nodup_mid {A} (l1 l2 : list A) x : NoDup (l1 ++ l2) -> ~ In x (l1 ++ l2) -> NoDup (l1 ++ x :: l2).
Proof. intros N1 N2. apply (Permutation_NoDup (l := x :: l1 ++ l2)); [apply Permutation_middle|now constructor]. Qed.

Lemma rekey_spec t a k k' v M1 M2 : Rep t (M1 ++ (a, k, v) :: M2) -> absent k' (M1 ++ M2) ->
  exists t', rehash_node K V hash t a k' = Some t' /\ Rep t' (M1 ++ (a, k', v) :: M2).
Proof.
  intros R Ak. destruct R as [R1 R2 R3 R4 R5 R6]. unfold rehash_node, fuel.
  assert (Ev : hval (hmem _ _ t a) = v /\ hkey (hmem _ _ t a) = k).
  { destruct (R5 (a, k, v)) as [H1 H2]; [apply in_app_iff; simpl; auto|auto]. }
  destruct Ev as [Ev Ek]. rewrite Ev, Ek.
  assert (A1 : NoDup (map addr_of (M1 ++ (a, k', v) :: M2))) by (rewrite addr_split in R1 |- *; exact R1).
  assert (A2 : NoDup (map key_of (M1 ++ (a, k', v) :: M2))).
  { rewrite map_app in *. simpl in *. apply nodup_mid; [now apply NoDup_remove_1 in R2|]. rewrite <- map_app. exact Ak. }
  assert (A3 : forall e, In e (M1 ++ (a, k', v) :: M2) -> addr_of e <> 0).
  { intros e He. rewrite in_app_iff in He. simpl in He. assert (N0 : a <> 0) by (apply (R3 (a, k, v)); apply in_app_iff; simpl; auto).
    destruct He as [He|[<-|He]]; auto; apply R3; apply in_app_iff; simpl; auto. }
  assert (A4 : N.of_nat (length (M1 ++ (a, k', v) :: M2)) = hnum _ _ t) by (rewrite R4, !app_length; reflexivity).
  assert (Na : ~ In a (map addr_of (M1 ++ M2))).
  { rewrite addr_split in R1. simpl in R1. apply NoDup_remove_2 in R1. now rewrite map_app. }
  set (m1 := put_cell K V (hmem K V t) a k' v).
  assert (Fr : forall x, x <> a -> m1 x = hmem _ _ t x) by (intros x Hx; unfold m1, put_cell; now apply updn_ne).
  assert (M1a : m1 a = HC K V k' v (hnext (hmem _ _ t a))) by (unfold m1, put_cell; now rewrite updn_eq).
  assert (Ko : forall e, In e (M1 ++ M2) -> m1 (addr_of e) = hmem _ _ t (addr_of e) /\ In e (M1 ++ (a, k, v) :: M2)).
  { intros e He. split; [apply Fr; intros E; apply Na; rewrite <- E; now apply in_map|]. rewrite in_app_iff in *. simpl. tauto. }
  assert (A5 : forall e, In e (M1 ++ (a, k', v) :: M2) -> hkey (m1 (addr_of e)) = key_of e /\ hval (m1 (addr_of e)) = value_of e).
  { intros e He. assert (D : e = (a, k', v) \/ In e (M1 ++ M2)) by (rewrite in_app_iff in *; simpl in He; intuition).
    destruct D as [->|He']; [cbn [addr_of key_of value_of fst snd]; rewrite M1a; auto|]. destruct (Ko e He') as [-> Hi]. apply R5; auto. }
  destruct (N.eqb_spec (hash (hsize K V t) k) (hash (hsize K V t) k')) as [Eh|Nh].
  - eexists. split; [reflexivity|]. constructor; simpl; auto.
    destruct R6 as (B & C & D & I). exists B. split; [|split; auto].
    + intros i. eapply chain_frame; [|apply C]. intros x _. destruct (N.eq_dec x a) as [->|Hx]; [now rewrite M1a|now rewrite Fr].
    + intros i x. rewrite I, !addr_split. cbn [addr_of fst]. destruct (N.eq_dec x a) as [->|Hx]; [|rewrite Fr by auto; tauto].
      rewrite M1a, Ek. simpl. rewrite Eh. tauto.
  - rewrite addr_split in R1, R6. simpl in R1, R6.
    destruct (bins_unlink (hsize _ _ t) (hbins _ _ t) (hmem _ _ t) (map addr_of M1) a (map addr_of M2) (hnum _ _ t) R1 R6) with
      (m1 := m1) (b := hash (hsize K V t) k) as (bins' & m' & -> & Bn & Kv); auto.
    { rewrite R4, !app_length. simpl. rewrite !map_length. lia. }
    { now rewrite Ek. }
    { now rewrite M1a. }
    eexists. split; [reflexivity|]. destruct (Kv a) as [Ka Va]. rewrite M1a in Ka, Va. simpl in Ka, Va.
    assert (Kx : forall p x, hkey (set_next K V m' a p x) = hkey (m' x) /\ hval (set_next K V m' a p x) = hval (m' x)).
    { intros p x. unfold set_next, updn. destruct (N.eqb_spec x a); [subst; auto|auto]. }
    unfold hlink. cbn [hsize hbins hnum hmem]. constructor; cbn [hsize hbins hnum hmem]; auto.
    + intros e He. destruct (Kx (bins' (hash (hsize K V t) (hkey (m' a)))) (addr_of e)) as [-> ->].
      destruct (Kv (addr_of e)) as [-> ->]. auto.
    + apply (bins_perm _ _ _ (a :: map addr_of M1 ++ map addr_of M2)); [|apply bins_link].
      * intros x. rewrite addr_split. cbn [addr_of fst]. simpl; rewrite !in_app_iff; simpl; tauto.
      * constructor; [rewrite <- map_app; auto|]. now apply NoDup_remove_1 in R1.
      * apply (A3 (a, k', v)). apply in_app_iff. simpl. auto.
      * exact Bn.
Qed.

(** ** Histories *)
Lemma step_spec t M o r M' : Rep t M -> does M o r M' -> exists t', hstep K V keqb hash t o = Some (r, t') /\ Rep t' M'.
Proof.
  intros R S. destruct S as [k v a a' v' Fa H|k v a Fa Ak|a k v Fa Ak|a k v M1 M2 E|a Fa|a k k' v M1 M2 E Ak|g]; simpl.
  - destruct (find_or_add_spec t M k v a R Fa) as [(a1 & v1 & H1 & ->)|(Ak & _)].
    + exists t. destruct (key_unique M _ _ _ _ _ (rp_ky _ _ R) H H1) as [-> _]. auto.
    + exfalso. apply Ak. apply in_map_iff. exists (a', k, v'). auto.
  - destruct (find_or_add_spec t M k v a R Fa) as [(a1 & v1 & H1 & _)|(_ & t' & -> & R')]; [|exists t'; auto].
    exfalso. apply Ak. apply in_map_iff. exists (a1, k, v1). auto.
  - destruct (add_direct_spec t M k v a R Fa Ak) as (t' & -> & R'). exists t'. auto.
  - subst M. destruct (delete_spec t a k v M1 M2 R) as (t' & -> & R'). exists t'. auto.
  - destruct Fa as [_ Na]. rewrite (miss_spec t M a R Na). exists t. auto.
  - subst M. destruct (rekey_spec t a k k' v M1 M2 R Ak) as (t' & -> & R'). exists t'. auto.
  - destruct (rehash_spec t M g (rep_rep0 _ _ R)) as (t' & -> & [H1 H2 H3 H4 H5] & Hn & _). exists t'. split; auto.
    constructor; auto; [apply R|]. rewrite Hn. apply R.
Qed.

Lemma hrun_app t l1 l2 : hrun K V keqb hash t (l1 ++ l2) =
  match hrun K V keqb hash t l1 with
  | Some (r1, t1) => match hrun K V keqb hash t1 l2 with Some (r2, t2) => Some (r1 ++ r2, t2) | None => None end
  | None => None
  end.
Proof.
  revert t. induction l1 as [|o l1 IH]; intros t; simpl.
  - destruct (hrun K V keqb hash t l2) as [[r2 t2]|]; auto.
  - destruct (hstep K V keqb hash t o) as [[r t1]|]; auto. rewrite IH.
    destruct (hrun K V keqb hash t1 l1) as [[r1 t2]|]; auto. destruct (hrun K V keqb hash t2 l2) as [[r2 t3]|]; auto.
Qed.

Lemma init_rep m : Rep (table_init K V m) [].
Proof.
  constructor; simpl; try constructor; try tauto. exists (fun _ => []). split; [|split].
  - intros i. reflexivity.
  - intros i. constructor.
  - intros i a. simpl. tauto.
Qed.

Lemma history_spec m l M : history l M -> exists t, hrun K V keqb hash (table_init K V m) (map fst l) = Some (map snd l, t) /\ Rep t M.
Proof.
  induction 1 as [|l M o r M' H (t & E & R) D].
  - exists (table_init K V m). split; auto. apply init_rep.
  - destruct (step_spec t M o r M' R D) as (t' & E' & R'). exists t'. split; auto.
    rewrite !map_app, hrun_app, E. simpl. now rewrite E'.
Qed.

Lemma tables_are_maps m l M : history l M ->
  exists t, hrun K V keqb hash (table_init K V m) (map fst l) = Some (map snd l, t) /\
    (forall k, (exists a v, In (a, k, v) M /\ hlookup K V keqb hash t k = Some a /\ hval (hmem K V t a) = v) \/
               (absent k M /\ hlookup K V keqb hash t k = Some 0)) /\
    NoDup (map key_of M) /\ hnum K V t = N.of_nat (length M).
Proof.
  intros H. destruct (history_spec m l M H) as (t & E & R). exists t. split; auto. split; [|split; apply R].
  intros k. destruct (lookup_spec t M k R) as [(a & v & H1 & H2)|H1]; auto. left. exists a, v. split; auto. split; auto.
  destruct (rp_k _ _ R _ H1) as [_ Hv]. exact Hv.
Qed.
End Proof.
