(** * Function profiles of several functions: the graph level. *)
From Coq Require Import Permutation Sorted.
From Verif Require Import Base BFModel ITEModel MgrModel ApiModel StoreInv Own EngInv ApplyProof BinopProof ReduceProof
  EngineProof OpProof MultiProof QProof GCProof VarProof MInv ApiProof ApiOps ApiStruct GraphModel GraphProof GraphMarks GraphFProf FProfModel.
Open Scope N_scope.

Section Multi.
Variables (o : order) (s : store).
Hypothesis Wo : wfo o.
Hypothesis W : SWF o s.
Let m := mem s.
Notation V := (vedge (nodeR s)).
Notation child := (child s).
Notation lvl := (lvl o).
Notation keysV := (keysV s).
Notation below := (below s).

(** ** The highest references *)
Record hall (h : map1 Z) (fs : list edge) : Prop := {
  ha_keys : keysV h;
  ha_sound : forall k v, V k -> lookup1 h k = Some v -> exists p, below fs p /\ child p k /\ v = lvl p;
  ha_root : forall f c, In f fs -> child f c -> exists v, lookup1 h c = Some v /\ (v <= lvl f)%Z;
  ha_closed : forall k v c, V k -> lookup1 h k = Some v -> child k c -> exists v', lookup1 h c = Some v' /\ (v' <= lvl k)%Z
}.
Lemma below_app fs gs x : below fs x -> below (fs ++ gs) x.
Proof. intros (f & I & S). exists f. split; [apply in_or_app; now left|exact S]. Qed.
Lemma hall_step h fs f h' : (forall g, In g fs -> V g) -> V f -> hall h fs -> hpost o s h f h' -> hall h' (fs ++ [f]).
Proof.
  intros Vs Vf [K1 S1 R1 C1] P.
  assert (Old : forall c L, V c -> (exists v, lookup1 h c = Some v /\ (v <= L)%Z) -> exists v, lookup1 h' c = Some v /\ (v <= L)%Z).
  { intros c L Vc (v & Hv & Lv). destruct (hp_old _ _ _ _ _ P c v Vc Hv) as (v' & Hv' & X). exists v'. split; [exact Hv'|].
    destruct X as [->|[X _]]; lia. }
  constructor.
  - apply P.
  - intros k v Vk Hv. destruct (lookup1 h k) as [u|] eqn:Hu.
    + destruct (hp_old _ _ _ _ _ P k u Vk Hu) as (v' & Hv' & X). assert (v' = v) by congruence. subst v'. destruct X as [->|(_ & p & Sp & Cp & Ep)].
      * destruct (S1 k u Vk Hu) as (p & Bp & Cp & Ep). exists p. split; [now apply below_app|]. auto.
      * exists p. split; [|auto]. exists f. split; [apply in_or_app; right; now left|exact Sp].
    + destruct (hp_new _ _ _ _ _ P k v Vk Hv Hu) as (p & Sp & Cp & Ep). exists p. split; [|auto]. exists f. split; [apply in_or_app; right; now left|exact Sp].
  - intros g c Ig Cc. apply in_app_or in Ig as [Ig|[<-|[]]].
    + apply Old; [exact (child_V o s Wo W g c (Vs g Ig) Cc)|]. exact (R1 g c Ig Cc).
    + exact (hp_f _ _ _ _ _ P c Cc).
  - intros k v c Vk Hv Cc. destruct (lookup1 h k) as [u|] eqn:Hu.
    + apply Old; [exact (child_V o s Wo W k c Vk Cc)|]. exact (C1 k u c Vk Hu Cc).
    + exact (hp_done _ _ _ _ _ P k v c Vk Hv Hu Cc).
Qed.
Lemma keys_none (h : map1 Z) k : lookup1 h k = None -> ~ In k (map fst h).
Proof.
  induction h as [|[k' v] h IH]; cbn [lookup1 map fst]; intros H; [intros []|].
  destruct (eeq k k') eqn:Ek; [discriminate|]. intros [->|I]; [rewrite eeq_refl in Ek; discriminate|exact (IH H I)].
Qed.
Lemma keys_same (h : map1 Z) k v : map fst (update1 h k v) = map fst h.
Proof. induction h as [|[k' v'] h IH]; cbn [update1 map fst]; [reflexivity|]. destruct (eeq k k'); cbn [map fst]; [reflexivity|now rewrite IH]. Qed.
Lemma nd_highest fuel : forall h f h', NoDup (map fst h) -> highest_ref o fuel m h f = Some h' -> NoDup (map fst h').
Proof.
  induction fuel as [|fuel IH]; intros h f h' Nd; cbn [highest_ref]; [discriminate|].
  destruct (isconst f); [intros [= <-]; exact Nd|]. cbv zeta.
  assert (Vis : forall h k h1, NoDup (map fst h) ->
    match lookup1 h k with
    | Some v => Some (if (Z.of_N (idx o (eid f)) <? v)%Z then update1 h k (Z.of_N (idx o (eid f))) else h)
    | None => highest_ref o fuel m ((k, Z.of_N (idx o (eid f))) :: h) k
    end = Some h1 -> NoDup (map fst h1)).
  { intros g k h1 Ng. destruct (lookup1 g k) as [v|] eqn:Lk.
    - intros [= <-]. destruct (_ <? _)%Z; [rewrite keys_same|]; exact Ng.
    - apply IH. cbn [map fst]. constructor; [now apply keys_none|exact Ng]. }
  match goal with |- match ?x with _ => _ end = _ -> _ => destruct x as [h1|] eqn:E1 end; [|discriminate].
  intros E2. exact (Vis h1 _ h' (Vis h _ h1 Nd E1) E2).
Qed.
Lemma highest_all_spec fs : forall done h, (forall f, In f (done ++ fs) -> V f) -> hall h done -> NoDup (map fst h) ->
  exists h', highest_all o m h fs = Some h' /\ hall h' (done ++ fs) /\ NoDup (map fst h').
Proof.
  induction fs as [|f fs IH]; intros done h Vs H Nd; cbn [highest_all].
  - exists h. rewrite app_nil_r. auto.
  - assert (Vf : V f) by (apply Vs, in_or_app; right; now left).
    destruct (highest_spec o s Wo W (depth o) h f Vf (rank_depth o s f Vf) (ha_keys _ _ H)) as (h1 & E & P).
    fold m in E. rewrite E.
    assert (Vd : forall g, In g done -> V g) by (intros g Ig; apply Vs, in_or_app; now left).
    destruct (IH (done ++ [f]) h1) as (h' & E' & H' & N'); [rewrite <- app_assoc; exact Vs|exact (hall_step h done f h1 Vd Vf H P)|exact (nd_highest _ _ _ _ Nd E)|].
    exists h'. rewrite <- app_assoc in H'. auto.
Qed.
Lemma hall_nil : hall [] [].
Proof. constructor; try (intros; discriminate); intros k v []. Qed.

Definition isroot (fs : list edge) (x : edge) : bool := existsb (eeq x) fs.
Lemma isroot_iff fs x : (forall f, In f fs -> V f) -> V x -> (isroot fs x = true <-> In x fs).
Proof.
  intros Vs Vx. unfold isroot. rewrite existsb_exists. split.
  - intros (f & I & E). apply (eeq_iff o s W) in E; auto. now subst.
  - intros I. exists x. split; [exact I|apply eeq_refl].
Qed.
Definition refd (fs : list edge) (x : edge) (v : Z) : Prop :=
  (forall p, below fs p -> child p x -> (v <= lvl p)%Z) /\
  (if isroot fs x then v = (-1)%Z else exists p, below fs p /\ child p x /\ v = lvl p).

(** The roots go in front when there is no rehash. *)
Lemma add_roots_list fs : forall t, hn t + N.of_nat (length fs) < capacity (hx t) ->
  hl (add_roots t fs) = rev (map (fun f => (f, (-1)%Z)) fs) ++ hl t.
Proof.
  induction fs as [|f fs IH]; intros t L; [reflexivity|]. cbn [length] in L. unfold add_roots. cbn [fold_left]. fold (add_roots (hinsert t f (-1)%Z) fs).
  assert (E : hinsert t f (-1)%Z = HT ((f, (-1)%Z) :: hl t) (hn t + 1) (hx t)).
  { unfold hinsert. cbv zeta. destruct (N.leb_spec (capacity (hx t)) (hn t + 1)); [lia|reflexivity]. }
  rewrite E, IH; [|cbn [hn hx]; lia]. cbn [hl map rev]. now rewrite <- app_assoc.
Qed.
Lemma lookup_roots (h : map1 Z) x : forall l, lookup1 (map (fun f => (f, (-1)%Z)) l ++ h) x = if isroot l x then Some (-1)%Z else lookup1 h x.
Proof. induction l as [|f l IH]; [reflexivity|]. cbn [map app lookup1 isroot existsb]. destruct (eeq x f); [reflexivity|exact IH]. Qed.
Lemma isroot_rev l x : isroot (rev l) x = isroot l x.
Proof.
  unfold isroot. destruct (existsb (eeq x) l) eqn:E1.
  - apply existsb_exists in E1 as (f & I & E1). apply existsb_exists. exists f. split; [now apply in_rev in I|exact E1].
  - destruct (existsb (eeq x) (rev l)) eqn:E2; [|reflexivity]. apply existsb_exists in E2 as (f & I & E2). apply in_rev in I.
    assert (existsb (eeq x) l = true) by (apply existsb_exists; exists f; auto). congruence.
Qed.
Lemma refs_result fs E h : (forall f, In f fs -> V f) -> lists_edges s fs E -> N.of_nat (length E) + N.of_nat (length fs) < 1280 ->
  hall h fs -> NoDup (map fst h) ->
  keysV (hl (add_roots (filled h) fs)) /\ forall x, below fs x -> exists v, lookup1 (hl (add_roots (filled h) fs)) x = Some v /\ refd fs x v.
Proof.
  intros Vs [NE HE] Cap [Kh Snd Rt Cl] Nd.
  assert (Len : (length h <= length E)%nat).
  { rewrite <- (map_length fst h). apply NoDup_incl_length; [exact Nd|]. intros k Ik. apply HE.
    destruct (lookup1 h k) as [v|] eqn:Lk; [|now elim (keys_none h k Lk)].
    assert (Vk : V k). { apply in_map_iff in Ik as ([k' v'] & <- & Ik). exact (Kh k' v' Ik). }
    destruct (Snd k v Vk Lk) as (p & (f & If & Sp) & [Cp X] & _). exists f. split; [exact If|]. destruct X as [-> | ->]; now constructor. }
  assert (Ef : filled h = HT h (N.of_nat (length h)) 8).
  { unfold filled. cbv zeta. change (capacity 8) with 1280. destruct (N.ltb_spec (N.of_nat (length h)) 1280); [reflexivity|lia]. }
  rewrite Ef. rewrite add_roots_list by (cbn [hn hx]; change (capacity 8) with 1280; lia). cbn [hl].
  split.
  { intros k v I. apply in_app_or in I as [I|I]; [|exact (Kh k v I)]. apply in_rev in I. apply in_map_iff in I as (f & [= <- _] & If). auto. }
  rewrite <- map_rev.
  assert (Par : forall p x, below fs p -> child p x -> exists v, lookup1 h x = Some v /\ (v <= lvl p)%Z).
  { intros p x (f & If & Sp) Cx.
    assert (Q : p = f \/ exists v, lookup1 h p = Some v).
    { revert Sp. clear Cx x. induction 1 as [|y S IH C|y S IH C]; [now left| |].
      - right. assert (Cy : child y (thenof m y)) by (split; auto). destruct IH as [->|[v Hv]].
        + destruct (Rt f _ If Cy) as (v & Hv & _). eauto.
        + destruct (Cl y v _ (sub_V o s Wo W f y (Vs f If) S) Hv Cy) as (v' & Hv' & _). eauto.
      - right. assert (Cy : child y (elseof m y)) by (split; auto). destruct IH as [->|[v Hv]].
        + destruct (Rt f _ If Cy) as (v & Hv & _). eauto.
        + destruct (Cl y v _ (sub_V o s Wo W f y (Vs f If) S) Hv Cy) as (v' & Hv' & _). eauto. }
    destruct Q as [->|[v Hv]]; [exact (Rt f x If Cx)|]. exact (Cl p v x (sub_V o s Wo W f p (Vs f If) Sp) Hv Cx). }
  intros x Bx. pose proof (below_V o s Wo W fs x Vs Bx) as Vx. rewrite lookup_roots, isroot_rev.
  destruct (isroot fs x) eqn:Rx.
  - exists (-1)%Z. split; [reflexivity|]. split; [|now rewrite Rx]. intros p _ _. pose proof (lvl_nonneg o p). lia.
  - assert (Q : exists p, below fs p /\ child p x).
    { destruct Bx as (f & If & Sx). inversion Sx as [|y S C Ey|y S C Ey]; subst.
      - assert (isroot fs x = true) by (apply isroot_iff; auto). congruence.
      - exists y. split; [exists f; auto|split; auto].
      - exists y. split; [exists f; auto|split; auto]. }
    destruct Q as (p & Bp & Cp). destruct (Par p x Bp Cp) as (v & Hv & _). exists v. split; [exact Hv|]. split.
    + intros q Bq Cq. destruct (Par q x Bq Cq) as (v' & Hv' & Lv). congruence.
    + rewrite Rx. exact (Snd x v Vx Hv).
Qed.

(** ** Subtracting the references *)
Lemma dominated_all_spec fs all fc0 h0 : (forall f, In f all -> V f) ->
  (forall x, below all x -> exists v, lookup1 h0 x = Some v /\ (-2 < v)%Z) ->
  forall done fc h L, all = done ++ fs -> keysV h -> NoDup L -> (forall x, In x L -> below all x) ->
  (forall x, V x -> lookup1 h x = if in_dec edge_eq_dec x L then Some (-2)%Z else lookup1 h0 x) ->
  (forall k, fc k = (fc0 k - 2 * bumps h0 L k)%Z) -> (forall x, In x done -> In x L) -> (forall x c, In x L -> child x c -> In c L) ->
  exists fc' h' L', dominated_all o m fc h fs = Some (fc', h') /\ NoDup L' /\ (forall x, In x L' <-> below all x) /\
    forall k, fc' k = (fc0 k - 2 * bumps h0 L' k)%Z.
Proof.
  intros Va H0. induction fs as [|f fs IH]; intros done fc h L Ea Kh Nd Lb Hl Hf Hd Hc; cbn [dominated_all].
  - exists fc, h, L. rewrite app_nil_r in Ea. subst done. split; [reflexivity|]. split; [exact Nd|]. split; [|exact Hf].
    intros x. split; [apply Lb|]. intros (f & If & Sx). induction Sx as [|y S IHy C|y S IHy C]; [now apply Hd| |].
    + apply (Hc y); [exact IHy|split; auto].
    + apply (Hc y); [exact IHy|split; auto].
  - assert (If : In f all) by (rewrite Ea; apply in_or_app; right; now left).
    assert (Sb : forall x, sub m f x -> below all x) by (intros x Sx; exists f; auto).
    destruct (dominated_spec o s Wo W (depth o) fc h f (Va f If) (rank_depth o s f (Va f If)) Kh) as (fc1 & h1 & L1 & E1 & D1 & B1).
    { intros x Sx. rewrite Hl by exact (sub_V o s Wo W f x (Va f If) Sx). destruct (in_dec edge_eq_dec x L); [exists (-2)%Z; split; [reflexivity|lia]|].
      destruct (H0 x (Sb x Sx)) as (v & Hv & Lv). exists v. split; [exact Hv|lia]. }
    fold m in E1. rewrite E1.
    assert (O1 : forall x, In x L1 -> ~ In x L /\ lookup1 h x = lookup1 h0 x).
    { intros x Ix. destruct (dp_in _ _ _ _ _ D1 x Ix) as (Sx & v & Hv & Lv). rewrite Hl in * by exact (sub_V o s Wo W f x (Va f If) Sx).
      destruct (in_dec edge_eq_dec x L); [|auto]. injection Hv as <-. lia. }
    assert (L1' : forall x, V x -> lookup1 h1 x = if in_dec edge_eq_dec x (L ++ L1) then Some (-2)%Z else lookup1 h0 x).
    { intros x Vx. rewrite (dp_look _ _ _ _ _ D1 x Vx). destruct (in_dec edge_eq_dec x (L ++ L1)) as [I|N0]; destruct (in_dec edge_eq_dec x L1) as [I1|N1]; try reflexivity.
      - rewrite Hl by exact Vx. apply in_app_or in I as [I|I]; [|contradiction]. destruct (in_dec edge_eq_dec x L); [reflexivity|contradiction].
      - elim N0. apply in_or_app. now right.
      - rewrite Hl by exact Vx. destruct (in_dec edge_eq_dec x L) as [I|]; [|reflexivity]. elim N0. apply in_or_app. now left. }
    assert (Mark : forall x, below all x -> lookup1 h1 x = Some (-2)%Z -> In x (L ++ L1)).
    { intros x Bx Hx. rewrite L1' in Hx by exact (below_V o s Wo W all x Va Bx). destruct (in_dec edge_eq_dec x (L ++ L1)); [assumption|].
      destruct (H0 x Bx) as (v & Hv & Lv). rewrite Hv in Hx. injection Hx as ->. lia. }
    apply (IH (done ++ [f]) fc1 h1 (L ++ L1)).
    + rewrite <- app_assoc. exact Ea.
    + apply D1.
    + clear - Nd D1 O1. pose proof (dp_nd _ _ _ _ _ D1) as N1. induction Nd as [|a l Na Nl IHl]; [exact N1|]. cbn [app]. constructor.
      * intros I. apply in_app_or in I as [I|I]; [contradiction|]. destruct (O1 a I) as [Q _]. apply Q. now left.
      * apply IHl. intros x Ix. destruct (O1 x Ix) as [Q1 Q2]. split; [|exact Q2]. intros I. apply Q1. now right.
    + intros x I. apply in_app_or in I as [I|I]; [now apply Lb|]. apply Sb. now apply (dp_in _ _ _ _ _ D1).
    + exact L1'.
    + intros k. rewrite B1, Hf. unfold bumps. rewrite countb_app.
      rewrite (countb_ext _ (fun x => match lookup1 h0 x with Some v0 => (v0 =? Z.of_N k)%Z | None => false end) L1); [lia|].
      intros x I. now rewrite (proj2 (O1 x I)).
    + intros x I. apply in_app_or in I as [I|[<-|[]]]; [apply in_or_app; left; now apply Hd|]. apply Mark; [apply Sb; constructor|apply D1].
    + intros x c I Cc. apply in_app_or in I as [I|I]; [apply in_or_app; left; exact (Hc x c I Cc)|].
      assert (Sx : sub m f x) by now apply (dp_in _ _ _ _ _ D1).
      apply Mark; [apply Sb; destruct Cc as [C [-> | ->]]; now constructor|]. exact (dp_cl _ _ _ _ _ D1 x c I Cc).
Qed.

(** ** The profile *)
Definition cuts (fs : list edge) (i : N) (x : edge) : Prop :=
  i <= level o x /\ (In x fs \/ exists p, below fs p /\ child p x /\ idx o (eid p) < i).
Lemma function_profile_all_graph fs lc E : (forall f, In f fs -> V f) -> lists_edges s fs E ->
  N.of_nat (length E) + N.of_nat (length fs) < 1280 ->
  (forall k, lc k = N.of_nat (length (at_lvl o k E))) ->
  exists R, function_profile_all o m lc fs = Some R /\ R (N.of_nat (length (ord o))) = Z.of_N (lc (N.of_nat (length (ord o)))) /\
    forall i, i < N.of_nat (length (ord o)) ->
      exists L, NoDup L /\ (forall x, In x L <-> below fs x /\ cuts fs i x) /\
        R i = if lc i =? 0 then 0%Z else Z.of_nat (length L).
Proof.
  intros Vs LE Cap Hlc. pose proof LE as [NE SE]. unfold function_profile_all.
  set (n := length (ord o)) in *.
  destruct (highest_all_spec fs [] [] Vs hall_nil (NoDup_nil _)) as (h1 & E1 & H1 & N1). cbn [app] in H1. rewrite E1.
  destruct (refs_result fs E h1 Vs LE Cap H1 N1) as [Kh Hh]. set (h := hl (add_roots (filled h1) fs)) in *.
  assert (Vb : forall x, below fs x -> V x) by (intros x; exact (below_V o s Wo W fs x Vs)).
  destruct (dominated_all_spec fs fs (encode (N.of_nat n) lc) h Vs) with (done := @nil edge) (fc := encode (N.of_nat n) lc) (h := h) (L := @nil edge)
    as (fc & h' & L & ED & NL & HL & Bf).
  { intros x S. destruct (Hh x S) as (v & Hv & R1 & R2). exists v. split; auto. destruct (isroot fs x); [lia|].
    destruct R2 as (p & _ & _ & ->). pose proof (lvl_nonneg o p). lia. }
  { reflexivity. }
  { exact Kh. }
  { constructor. }
  { intros x []. }
  { intros x _. reflexivity. }
  { intros k. unfold bumps. rewrite countb_nil. lia. }
  { intros x []. }
  { intros x c []. }
  rewrite ED.
  set (hr := fun x => match lookup1 h x with Some v => v | None => (-5)%Z end).
  assert (Hr : forall x, below fs x -> refd fs x (hr x)).
  { intros x S. unfold hr. destruct (Hh x S) as (v & -> & R). auto. }
  assert (Hr0 : forall x, below fs x -> (-1 <= hr x < Z.of_N (level o x))%Z).
  { intros x S. destruct (Hr x S) as [R1 R2]. destruct (isroot fs x) eqn:Ex; [rewrite R2; lia|].
    destruct R2 as (p & Sp & Cp & ->). pose proof (child_level o s Wo W p x (Vb p Sp) Cp). unfold GraphFProf.lvl. lia. }
  assert (Bump : forall k, bumps h L k = countb (fun x => (hr x =? Z.of_N k)%Z) E).
  { intros k. unfold bumps. rewrite (countb_perm _ L E) by (auto; intros x; rewrite HL, SE; reflexivity).
    apply countb_ext. intros x _. unfold hr. destruct (lookup1 h x); auto. symmetry. apply Z.eqb_neq. lia. }
  assert (Lc : forall k, Z.of_N (lc k) = countb (fun x => level o x =? k) E).
  { intros k. rewrite Hlc, nat_N_Z. reflexivity. }
  assert (Fc : forall k, (N.to_nat k < n)%nat -> fc k = if lc k =? 0 then 1%Z else (2 * (Z.of_N (lc k) - countb (fun x => (hr x =? Z.of_N k)%Z) E))%Z).
  { intros k Hk. rewrite Bf, Bump. unfold encode. destruct (N.ltb_spec k (N.of_nat n)); [|lia].
    destruct (N.eqb_spec (lc k) 0) as [Z|Z]; [|lia].
    assert (Hz : forall x, In x E -> (hr x =? Z.of_N k)%Z = false).
    { intros x Ix. apply Z.eqb_neq. intros Eh. apply SE in Ix. destruct (Hr x Ix) as [_ R2].
      destruct (isroot fs x); [lia|]. destruct R2 as (p & Sp & [Cp _] & Ep). unfold GraphFProf.lvl in Ep.
      assert (Ek : level o p = k) by (unfold level; rewrite Cp; lia).
      pose proof (Lc k) as Lk. rewrite Z in Lk. unfold countb in Lk.
      assert (Ip : In p (filter (fun x => level o x =? k) E)) by (apply filter_In; split; [now apply SE|now apply N.eqb_eq]).
      destruct (filter (fun x => level o x =? k) E); [destruct Ip|simpl in Lk; lia]. }
    rewrite (countb_ext _ (fun _ => false)) by auto. unfold countb.
    replace (filter (fun _ : edge => false) E) with (@nil edge) by (clear; induction E; auto). simpl. lia. }
  assert (Fn : fc (N.of_nat n) = Z.of_N (lc (N.of_nat n))).
  { rewrite Bf, Bump. unfold encode. rewrite N.ltb_irrefl.
    assert (Hz : forall x, In x E -> (hr x =? Z.of_N (N.of_nat n))%Z = false).
    { intros x Ix. apply Z.eqb_neq. apply SE in Ix. destruct (Hr x Ix) as [_ R2].
      destruct (isroot fs x); [lia|]. destruct R2 as (p & Sp & [Cp _] & Ep). rewrite Ep. unfold GraphFProf.lvl.
      pose proof (level_lt o s Wo W p (Vb p Sp) Cp) as Lp. unfold level in Lp. rewrite Cp in Lp. fold n in Lp. lia. }
    rewrite (countb_ext _ (fun _ => false)) by auto. unfold countb.
    replace (filter (fun _ : edge => false) E) with (@nil edge) by (clear; induction E; auto). simpl. lia. }
  eexists. split; [reflexivity|]. split.
  { destruct (sum_up_spec n fc (fc (N.of_nat n))) as [A _].
    { intros j Hj. rewrite Fc by auto. destruct (lc j =? 0); eauto. }
    fold n. rewrite A by lia. exact Fn. }
  intros i Hi. exists (filter (fun x => (Z.of_N i <=? Z.of_N (level o x))%Z && (hr x <? Z.of_N i)%Z) E).
  split; [now apply NoDup_filter|]. split.
  - intros x. rewrite filter_In, SE, andb_true_iff, Z.leb_le, Z.ltb_lt. split.
    + intros (S & L1 & L2). split; auto. split; [lia|]. destruct (Hr x S) as [R1 R2].
      destruct (isroot fs x) eqn:Ex; [left; apply isroot_iff in Ex; auto|].
      destruct R2 as (p & Sp & Cp & Ep). right. exists p. split; auto. split; auto. unfold GraphFProf.lvl in Ep. lia.
    + intros (S & L1 & L2). split; auto. split; [lia|]. destruct (Hr x S) as [R1 R2]. destruct L2 as [Ix|(p & Sp & Cp & Lp)].
      * rewrite (proj2 (isroot_iff fs x Vs (Vb x S)) Ix) in R2. lia.
      * specialize (R1 p Sp Cp). unfold GraphFProf.lvl in R1. lia.
  - destruct (sum_up_spec n fc (fc (N.of_nat n))) as [_ B].
    { intros j Hj. rewrite Fc by auto. destruct (lc j =? 0); eauto. }
    rewrite B by lia. rewrite Fc by lia. destruct (lc i =? 0) eqn:Zi; [reflexivity|].
    destruct (Z.eqb_spec (2 * (Z.of_N (lc i) - countb (fun x => (hr x =? Z.of_N i)%Z) E)) 1) as [|_]; [lia|].
    rewrite fold_add, Fn, Lc.
    rewrite (map_ext_in _ (fun j => (countb (fun x => (Z.of_N (level o x) =? Z.of_nat j)%Z) E - countb (fun x => (hr x =? Z.of_nat j)%Z) E)%Z)).
    2:{ intros j Ij. apply in_seq in Ij. rewrite Fc by (rewrite Nat2N.id; lia). rewrite nat_N_Z.
        rewrite (countb_ext (fun x => (Z.of_N (level o x) =? Z.of_nat j)%Z) (fun x => level o x =? N.of_nat j)).
        2:{ intros x _. destruct (N.eqb_spec (level o x) (N.of_nat j)), (Z.eqb_spec (Z.of_N (level o x)) (Z.of_nat j)); auto; lia. }
        rewrite <- Lc. destruct (N.eqb_spec (lc (N.of_nat j)) 0) as [Z0|Z0].
        - rewrite Z.eqb_refl. specialize (Fc (N.of_nat j)). rewrite Nat2N.id, Z0, Bf, Bump in Fc. unfold encode in Fc.
          destruct (N.ltb_spec (N.of_nat j) (N.of_nat n)); [|lia]. rewrite Z0, nat_N_Z, N.eqb_refl in Fc. cbv beta iota in Fc. assert ((j < n)%nat) as Jn by lia. specialize (Fc Jn). lia.
        - destruct (Z.eqb_spec (2 * (Z.of_N (lc (N.of_nat j)) - countb (fun x => (hr x =? Z.of_nat j)%Z) E)) 1) as [|_]; [lia|].
          rewrite Z.mul_comm, Z.shiftr_div_pow2 by lia. change (2 ^ 1)%Z with 2%Z. now rewrite Z.div_mul by lia. }
    rewrite sum_sub, !range_count. replace (N.to_nat i + (n - N.to_nat i))%nat with n by lia.
    replace (Z.of_nat (N.to_nat i)) with (Z.of_N i) by lia.
    fold (countb (fun x => (Z.of_N i <=? Z.of_N (level o x))%Z && (hr x <? Z.of_N i)%Z) E).
    assert (All : forall x, In x E -> (-1 <= hr x < Z.of_N (level o x))%Z /\ (level o x <= N.of_nat n)).
    { intros x Ix. apply SE in Ix. split; auto. destruct (isconst x) eqn:Cx; [unfold level; rewrite Cx; fold n; lia|].
      pose proof (level_lt o s Wo W x (Vb x Ix) Cx) as Lx. fold n in Lx. lia. }
    clear - All Hi. induction E as [|x E IH]; [reflexivity|]. rewrite !countb_cons.
    assert (IH' := IH (fun y Iy => All y (or_intror Iy))). destruct (All x (or_introl eq_refl)) as [A1 A2].
    destruct (N.eqb_spec (level o x) (N.of_nat n)), (Z.leb_spec (Z.of_N i) (Z.of_N (level o x))), (Z.ltb_spec (Z.of_N (level o x)) (Z.of_nat n)),
      (Z.leb_spec (Z.of_N i) (hr x)), (Z.ltb_spec (hr x) (Z.of_nat n)), (Z.ltb_spec (hr x) (Z.of_N i)); cbn [andb]; lia.
Qed.
End Multi.
