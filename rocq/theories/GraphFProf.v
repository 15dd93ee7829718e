(** * Function profiles: the number of subfunctions at each level. *)
From Coq Require Import Permutation Sorted.
From Verif Require Import Base BFModel ITEModel MgrModel ApiModel StoreInv Own EngInv ApplyProof BinopProof ReduceProof
  EngineProof OpProof MultiProof QProof GCProof VarProof MInv ApiProof ApiOps ApiStruct GraphModel GraphProof GraphMarks.
Open Scope N_scope.

Definition countb {A} (p : A -> bool) (l : list A) : Z := Z.of_nat (length (filter p l)).
Lemma countb_nil {A} (p : A -> bool) : countb p [] = 0%Z.
Proof. reflexivity. Qed.
Lemma countb_cons {A} (p : A -> bool) x l : countb p (x :: l) = ((if p x then 1 else 0) + countb p l)%Z.
Proof. unfold countb. simpl. destruct (p x); simpl length; lia. Qed.
Lemma countb_app {A} (p : A -> bool) a b : countb p (a ++ b) = (countb p a + countb p b)%Z.
Proof. unfold countb. rewrite filter_app, app_length. lia. Qed.
Lemma countb_ext {A} (p q : A -> bool) l : (forall x, In x l -> p x = q x) -> countb p l = countb q l.
Proof. intros H. unfold countb. f_equal. f_equal. now apply filter_ext_in. Qed.
Lemma countb_perm {A} (p : A -> bool) a b : NoDup a -> NoDup b -> (forall x, In x a <-> In x b) -> countb p a = countb p b.
Proof.
  intros Na Nb H. unfold countb. f_equal. apply Permutation_length. apply NoDup_Permutation; try now apply NoDup_filter.
  intros x. rewrite !filter_In, H. reflexivity.
Qed.

Lemma edge_eq_dec (x y : edge) : {x = y} + {x <> y}.
Proof. decide equality; [apply bool_dec|apply N.eq_dec|apply N.eq_dec]. Qed.

Section FProf.
Variables (o : order) (s : store).
Hypothesis Wo : wfo o.
Hypothesis W : SWF o s.
Let m := mem s.
Notation V := (vedge (nodeR s)).

Definition keysV {A} (h : map1 A) : Prop := forall k v, In (k, v) h -> V k.
Lemma eeq_iff x y : V x -> V y -> (eeq x y = true <-> x = y).
Proof. intros Vx Vy. split; [apply (eeq_valid o s); auto|intros ->; apply eeq_refl]. Qed.
Definition eqb (x y : edge) : bool := if eeq x y then true else false.

Lemma lookup_insert {A} (h : map1 A) k v x : lookup1 ((k, v) :: h) x = if eeq x k then Some v else lookup1 h x.
Proof. reflexivity. Qed.
Lemma keys_update {A} (h : map1 A) k v : keysV h -> keysV (update1 h k v).
Proof.
  intros H. induction h as [|[k' v'] h IH]; simpl; auto. assert (Hh : keysV h) by (intros a b I; apply (H a b); now right).
  specialize (IH Hh).
  destruct (eeq k k'); intros a b [[= <- <-]|I].
  - apply (H k' v'). now left.
  - apply (Hh a b I).
  - apply (H k' v'). now left.
  - apply (IH a b I).
Qed.
Lemma lookup_update {A} (h : map1 A) k v x : V k -> V x -> keysV h -> lookup1 h k <> None ->
  lookup1 (update1 h k v) x = if eeq x k then Some v else lookup1 h x.
Proof.
  intros Vk Vx. induction h as [|[k' v'] h IH]; simpl; intros Kh Hk; [congruence|].
  assert (Vk' : V k') by (apply (Kh k' v'); now left). assert (Hh : keysV h) by (intros a b I; apply (Kh a b); now right).
  destruct (eeq k k') eqn:E.
  - apply eeq_iff in E; auto. subst k'. simpl. destruct (eeq x k); auto.
  - simpl. rewrite IH by auto. destruct (eeq x k') eqn:E1; auto. destruct (eeq x k) eqn:E2; auto.
    apply eeq_iff in E1, E2; auto. subst. now rewrite eeq_refl in E.
Qed.

(** ** The highest reference to each edge *)

Definition child (p c : edge) : Prop := isconst p = false /\ (c = thenof m p \/ c = elseof m p).
Definition lvl (x : edge) : Z := Z.of_N (idx o (eid x)).

Record hpost (h : map1 Z) (f : edge) (h' : map1 Z) : Prop := {
  hp_keys : keysV h';
  hp_old : forall k v, V k -> lookup1 h k = Some v -> exists v', lookup1 h' k = Some v' /\
     (v' = v \/ (v' < v)%Z /\ exists p, sub m f p /\ child p k /\ v' = lvl p);
  hp_new : forall k v, V k -> lookup1 h' k = Some v -> lookup1 h k = None -> exists p, sub m f p /\ child p k /\ v = lvl p;
  hp_f : forall c, child f c -> exists v, lookup1 h' c = Some v /\ (v <= lvl f)%Z;
  hp_done : forall k v c, V k -> lookup1 h' k = Some v -> lookup1 h k = None -> child k c -> exists v', lookup1 h' c = Some v' /\ (v' <= lvl k)%Z
}.

Lemma child_V p c : V p -> child p c -> V c.
Proof. intros Vp [C [-> | ->]]; apply (node_split o s Wo W p Vp C). Qed.

(** One visit of a child. *)
Lemma visit_spec fuel h f k :
  (forall h f, V f -> (rank o f < fuel)%nat -> keysV h -> exists h', highest_ref o fuel m h f = Some h' /\ hpost h f h') ->
  V f -> child f k -> (rank o k < fuel)%nat -> keysV h ->
  exists h', match lookup1 h k with
             | Some v => Some (if (lvl f <? v)%Z then update1 h k (lvl f) else h)
             | None => highest_ref o fuel m ((k, lvl f) :: h) k
             end = Some h' /\ keysV h' /\
    (forall x v, V x -> lookup1 h x = Some v -> exists v', lookup1 h' x = Some v' /\
       (v' = v \/ (v' < v)%Z /\ exists p, sub m f p /\ child p x /\ v' = lvl p)) /\
    (forall x v, V x -> lookup1 h' x = Some v -> lookup1 h x = None -> exists p, sub m f p /\ child p x /\ v = lvl p) /\
    (exists v, lookup1 h' k = Some v /\ (v <= lvl f)%Z) /\
    (forall x v c, V x -> lookup1 h' x = Some v -> lookup1 h x = None -> child x c -> exists v', lookup1 h' c = Some v' /\ (v' <= lvl x)%Z).
Proof.
  intros IH Vf Ch Rk Kh. pose proof (child_V f k Vf Ch) as Vk.
  assert (Sk : sub m f k) by (destruct Ch as [C [-> | ->]]; [apply sub_then|apply sub_else]; auto; constructor).
  destruct (lookup1 h k) as [v|] eqn:E.
  { destruct (Z.ltb_spec (lvl f) v) as [L|L].
    - eexists. split; [reflexivity|]. split; [now apply keys_update|].
      assert (Lu : forall x, V x -> lookup1 (update1 h k (lvl f)) x = if eeq x k then Some (lvl f) else lookup1 h x).
      { intros x Vx. apply lookup_update; auto. congruence. }
      split; [|split; [|split]].
      + intros x u Vx Hx. rewrite Lu by auto. destruct (eeq x k) eqn:Ex.
        * apply eeq_iff in Ex; auto. subst x. assert (u = v) by congruence. subst u. exists (lvl f). split; auto. right. split; auto. exists f. split; [constructor|auto].
        * exists u. auto.
      + intros x u Vx Hx Hn. rewrite Lu in Hx by auto. destruct (eeq x k) eqn:Ex; [|congruence].
        apply eeq_iff in Ex; auto. subst x. congruence.
      + exists (lvl f). rewrite Lu, eeq_refl by auto. split; auto. lia.
      + intros x u c Vx Hx Hn. rewrite Lu in Hx by auto. destruct (eeq x k) eqn:Ex; [|congruence].
        apply eeq_iff in Ex; auto. subst x. congruence.
    - eexists. split; [reflexivity|]. split; auto. split; [|split; [|split]].
      + intros x u Vx Hx. exists u. auto.
      + intros x u Vx Hx Hn. congruence.
      + exists v. split; auto.
      + intros x u c Vx Hx Hn. congruence. }
  destruct (IH ((k, lvl f) :: h) k Vk Rk) as (h' & E' & P).
  { intros a b [[= <- <-]|I]; auto. eapply Kh; eauto. }
  exists h'. split; auto. split; [apply P|].
  assert (Hk : exists v, lookup1 h' k = Some v /\ (v = lvl f \/ (v < lvl f)%Z /\ exists p, sub m k p /\ child p k /\ v = lvl p)).
  { apply (hp_old _ _ _ P k (lvl f) Vk). simpl. now rewrite eeq_refl. }
  split; [|split; [|split]].
  - intros x v Vx Hx.
    assert (Ex : eeq x k = false). { destruct (eeq x k) eqn:Ex; auto. apply eeq_iff in Ex; auto. congruence. }
    destruct (hp_old _ _ _ P x v Vx) as (v' & Hv & Cv); [simpl; now rewrite Ex|].
    exists v'. split; auto. destruct Cv as [|(Lv & p & Sp & Cp & Ep)]; auto. right. split; auto. exists p. split; auto. eapply sub_trans; eauto.
  - intros x v Vx Hx Hn. destruct (eeq x k) eqn:Ex.
    + apply eeq_iff in Ex; auto. subst x. destruct Hk as (v2 & Hv2 & C2). assert (v2 = v) by congruence. subst v2.
      destruct C2 as [->|(_ & p & Sp & Cp & Ep)]; [exists f; split; [constructor|auto]|]. exists p. split; auto. eapply sub_trans; eauto.
    + destruct (hp_new _ _ _ P x v Vx Hx) as (p & Sp & X); [simpl; now rewrite Ex|]. exists p. split; auto. eapply sub_trans; eauto.
  - destruct Hk as (v2 & Hv2 & C2). exists v2. split; auto. destruct C2 as [->|[? _]]; lia.
  - intros x v c Vx Hx Hn Cc. destruct (eeq x k) eqn:Ex.
    + apply eeq_iff in Ex; auto. subst x. now apply (hp_f _ _ _ P).
    + eapply (hp_done _ _ _ P x v); eauto. simpl. now rewrite Ex.
Qed.

Lemma highest_spec fuel : forall h f, V f -> (rank o f < fuel)%nat -> keysV h ->
  exists h', highest_ref o fuel m h f = Some h' /\ hpost h f h'.
Proof.
  induction fuel as [|fuel IH]; intros h f Vf Rf Kh; [lia|]. cbn [highest_ref].
  destruct (isconst f) eqn:C.
  { exists h. split; auto. split; auto.
    - intros k v _ H. eauto.
    - intros; congruence.
    - intros c [C' _]. congruence.
    - intros; congruence. }
  destruct (node_split o s Wo W f Vf C) as (N0 & I1 & I2 & V1 & V2 & G1 & G2 & R1 & R2). fold m in V1, V2, R1, R2.
  change (Z.of_N (idx o (eid f))) with (lvl f).
  assert (C1 : child f (thenof m f)) by (split; auto).
  assert (C2 : child f (elseof m f)) by (split; auto).
  destruct (visit_spec fuel h f (thenof m f)) as (h1 & E1 & K1 & A1 & A2 & A3 & A4); auto; [lia|].
  destruct (visit_spec fuel h1 f (elseof m f)) as (h2 & E2 & K2 & B1 & B2 & B3 & B4); auto; [lia|].
  cbv beta zeta. rewrite E1, E2. exists h2. split; auto.
  assert (Keep : forall c L, V c -> (exists v, lookup1 h1 c = Some v /\ (v <= L)%Z) -> exists v, lookup1 h2 c = Some v /\ (v <= L)%Z).
  { intros c L Vc (v & Hv & Lv). destruct (B1 c v Vc Hv) as (v' & Hv' & X). exists v'. split; auto. destruct X as [->|[Lt _]]; lia. }
  split; auto.
  - intros k v Vk H. destruct (A1 k v Vk H) as (v1 & H1 & X1). destruct (B1 k v1 Vk H1) as (v2 & H2 & X2).
    exists v2. split; auto. destruct X1 as [->|(L1 & X1)]; auto. destruct X2 as [->|(L2 & X2)]; auto. right. split; [lia|auto].
  - intros k v Vk H Hn. destruct (lookup1 h1 k) as [v1|] eqn:H1.
    + destruct (A2 k v1 Vk H1 Hn) as (p & X). destruct (B1 k v1 Vk H1) as (v2 & H2 & X2). assert (v2 = v) by congruence. subst v2.
      destruct X2 as [->|(_ & X2)]; eauto.
    + eauto.
  - intros c [_ [-> | ->]]; auto.
  - intros k v c Vk H Hn Cc. destruct (lookup1 h1 k) as [v1|] eqn:H1.
    + apply Keep; [eapply child_V; eauto|]. eapply A4; eauto.
    + eapply B4; eauto.
Qed.

(** The table holds, for every edge below [F], the highest level that refers to it. *)
Definition isref (F x : edge) (v : Z) : Prop :=
  (forall p, sub m F p -> child p x -> (v <= lvl p)%Z) /\
  (if eeq x F then v = (-1)%Z else exists p, sub m F p /\ child p x /\ v = lvl p).
Lemma lvl_nonneg x : (0 <= lvl x)%Z.
Proof. unfold lvl. lia. Qed.

Lemma highest_result F : V F -> exists h, highest_ref o (depth o) m [(F, (-1)%Z)] F = Some h /\ keysV h /\
  (forall x, sub m F x -> exists v, lookup1 h x = Some v /\ isref F x v).
Proof.
  intros VF. set (h0 := [(F, (-1)%Z)]).
  assert (L0 : forall x, lookup1 h0 x = if eeq x F then Some (-1)%Z else None) by reflexivity.
  destruct (highest_spec (depth o) h0 F VF) as (h & E & P); [eapply rank_depth; eauto|intros k v [[= <- <-]|[]]; auto|].
  exists h. split; auto. split; [apply P|].
  assert (HF : lookup1 h F = Some (-1)%Z).
  { destruct (hp_old _ _ _ P F (-1)%Z VF) as (v & Hv & Cv); [rewrite L0, eeq_refl; auto|].
    destruct Cv as [->|(L & p & _ & _ & ->)]; auto. pose proof (lvl_nonneg p). lia. }
  assert (Done : forall k v c, V k -> lookup1 h k = Some v -> child k c -> exists v', lookup1 h c = Some v' /\ (v' <= lvl k)%Z).
  { intros k v c Vk Hk Cc. destruct (eeq k F) eqn:Ek.
    - apply eeq_iff in Ek; auto. subst k. now apply (hp_f _ _ _ P).
    - eapply (hp_done _ _ _ P k v); eauto. now rewrite L0, Ek. }
  assert (All : forall x, sub m F x -> exists v, lookup1 h x = Some v).
  { induction 1 as [|x S [v Hv] C|x S [v Hv] C]; [eauto| |].
    - destruct (Done x v (thenof m x) (sub_V o s Wo W F x VF S) Hv) as (v' & Hv' & _); [split; auto|eauto].
    - destruct (Done x v (elseof m x) (sub_V o s Wo W F x VF S) Hv) as (v' & Hv' & _); [split; auto|eauto]. }
  intros x Sx. pose proof (sub_V o s Wo W F x VF Sx) as Vx. destruct (All x Sx) as [v Hv]. exists v. split; auto. split.
  - intros p Sp Cp. destruct (All p Sp) as [u Hu]. destruct (Done p u x (sub_V o s Wo W F p VF Sp) Hu Cp) as (v' & Hv' & Lv). congruence.
  - destruct (eeq x F) eqn:Ex.
    + apply eeq_iff in Ex; auto. subst x. congruence.
    + apply (hp_new _ _ _ P x v Vx Hv). now rewrite L0, Ex.
Qed.

(** ** Subtracting the references *)

Definition bumps (h : map1 Z) (L : list edge) (k : N) : Z :=
  countb (fun x => match lookup1 h x with Some v => (v =? Z.of_N k)%Z | None => false end) L.

Record dpost (h : map1 Z) (f : edge) (h' : map1 Z) (L : list edge) : Prop := {
  dp_keys : keysV h';
  dp_nd : NoDup L;
  dp_in : forall x, In x L -> sub m f x /\ exists v, lookup1 h x = Some v /\ (-2 < v)%Z;
  dp_look : forall x, V x -> lookup1 h' x = if in_dec edge_eq_dec x L then Some (-2)%Z else lookup1 h x;
  dp_f : lookup1 h' f = Some (-2)%Z;
  dp_cl : forall x c, In x L -> child x c -> lookup1 h' c = Some (-2)%Z
}.

Lemma dominated_spec fuel : forall fc h f, V f -> (rank o f < fuel)%nat -> keysV h ->
  (forall x, sub m f x -> exists v, lookup1 h x = Some v /\ (-2 <= v)%Z) ->
  exists fc' h' L, dominated_step fuel m fc h f = Some (fc', h') /\ dpost h f h' L /\
    forall k, fc' k = (fc k - 2 * bumps h L k)%Z.
Proof.
  induction fuel as [|fuel IH]; intros fc h f Vf Rf Kh Hs; [lia|]. cbn [dominated_step].
  destruct (Hs f (sub_top _ _)) as (v & Hv & Bv). rewrite Hv.
  destruct (Z.ltb_spec (-2) v) as [L|L].
  2:{ assert (v = -2)%Z by lia. subst v. exists fc, h, []. split; [reflexivity|]. split.
      - split; auto; [constructor|intros x []|intros x c []].
      - intros k. unfold bumps, countb. simpl. lia. }
  set (fc1 := if (0 <=? v)%Z then bumpz fc (Z.to_N v) (-2) else fc).
  assert (F1 : forall k, fc1 k = (fc k - (if (v =? Z.of_N k)%Z then 2 else 0))%Z).
  { intros k. unfold fc1. destruct (Z.leb_spec 0 v).
    - unfold bumpz, upd. destruct (N.eqb_spec k (Z.to_N v)) as [->|Ne].
      + rewrite Z2N.id, Z.eqb_refl by lia. lia.
      + destruct (Z.eqb_spec v (Z.of_N k)) as [->|]; [rewrite N2Z.id in Ne; congruence|lia].
    - destruct (Z.eqb_spec v (Z.of_N k)); lia. }
  set (h1 := update1 h f (-2)%Z).
  assert (Lu : forall x, V x -> lookup1 h1 x = if eeq x f then Some (-2)%Z else lookup1 h x).
  { intros x Vx. apply lookup_update; auto. congruence. }
  assert (K1 : keysV h1) by now apply keys_update.
  destruct (isconst f) eqn:C.
  { exists fc1, h1, [f]. split; auto. split.
    - split; auto.
      + constructor; [intros []|constructor].
      + intros x [<-|[]]. split; [constructor|]. eauto.
      + intros x Vx. rewrite Lu by auto. destruct (in_dec edge_eq_dec x [f]) as [[->|[]]|Ni]; [now rewrite eeq_refl|].
        destruct (eeq x f) eqn:E; auto. apply eeq_iff in E; auto. exfalso. apply Ni. now left.
      + rewrite Lu, eeq_refl by auto. auto.
      + intros x c [<-|[]] [C' _]. congruence.
    - intros k. rewrite F1. unfold bumps. rewrite countb_cons, Hv, countb_nil. destruct (v =? Z.of_N k)%Z; lia. }
  destruct (node_split o s Wo W f Vf C) as (N0 & I1 & I2 & V1 & V2 & G1 & G2 & R1 & R2). fold m in V1, V2, R1, R2, G1, G2.
  assert (T1 : forall x, sub m (thenof m f) x -> sub m f x) by (intros x S; eapply sub_trans; [|exact S]; apply sub_then; [constructor|auto]).
  assert (T2 : forall x, sub m (elseof m f) x -> sub m f x) by (intros x S; eapply sub_trans; [|exact S]; apply sub_else; [constructor|auto]).
  assert (Hs1 : forall x, sub m f x -> exists u, lookup1 h1 x = Some u /\ (-2 <= u)%Z).
  { intros x S. rewrite Lu by exact (sub_V o s Wo W f x Vf S). destruct (eeq x f); [exists (-2)%Z; split; auto; lia|auto]. }
  destruct (IH fc1 h1 (thenof m f)) as (fc2 & h2 & L1 & -> & D1 & B1); auto; [lia|].
  assert (Hs2 : forall x, sub m f x -> exists u, lookup1 h2 x = Some u /\ (-2 <= u)%Z).
  { intros x S. rewrite (dp_look _ _ _ _ D1) by exact (sub_V o s Wo W f x Vf S). destruct (in_dec edge_eq_dec x L1); [exists (-2)%Z; split; auto; lia|auto]. }
  destruct (IH fc2 h2 (elseof m f)) as (fc3 & h3 & L2 & -> & D2 & B2); auto; [lia|apply D1|].
  assert (N1 : ~ In f L1).
  { intros I. destruct (dp_in _ _ _ _ D1 f I) as (_ & u & Hu & Lu'). rewrite Lu, eeq_refl in Hu by auto. injection Hu as <-. lia. }
  assert (N2 : forall x, In x L2 -> ~ In x (f :: L1)).
  { intros x I J. assert (Vx : V x) by (destruct (dp_in _ _ _ _ D2 x I) as [S _]; exact (sub_V o s Wo W _ x V2 S)).
    destruct (dp_in _ _ _ _ D2 x I) as (_ & u & Hu & Lu'). rewrite (dp_look _ _ _ _ D1) in Hu by auto.
    destruct (in_dec edge_eq_dec x L1) as [|Nx]; [injection Hu as <-; lia|]. destruct J as [->|J]; [|auto].
    rewrite Lu, eeq_refl in Hu by auto. injection Hu as <-. lia. }
  assert (O1 : forall x, In x L1 -> lookup1 h1 x = lookup1 h x).
  { intros x I. destruct (dp_in _ _ _ _ D1 x I) as (S & _). pose proof (sub_V o s Wo W _ x V1 S) as Vx. rewrite Lu by auto.
    destruct (eeq x f) eqn:E; auto. apply eeq_iff in E; auto. subst x. contradiction. }
  assert (O2 : forall x, In x L2 -> lookup1 h2 x = lookup1 h x).
  { intros x I. destruct (dp_in _ _ _ _ D2 x I) as (S & _). pose proof (sub_V o s Wo W _ x V2 S) as Vx.
    specialize (N2 x I). rewrite (dp_look _ _ _ _ D1) by auto. destruct (in_dec edge_eq_dec x L1); [exfalso; apply N2; now right|].
    rewrite Lu by auto. destruct (eeq x f) eqn:E; auto. apply eeq_iff in E; auto. subst x. exfalso. apply N2. now left. }
  assert (Keep : forall x, V x -> lookup1 h2 x = Some (-2)%Z -> lookup1 h3 x = Some (-2)%Z).
  { intros x Vx H. rewrite (dp_look _ _ _ _ D2) by auto. destruct (in_dec edge_eq_dec x L2); auto. }
  exists fc3, h3, (f :: L1 ++ L2). split; auto. split.
  - split.
    + apply D2.
    + constructor; [|apply nodup_app; [apply D1|apply D2|intros x I J; apply (N2 x J); now right]].
      rewrite in_app_iff. intros [|I]; auto. apply (N2 f I). now left.
    + intros x [<-|I]; [split; [constructor|eauto]|]. apply in_app_iff in I as [I|I].
      * destruct (dp_in _ _ _ _ D1 x I) as (S & X). rewrite O1 in X by auto. auto.
      * destruct (dp_in _ _ _ _ D2 x I) as (S & X). rewrite O2 in X by auto. auto.
    + intros x Vx. rewrite (dp_look _ _ _ _ D2), (dp_look _ _ _ _ D1), Lu by auto.
      destruct (in_dec edge_eq_dec x (f :: L1 ++ L2)) as [[->|I]|I].
      * rewrite eeq_refl. destruct (in_dec edge_eq_dec x L2), (in_dec edge_eq_dec x L1); auto.
      * destruct (in_dec edge_eq_dec x L2); auto. destruct (in_dec edge_eq_dec x L1); auto. apply in_app_iff in I. tauto.
      * simpl in I. rewrite in_app_iff in I. destruct (in_dec edge_eq_dec x L2); [tauto|]. destruct (in_dec edge_eq_dec x L1); [tauto|].
        destruct (eeq x f) eqn:E; auto. apply eeq_iff in E; auto. subst x. tauto.
    + apply Keep; auto. rewrite (dp_look _ _ _ _ D1) by auto. destruct (in_dec edge_eq_dec f L1); auto. now rewrite Lu, eeq_refl by auto.
    + intros x c [<-|I] Cc.
      * destruct Cc as [_ [-> | ->]]; [apply Keep; [auto|apply D1]|apply D2].
      * apply in_app_iff in I as [I|I].
        -- apply Keep; [|eapply dp_cl; eauto]. destruct (dp_in _ _ _ _ D1 x I) as (S & _). exact (child_V x c (sub_V o s Wo W _ x V1 S) Cc).
        -- eapply dp_cl; eauto.
  - intros k. rewrite B2, B1, F1. unfold bumps. rewrite countb_cons, Hv, countb_app.
    rewrite (countb_ext _ (fun x => match lookup1 h x with Some v0 => (v0 =? Z.of_N k)%Z | None => false end) L1) by (intros x I; now rewrite O1).
    rewrite (countb_ext (fun x => match lookup1 h2 x with Some v0 => (v0 =? Z.of_N k)%Z | None => false end)
      (fun x => match lookup1 h x with Some v0 => (v0 =? Z.of_N k)%Z | None => false end) L2) by (intros x I; now rewrite O2).
    destruct (v =? Z.of_N k)%Z; lia.
Qed.

Lemma dominated_result F fc h : V F -> keysV h -> (forall x, sub m F x -> exists v, lookup1 h x = Some v /\ (-2 < v)%Z) ->
  exists fc' h' L, dominated_step (depth o) m fc h F = Some (fc', h') /\ NoDup L /\ (forall x, In x L <-> sub m F x) /\
    forall k, fc' k = (fc k - 2 * bumps h L k)%Z.
Proof.
  intros VF Kh Hs.
  destruct (dominated_spec (depth o) fc h F VF) as (fc' & h' & L & E & D & B); auto.
  { eapply rank_depth; eauto. }
  { intros x S. destruct (Hs x S) as (v & Hv & Lv). exists v. split; auto. lia. }
  exists fc', h', L. split; auto. split; [apply D|]. split; auto.
  intros x. split; [intros I; now apply (dp_in _ _ _ _ D)|].
  assert (Mark : forall x, sub m F x -> lookup1 h' x = Some (-2)%Z -> In x L).
  { intros y Sy Hy. rewrite (dp_look _ _ _ _ D) in Hy by exact (sub_V o s Wo W F y VF Sy).
    destruct (in_dec edge_eq_dec y L); auto. destruct (Hs y Sy) as (v & Hv & Lv). rewrite Hv in Hy. injection Hy as ->. lia. }
  induction 1 as [|x S IH C|x S IH C].
  - apply Mark; [constructor|apply D].
  - apply Mark; [now constructor|]. eapply dp_cl; eauto. split; auto.
  - apply Mark; [now constructor|]. eapply dp_cl; eauto. split; auto.
Qed.

(** ** Summing up *)

Lemma sum_up_spec n : forall fc acc, (forall i, (N.to_nat i < n)%nat -> fc i = 1%Z \/ exists v, fc i = (2 * v)%Z) ->
  let half i := if (fc i =? 1)%Z then 0%Z else Z.shiftr (fc i) 1 in
  let tot k := fold_right Z.add acc (map (fun j => half (N.of_nat j)) (seq k (n - k))) in
  (forall i, (n <= N.to_nat i)%nat -> sum_up n fc acc i = fc i) /\
  (forall i, (N.to_nat i < n)%nat -> sum_up n fc acc i = if (fc i =? 1)%Z then 0%Z else tot (N.to_nat i)).
Proof.
  induction n as [|n IH]; intros fc acc Hf half tot; [split; auto; intros; lia|].
  set (i := N.of_nat n).
  set (v := (half i + acc)%Z).
  assert (Eq : sum_up (S n) fc acc = sum_up n (upd fc i (if (fc i =? 1)%Z then 0%Z else v)) v).
  { unfold v, half, i. cbn [sum_up]. destruct (fc (N.of_nat n) =? 1)%Z; reflexivity. }
  rewrite Eq. clear Eq.
  set (fc1 := upd fc i (if (fc i =? 1)%Z then 0%Z else v)).
  assert (Same : forall j, N.to_nat j <> n -> fc1 j = fc j).
  { intros j Hj. unfold fc1. apply upd_other. intros ->. unfold i in Hj. rewrite Nat2N.id in Hj. auto. }
  destruct (IH fc1 v) as [A B].
  { intros j Hj. rewrite Same by lia. apply Hf. lia. }
  split.
  - intros j Hj. rewrite A by lia. apply Same. lia.
  - intros j Hj. destruct (Nat.eq_dec (N.to_nat j) n) as [Ej|Nj].
    + assert (j = i) by (unfold i; rewrite <- Ej, N2Nat.id; auto). subst j. rewrite A by lia. unfold fc1. rewrite upd_same.
      destruct (fc i =? 1)%Z; auto. unfold tot, v. rewrite Ej. replace (S n - n)%nat with 1%nat by lia. simpl. fold i. lia.
    + rewrite B by lia. rewrite Same by auto. destruct (fc j =? 1)%Z; auto. unfold tot.
      replace (S n - N.to_nat j)%nat with (n - N.to_nat j + 1)%nat by lia.
      rewrite seq_app, map_app, fold_right_app. replace (N.to_nat j + (n - N.to_nat j))%nat with n by lia. simpl. fold i.
      fold v. f_equal. apply map_ext_in. intros k Ik. apply in_seq in Ik. unfold half. rewrite Same by lia. reflexivity.
Qed.

Lemma fold_add (l : list Z) a : fold_right Z.add a l = (fold_right Z.add 0 l + a)%Z.
Proof. induction l; simpl; lia. Qed.
Lemma countb_add {A} (p q r : A -> bool) l : (forall x, ((if p x then 1 else 0) + (if q x then 1 else 0) = if r x then 1 else 0)%Z) ->
  (countb p l + countb q l = countb r l)%Z.
Proof. intros H. induction l as [|x l IH]; [reflexivity|]. rewrite !countb_cons. specialize (H x). lia. Qed.
Lemma range_count {A} (g : A -> Z) (l : list A) d : forall k,
  fold_right Z.add 0%Z (map (fun j => countb (fun x => (g x =? Z.of_nat j)%Z) l) (seq k d)) =
  countb (fun x => (Z.of_nat k <=? g x)%Z && (g x <? Z.of_nat (k + d))%Z) l.
Proof.
  induction d as [|d IH]; intros k; simpl.
  - rewrite (countb_ext _ (fun _ => false)).
    + unfold countb. induction l; auto.
    + intros x _. destruct (Z.leb_spec (Z.of_nat k) (g x)), (Z.ltb_spec (g x) (Z.of_nat (k + 0))); auto; lia.
  - rewrite IH. apply countb_add. intros x.
    destruct (Z.eqb_spec (g x) (Z.of_nat k)), (Z.leb_spec (Z.of_nat (S k)) (g x)), (Z.ltb_spec (g x) (Z.of_nat (S k + d))),
      (Z.leb_spec (Z.of_nat k) (g x)), (Z.ltb_spec (g x) (Z.of_nat (k + S d))); simpl; lia.
Qed.
Lemma sum_sub (a b : nat -> Z) l : fold_right Z.add 0%Z (map (fun j => (a j - b j)%Z) l) =
  (fold_right Z.add 0 (map a l) - fold_right Z.add 0 (map b l))%Z.
Proof. induction l; simpl; lia. Qed.

(** Edges that are reached from above level [i] and lie at level [i] or below. *)
Definition cut (F : edge) (i : N) (x : edge) : Prop :=
  i <= level o x /\ (x = F \/ exists p, sub m F p /\ child p x /\ idx o (eid p) < i).

Lemma level_lt x : V x -> isconst x = false -> level o x < N.of_nat (length (ord o)).
Proof.
  intros Vx C. unfold level. rewrite C. destruct (node_split o s Wo W x Vx C) as (_ & I & _). now apply (wfo_in o _ Wo).
Qed.
Lemma child_level p c : V p -> child p c -> idx o (eid p) < level o c.
Proof.
  intros Vp Ch. pose proof (child_V p c Vp Ch) as Vc. destruct Ch as [C X].
  destruct (node_split o s Wo W p Vp C) as (_ & I & _ & _ & _ & G1 & G2 & _). fold m in G1, G2. destruct (wfo_in o _ Wo I) as [_ L].
  unfold level. destruct (isconst c) eqn:Cc; auto. destruct X as [-> | ->]; auto.
Qed.

Lemma function_profile_graph F lc E : V F -> lists_edges s [F] E ->
  (forall k, lc k = N.of_nat (length (at_lvl o k E))) ->
  exists R, function_profile_of o m lc F = Some R /\
    forall i, i < N.of_nat (length (ord o)) ->
      exists L, NoDup L /\ (forall x, In x L <-> sub m F x /\ cut F i x) /\
        R i = if lc i =? 0 then 0%Z else Z.of_nat (length L).
Proof.
  intros VF [NE HE] Hlc. unfold function_profile_of.
  assert (SE : forall x, In x E <-> sub m F x).
  { intros x. rewrite HE. split; [intros (f & [<-|[]] & S); auto|intros S; exists F; split; [now left|auto]]. }
  destruct (highest_result F VF) as (h & -> & Kh & Hh).
  set (n := length (ord o)) in *.
  destruct (dominated_result F (encode (N.of_nat n) lc) h VF Kh) as (fc & h' & L & -> & NL & HL & Bf).
  { intros x S. destruct (Hh x S) as (v & Hv & R1 & R2). exists v. split; auto. destruct (eeq x F); [lia|].
    destruct R2 as (p & _ & _ & ->). pose proof (lvl_nonneg p). lia. }
  set (hr := fun x => match lookup1 h x with Some v => v | None => (-5)%Z end).
  assert (Hr : forall x, sub m F x -> isref F x (hr x)).
  { intros x S. unfold hr. destruct (Hh x S) as (v & -> & R). auto. }
  assert (Hr0 : forall x, sub m F x -> (-1 <= hr x < Z.of_N (level o x))%Z).
  { intros x S. destruct (Hr x S) as [R1 R2]. destruct (eeq x F) eqn:Ex; [rewrite R2; lia|].
    destruct R2 as (p & Sp & Cp & ->). pose proof (child_level p x (sub_V o s Wo W F p VF Sp) Cp). unfold lvl. lia. }
  assert (Bump : forall k, bumps h L k = countb (fun x => (hr x =? Z.of_N k)%Z) E).
  { intros k. unfold bumps. rewrite (countb_perm _ L E) by (auto; intros x; rewrite HL, SE; reflexivity).
    apply countb_ext. intros x _. unfold hr. destruct (lookup1 h x); auto. symmetry. apply Z.eqb_neq. lia. }
  assert (Lc : forall k, Z.of_N (lc k) = countb (fun x => level o x =? k) E).
  { intros k. rewrite Hlc, nat_N_Z. reflexivity. }
  assert (Fc : forall k, (N.to_nat k < n)%nat -> fc k = if lc k =? 0 then 1%Z else (2 * (Z.of_N (lc k) - countb (fun x => (hr x =? Z.of_N k)%Z) E))%Z).
  { intros k Hk. rewrite Bf, Bump. unfold encode. destruct (N.ltb_spec k (N.of_nat n)); [|lia].
    destruct (N.eqb_spec (lc k) 0) as [Z|Z]; [|lia].
    assert (Hz : forall x, In x E -> (hr x =? Z.of_N k)%Z = false).
    { intros x Ix. apply Z.eqb_neq. intros Eh. apply SE in Ix. destruct (Hr x Ix) as [_ R2].
      destruct (eeq x F); [lia|]. destruct R2 as (p & Sp & [Cp _] & Ep). unfold lvl in Ep.
      assert (Ek : level o p = k) by (unfold level; rewrite Cp; lia).
      pose proof (Lc k) as Lk. rewrite Z in Lk. unfold countb in Lk.
      assert (Ip : In p (filter (fun x => level o x =? k) E)) by (apply filter_In; split; [now apply SE|now apply N.eqb_eq]).
      destruct (filter (fun x => level o x =? k) E); [destruct Ip|simpl in Lk; lia]. }
    rewrite (countb_ext _ (fun _ => false)) by auto. unfold countb.
    replace (filter (fun _ : edge => false) E) with (@nil edge) by (clear; induction E; auto). simpl. lia. }
  assert (Fn : fc (N.of_nat n) = Z.of_N (lc (N.of_nat n))).
  { rewrite Bf, Bump. unfold encode. rewrite N.ltb_irrefl.
    assert (Hz : forall x, In x E -> (hr x =? Z.of_N (N.of_nat n))%Z = false).
    { intros x Ix. apply Z.eqb_neq. apply SE in Ix. destruct (Hr x Ix) as [_ R2].
      destruct (eeq x F); [lia|]. destruct R2 as (p & Sp & [Cp _] & Ep). rewrite Ep. unfold lvl.
      pose proof (level_lt p (sub_V o s Wo W F p VF Sp) Cp) as Lp. unfold level in Lp. rewrite Cp in Lp. fold n in Lp. lia. }
    rewrite (countb_ext _ (fun _ => false)) by auto. unfold countb.
    replace (filter (fun _ : edge => false) E) with (@nil edge) by (clear; induction E; auto). simpl. lia. }
  eexists. split; [reflexivity|].
  intros i Hi. exists (filter (fun x => (Z.of_N i <=? Z.of_N (level o x))%Z && (hr x <? Z.of_N i)%Z) E).
  split; [now apply NoDup_filter|]. split.
  - intros x. rewrite filter_In, SE, andb_true_iff, Z.leb_le, Z.ltb_lt. split.
    + intros (S & L1 & L2). split; auto. split; [lia|]. destruct (Hr x S) as [R1 R2].
      destruct (eeq x F) eqn:Ex; [left; apply eeq_iff in Ex; auto; exact (sub_V o s Wo W F x VF S)|].
      destruct R2 as (p & Sp & Cp & Ep). right. exists p. split; auto. split; auto. unfold lvl in Ep. lia.
    + intros (S & L1 & L2). split; auto. split; [lia|]. destruct (Hr x S) as [R1 R2]. destruct L2 as [->|(p & Sp & Cp & Lp)].
      * rewrite eeq_refl in R2. lia.
      * specialize (R1 p Sp Cp). unfold lvl in R1. lia.
  - destruct (sum_up_spec n fc (fc (N.of_nat n))) as [_ B].
    { intros j Hj. rewrite Fc by auto. destruct (lc j =? 0); eauto. }
    rewrite B by lia. rewrite Fc by lia. destruct (lc i =? 0) eqn:Zi; [reflexivity|].
    destruct (Z.eqb_spec (2 * (Z.of_N (lc i) - countb (fun x => (hr x =? Z.of_N i)%Z) E)) 1) as [|_]; [lia|].
    rewrite fold_add, Fn, Lc.
    rewrite (map_ext_in _ (fun j => (countb (fun x => (Z.of_N (level o x) =? Z.of_nat j)%Z) E - countb (fun x => (hr x =? Z.of_nat j)%Z) E)%Z)).
    2:{ intros j Ij. apply in_seq in Ij. rewrite Fc by (rewrite Nat2N.id; lia). rewrite nat_N_Z.
        rewrite (countb_ext (fun x => (Z.of_N (level o x) =? Z.of_nat j)%Z) (fun x => level o x =? N.of_nat j)).
        2:{ intros x _. destruct (N.eqb_spec (level o x) (N.of_nat j)), (Z.eqb_spec (Z.of_N (level o x)) (Z.of_nat j)); auto; lia. }
        rewrite <- Lc. destruct (N.eqb_spec (lc (N.of_nat j)) 0) as [Z0|Z0].
        - rewrite Z.eqb_refl. specialize (Fc (N.of_nat j)). rewrite Nat2N.id, Z0, Bf, Bump in Fc. unfold encode in Fc.
          destruct (N.ltb_spec (N.of_nat j) (N.of_nat n)); [|lia]. rewrite Z0, nat_N_Z, N.eqb_refl in Fc. cbv beta iota in Fc. assert ((j < n)%nat) as Jn by lia. specialize (Fc Jn). lia.
        - destruct (Z.eqb_spec (2 * (Z.of_N (lc (N.of_nat j)) - countb (fun x => (hr x =? Z.of_nat j)%Z) E)) 1) as [|_]; [lia|].
          rewrite Z.mul_comm, Z.shiftr_div_pow2 by lia. change (2 ^ 1)%Z with 2%Z. now rewrite Z.div_mul by lia. }
    rewrite sum_sub, !range_count. replace (N.to_nat i + (n - N.to_nat i))%nat with n by lia. rewrite Z_N_nat || idtac.
    replace (Z.of_nat (N.to_nat i)) with (Z.of_N i) by lia.
    fold (countb (fun x => (Z.of_N i <=? Z.of_N (level o x))%Z && (hr x <? Z.of_N i)%Z) E).
    assert (All : forall x, In x E -> (-1 <= hr x < Z.of_N (level o x))%Z /\ (level o x <= N.of_nat n)).
    { intros x Ix. apply SE in Ix. split; auto. destruct (isconst x) eqn:Cx; [unfold level; rewrite Cx; fold n; lia|].
      pose proof (level_lt x (sub_V o s Wo W F x VF Ix) Cx) as Lx. fold n in Lx. lia. }
    clear - All Hi. induction E as [|x E IH]; [reflexivity|]. rewrite !countb_cons.
    assert (IH' := IH (fun y Iy => All y (or_intror Iy))). destruct (All x (or_introl eq_refl)) as [A1 A2].
    destruct (N.eqb_spec (level o x) (N.of_nat n)), (Z.leb_spec (Z.of_N i) (Z.of_N (level o x))), (Z.ltb_spec (Z.of_N (level o x)) (Z.of_nat n)),
      (Z.leb_spec (Z.of_N i) (hr x)), (Z.ltb_spec (hr x) (Z.of_nat n)), (Z.ltb_spec (hr x) (Z.of_N i)); cbn [andb]; lia.
Qed.
End FProf.
