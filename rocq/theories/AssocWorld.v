(** * Associations in reachable worlds. *)
From Coq Require Import Permutation Sorted.
From Verif Require Import Base BFModel ITEModel MgrModel ApiModel StoreInv Own EngInv ApplyProof BinopProof ReduceProof EngineProof
  OpProof MultiProof QProof GCProof VarProof MInv ApiProof ApiOps ApiStruct ApiVar GraphModel GraphProof GraphCube GraphCall AssocModel
  AssocProof SpecApi SpecAssoc WorldProof ApiLemmas.

(** ** Functions of associations *)

(** [stands_for] with respect to the ghost denotation. *)
Definition sfor (D : den) (mp : N -> option edge) (S : substitution) : Prop :=
  forall i, both (fun e (F : bfun) => forall rho, dv D e rho = F rho) (mp i) (S i).
Definition adist (D : den) (m : mgr) : Prop :=
  forall a b, In a (massoc m) -> In b (massoc m) -> msame D (amap a) (amap b) -> aid a = aid b.
Definition cnt (j : N) (ids : list N) : N := N.of_nat (count_occ N.eq_dec ids j).
Definition held (m : mgr) (ids : list N) : Prop :=
  (forall a, In a (massoc m) -> arc a = cnt (aid a) ids) /\ (forall j, In j ids -> In j (map aid (massoc m))).

Lemma sfor_iff m hs lk D a S : MInv m hs lk D -> In a (mtemp m :: massoc m) -> (stands_for m (amap a) S <-> sfor D (amap a) S).
Proof.
  intros I Ia. assert (V : forall i e, amap a i = Some e -> forall rho b, ev (mmem m) rho e b <-> b = dv D e rho).
  { intros i e E rho b. apply (ev_iff (mo m) D (st (me m))); [apply I|eapply MI_swf; eauto|eapply MI_dok; eauto|].
    apply (ao_dom _ _ _ (mi_as _ _ _ _ I a Ia) i e E). }
  split; intros H i; specialize (H i); unfold both in *; destruct (amap a i) as [e|] eqn:E; destruct (S i) as [F|]; auto;
    intros rho; specialize (H rho); [apply (V i e E) in H; auto|apply (V i e E); auto].
Qed.
Lemma sfor_arel D D' a a' S : arel D D' a a' -> (sfor D (amap a) S <-> sfor D' (amap a') S).
Proof.
  intros (_ & _ & H). split; intros K i; specialize (H i); specialize (K i); unfold both in *;
    destruct (amap a i), (amap a' i), (S i); try tauto; intros rho; specialize (H rho); specialize (K rho); congruence.
Qed.
Lemma sfor_same D a b S T : sfor D a S -> sfor D b T -> (msame D a b <-> same_substitution S T).
Proof.
  intros A B. split; intros K i; specialize (A i); specialize (B i); specialize (K i); unfold both, same in *;
    destruct (a i), (b i), (S i), (T i); try tauto; intros rho; specialize (A rho); specialize (B rho); specialize (K rho); congruence.
Qed.
Lemma sfor_ex D a : exists S, sfor D a S.
Proof.
  exists (fun i => match a i with Some e => Some (fun rho => dv D e rho) | None => None end).
  intros i. unfold both. now destruct (a i).
Qed.
Lemma sfor_ext D a S T : sfor D a S -> same_substitution S T -> sfor D a T.
Proof.
  intros A B i. specialize (A i). specialize (B i). unfold both, same in *. destruct (a i), (S i), (T i); try tauto.
  intros rho. rewrite A. apply B.
Qed.

Lemma msame_arel D D' a a' b b' : arel D D' a a' -> arel D D' b b' -> msame D' (amap a') (amap b') -> msame D (amap a) (amap b).
Proof.
  intros (_ & _ & A) (_ & _ & B) H i. specialize (A i). specialize (B i). specialize (H i).
  destruct (amap a i), (amap a' i), (amap b i), (amap b' i); try tauto. intros rho. now rewrite <- A, <- B, H.
Qed.
Lemma Forall2_in_r {A B} (R : A -> B -> Prop) l k b : Forall2 R l k -> In b k -> exists a, In a l /\ R a b.
Proof. induction 1; simpl; [tauto|]. intros [<-|Ib]; [eauto|]. destruct (IHForall2 Ib) as (a & Ia & Ra). eauto. Qed.
Lemma Forall2_in_l {A B} (R : A -> B -> Prop) l k a : Forall2 R l k -> In a l -> exists b, In b k /\ R a b.
Proof. induction 1; simpl; [tauto|]. intros [<-|Ia]; [eauto|]. destruct (IHForall2 Ia) as (b & Ib & Rb). eauto. Qed.
Lemma arel_aids D D' l l' : Forall2 (arel D D') l l' -> map aid l' = map aid l.
Proof. induction 1 as [|a b l l' (E & _)]; simpl; congruence. Qed.

Lemma adist_rel D D' m m' : Forall2 (arel D D') (massoc m) (massoc m') -> adist D m -> adist D' m'.
Proof.
  intros F H a' b' Ia Ib M. destruct (Forall2_in_r _ _ _ _ F Ia) as (a & Ja & Ra). destruct (Forall2_in_r _ _ _ _ F Ib) as (b & Jb & Rb).
  rewrite (proj1 Ra), (proj1 Rb). apply (H a b Ja Jb). eapply msame_arel; eauto.
Qed.
Lemma held_rel D D' m m' ids : Forall2 (arel D D') (massoc m) (massoc m') -> held m ids -> held m' ids.
Proof.
  intros F [H1 H2]. split.
  - intros a' Ia. destruct (Forall2_in_r _ _ _ _ F Ia) as (a & Ja & (E1 & E2 & _)). rewrite E1, E2. auto.
  - intros j Ij. rewrite (arel_aids _ _ _ _ F). auto.
Qed.

(** Along a call, the associations keep their functions. *)
Lemma assoc_rel m hs lk D m' hs' lk' D' j S : MInv m hs lk D -> MInv m' hs' lk' D' -> Forall2 (arel D D') (massoc m) (massoc m') ->
  (assoc_means m j S <-> assoc_means m' j S).
Proof.
  intros I I' F. split; intros (a & Ia & Ea & Sa).
  - destruct (Forall2_in_l _ _ _ _ F Ia) as (b & Ib & Rb). exists b. split; auto. split; [destruct Rb; congruence|].
    apply (sfor_iff m' hs' lk' D'); [auto|now right|]. apply (sfor_arel D D' a b S Rb). apply (sfor_iff m hs lk D); auto. now right.
  - destruct (Forall2_in_r _ _ _ _ F Ia) as (b & Ib & Rb). exists b. split; auto. split; [destruct Rb; congruence|].
    apply (sfor_iff m hs lk D); [auto|now right|]. apply (sfor_arel D D' b a S Rb). apply (sfor_iff m' hs' lk' D'); auto. now right.
Qed.

Lemma aid_inj m hs lk D a b : MInv m hs lk D -> In a (massoc m) -> In b (massoc m) -> aid a = aid b -> a = b.
Proof.
  intros I Ia Ib E. pose proof (mi_srt _ _ _ _ I) as S. induction (massoc m) as [|c l IH]; [destruct Ia|].
  simpl in S. apply StronglySorted_inv in S as [S F]. rewrite Forall_forall in F.
  destruct Ia as [<-|Ia], Ib as [<-|Ib]; auto.
  - specialize (F (aid b) (in_map aid _ _ Ib)). lia.
  - specialize (F (aid a) (in_map aid _ _ Ia)). lia.
Qed.

Lemma cnt_cons j i ids : cnt j (i :: ids) = cnt j ids + (if i =? j then 1 else 0).
Proof. unfold cnt. simpl. destruct (N.eq_dec i j) as [->|E]; [rewrite N.eqb_refl; lia|]. destruct (N.eqb_spec i j); [congruence|lia]. Qed.
Lemma cnt_in j ids : cnt j ids <> 0 <-> In j ids.
Proof. unfold cnt. rewrite (count_occ_In N.eq_dec ids j). lia. Qed.
Lemma cnt_give_up j i ids : In j ids -> cnt i (give_up j ids) + (if i =? j then 1 else 0) = cnt i ids.
Proof.
  induction ids as [|k ids IH]; simpl; [tauto|]. intros H. destruct (N.eqb_spec k j) as [->|E].
  - rewrite cnt_cons. destruct (N.eqb_spec i j) as [->|Ei]; [now rewrite N.eqb_refl|]. destruct (N.eqb_spec j i); [congruence|lia].
  - rewrite !cnt_cons. destruct H as [->|H]; [congruence|]. specialize (IH H). lia.
Qed.
Lemma give_up_none j ids : ~ In j ids -> give_up j ids = ids.
Proof. induction ids as [|k ids IH]; simpl; auto. intros H. destruct (N.eqb_spec k j); [tauto|]. f_equal. apply IH. tauto. Qed.
Lemma give_up_in j i ids : i <> j -> (In i (give_up j ids) <-> In i ids).
Proof.
  intros E. induction ids as [|k ids IH]; simpl; [tauto|]. destruct (N.eqb_spec k j) as [->|F].
  - split; auto. intros [H|H]; [congruence|auto].
  - simpl. tauto.
Qed.

(** ** The invariant of worlds with associations *)
Definition HInv (w : world) (ids : list N) : Prop := exists D, MInv (wm w) (wh w) lk0 D /\ held (wm w) ids /\ adist D (wm w).

Lemma mid_in {A} (l1 : list A) p l2 a : In a (l1 ++ p :: l2) <-> a = p \/ In a (l1 ++ l2).
Proof. rewrite !in_app_iff. simpl. intuition congruence. Qed.

Lemma holding_inv w ids : holding w ids -> HInv w ids.
Proof.
  induction 1 as [|w w' ids _ (D & I & Hd & Ad) C|ds m hs l pr r m' ids _ (D & I & Hd & Ad) Ha Hn Hv Hr E|m hs j ids _ (D & I & Hd & Ad)].
  - exists D_init. split; [apply init_MInv|]. split; [split|]; simpl; try tauto. intros a b [].
  - destruct (call_next w w' lk0 D eq_refl C I) as (D' & I' & _ & F). exists D'. split; auto. split; [eapply held_rel; eauto|eapply adist_rel; eauto].
  - cbn [wm wh] in *. destruct (assoc_init_spec ds m hs lk0 D l pr I Ha Hr Hn Hv) as (m1 & D1 & I1 & X1 & R).
    assert (Hd1 : held m1 ids) by (eapply held_rel; [apply X1|auto]). assert (Ad1 : adist D1 m1) by (eapply adist_rel; [apply X1|auto]).
    destruct R as [[_ R]|(_ & mp & la & j & m2 & Hmp & R & I2 & _ & _ & _ & Sh)]; rewrite E in R; injection R as -> ->; exists D1; (split; [assumption|]).
    + split; auto.
    + destruct Hd1 as [Hd1 Hd2]. destruct Sh as [(l1 & p & l2 & E1 & Ej & Ms & E2)|(Nm & Nj & P)].
      * assert (S1 : forall a, In a (l1 ++ l2) -> aid a <> aid p) by (apply sorted_split; rewrite <- E1; apply I1).
        assert (Ip : In p (massoc m1)) by (rewrite E1; apply mid_in; auto).
        assert (Sub : forall a, In a (l1 ++ l2) -> In a (massoc m1)) by (intros; rewrite E1; apply mid_in; auto).
        assert (Ai : map aid (massoc m2) = map aid (massoc m1)) by (rewrite E2, E1, !map_app; reflexivity).
        split; [split|].
        -- cbn [wm]. intros a Ia. rewrite E2 in Ia. apply mid_in in Ia as [->|Ia]; cbn [aid arc]; rewrite cnt_cons.
           ++ rewrite Ej, N.eqb_refl, <- Ej. rewrite Hd1; auto.
           ++ specialize (S1 a Ia). destruct (N.eqb_spec j (aid a)); [congruence|]. rewrite Hd1; auto. lia.
        -- cbn [wm]. rewrite Ai. intros i [<-|Ii]; [|auto]. rewrite <- Ej. now apply in_map.
        -- cbn [wm]. intros a b Ia Ib M. rewrite E2 in Ia, Ib. apply mid_in in Ia, Ib.
           assert (G : forall x, x = A (aid p) (amap p) (alast p) (arc p + 1) \/ In x (l1 ++ l2) -> exists y, In y (massoc m1) /\ aid y = aid x /\ amap y = amap x).
           { intros x [->|Ix]; [exists p; auto|exists x; auto]. }
           destruct (G a Ia) as (a1 & Ja & Ea & Ma). destruct (G b Ib) as (b1 & Jb & Eb & Mb). rewrite <- Ea, <- Eb. apply Ad1; auto.
           now rewrite Ma, Mb.
      * assert (Al : forall a, In a (massoc m2) <-> a = A j mp la 1 \/ In a (massoc m1)).
        { intros a. split; [intros Ia; apply (Permutation_in a P) in Ia; simpl in Ia; intuition|]. intros Ia.
          apply (Permutation_in a (Permutation_sym P)). simpl. intuition. }
        assert (Nij : ~ In j ids) by (intros Ij; apply Hd2, in_map_iff in Ij as (a & Ea & Ia); now apply (Nj a)).
        split; [split|]; cbn [wm].
        -- intros a Ia. apply Al in Ia as [->|Ia]; cbn [aid arc]; rewrite cnt_cons.
           ++ rewrite N.eqb_refl. destruct (N.eq_dec (cnt j ids) 0) as [->|Nz]; [reflexivity|]. now apply cnt_in in Nz.
           ++ destruct (N.eqb_spec j (aid a)) as [Ej|]; [destruct (Nj a Ia (eq_sym Ej))|]. rewrite Hd1; auto. lia.
        -- intros i [<-|Ii].
           ++ apply in_map_iff. exists (A j mp la 1). split; auto. apply Al; auto.
           ++ apply Hd2, in_map_iff in Ii as (a & <- & Ia). apply in_map. apply Al; auto.
        -- intros a b Ia Ib M. apply Al in Ia as [->|Ia]; apply Al in Ib as [->|Ib]; auto.
           ++ exfalso. apply (Nm b Ib). intros i. specialize (M i). cbn [amap] in M. destruct (mp i), (amap b i); try tauto. intros rho. now rewrite M.
           ++ exfalso. now apply (Nm a Ia).
  - cbn [wm wh] in *. exists D. destruct (assoc_quit_spec m hs lk0 D j I) as [I1 _]. split; auto.
    destruct Hd as [Hd1 Hd2]. unfold cal_assoc_quit.
    set (c := match mcur m with Some _ => _ | None => _ end). change (massoc (set_mcur m c)) with (massoc m).
    destruct (quit_list j (massoc m)) as [[l r]|] eqn:Eq.
    + destruct (quit_spec _ _ _ Eq) as (l1 & p & l2 & E1 & Ej & Er).
      assert (S1 : forall a, In a (l1 ++ l2) -> aid a <> aid p) by (apply sorted_split; rewrite <- E1; apply I).
      assert (Ip : In p (massoc m)) by (rewrite E1; apply mid_in; auto).
      assert (Sub : forall a, In a (l1 ++ l2) -> In a (massoc m)) by (intros; rewrite E1; apply mid_in; auto).
      assert (Cp : arc p = cnt j ids) by (rewrite <- Ej; auto).
      assert (Ij : In j ids) by (apply cnt_in; pose proof (proj1 (proj1 (mi_rc _ _ _ _ I) p Ip)); lia).
      assert (C1 : forall i, i <> j -> cnt i (give_up j ids) = cnt i ids).
      { intros i Ni. pose proof (cnt_give_up j i ids Ij) as G. destruct (N.eqb_spec i j); [congruence|lia]. }
      assert (C2 : cnt j (give_up j ids) + 1 = cnt j ids) by (pose proof (cnt_give_up j j ids Ij) as G; now rewrite N.eqb_refl in G).
      destruct (N.eqb_spec (arc p) 1) as [R1|R1]; injection Er as -> ->; (split; [split|]); cbn [massoc set_massoc set_mca].
      * intros a Ia. rewrite (C1 (aid a)); [auto|]. rewrite <- Ej. auto.
      * intros i Ii. assert (Ni : i <> j) by (intros ->; apply cnt_in in Ii; lia). apply give_up_in in Ii; auto. apply Hd2 in Ii.
        rewrite E1 in Ii. apply in_map_iff in Ii as (a & <- & Ia). apply in_map. apply mid_in in Ia as [->|Ia]; [congruence|auto].
      * intros a b Ia Ib. cbn [massoc] in *. apply Ad; auto.
      * intros a Ia. apply mid_in in Ia as [->|Ia]; cbn [aid arc]; [rewrite Ej; lia|]. rewrite (C1 (aid a)); [auto|]. rewrite <- Ej. auto.
      * intros i Ii. assert (Ji : In i ids).
        { destruct (N.eq_dec i j) as [->|Ni]; [auto|]. now apply give_up_in in Ii. }
        apply Hd2 in Ji. rewrite E1, map_app in Ji.
        change (In i (map aid (l1 ++ A (aid p) (amap p) (alast p) (arc p - 1) :: l2))). rewrite map_app. exact Ji.
      * intros a b Ia Ib M. cbn [massoc] in Ia, Ib. apply mid_in in Ia, Ib.
        assert (G : forall x, x = A (aid p) (amap p) (alast p) (arc p - 1) \/ In x (l1 ++ l2) -> exists y, In y (massoc m) /\ aid y = aid x /\ amap y = amap x).
        { intros x [->|Ix]; [exists p; auto|exists x; auto]. }
        destruct (G a Ia) as (a1 & Ja & Ea & Ma). destruct (G b Ib) as (b1 & Jb & Eb & Mb). rewrite <- Ea, <- Eb. apply Ad; auto.
        now rewrite Ma, Mb.
    + assert (Nj : ~ In j ids) by (intros Ij; apply Hd2 in Ij; now apply (quit_none _ _ Eq)).
      rewrite (give_up_none j ids Nj). split; [split; auto|exact Ad].
Qed.

Lemma holding_reachable w ids : holding w ids -> reachable w.
Proof.
  induction 1; [constructor|eapply re_call; eauto|eapply re_step; [eauto|]|eapply re_step; [eauto|]].
  - eapply st_assoc_init; eauto.
  - apply st_assoc_quit.
Qed.
Lemma reachable_holding w : reachable w -> exists ids, holding w ids.
Proof.
  induction 1 as [|w w' _ [ids H] S]; [exists []; constructor|]. destruct S.
  - exists ids. eapply ho_call; eauto.
  - eexists. eapply ho_assoc_init; eauto.
  - eexists. apply ho_assoc_quit. eauto.
Qed.

(** ** What a list of handles describes *)

Lemma variable_iff m hs lk D h i : MInv m hs lk D -> In h hs -> (is_variable m h i <-> forall rho, hv m D h rho = rho i).
Proof. intros I Ih. apply (means_hv m hs lk D h (fun rho => rho i) I Ih). Qed.

Lemma assign_flip rho i b : forall j, assign rho i b j = flip rho i b j.
Proof. intros j. reflexivity. Qed.

Lemma top_iff m hs lk D h i : MInv m hs lk D -> In h hs -> isconst (uint (mmem m) h) = false ->
  (top_variable m h i <-> i = eid (uint (mmem m) h)).
Proof.
  intros I Ih C. destruct (top_depends m hs lk D h I Ih C) as (Io & (rho0 & Dt) & Db).
  set (t := eid (uint (mmem m) h)) in *. split.
  - intros (F & M & (rho & Hd) & Hb). rewrite (means_hv m hs lk D h F I Ih) in M.
    assert (Ii : In i (ord (mo m))).
    { destruct (in_dec N.eq_dec i (ord (mo m))) as [|Ni]; auto. exfalso. apply Hd. rewrite <- !M. unfold assign.
      apply (dv_agree (mo m) D (st (me m)) (mi_wfo _ _ _ _ I) (MI_swf _ _ _ _ I) (MI_dok _ _ _ _ I)); [eapply MI_int; eauto|].
      intros j Ij. destruct (N.eqb_spec j i); congruence. }
    destruct (N.lt_trichotomy (idx (mo m) i) (idx (mo m) t)) as [L|[E|L]].
    + exfalso. apply Hd. rewrite <- !M. change (hv m D h (flip rho i true) = hv m D h (flip rho i false)). now rewrite !Db by auto.
    + apply (wfo_inj (mo m)) in E; auto; apply I.
    + exfalso. apply (Hb t Io L). exists rho0. rewrite <- !M. exact Dt.
  - intros ->. exists (fun rho => hv m D h rho). split; [eapply means_self; eauto|]. split.
    + exists rho0. exact Dt.
    + intros j Ij L (rho & Hd). apply Hd. change (hv m D h (flip rho j true) = hv m D h (flip rho j false)). now rewrite !Db by auto.
Qed.

Lemma describes_lists m hs lk D pr l mp : MInv m hs lk D -> args hs l -> no_constants m pr l -> listable m D pr l ->
  distinct_variables pr l -> (forall i e, mp i = Some e <-> lists m D pr l i e) ->
  describes m pr l (fun i => match mp i with Some e => Some (fun rho => dv D e rho) | None => None end).
Proof.
  intros I Ha Hn Lo Dv Hmp. pose proof (alist_int m hs lk D pr l I Ha Hn) as Hc. unfold describes, lists, listable in *. destruct pr.
  - assert (Pi : forall p, In p (pairs l) -> In (fst p) hs /\ In (snd p) hs).
    { intros p Ip. destruct (pairs_in (S (length l)) l p (Nat.lt_succ_diag_r _) Ip); auto. }
    split.
    + intros p Ip. destruct (Lo p Ip) as [i Hi]. exists i. apply (variable_iff m hs lk D); auto. now apply Pi.
    + intros i. destruct (mp i) as [e|] eqn:E.
      * apply Hmp in E as (p & Ip & Hi & ->). destruct (Pi p Ip) as [P1 P2]. exists p. split; auto. split; [apply (variable_iff m hs lk D); auto|].
        eapply means_self; eauto.
      * intros p Ip V. destruct (Pi p Ip) as [P1 P2]. pose proof (proj1 (variable_iff m hs lk D _ _ I P1) V) as V'.
        assert (E2 : mp i = Some (uint (mmem m) (snd p))) by (apply Hmp; exists p; auto). congruence.
  - intros i. destruct (mp i) as [e|] eqn:E.
    + apply Hmp in E as (h & Ih & -> & ->). split; [intros rho; eapply dv_one; eapply MI_dok; eauto|]. exists h. split; auto.
      apply (top_iff m hs lk D); auto.
    + intros h Ih T. apply (proj1 (top_iff m hs lk D h i I (Ha h Ih) (Hc eq_refl h Ih))) in T. assert (E2 : mp i = Some one) by (apply Hmp; exists h; auto). congruence.
Qed.
(** A description is unique. *)
Lemma describes_unique m hs lk D pr l S T : MInv m hs lk D -> args hs l -> distinct_variables pr l ->
  describes m pr l S -> describes m pr l T -> same_substitution S T.
Proof.
  intros I Ha Dv HS HT. unfold describes in *. destruct pr.
  - assert (Pi : forall p, In p (pairs l) -> In (fst p) hs /\ In (snd p) hs).
    { intros p Ip. destruct (pairs_in (Datatypes.S (length l)) l p (Nat.lt_succ_diag_r _) Ip); auto. }
    destruct HS as [_ HS], HT as [_ HT]. intros i. specialize (HS i). specialize (HT i). unfold both.
    destruct (S i) as [F|], (T i) as [G|]; auto.
    + destruct HS as (p & Ip & Vp & Mp), HT as (q & Iq & Vq & Mq). destruct (Pi p Ip) as [P1 P2], (Pi q Iq) as [Q1 Q2].
      assert (E1 : ueq (fst p) (fst q) = true).
      { apply (handle_eq m hs lk D _ _ I P1 Q1). intros rho.
        transitivity (rho i); [exact (proj1 (variable_iff m hs lk D _ _ I P1) Vp rho)|symmetry; exact (proj1 (variable_iff m hs lk D _ _ I Q1) Vq rho)]. }
      assert (E2 : fst p = fst q).
      { unfold ueq in E1. apply andb_true_iff in E1 as [X1 X2]. apply N.eqb_eq in X1. apply Bool.eqb_prop in X2.
        destruct (fst p), (fst q). simpl in *. congruence. }
      assert (E3 : p = q).
      { specialize (Dv eq_refl). clear -Dv Ip Iq E2. induction (pairs l) as [|r k IH]; [destruct Ip|]. simpl in Dv.
        apply NoDup_cons_iff in Dv as [Nr Dv]. destruct Ip as [->|Ip], Iq as [Eq|Iq]; auto.
        - exfalso. apply Nr. rewrite E2. now apply in_map.
        - subst r. exfalso. apply Nr. rewrite <- E2. now apply in_map. }
      subst q. intros rho. transitivity (hv m D (snd p) rho); [symmetry; exact (proj1 (means_hv m hs lk D (snd p) F I P2) Mp rho)|].
      exact (proj1 (means_hv m hs lk D (snd p) G I P2) Mq rho).
    + destruct HS as (p & Ip & Vp & _). now apply (HT p Ip).
    + destruct HT as (p & Ip & Vp & _). now apply (HS p Ip).
  - intros i. specialize (HS i). specialize (HT i). unfold both. destruct (S i) as [F|], (T i) as [G|]; auto.
    + destruct HS as [H1 _], HT as [H2 _]. intros rho. now rewrite H1, H2.
    + destruct HS as (_ & h & Ih & Th). now apply (HT h).
    + destruct HT as (_ & h & Ih & Th). now apply (HS h).
Qed.
Lemma describes_listable m hs lk D l S : MInv m hs lk D -> args hs l -> describes m true l S -> listable m D true l.
Proof.
  intros I Ha [H _] p Ip. destruct (H p Ip) as [i Hi]. exists i. destruct (pairs_in (Datatypes.S (length l)) l p (Nat.lt_succ_diag_r _) Ip) as [P1 _].
  exact (proj1 (variable_iff m hs lk D _ _ I (Ha _ P1)) Hi).
Qed.

(** Descriptions do not change when the handles do not. *)
Lemma describes_same m m' hs pr l S : mo m' = mo m -> (forall h F, In h hs -> (means m h F <-> means m' h F)) -> args hs l ->
  describes m pr l S -> describes m' pr l S.
Proof.
  intros Eo K Ha. unfold describes. destruct pr.
  - assert (Pi : forall p, In p (pairs l) -> In (fst p) hs /\ In (snd p) hs).
    { intros p Ip. destruct (pairs_in (Datatypes.S (length l)) l p (Nat.lt_succ_diag_r _) Ip); auto. }
    intros [H1 H2]. split.
    + intros p Ip. destruct (H1 p Ip) as [i Hi]. exists i. apply K; auto. now apply Pi.
    + intros i. specialize (H2 i). destruct (S i).
      * destruct H2 as (p & Ip & V & M). exists p. split; auto. split; apply K; auto; now apply Pi.
      * intros p Ip V. apply (H2 p Ip). apply K; auto. now apply Pi.
  - assert (T : forall h i, In h l -> (top_variable m h i <-> top_variable m' h i)).
    { intros h i Ih. unfold top_variable. rewrite Eo. split; intros (F & M & R); exists F; (split; [apply (K h F (Ha h Ih)); exact M|exact R]). }
    intros H i. specialize (H i). destruct (S i).
    + destruct H as (H1 & h & Ih & H2). split; auto. exists h. split; auto. now apply T.
    + intros h Ih V. apply (H h Ih). now apply T.
Qed.

(** ** The theorems *)

Lemma hv_means m hs lk D m' D' h F : MInv m hs lk D -> MInv m' hs lk D' -> In h hs ->
  (forall rho, hv m' D' h rho = hv m D h rho) -> (means m h F <-> means m' h F).
Proof.
  intros I I' Ih K. rewrite (means_hv m hs lk D h F I Ih), (means_hv m' hs lk D' h F I' Ih).
  split; intros H rho; rewrite <- H; auto.
Qed.

Lemma W_assoc_none m hs D l : MInv m hs lk0 D -> args hs l -> forall m1 D1, MInv m1 hs lk0 D1 -> mext hs m D m1 D1 ->
  ~ listable m1 D1 true l -> exists p, In p (pairs l) /\ forall i, ~ is_variable m (fst p) i.
Proof.
  intros I Ha m1 D1 I1 X1 Nl.
      assert (Dec : forall p, In p (pairs l) -> (exists i, forall rho, hv m1 D1 (fst p) rho = rho i) \/ forall i, ~ is_variable m (fst p) i).
      { intros p Ip. destruct (pairs_in (S (length l)) l p (Nat.lt_succ_diag_r _) Ip) as [P1 _].
        pose proof (type_lit (mo m1) D1 (st (me m1)) (mi_wfo _ _ _ _ I1) (MI_swf _ _ _ _ I1) (MI_dok _ _ _ _ I1) _ true (MI_int _ _ _ _ (fst p) I1 (Ha _ P1))) as L. cbv iota in L.
        destruct (N.eq_dec (type_aux (mmem m1) (uint (mmem m1) (fst p))) TYPE_POSVAR) as [T|T].
        - left. destruct (proj1 L T) as [i Hi]. exists i. intros rho. rewrite Hi. now destruct (rho i).
        - right. intros i V. apply T, L. exists i. intros rho. pose proof (proj1 (variable_iff m hs lk0 D _ _ I (Ha _ P1)) V rho) as V1. cbv beta in V1.
          rewrite (mx_h _ _ _ _ _ X1) by auto. rewrite V1. now destruct (rho i). }
      unfold listable in Nl. clear -Nl Dec. induction (pairs l) as [|p k IH]; [elim Nl; intros ? []|].
      destruct (Dec p (or_introl eq_refl)) as [Y|N]; [|exists p; split; [now left|auto]].
      destruct IH as (q & Iq & Hq).
      * intros H. apply Nl. intros q [<-|Iq]; auto.
      * intros q Iq. apply Dec. now right.
      * exists q. split; [now right|auto].
Qed.

Theorem W_assoc_init w ds l pr : reachable w -> args (wh w) l -> no_constants (wm w) pr l -> distinct_variables pr l ->
  room_for_association (wm w) ->
  exists r m', cal_assoc_init ds (wm w) l pr = Ok (r, m') /\
    match r with
    | Some j => exists S, describes m' pr l S /\ assoc_means m' j S /\
        (forall i T, assoc_means (wm w) i T -> assoc_means m' i T /\ (i = j <-> same_substitution T S)) /\
        (forall i T, assoc_means m' i T -> i = j \/ assoc_means (wm w) i T)
    | None => pr = true /\ (exists p, In p (pairs l) /\ forall i, ~ is_variable (wm w) (fst p) i) /\
        forall i T, assoc_means (wm w) i T <-> assoc_means m' i T
    end.
Proof.
  intros R Ha Hn Dv Hr. destruct (reachable_holding w R) as [ids Ho]. destruct (holding_inv w ids Ho) as (D & I & Hd & Ad).
  destruct w as [m hs]. cbn [wm wh] in *.
  destruct (assoc_init_spec ds m hs lk0 D l pr I Ha Hr Hn Dv) as (m1 & D1 & I1 & X1 & [[Nl E]|(Lo & mp & la & j & m2 & Hmp & E & I2 & K2 & Eo & Ec & Sh)]).
  - exists None, m1. split; auto. split; [destruct pr; auto; elim Nl; exact Logic.I|]. split.
    + destruct pr; [|elim Nl; exact Logic.I]. exact (W_assoc_none m hs D l I Ha m1 D1 I1 X1 Nl).
    + intros i T. apply (assoc_rel m hs lk0 D m1 hs lk0 D1); auto. apply X1.
  - exists (Some j), m2. split; auto.
    set (S := fun i => match mp i with Some e => Some (fun rho => dv D1 e rho) | None => None end : option bfun).
    assert (SS : sfor D1 mp S) by (intros i; unfold S, both; now destruct (mp i)).
    assert (Ad1 : adist D1 m1) by (eapply adist_rel; [apply X1|auto]).
    assert (Hn1 : no_constants m1 pr l) by (apply (alist_mext m hs lk0 D m1 D1 pr l I I1 X1 Ha Hn)).
    exists S. split.
    { apply (describes_same m1 m2 hs pr l S Eo); auto.
      - intros h F Ih. apply (hv_means m1 hs lk0 D1 m2 D1 h F I1 I2 Ih). auto.
      - apply (describes_lists m1 hs lk0 D1 pr l mp I1); auto. }
    assert (T1 : forall i T, assoc_means m i T <-> assoc_means m1 i T).
    { intros i T. apply (assoc_rel m hs lk0 D m1 hs lk0 D1); auto. apply X1. }
    assert (U1 : forall i T, assoc_means m1 i T <-> exists a, In a (massoc m1) /\ aid a = i /\ sfor D1 (amap a) T).
    { intros i T. split; intros (a & Ia & Ea & Sa); exists a; (split; [auto|]); (split; [auto|]); apply (sfor_iff m1 hs lk0 D1); auto; now right. }
    assert (U2 : forall i T, assoc_means m2 i T <-> exists a, In a (massoc m2) /\ aid a = i /\ sfor D1 (amap a) T).
    { intros i T. split; intros (a & Ia & Ea & Sa); exists a; (split; [auto|]); (split; [auto|]); apply (sfor_iff m2 hs lk0 D1); auto; now right. }
    destruct Sh as [(l1 & p & l2 & E1 & Ej & Ms & E2)|(Nm & Nj & P)].
    + assert (Ip : In p (massoc m1)) by (rewrite E1; apply mid_in; auto).
      assert (Sp : sfor D1 (amap p) S).
      { intros i. specialize (Ms i). specialize (SS i). unfold both in *. destruct (amap p i), (mp i), (S i); try tauto. intros rho. rewrite Ms. auto. }
      assert (Both : forall i T, (exists a, In a (massoc m1) /\ aid a = i /\ sfor D1 (amap a) T) <-> (exists a, In a (massoc m2) /\ aid a = i /\ sfor D1 (amap a) T)).
      { intros i T. split.
        - intros (a & Ia & Ea & Sa). rewrite E1 in Ia. apply mid_in in Ia as [->|Ia].
          + exists (A (aid p) (amap p) (alast p) (arc p + 1)). split; [rewrite E2; apply mid_in; auto|auto].
          + exists a. split; [rewrite E2; apply mid_in; auto|auto].
        - intros (a & Ia & Ea & Sa). rewrite E2 in Ia. apply mid_in in Ia as [->|Ia].
          + exists p. auto.
          + exists a. split; [rewrite E1; apply mid_in; auto|auto]. }
      split; [apply U2, Both; exists p; auto|]. split.
      * intros i T HT. apply T1 in HT. split; [apply U2, Both, U1, HT|]. apply U1 in HT as (a & Ia & Ea & Sa). split.
        -- intros ->. assert (a = p) by (apply (aid_inj m1 hs lk0 D1 a p I1 Ia Ip); congruence). subst a.
           apply (sfor_same D1 (amap p) (amap p) T S Sa Sp). intros k. destruct (amap p k); auto.
        -- intros Hs. rewrite <- Ea, <- Ej. apply Ad1; auto. apply (sfor_same D1 (amap a) (amap p) T S Sa Sp). exact Hs.
      * intros i T HT. right. apply T1, U1, Both, U2, HT.
    + assert (Al : forall a, In a (massoc m2) <-> a = A j mp la 1 \/ In a (massoc m1)).
      { intros a. split; [intros Ia; apply (Permutation_in a P) in Ia; simpl in Ia; intuition|]. intros Ia.
        apply (Permutation_in a (Permutation_sym P)). simpl. intuition. }
      split; [apply U2; exists (A j mp la 1); split; [apply Al; auto|auto]|]. split.
      * intros i T HT. apply T1, U1 in HT. destruct HT as (a & Ia & Ea & Sa). split; [apply U2; exists a; split; [apply Al; auto|auto]|]. split.
        -- intros ->. now elim (Nj a Ia).
        -- intros Hs. exfalso. apply (Nm a Ia). apply (sfor_same D1 (amap a) mp T S Sa SS). exact Hs.
      * intros i T HT. apply U2 in HT as (a & Ia & Ea & Sa). apply Al in Ia as [->|Ia]; [left; symmetry; exact Ea|].
        right. apply T1, U1. exists a. auto.
Qed.

Theorem W_lifetime w ids j : holding w ids -> ((exists S, assoc_means (wm w) j S) <-> In j ids).
Proof.
  intros H. destruct (holding_inv w ids H) as (D & I & [Hd1 Hd2] & _). split.
  - intros (S & a & Ia & <- & _). apply cnt_in. rewrite <- Hd1 by auto. pose proof (proj1 (proj1 (mi_rc _ _ _ _ I) a Ia)). lia.
  - intros Ij. apply Hd2, in_map_iff in Ij as (a & <- & Ia). destruct (sfor_ex D (amap a)) as [S HS]. exists S, a. split; auto. split; auto.
    apply (sfor_iff (wm w) (wh w) lk0 D); auto. now right.
Qed.

Theorem W_assoc_kept w w' j S : reachable w -> step w w' -> assoc_means (wm w) j S -> (exists T, assoc_means (wm w') j T) ->
  assoc_means (wm w') j S.
Proof.
  intros R St HS HT. destruct (reachable_inv w R) as [D I]. destruct St.
  - destruct (call_next w w' lk0 D eq_refl H I) as (D' & I' & _ & F). apply (assoc_rel (wm w) (wh w) lk0 D (wm w') (wh w') lk0 D'); auto.
  - destruct (W_assoc_init (World m hs) ds l pr R H H0 H1 H2) as (r' & m2 & E & K). cbn [wm wh] in *. rewrite H3 in E. injection E as <- <-.
    destruct r as [i|]; [destruct K as (S0 & K0 & K1 & K & K2); now apply K|destruct K as (_ & _ & K); now apply K].
  - cbn [wm wh] in *. destruct (assoc_quit_spec m hs lk0 D id I) as [I1 _].
    destruct HS as (a & Ia & Ea & Sa). apply (sfor_iff m hs lk0 D) in Sa; [|auto|now right].
    assert (G : forall b, In b (massoc (cal_assoc_quit m id)) -> exists c, In c (massoc m) /\ aid c = aid b /\ amap c = amap b).
    { intros b. unfold cal_assoc_quit. set (c := match mcur m with Some _ => _ | None => _ end). change (massoc (set_mcur m c)) with (massoc m).
      destruct (quit_list id (massoc m)) as [[l r]|] eqn:Eq; [|exists b; auto].
      destruct (quit_spec _ _ _ Eq) as (l1 & p & l2 & E1 & Ej & Er).
      destruct (N.eqb_spec (arc p) 1); injection Er as -> ->; cbn [massoc set_massoc set_mca]; intros Ib.
      - exists b. split; auto. rewrite E1. apply mid_in. auto.
      - change (In b (l1 ++ A (aid p) (amap p) (alast p) (arc p - 1) :: l2)) in Ib. apply mid_in in Ib as [->|Ib].
        + exists p. split; auto. rewrite E1. apply mid_in. auto.
        + exists b. split; auto. rewrite E1. apply mid_in. auto. }
    destruct HT as (T & b & Ib & Eb & _). destruct (G b Ib) as (c & Ic & Ec & Mc).
    assert (a = c) by (apply (aid_inj m hs lk0 D a c I Ia Ic); congruence). subst c.
    exists b. split; auto. split; auto. apply (sfor_iff _ hs lk0 D _ _ I1); [now right|]. now rewrite <- Mc.
Qed.

Theorem W_set_current w ids j : holding w ids ->
  exists m', cal_assoc_set_current (wm w) (Some j) = (mcur (wm w), m') /\
    (In j ids -> mcur m' = Some j) /\ (~ In j ids -> mcur m' = None) /\
    forall i S, assoc_means m' i S <-> assoc_means (wm w) i S.
Proof.
  intros H. destruct (holding_inv w ids H) as (D & I & [Hd1 Hd2] & _). eexists. split; [reflexivity|].
  assert (X : existsb (fun a => aid a =? j) (massoc (wm w)) = true <-> In j ids).
  { rewrite existsb_exists. split.
    - intros (a & Ia & Ea). apply N.eqb_eq in Ea. subst j. apply cnt_in. rewrite <- Hd1 by auto. pose proof (proj1 (proj1 (mi_rc _ _ _ _ I) a Ia)). lia.
    - intros Ij. apply Hd2, in_map_iff in Ij as (a & <- & Ia). exists a. split; auto. apply N.eqb_refl. }
  destruct (existsb _ _).
  - split; [reflexivity|]. split; [intros N; elim N; now apply X|]. intros i S. reflexivity.
  - split; [intros Y; apply X in Y; discriminate|]. split; [reflexivity|]. intros i S. reflexivity.
Qed.

Theorem W_last w a : reachable w -> In a (mtemp (wm w) :: massoc (wm w)) ->
  last_position (ord (mo (wm w))) (fun i => amap a i <> None) (alast a).
Proof.
  intros R Ia. destruct (reachable_inv w R) as [D I]. destruct (mi_as _ _ _ _ I a Ia) as [B1 B2 B3].
  pose proof (mi_wfo _ _ _ _ I) as Wo. split.
  - intros k i E N. destruct (amap a i) as [e|] eqn:Ea; [|congruence]. specialize (B2 i e Ea).
    assert (idx (mo (wm w)) i = N.of_nat k) by (now apply (wfo_idx _ Wo)). lia.
  - destruct B3 as [B3|(i & e & E1 & E2)]; auto. right.
    exists (N.to_nat (idx (mo (wm w)) i)), i. split; [exact (wfo_nth _ i Wo (proj1 (B1 i e E1)))|]. split; [congruence|]. lia.
Qed.

(** ** The temporary association *)
Lemma sfor_override D mp0 mp S0 S : sfor D mp0 S0 -> sfor D mp S ->
  sfor D (fun i => match mp i with Some e => Some e | None => mp0 i end) (override S0 S).
Proof.
  intros H0 H i. specialize (H0 i). specialize (H i). unfold override, both in *. destruct (mp i), (S i); tauto.
Qed.
Lemma sfor_pointwise D mp mp' S : (forall i, mp i = mp' i) -> sfor D mp S -> sfor D mp' S.
Proof. intros E H i. specialize (H i). now rewrite <- E. Qed.

Theorem W_augment w ds l pr S0 : reachable w -> args (wh w) l -> no_constants (wm w) pr l -> distinct_variables pr l ->
  temp_means (wm w) S0 ->
  exists m', cal_temp_augment ds (wm w) l pr = Ok m' /\
    ((exists S, describes m' pr l S /\ temp_means m' (override S0 S)) \/
     (pr = true /\ (exists p, In p (pairs l) /\ forall i, ~ is_variable (wm w) (fst p) i) /\ temp_means m' S0)).
Proof.
  intros R Ha Hn Dv T0. destruct (reachable_inv w R) as [D I]. destruct w as [m hs]. cbn [wm wh] in *.
  destruct (temp_augment_full ds m hs lk0 D l pr I Ha Hn) as (m1 & D1 & m2 & I1 & X1 & E & I2 & K2 & Es & Eo & Ca).
  exists m2. split; auto.
  assert (Te : sfor D1 (amap (mtemp m1)) S0).
  { apply (sfor_arel D D1 (mtemp m) (mtemp m1) S0 (mx_tmp _ _ _ _ _ X1)). apply (sfor_iff m hs lk0 D); auto. now left. }
  destruct Ca as [[Nl ->]|[Lo Em]].
  - right. destruct pr; [|elim Nl; exact Logic.I]. split; auto. split.
    + destruct (W_assoc_none m hs D l I Ha m1 D1 I1 X1 Nl) as (p & Ip & Hp). exists p. auto.
    + apply (sfor_iff m1 hs lk0 D1); auto. now left.
  - left. pose proof (alist_mext m hs lk0 D m1 D1 pr l I I1 X1 Ha Hn) as Hn1. pose proof (alist_int m1 hs lk0 D1 pr l I1 Ha Hn1) as Hc.
    pose proof (list_map m1 hs lk0 D1 pr l I1 Ha Hc Lo Dv) as LM. cbv zeta in LM.
    set (mp := fold_left assoc_put (assoc_list (mmem m1) pr l) (fun _ => None)) in *.
    set (S := fun i => match mp i with Some e => Some (fun rho => dv D1 e rho) | None => None end : option bfun).
    assert (SS : sfor D1 mp S) by (intros i; unfold S, both; now destruct (mp i)).
    exists S. split.
    + apply (describes_same m1 m2 hs pr l S Eo); auto.
      * intros h F Ih. apply (hv_means m1 hs lk0 D1 m2 D1 h F I1 I2 Ih). auto.
      * apply (describes_lists m1 hs lk0 D1 pr l mp I1); auto.
    + apply (sfor_iff m2 hs lk0 D1); [auto|now left|]. eapply sfor_pointwise; [|apply (sfor_override D1 _ _ _ _ Te SS)].
      intros i. rewrite Em, put_override. reflexivity.
Qed.
