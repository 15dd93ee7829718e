(** * C++ handle objects: proofs. *)
From Coq Require Import Permutation.
From Verif Require Import Base BFModel ITEModel MgrModel ApiModel StoreInv Own EngInv ApplyProof BinopProof ReduceProof EngineProof OpProof MultiProof QProof GCProof MInv ApiProof SpecApi WorldProof ApiLemmas Client
  CppModel SpecCpp.

(** ** User nodes are only referred to by handles *)
Lemma user_count m hs lk D b : MInv m hs lk D -> (forall a, lk a = 0) -> In b (ut (st (me m)) 0) -> b <> muone m ->
  cr (mmem m b) = 255 \/ cr (mmem m b) = hcnt hs b.
Proof.
  intros I Lk Ib Nb. destruct (mi_q _ _ _ _ I) as (own & L & EI & R).
  pose proof (ei_acc _ _ _ _ EI) as A. pose proof (ei_swf _ _ _ _ EI) as W.
  assert (Cb : counted own b) by (left; exists 0; now apply (acc_node _ _ _ _ A)).
  assert (Nv : forall z, vedge (nodeR (st (me m))) z -> eptr z <> b).
  { intros z [[_ P]|[Nz Rz]] Ez.
    - rewrite Ez in P. subst b. pose proof (swf_addr _ _ W _ _ Ib). unfold ONE in *. lia.
    - red in Rz. rewrite Ez in Rz. apply Nz. symmetry. eapply (swf_disj _ _ W); eauto. }
  destruct (rc_cnt _ _ _ _ _ _ R b Cb) as [E|E]; [left; exact E|right].
  rewrite E, occ_zero.
  - unfold xr. rewrite Lk. replace (asum _ _ b) with 0.
    + unfold perm. destruct (existsb (N.eqb b) _) eqn:X; [|lia]. exfalso. apply existsb_exists in X as (c & Ic & Ec).
      apply N.eqb_eq in Ec. subst c. destruct Ic as [Ic|Ic]; [auto|]. apply in_map_iff in Ic as (i & Ei & Ii).
      destruct (mi_var _ _ _ _ I i Ii) as (_ & V & _). rewrite Ei in V. assert (0 = i) by (eapply (swf_disj _ _ W); eauto). subst i.
      apply (mi_ids _ _ _ _ I) in Ii. lia.
    + symmetry. assert (H : forall l, (forall a, In a l -> AOk (mo m) (st (me m)) a) -> asum (ord (mo m)) l b = 0).
      { induction l as [|a l IH]; simpl; intros H; auto. rewrite IH by auto. rewrite N.add_0_r.
        assert (Ha := H a (or_introl eq_refl)). clear -Ha Nv. induction (ord (mo m)) as [|i ids IH]; simpl; auto. rewrite IH.
        destruct (amap a i) as [e|] eqn:Ee; auto. destruct (N.eqb_spec (eptr e) b); auto. exfalso. apply (Nv e); auto. apply (ao_dom _ _ _ Ha i e Ee). }
      apply H. exact (mi_as _ _ _ _ I).
  - intros a Ia. unfold idn. apply (rc_L _ _ _ _ _ _ R) in Ia as [(j & Oc)|(d & j & _ & [] & _)].
    apply (acc_node _ _ _ _ A) in Oc. destruct (N.eq_dec j 0) as [->|Nj].
    + destruct (swf_user _ _ W a Oc) as (V & -> & _). split; [now apply Nv|]. apply Nv, vedge_one.
    + destruct (swf_node _ _ W j a Nj Oc). split; now apply Nv.
Qed.

(** ** Objects *)
Lemma held_cons n h os : held_handles ((n, h) :: os) = own [h] (held_handles os).
Proof. unfold held_handles. simpl. destruct (uisnull h); auto. Qed.
Lemma held_app news os : held_handles (news ++ os) = own (map snd news) (held_handles os).
Proof. induction news as [|(n, h) news IH]; auto. simpl app. rewrite held_cons. simpl. now rewrite IH. Qed.
Lemma held_null n os : obj_get n os = Some unull -> held_handles (obj_drop n os) = held_handles os.
Proof.
  induction os as [|(k, x) os IH]; simpl; [discriminate|]. destruct (Nat.eqb_spec k n) as [->|Nk].
  - intros [= ->]. rewrite held_cons. reflexivity.
  - intros H. rewrite !held_cons. simpl own. rewrite IH; auto.
Qed.
Lemma held_split n h os : obj_get n os = Some h -> uisnull h = false -> Permutation (held_handles os) (h :: held_handles (obj_drop n os)).
Proof.
  induction os as [|(k, x) os IH]; simpl; [discriminate|]. destruct (Nat.eqb_spec k n) as [->|Nk].
  - intros [= ->] Hn. rewrite held_cons. simpl. now rewrite Hn.
  - intros H Hn. rewrite !held_cons. simpl own. destruct (uisnull x); [auto|]. rewrite (IH H Hn) at 1. apply perm_swap.
Qed.
Lemma held_set n h old os : obj_get n os = Some old -> Permutation (held_handles (obj_set n h os)) (own [h] (held_handles (obj_drop n os))).
Proof.
  induction os as [|(k, x) os IH]; simpl; [discriminate|]. destruct (Nat.eqb_spec k n) as [->|Nk].
  - intros _. rewrite held_cons. reflexivity.
  - intros H. rewrite !held_cons. simpl own. specialize (IH H). simpl in IH. destruct (uisnull x), (uisnull h); auto.
    rewrite IH. apply perm_swap.
Qed.
Lemma isnull_eq h : uisnull h = true -> h = unull.
Proof. destruct h as [p b]. unfold uisnull. simpl. intros H. apply andb_true_iff in H as [H1 H2]. apply N.eqb_eq in H1. destruct b; [discriminate|]. now subst. Qed.
Lemma get_held n h os : obj_get n os = Some h -> uisnull h = false -> In h (held_handles os).
Proof. intros H Hn. eapply Permutation_in; [symmetry; eapply held_split; eauto|]. now left. Qed.

(** ** Every C++ program is a C client that owns the handles of its live objects *)
Notation wof c := (World (fst c) (held_handles (snd c))).

Lemma re_perm m hs hs' : reachable (World m hs) -> Permutation hs hs' -> reachable (World m hs').
Proof. intros R P. eapply re_call; [exact R|]. now apply st_perm. Qed.
Lemma re_unfree m hs h : reachable (World m hs) -> uisnull h = true \/ In h hs -> reachable (World (bdd_unfree m h) (own [h] hs)).
Proof.
  intros R H. unfold bdd_unfree. simpl. destruct (uisnull h) eqn:N; auto. destruct H as [H|H]; [discriminate|].
  eapply re_call; [exact R|]. apply st_unfree with (h := h); auto. unfold cal_unfree. now rewrite N.
Qed.
Lemma re_release m os n h : reachable (World m (held_handles os)) -> obj_get n os = Some h -> reachable (World (bdd_free m h) (held_handles (obj_drop n os))).
Proof.
  intros R G. unfold bdd_free. destruct (uisnull h) eqn:N.
  - rewrite held_null; auto. now rewrite G, (isnull_eq h N).
  - eapply re_call; [eapply re_perm; [exact R|exact (held_split n h os G N)]|]. apply st_free. unfold cal_free. now rewrite N.
Qed.
Lemma get_set n k h os : obj_get n (obj_set k h os) = if Nat.eqb n k then match obj_get n os with Some _ => Some h | None => None end else obj_get n os.
Proof.
  induction os as [|(j, x) os IH]; simpl; [now destruct (Nat.eqb n k)|].
  destruct (Nat.eqb_spec j k) as [->|Njk]; simpl.
  - destruct (Nat.eqb_spec k n) as [->|Nkn]; [now rewrite Nat.eqb_refl|]. destruct (Nat.eqb_spec n k); [congruence|reflexivity].
  - destruct (Nat.eqb_spec j n) as [->|Njn]; auto. destruct (Nat.eqb_spec n k); [congruence|reflexivity].
Qed.

Lemma get_drop n k os : n <> k -> obj_get k (obj_drop n os) = obj_get k os.
Proof.
  intros Nk. induction os as [|(j, x) os IH]; simpl; auto. destruct (Nat.eqb_spec j n) as [->|Nj]; simpl.
  - destruct (Nat.eqb_spec n k); [congruence|reflexivity].
  - destruct (Nat.eqb j k); auto.
Qed.

Lemma set_same k h os : obj_get k os = Some h -> obj_set k h os = os.
Proof.
  induction os as [|(j, x) os IH]; simpl; auto. destruct (Nat.eqb j k); intros H; [now injection H as ->|]. now rewrite IH.
Qed.
Lemma drop_set k h os : obj_drop k (obj_set k h os) = obj_drop k os.
Proof.
  induction os as [|(j, x) os IH]; simpl; auto. destruct (Nat.eqb j k) eqn:E; simpl; rewrite E; auto. now rewrite IH.
Qed.
Lemma cstep_reachable c c' : reachable (wof c) -> cstep c c' -> reachable (wof c').
Proof.
  intros IH. destruct 1 as [c n F|c n k c' F E|c n k c' E|c n k c' F E|c n k c' E|c n c' E|c n k c' F E|m os news m' F ND S].
  - unfold cpp_default. cbn [fst snd]. rewrite held_cons. exact IH.
  - unfold cpp_copy in E. destruct (obj_get k (snd c)) as [h|] eqn:G; [|discriminate]. injection E as <-. cbn [fst snd]. rewrite held_cons.
    apply re_unfree; auto. destruct (uisnull h) eqn:N; auto. right. eapply get_held; eauto.
  - unfold cpp_assign in E. destruct (obj_get n (snd c)) as [old|] eqn:G; [|discriminate].
    destruct (obj_get k (snd c)) as [h|] eqn:Gk; [|discriminate]. injection E as <-. cbn [fst snd].
    destruct (Nat.eq_dec n k) as [->|Nk].
    + (* self-assignment *)
      assert (Eh : old = h) by congruence. subst old. unfold bdd_free, bdd_unfree.
      rewrite (set_same _ _ _ G). destruct (uisnull h) eqn:N; auto.
      eapply re_call; [exact IH|]. eapply (st_refree (fst c) (held_handles (snd c)) h); [eapply get_held; eauto| |]; unfold cal_free, cal_unfree; now rewrite N.
    + eapply re_perm; [|symmetry; eapply held_set; eauto]. apply re_unfree; [now apply re_release|].
      destruct (uisnull h) eqn:N; auto. right. apply (get_held k); auto. now rewrite get_drop.
  - unfold cpp_move in E. destruct (obj_get k (snd c)) as [h|] eqn:G; [|discriminate]. injection E as <-. cbn [fst snd]. rewrite held_cons.
    eapply re_perm; [exact IH|]. simpl. pose proof (held_set k unull h (snd c) G) as Hs. simpl in Hs.
    destruct (uisnull h) eqn:N.
    + rewrite Hs. rewrite held_null; [reflexivity|]. now rewrite G, (isnull_eq h N).
    + rewrite Hs. now apply held_split.
  - unfold cpp_move_assign in E. destruct (obj_get n (snd c)) as [old|] eqn:G; [|discriminate].
    destruct (obj_get k (snd c)) as [h|] eqn:Gk; [|discriminate]. injection E as <-. cbn [fst snd].
    pose proof (re_release _ _ _ _ IH G) as R1. destruct (Nat.eq_dec n k) as [->|Nk].
    + assert (Eh : old = h) by congruence. subst old. rewrite (set_same _ _ _ G). eapply re_perm; [exact R1|]. symmetry.
      exact (held_set k unull h (snd c) G).
    + eapply re_perm; [exact R1|].
      assert (Gk' : obj_get k (obj_set n h (snd c)) = Some h) by (rewrite get_set; destruct (Nat.eqb_spec k n); [congruence|auto]).
      assert (Gkd : obj_get k (obj_drop n (snd c)) = Some h) by (now rewrite get_drop).
      pose proof (held_set k unull h _ Gk') as H1. simpl in H1. rewrite H1.
      pose proof (held_set n h old (snd c) G) as H2. simpl in H2.
      destruct (uisnull h) eqn:N.
      * rewrite (held_null k (obj_set n h (snd c))) by (now rewrite Gk', (isnull_eq h N)). now symmetry.
      * pose proof (held_split k h _ Gk' N) as H3. rewrite H2 in H3. apply Permutation_cons_inv in H3. exact H3.
  - unfold cpp_destroy in E. destruct (obj_get n (snd c)) as [h|] eqn:G; [|discriminate]. injection E as <-. cbn [fst snd]. now apply re_release.
  - unfold cpp_regular in E. destruct (obj_get k (snd c)) as [h|] eqn:G; [|discriminate]. injection E as <-. cbn [fst snd]. rewrite held_cons.
    unfold bdd_unfree. simpl own. destruct (uisnull h) eqn:N.
    + rewrite (isnull_eq h N). exact IH.
    + assert (Ih := get_held k h (snd c) G N).
      assert (Nr : uisnull (cal_regular h) = false).
      { destruct (WorldProof.reachable_inv _ IH) as [D I]. pose proof (mi_hs _ _ _ _ I h Ih) as U. unfold uok in U.
        pose proof (swf_addr _ _ (QS_swf _ _ _ _ (mi_q _ _ _ _ I)) _ _ U). unfold uisnull, cal_regular. simpl.
        destruct (N.eqb_spec (uptr h) 0); [lia|reflexivity]. }
      rewrite Nr. pose proof (re_unfree _ _ h IH (or_intror Ih)) as R1. simpl in R1. rewrite N in R1. unfold bdd_unfree in R1. rewrite N in R1.
      exact (re_call _ _ R1 (st_retag (uinc (fst c) h) (held_handles (snd c)) h false)).
  - cbn [fst snd] in IH |- *. rewrite held_app. eapply re_step; eauto.
Qed.
Theorem program_reachable c : program c -> reachable (wof c).
Proof. induction 1 as [|c c' P IH S]; [constructor|]. eapply cstep_reachable; eauto. Qed.

Lemma holders_hcnt os h : holders os h = hcnt (held_handles os) (uptr h).
Proof.
  unfold holders. induction os as [|(n, k) os IH]; auto. rewrite held_cons. simpl own. simpl filter.
  destruct (uisnull k); simpl; [exact IH|]. destruct (uptr k =? uptr h); simpl; [rewrite <- IH; simpl length; lia|exact IH].
Qed.
Theorem refcount_exact c n h : program c -> obj_get n (snd c) = Some h -> uisnull h = false -> cal_isconst (fst c) h = false ->
  exists r, cpp_refcount c n = Some r /\ (r = 255 \/ r = holders (snd c) h).
Proof.
  intros P G N Nc. unfold cpp_refcount. rewrite G, N. eexists. split; [reflexivity|].
  pose proof (program_reachable c P) as R. destruct (WorldProof.reachable_inv _ R) as [D I]. cbn [wm wh] in I.
  rewrite holders_hcnt. eapply user_count; [exact I|intros; reflexivity| |].
  - apply (mi_hs _ _ _ _ I h). eapply get_held; eauto.
  - intros E. unfold cal_isconst, cal_isone, cal_iszero, cal_one, cal_zero, ueq in Nc. simpl in Nc. rewrite E, N.eqb_refl in Nc.
    simpl in Nc. destruct (uneg h); discriminate.
Qed.
(** ** No object dangles *)
Theorem object_means c n h : program c -> obj_get n (snd c) = Some h -> uisnull h = false -> exists F, means (fst c) h F.
Proof.
  intros P G N. pose proof (program_reachable c P) as R. destruct (WorldProof.reachable_inv _ R) as [D I]. cbn [wm wh] in I.
  eexists. eapply means_self; [exact I|]. eapply get_held; eauto.
Qed.
Definition same_graph (m m' : mgr) : Prop := forall a, ct (mmem m' a) = ct (mmem m a) /\ ce (mmem m' a) = ce (mmem m a).
Lemma ev_graph (m m' : memory) rho e b : (forall a, ct (m' a) = ct (m a) /\ ce (m' a) = ce (m a)) -> ev m rho e b -> ev m' rho e b.
Proof.
  intros T H. induction H as [e Z|e b Nz H IH]; [now constructor|]. constructor; auto. destruct (T (eptr e)) as [-> ->]. exact IH.
Qed.
Lemma means_graph m m' h F : same_graph m m' -> means m h F -> means m' h F.
Proof.
  intros T H rho. specialize (H rho). unfold uint in *. destruct (T (uptr h)) as [-> _]. exact (ev_graph _ _ _ _ _ T H).
Qed.
Lemma graph_udec m h : same_graph m (udec m h).
Proof. intros a. unfold udec, mmem, dcr, put, set_mst. simpl. unfold upd. destruct (N.eqb_spec a (uptr h)) as [->|]; auto. Qed.
Lemma graph_uinc m h : same_graph m (uinc m h).
Proof. intros a. unfold uinc, mmem, icr, put, set_mst. simpl. unfold upd. destruct (N.eqb_spec a (uptr h)) as [->|]; auto. Qed.
Lemma graph_free m h : same_graph m (bdd_free m h).
Proof. unfold bdd_free. destruct (uisnull h); [intros a; auto|apply graph_udec]. Qed.
Lemma graph_unfree m h : same_graph m (bdd_unfree m h).
Proof. unfold bdd_unfree. destruct (uisnull h); [intros a; auto|apply graph_uinc]. Qed.
Lemma graph_trans m m1 m2 : same_graph m m1 -> same_graph m1 m2 -> same_graph m m2.
Proof. intros A B a. destruct (A a) as [A1 A2], (B a) as [B1 B2]. split; congruence. Qed.

Lemma get_app n news os : obj_get n (news ++ os) = match obj_get n news with Some h => Some h | None => obj_get n os end.
Proof. induction news as [|(k, x) news IH]; simpl; auto. destruct (Nat.eqb k n); auto. Qed.

Theorem object_kept c c' n h F : program c -> cstep c c' -> obj_get n (snd c) = Some h -> uisnull h = false ->
  means (fst c) h F -> means (fst c') h F.
Proof.
  intros P S G N M. pose proof (program_reachable c P) as R.
  destruct S as [c k Fr|c k j c' Fr E|c k j c' E|c k j c' Fr E|c k j c' E|c k c' E|c k j c' Fr E|m os news m' Fr ND S].
  - exact M.
  - unfold cpp_copy in E. destruct (obj_get j (snd c)) as [x|]; [|discriminate]. injection E as <-. cbn [fst]. eapply means_graph; [apply graph_unfree|exact M].
  - unfold cpp_assign in E. destruct (obj_get k (snd c)) as [x|]; [|discriminate]. destruct (obj_get j (snd c)) as [y|]; [|discriminate]. injection E as <-.
    cbn [fst]. eapply means_graph; [|exact M]. eapply graph_trans; [apply graph_free|apply graph_unfree].
  - unfold cpp_move in E. destruct (obj_get j (snd c)) as [x|]; [|discriminate]. injection E as <-. exact M.
  - unfold cpp_move_assign in E. destruct (obj_get k (snd c)) as [x|]; [|discriminate]. destruct (obj_get j (snd c)) as [y|]; [|discriminate]. injection E as <-.
    cbn [fst]. eapply means_graph; [|exact M]. apply graph_free.
  - unfold cpp_destroy in E. destruct (obj_get k (snd c)) as [x|]; [|discriminate]. injection E as <-. cbn [fst]. eapply means_graph; [apply graph_free|exact M].
  - unfold cpp_regular in E. destruct (obj_get j (snd c)) as [x|]; [|discriminate]. injection E as <-. cbn [fst]. eapply means_graph; [apply graph_unfree|exact M].
  - cbn [fst snd] in *. assert (Ih := get_held n h os G N).
    apply (W_keep _ R _ h F S); auto. cbn [wh]. clear -Ih. induction (map snd news) as [|x l IH]; simpl; auto. destruct (uisnull x); auto. now right.
Qed.
(** ** None leaks *)
Theorem no_leak c i b : program c -> In b (ut (st (me (gc (fst c)))) i) -> in_use (gc (fst c)) (held_handles (snd c)) b.
Proof. intros P. exact (W_gc_complete _ (program_reachable c P) i b). Qed.
Lemma gc_nz m hs lk D : MInv m hs lk D -> forall i, NZ (st (me (gc m))) i.
Proof.
  intros I. pose proof I as [B1 B2 B3 B4 B5 B6 B7 B8 B9 B10 B11].
  unfold gc. destruct (gc_store (mo m) (st (me m))) as [s' fr] eqn:GS. exact (proj2 (gc_store_spec _ _ _ _ _ _ B1 B3 GS)).
Qed.
Theorem gone_freed c b : program c -> snd c = [] -> In b (ut (st (me (gc (fst c)))) 0) -> b = muone (gc (fst c)) \/ cr (mmem (gc (fst c)) b) = 255.
Proof.
  intros P E Ib. pose proof (program_reachable c P) as R. rewrite E in R.
  destruct (WorldProof.reachable_inv _ R) as [D I]. cbn [wm wh] in I. pose proof (proj1 (gc_MInv _ _ _ _ I)) as I'.
  destruct (N.eq_dec b (muone (gc (fst c)))) as [|Nb]; auto. right.
  destruct (user_count _ _ _ _ b I' (fun _ => eq_refl) Ib Nb) as [H|H]; auto. exfalso.
  exact (gc_nz _ _ _ _ I 0 b Ib H).
Qed.

(** ** Effect of the operations on the objects *)
Lemma get_drop_other n k os : n <> k -> obj_get n (obj_drop k os) = obj_get n os.
Proof. intros. apply get_drop. auto. Qed.
Theorem assign_effect c n k c' h j : cpp_assign c n k = Some c' -> obj_get k (snd c) = Some h ->
  obj_get j (snd c') = if Nat.eqb j n then Some h else obj_get j (snd c).
Proof.
  unfold cpp_assign. destruct (obj_get n (snd c)) as [old|] eqn:G; [|discriminate]. intros E Gk. rewrite Gk in E. injection E as <-. cbn [snd].
  rewrite get_set. destruct (Nat.eqb_spec j n) as [->|]; auto. now rewrite G.
Qed.
Theorem move_assign_effect c n k c' h j : n <> k -> cpp_move_assign c n k = Some c' -> obj_get k (snd c) = Some h ->
  obj_get j (snd c') = if Nat.eqb j k then Some unull else if Nat.eqb j n then Some h else obj_get j (snd c).
Proof.
  unfold cpp_move_assign. intros Nk. destruct (obj_get n (snd c)) as [old|] eqn:G; [|discriminate]. intros E Gk. rewrite Gk in E. injection E as <-. cbn [snd].
  rewrite !get_set. destruct (Nat.eqb_spec j k) as [->|].
  - destruct (Nat.eqb_spec k n) as [->|]; [congruence|]. now rewrite Gk.
  - destruct (Nat.eqb_spec j n) as [->|]; auto. now rewrite G.
Qed.
Theorem self_move c n h c' : obj_get n (snd c) = Some h -> cpp_move_assign c n n = Some c' -> obj_get n (snd c') = Some unull.
Proof.
  intros G. unfold cpp_move_assign. rewrite G. intros [= <-]. cbn [snd]. rewrite !get_set, Nat.eqb_refl, G. reflexivity.
Qed.
