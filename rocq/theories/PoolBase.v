(** * Lists of intervals, linked lists in memory and tagged lists, for the allocator proofs. *)
From Verif Require Import Base PoolModel SpecPool.
From Coq Require Import Permutation.
Open Scope N_scope.

(** ** Pairwise apart intervals *)
Fixpoint PD (l : list iv) : Prop := match l with [] => True | x :: l => (forall y, In y l -> apart x y) /\ PD l end.

Lemma apart_sym i j : apart i j -> apart j i.
Proof. intros H a A B. exact (H a B A). Qed.

Lemma apart_sub i j i' j' : apart i j -> contained i' i -> contained j' j -> apart i' j'.
Proof. intros H [A1 A2] [B1 B2] a X Y. apply (H a); unfold within in *; lia. Qed.

Lemma contained_refl i : contained i i.
Proof. split; lia. Qed.

Lemma contained_trans i j k : contained i j -> contained j k -> contained i k.
Proof. unfold contained. lia. Qed.

Lemma PD_app a b : PD (a ++ b) <-> PD a /\ PD b /\ (forall x y, In x a -> In y b -> apart x y).
Proof.
  induction a as [|x a IH]; simpl.
  - split; [intros H; split; [exact I|split; [exact H|intros x y []]]|intros (_ & H & _); exact H].
  - rewrite IH. split.
    + intros (H1 & H2 & H3 & H4). split; [|split; [exact H3|]].
      * split; [|exact H2]. intros y Hy. apply H1, in_or_app. now left.
      * intros u v [<-|Hu] Hv; [apply H1, in_or_app; now right|now apply H4].
    + intros ((H1 & H2) & H3 & H4). split; [|split; [exact H2|split; [exact H3|]]].
      * intros y Hy. apply in_app_or in Hy as [Hy|Hy]; [now apply H1|apply H4; auto].
      * intros u v Hu Hv. apply H4; auto.
Qed.

Lemma PD_perm a b : Permutation a b -> PD a -> PD b.
Proof.
  induction 1; simpl; auto.
  - intros [H1 H2]. split; [|auto]. intros y Hy. apply H1. eapply Permutation_in; [apply Permutation_sym; eassumption|exact Hy].
  - intros (H1 & H2 & H3). split; [|split; [|exact H3]].
    + intros z [<-|Hz]; [apply apart_sym, H1; now left|now apply H2].
    + intros z Hz. apply H1. now right.
Qed.

(** Cutting pairwise apart blocks into pieces. *)
Lemma PD_pieces {A} (f : A -> iv) (g : A -> list iv) l : PD (map f l) -> (forall a, In a l -> PD (g a) /\ forall i, In i (g a) -> contained i (f a)) ->
  PD (flat_map g l).
Proof.
  induction l as [|a l IH]; simpl; [auto|]. intros [H1 H2] H3. apply PD_app. split; [apply H3; now left|]. split; [apply IH; [exact H2|intros b Hb; apply H3; now right]|].
  intros x y Hx Hy. apply in_flat_map in Hy as (b & Hb & Hy). eapply apart_sub; [apply H1, (in_map f), Hb| |].
  - destruct (H3 a (or_introl eq_refl)) as [_ Q]. exact (Q x Hx).
  - destruct (H3 b (or_intror Hb)) as [_ Q]. exact (Q y Hy).
Qed.

Lemma cut_in a s n x : In x (cut a s n) <-> exists j, (j < n)%nat /\ x = a + N.of_nat j * s.
Proof.
  unfold cut. rewrite in_map_iff. split.
  - intros (j & <- & Hj). apply in_seq in Hj. exists j. split; [lia|reflexivity].
  - intros (j & Hj & ->). exists j. split; [reflexivity|]. apply in_seq. lia.
Qed.

Lemma cut_S a s n : cut a s (Datatypes.S n) = a :: cut (a + s) s n.
Proof.
  unfold cut. simpl. f_equal; [lia|]. rewrite <- seq_shift, map_map. apply map_ext. intros j. rewrite Nat2N.inj_succ. lia.
Qed.

Lemma cut_len a s n : length (cut a s n) = n.
Proof. unfold cut. rewrite map_length, seq_length. reflexivity. Qed.

Lemma cut_contained a s n x : In x (cut a s n) -> contained (x, s) (a, N.of_nat n * s).
Proof. intros H. apply cut_in in H as (j & Hj & ->). split; simpl; [lia|]. nia. Qed.

Lemma cut_PD a s n : PD (map (fun x => (x, s)) (cut a s n)).
Proof.
  revert a. induction n as [|n IH]; intros a; [exact I|]. rewrite cut_S. simpl. split; [|apply IH].
  intros y Hy. apply in_map_iff in Hy as (x & <- & Hx). apply cut_contained in Hx. destruct Hx as [Hx _]. simpl in Hx.
  intros w [A1 A2] [B1 B2]. simpl in *. lia.
Qed.

Lemma PD_nodup l : PD l -> (forall i, In i l -> 0 < snd i) -> NoDup (map fst l).
Proof.
  induction l as [|i l IH]; simpl; intros H P; [constructor|]. destruct H as [H1 H2]. constructor; [|apply IH; auto].
  intros Hi. apply in_map_iff in Hi as (j & E & Hj). pose proof (P i (or_introl eq_refl)). pose proof (P j (or_intror Hj)).
  apply (H1 j Hj (fst i)); unfold within; lia.
Qed.

Lemma PD_neq a b x y : PD (a ++ b) -> In x a -> In y b -> 0 < snd y -> forall w, within w x -> fst y <> w.
Proof. intros H Hx Hy P w Hw E. apply PD_app in H as (_ & _ & H). apply (H x y Hx Hy w Hw). unfold within. lia. Qed.

(** ** Linked lists *)
Fixpoint chain (m : mem) (p : N) (l : list N) : Prop :=
  match l with [] => p = 0 | x :: l => p = x /\ x <> 0 /\ chain m (m x) l end.

Lemma chain_frame m m' p l : (forall x, In x l -> m' x = m x) -> chain m p l -> chain m' p l.
Proof.
  revert p. induction l as [|x l IH]; simpl; intros p H C; [exact C|]. destruct C as (-> & C1 & C2). split; [reflexivity|]. split; [exact C1|].
  rewrite (H x (or_introl eq_refl)). apply IH; auto.
Qed.

Lemma chain_head m p l : chain m p l -> p <> 0 -> exists l', l = p :: l' /\ chain m (m p) l'.
Proof. destruct l as [|x l]; simpl; [tauto|]. intros (-> & _ & C) _. eauto. Qed.

Lemma chain_nil m p l : chain m p l -> l <> [] -> p <> 0.
Proof. destruct l; simpl; [tauto|]. intros (-> & H & _) _. exact H. Qed.

Lemma poke_eq m a v : poke m a v a = v.
Proof. unfold poke. now rewrite N.eqb_refl. Qed.
Lemma poke_ne m a v b : b <> a -> poke m a v b = m b.
Proof. intros H. unfold poke. apply N.eqb_neq in H. now rewrite H. Qed.

Lemma link_up_out n a s m b : (forall x, In x (cut a s n) -> b <> x) -> link_up n a s m b = m b.
Proof.
  revert a m. induction n as [|n IH]; intros a m H; [reflexivity|]. rewrite cut_S in H. simpl. rewrite IH.
  - apply poke_ne, H. now left.
  - intros x Hx. apply H. now right.
Qed.

Lemma link_up_chain n a s m last : 0 < s -> a <> 0 ->
  forall tail, chain (poke (link_up n a s m) (a + N.of_nat n * s) last) last tail ->
  chain (poke (link_up n a s m) (a + N.of_nat n * s) last) a (cut a s (Datatypes.S n) ++ tail).
Proof.
  intros P A tail. revert a m A. induction n as [|n IH]; intros a m A C.
  - simpl in *. rewrite !N.add_0_r in *. simpl. split; [reflexivity|]. split; [exact A|]. rewrite poke_eq. exact C.
  - rewrite cut_S. simpl app. split; [reflexivity|]. split; [exact A|]. simpl link_up in *.
    replace (a + N.of_nat (Datatypes.S n) * s) with (a + s + N.of_nat n * s) in * by lia.
    replace (poke (link_up n (a + s) s (poke m a (a + s))) (a + s + N.of_nat n * s) last a) with (a + s).
    + apply IH; [lia|exact C].
    + rewrite poke_ne by nia. rewrite link_up_out; [now rewrite poke_eq|]. intros x Hx. apply cut_contained in Hx. destruct Hx as [Hx _]. simpl in Hx. lia.
Qed.

(** ** Tagged lists *)
Section Tags.
Context {T : Type} (teq : forall a b : T, {a = b} + {a <> b}).
Definition proj (t : T) (l : list (T * N)) : list N := map snd (filter (fun x => if teq t (fst x) then true else false) l).
Definition drop (t : T) (l : list (T * N)) : list (T * N) := filter (fun x => if teq t (fst x) then false else true) l.

Lemma proj_cons t u a l : proj t ((u, a) :: l) = if teq t u then a :: proj t l else proj t l.
Proof. unfold proj. simpl. destruct (teq t u); reflexivity. Qed.

Lemma proj_same t a l : proj t ((t, a) :: l) = a :: proj t l.
Proof. rewrite proj_cons. destruct (teq t t); [reflexivity|tauto]. Qed.
Lemma proj_other t u a l : t <> u -> proj t ((u, a) :: l) = proj t l.
Proof. intros H. rewrite proj_cons. destruct (teq t u); [tauto|reflexivity]. Qed.

Lemma proj_app t a b : proj t (a ++ b) = proj t a ++ proj t b.
Proof. unfold proj. rewrite filter_app, map_app. reflexivity. Qed.

Lemma proj_in t a l : In a (proj t l) <-> In (t, a) l.
Proof.
  unfold proj. rewrite in_map_iff. split.
  - intros ([u b] & E & H). simpl in E. subst b. apply filter_In in H as [H1 H2]. simpl in H2. destruct (teq t u); [now subst|discriminate].
  - intros H. exists (t, a). split; [reflexivity|]. apply filter_In. split; [exact H|]. simpl. destruct (teq t t); [reflexivity|tauto].
Qed.

Lemma proj_perm t a b : Permutation a b -> Permutation (proj t a) (proj t b).
Proof.
  intros H. unfold proj. apply Permutation_map. induction H; simpl; auto.
  - destruct (teq t (fst x)); auto.
  - destruct (teq t (fst x)), (teq t (fst y)); auto. constructor.
  - eapply Permutation_trans; eauto.
Qed.

Lemma proj_map t l : proj t (map (pair t) l) = l.
Proof. induction l as [|a l IH]; [reflexivity|]. simpl map. rewrite proj_same, IH. reflexivity. Qed.
Lemma proj_map_other t u l : t <> u -> proj t (map (pair u) l) = [].
Proof. intros H. induction l as [|a l IH]; [reflexivity|]. simpl map. rewrite proj_other by exact H. exact IH. Qed.

Lemma drop_perm t a b : Permutation a b -> Permutation (drop t a) (drop t b).
Proof.
  intros H. unfold drop. induction H; simpl; auto.
  - destruct (teq t (fst x)); auto.
  - destruct (teq t (fst x)), (teq t (fst y)); auto. constructor.
  - eapply Permutation_trans; eauto.
Qed.
Lemma drop_app t a b : drop t (a ++ b) = drop t a ++ drop t b.
Proof. apply filter_app. Qed.
Lemma drop_in t x l : In x (drop t l) <-> In x l /\ t <> fst x.
Proof. unfold drop. rewrite filter_In. destruct (teq t (fst x)); intuition congruence. Qed.
Lemma proj_drop t u l : t <> u -> proj t (drop u l) = proj t l.
Proof.
  intros H. induction l as [|[v a] l IH]; [reflexivity|]. simpl drop. destruct (teq u v) as [->|N].
  - rewrite proj_other by exact H. exact IH.
  - rewrite !proj_cons, IH. reflexivity.
Qed.

(** Taking the first entry with a tag. *)
Lemma proj_take t a l r : proj t l = a :: r -> exists l1 l2, l = l1 ++ (t, a) :: l2 /\ proj t l1 = [] /\ proj t l2 = r.
Proof.
  induction l as [|[u b] l IH]; [discriminate|]. rewrite proj_cons. destruct (teq t u) as [<-|N]; intros E.
  - injection E as -> E. exists [], l. auto.
  - destruct (IH E) as (l1 & l2 & -> & H1 & H2). exists ((u, b) :: l1), l2. split; [reflexivity|]. split; [|exact H2].
    rewrite proj_other by exact N. exact H1.
Qed.
End Tags.

(** ** Replacing one element *)
Lemma set_nth_same {A} (l : list A) i x : (i < length l)%nat -> nth_error (set_nth l i x) i = Some x.
Proof.
  unfold set_nth. intros H. rewrite nth_error_app2; rewrite firstn_length_le by lia; [|lia]. rewrite Nat.sub_diag. reflexivity.
Qed.

Lemma set_nth_cons {A} (a : A) l i x : set_nth (a :: l) (Datatypes.S i) x = a :: set_nth l i x.
Proof. reflexivity. Qed.

Lemma set_nth_other {A} (l : list A) i j x : (i < length l)%nat -> i <> j -> nth_error (set_nth l i x) j = nth_error l j.
Proof.
  revert i j. induction l as [|a l IH]; intros i j H N; [simpl in H; lia|]. destruct i as [|i], j as [|j]; try lia; try reflexivity.
  rewrite set_nth_cons. simpl. apply IH; simpl in *; lia.
Qed.

Lemma set_nth_len {A} (l : list A) i x : (i < length l)%nat -> length (set_nth l i x) = length l.
Proof.
  revert i. induction l as [|a l IH]; intros i H; [simpl in H; lia|]. destruct i as [|i]; [reflexivity|]. rewrite set_nth_cons. simpl. rewrite IH; simpl in *; lia.
Qed.

Lemma nth_error_lt {A} (l : list A) i x : nth_error l i = Some x -> (i < length l)%nat.
Proof. intros H. apply nth_error_Some. congruence. Qed.
