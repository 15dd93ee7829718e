(** * The searches over the tree of blocks (proofs). *)
From Coq Require Import ZArith List Bool Lia Permutation.
From Verif Require Import SearchModel SpecSearch SearchProof.
Import ListNotations.
Open Scope Z_scope.

Scheme arr_ind2 := Induction for arranged Sort Prop with all_arr_ind2 := Induction for all_arranged Sort Prop.
Fixpoint tree_rect2 (P : tree -> Prop) (H : forall i re ch, Forall P ch -> P (T i re ch)) (t : tree) : P t :=
  match t with T i re ch => H i re ch ((fix go l : Forall P l := match l with [] => Forall_nil P | c :: l => Forall_cons c (tree_rect2 P H c) (go l) end) ch) end.
Lemma all_refl l : Forall (fun t => arranged t t) l -> all_arranged l l.
Proof. induction 1; constructor; auto. Qed.
Lemma arranged_refl t : arranged t t.
Proof. induction t as [i re ch IH] using tree_rect2. apply (arr i re ch ch); auto. now apply all_refl. Qed.
Lemma all_arranged_refl l : all_arranged l l.
Proof. apply all_refl, Forall_forall. intros t _. apply arranged_refl. Qed.
Lemma all_arranged_app a a' b b' : all_arranged a a' -> all_arranged b b' -> all_arranged (a ++ b) (a' ++ b').
Proof. induction 1; simpl; auto. intros H2. constructor; auto. Qed.
Lemma at_most_all nv i re ch : at_most nv (T i re ch) <-> (length ch <= nv)%nat /\ Forall (at_most nv) ch.
Proof.
  cbn [at_most]. split; intros [H1 H2]; split; auto.
  - clear H1. induction ch as [|c ch IH]; constructor; [apply H2|apply IH, H2].
  - clear H1. induction H2; simpl; auto.
Qed.
Lemma list_max_perm a b : Permutation a b -> list_max a = list_max b.
Proof. induction 1; simpl; lia. Qed.

Section Tree.
  Variable nv : nat.
  Variable search : (list tree -> Z) -> list tree -> option (st tree).
  Hypothesis search_best : forall sz l, (forall o, 0 <= sz o) -> (length l <= nv)%nat ->
    exists s', search sz l = Some s' /\ best_seen tree sz l s' /\ In l (snd s').
  Definition go_tree (fuel : nat) (size : tree -> Z) (i : N) (re : bool) := fix go (pre post : list tree) (seen : list tree) : option (tree * list tree) :=
    match post with
    | [] => Some (T i re pre, seen)
    | c :: post =>
        bindp (reorder_tree search fuel (fun x => size (T i re (pre ++ x :: post))) c) (fun r => let '(c', sn) := r in
        go (pre ++ [c']) post (map (fun x => T i re (pre ++ x :: post)) sn ++ seen))
    end.
  Lemma reorder_eq fuel size i re ch : reorder_tree search (S fuel) size (T i re ch) =
    bindp (if re then search (fun l => size (T i re l)) ch else Some (ch, [ch])) (fun r => let '(ch, seen) := r in go_tree fuel size i re [] ch (map (T i re) seen)).
  Proof. reflexivity. Qed.
  Theorem tree_ok : forall fuel size t, (forall o, 0 <= size o) -> (height t <= fuel)%nat -> at_most nv t ->
    exists t' seen, reorder_tree search fuel size t = Some (t', seen) /\ best_tree size t t' seen.
  Proof.
    induction fuel as [|fuel IH]; intros size [i re ch] Hs Hh Ha; [simpl in Hh; lia|]. rewrite reorder_eq.
    apply at_most_all in Ha as [La Fa].
    assert (G1 : exists mid seen, (if re then search (fun l => size (T i re l)) ch else Some (ch, [ch])) = Some (mid, seen) /\
      In mid seen /\ In ch seen /\ (forall o, In o seen -> size (T i re mid) <= size (T i re o)) /\
      (forall o, In o seen -> (re = true -> Permutation ch o) /\ (re = false -> o = ch))).
    { destruct re.
      - destruct (search_best (fun l => size (T i true l)) ch) as ([mid seen] & E & (B1 & B2 & B3) & I); auto. exists mid, seen. split; auto. split; auto. split; auto. split; auto.
        intros o Ho. split; [auto|discriminate].
      - exists ch, [ch]. split; auto. split; [now left|]. split; [now left|]. split; [intros o [<-|[]]; lia|]. intros o [<-|[]]. split; [discriminate|auto]. }
    destruct G1 as (mid & seen & -> & S1 & S2 & S3 & S4). cbn [bindp].
    assert (Pm : Permutation ch mid) by (destruct (S4 mid S1) as [P1 P2]; destruct re; [auto|rewrite P2; auto]).
    assert (Hh2 : Forall (fun c => (height c <= fuel)%nat) mid).
    { cbn [height] in Hh. rewrite (list_max_perm _ _ (Permutation_map height Pm)) in Hh. assert (X : (list_max (map height mid) <= fuel)%nat) by lia.
      apply list_max_le in X. apply Forall_forall. intros c Hc. rewrite Forall_forall in X. apply X, in_map, Hc. }
    assert (Fa2 : Forall (at_most nv) mid).
    { apply Forall_forall. intros c Hc. rewrite Forall_forall in Fa. apply Fa. apply (Permutation_in c (Permutation_sym Pm) Hc). }
    assert (G : forall post pre0 pre seen, mid = pre0 ++ post -> all_arranged pre0 pre -> In (T i re (pre ++ post)) seen -> In (T i re ch) seen ->
      (forall o, In o seen -> size (T i re (pre ++ post)) <= size o) -> (forall o, In o seen -> arranged (T i re ch) o) ->
      exists t' seen', go_tree fuel size i re pre post seen = Some (t', seen') /\ best_tree size (T i re ch) t' seen').
    { induction post as [|c post IHp]; intros pre0 pre sn Em Ap I1 I2 I3 I4; cbn [go_tree].
      - rewrite app_nil_r in *. exists (T i re pre), sn. split; auto. split; auto.
      - assert (Hc : In c mid) by (rewrite Em; apply in_app_iff; right; now left). rewrite Forall_forall in Hh2, Fa2.
        destruct (IH (fun x => size (T i re (pre ++ x :: post))) c) as (c' & sn' & -> & B1 & B2 & B3 & B4); auto. cbn [bindp].
        assert (Am : forall x, arranged c x -> arranged (T i re ch) (T i re (pre ++ x :: post))).
        { intros x Hx. destruct (S4 mid S1) as [P1 P2]. apply (arr i re ch mid); auto. rewrite Em. apply all_arranged_app; auto. constructor; auto. apply all_arranged_refl. }
        assert (E1 : (pre ++ [c']) ++ post = pre ++ c' :: post) by (rewrite <- app_assoc; reflexivity).
        apply (IHp (pre0 ++ [c])).
        + rewrite Em, <- app_assoc. reflexivity.
        + apply all_arranged_app; auto. constructor; [auto|constructor].
        + rewrite E1. apply in_app_iff. left. apply (in_map (fun x => T i re (pre ++ x :: post))), B1.
        + apply in_app_iff. now right.
        + rewrite E1. intros o Ho. apply in_app_iff in Ho as [Ho|Ho]; [apply in_map_iff in Ho as (x & <- & Hx); now apply B3|].
          apply I3 in Ho. specialize (B3 c B2). cbn beta in B3. lia.
        + intros o Ho. apply in_app_iff in Ho as [Ho|Ho]; auto. apply in_map_iff in Ho as (x & <- & Hx). auto. }
    apply (G mid [] []); auto.
    - constructor.
    - apply in_map, S1.
    - apply in_map, S2.
    - intros o Ho. apply in_map_iff in Ho as (x & <- & Hx). auto.
    - intros o Ho. apply in_map_iff in Ho as (x & <- & Hx). destruct (S4 x Hx). apply (arr i re ch x); auto. apply all_arranged_refl.
  Qed.
End Tree.

Theorem df_windows_best nv size t : (forall o, 0 <= size o) -> at_most nv t ->
  exists t' tried, df_windows nv size t = Some (t', tried) /\ best_tree size t t' tried.
Proof.
  intros Hs Ha. unfold df_windows. apply (tree_ok nv); auto. intros sz l Hz Hl. apply windows_ok; auto.
  - intros i Hi. now apply df_window2_ok.
  - intros i Hi. now apply df_window3_ok.
Qed.
Theorem df_sift_best limit width proceed nv size t : (forall o, 0 <= size o) -> at_most nv t ->
  exists t' tried, df_sift limit width proceed size t = Some (t', tried) /\ best_tree size t t' tried.
Proof.
  intros Hs Ha. unfold df_sift. apply (tree_ok nv); auto. intros sz l Hz Hl. apply sift_ok.
  - intros a. apply N.eqb_refl.
  - intros start s B Hst. now apply df_sift_ok.
Qed.
Lemma best_out {A} (size : list A -> Z) (r : option (st A)) l : (exists s', r = Some s' /\ best_seen A size l s' /\ In l (snd s')) ->
  exists l' tried, r = Some (l', tried) /\ best_tried size l l' tried.
Proof. intros ([l' tried] & -> & (B1 & B2 & B3) & I). exists l', tried. split; auto. split; auto. Qed.
Theorem bf_windows_best nv size l : (forall o, 0 <= size o) -> (length l <= nv)%nat ->
  exists l' tried, bf_windows size nv l = Some (l', tried) /\ best_tried size l l' tried.
Proof.
  intros Hs Ha. apply best_out. unfold bf_windows. apply windows_ok; auto.
  - intros i Hi. now apply bf_window2_ok.
  - intros i Hi. now apply bf_window3_ok.
Qed.
Theorem bf_sift_best width proceed size l : (forall o, 0 <= size o) ->
  exists l' tried, bf_sift size width proceed l = Some (l', tried) /\ best_tried size l l' tried.
Proof.
  intros Hs. apply best_out. unfold bf_sift. apply sift_ok.
  - intros a. apply N.eqb_refl.
  - intros start s B Hst. now apply bf_sift_ok.
Qed.

(** ** One window, one item *)
Lemma start_seen {A} (size : list A -> Z) l : best_seen A size l (l, [l]).
Proof. apply best_start. Qed.
Theorem windows_best {A} (size : list A -> Z) l i : (forall o, 0 <= size o) ->
  ((i + 1 < length l)%nat -> forall win, win = df_window2 A size \/ win = bf_window2 A size ->
     exists moved l' tried, win i (l, [l]) = Some (moved, (l', tried)) /\ In l' tried /\ (forall o, window_order 2 i l o -> In o tried) /\
       (forall o, In o tried -> size l' <= size o) /\ (moved = true -> size l' < size l)) /\
  ((i + 2 < length l)%nat -> forall win, win = df_window3 A size \/ win = bf_window3 A size ->
     exists moved l' tried, win i (l, [l]) = Some (moved, (l', tried)) /\ In l' tried /\ (forall o, window_order 3 i l o -> In o tried) /\
       (forall o, In o tried -> size l' <= size o) /\ (moved = true -> size l' < size l)).
Proof.
  intros Hs. split.
  - intros H win [->| ->].
    + destruct (df_window2_ok A size l i H _ (start_seen size l)) as (mv & [l' tr] & E & (B1 & B2 & _) & _ & _ & M & F). exists mv, l', tr. auto.
    + destruct (bf_window2_ok A size l i H _ (start_seen size l)) as (mv & [l' tr] & E & (B1 & B2 & _) & _ & _ & M & F). exists mv, l', tr. auto.
  - intros H win [->| ->].
    + destruct (df_window3_ok A size l i H _ (start_seen size l)) as (mv & [l' tr] & E & (B1 & B2 & _) & _ & _ & M & F). exists mv, l', tr. auto.
    + destruct (bf_window3_ok A size l i H _ (start_seen size l)) as (mv & [l' tr] & E & (B1 & B2 & _) & _ & _ & M & F). exists mv, l', tr. auto.
Qed.
Lemma elsewhere_iff {A} i (l o : list A) : (i < length l)%nat -> item_elsewhere i l o <-> elsewhere A l i o.
Proof.
  intros Hi. split.
  - intros (p & x & q & p' & q' & -> & <- & -> & E). exists (length p'), x, (p' ++ q'). split; [rewrite app_length; lia|]. unfold ins. split.
    + rewrite <- E, firstn_app, Nat.sub_diag, firstn_O, firstn_all, app_nil_r, skipn_app, Nat.sub_diag, skipn_all, skipn_O. reflexivity.
    + rewrite firstn_app, Nat.sub_diag, firstn_O, firstn_all, app_nil_r, skipn_app, Nat.sub_diag, skipn_all, skipn_O. reflexivity.
  - intros (p & x & r & Hp & -> & ->). rewrite ins_length in Hi. unfold ins.
    exists (firstn i r), x, (skipn i r), (firstn p r), (skipn p r). rewrite firstn_length, !firstn_skipn. split; auto. split; [lia|auto].
Qed.
Theorem sift_block_best {A} (size : list A -> Z) limit l i : (forall o, 0 <= size o) -> (i < length l)%nat ->
  (exists l' tried, df_sift_block A size limit i (l, [l]) = Some (l', tried) /\ best_tried size l l' tried /\
     ((forall o, item_elsewhere i l o -> size o <= 2 * size l /\ (limit = 0 \/ size o <= limit)) -> forall o, item_elsewhere i l o -> In o tried)) /\
  (exists l' tried, bf_sift_block A size i (l, [l]) = Some (l', tried) /\ best_tried size l l' tried /\
     ((forall o o', item_elsewhere i l o -> item_elsewhere i l o' -> size o < 2 * size o') -> forall o, item_elsewhere i l o -> In o tried)).
Proof.
  intros Hs Hi. split.
  - destruct (df_sift_full A size Hs limit l i _ (start_seen size l) Hi) as ([l' tr] & E & (B1 & B2 & B3) & I & F). exists l', tr. cbn [fst snd] in *.
    split; auto. split; [split; auto; split; auto; apply I; now left|]. intros G o Ho. apply F; [|now apply elsewhere_iff]. intros o' Ho'. now apply G, elsewhere_iff.
  - destruct (bf_sift_full A size Hs l i _ (start_seen size l) Hi) as ([l' tr] & E & (B1 & B2 & B3) & I & F). exists l', tr. cbn [fst snd] in *.
    split; auto. split; [split; auto; split; auto; apply I; now left|]. intros G o Ho. apply F; [|now apply elsewhere_iff]. intros o1 o2 Ho1 Ho2. apply G; now apply elsewhere_iff.
Qed.

(** ** Examples *)
Fixpoint index_of (a : N) (l : list N) : Z := match l with [] => 0 | b :: l => if N.eqb a b then 0 else 1 + index_of a l end.
Definition demo_size (l : list N) : Z := 10 + Z.abs (index_of 1 l - index_of 4 l) + Z.abs (index_of 2 l - index_of 3 l).
Lemma demo_size_pos l : 0 <= demo_size l.
Proof. unfold demo_size. lia. Qed.
Definition demo_tree : tree := T 0 true [T 1 false []; T 2 false [T 5 false []; T 6 false []]; T 3 false []; T 4 false []].
Definition tree_size (t : tree) : Z := demo_size (map tid (tchildren t)).
Lemma demo_at_most : at_most 5 demo_tree.
Proof. unfold demo_tree. cbn. lia. Qed.
Lemma demo_results :
  option_map fst (bf_windows demo_size 4 [1; 2; 3; 4]%N) = Some [3; 2; 1; 4]%N /\
  option_map fst (bf_sift demo_size (fun _ a => Z.of_N a) (fun _ _ => true) [1; 2; 3; 4]%N) = Some [4; 1; 2; 3]%N.
Proof. split; vm_compute; reflexivity. Qed.
