(** * The facts behind the theorems about pages, nodes and records, and the examples. *)
From Verif Require Import Base PoolModel SpecPool PoolBase PoolProof RecProof.
From Coq Require Import Permutation.
Open Scope N_scope.

Lemma PD_nth l : PD l -> forall i j x y, i <> j -> nth_error l i = Some x -> nth_error l j = Some y -> apart x y.
Proof.
  induction l as [|a l IH]; intros H [|i] [|j] x y N Ei Ej; try discriminate; try congruence; simpl in *; destruct H as [H1 H2].
  - injection Ei as <-. apply H1. eapply nth_error_In; exact Ej.
  - injection Ej as <-. apply apart_sym, H1. eapply nth_error_In; exact Ei.
  - apply (IH H2 i j); [congruence|assumption|assumption].
Qed.

(** ** Pages and nodes *)
Lemma live_apart w : preach w -> forall i j x y, i <> j -> nth_error (pw_live w) i = Some x -> nth_error (pw_live w) j = Some y -> apart (extent x) (extent y).
Proof.
  intros R i j x y N Ei Ej. destruct (preach_inv _ R) as (B & free & I). pose proof (pi_ext I) as P. rewrite map_app in P. apply PD_app in P as (P & _).
  apply (PD_nth _ P i j); [exact N| |]; now apply map_nth_error.
Qed.

Lemma live_place w : preach w -> forall x, In x (pw_live w) ->
  snd x <> 0 /\ snd x mod size_of (fst x) = 0 /\ exists s, In s (segments (pw_pm w)) /\ contained (extent x) s.
Proof.
  intros R x Hx. destruct (preach_inv _ R) as (B & free & I). pose proof (in_or_app _ free _ (or_introl Hx)) as H.
  destruct (pi_al_ext I _ H) as [A1 A2]. split; [exact A1|]. split; [exact A2|]. destruct (pi_block I _ H) as (b & Hb & _ & C & _).
  destruct (pi_seg I _ Hb) as (s & Hs & C'). exists s. split; [exact Hs|exact (contained_trans _ _ _ C C')].
Qed.

Lemma in_use w B free p : PInv w B free -> In p (pages_in_use w) <-> In (Page, p) (pw_live w) \/ exists i, In (Node i, p) B.
Proof.
  intros I. unfold pages_in_use. rewrite in_app_iff, !in_flat_map. split.
  - intros [([o q] & Hx & Hp)|([nm|] & Hn & Hp)]; cbn [fst snd] in *.
    + left. destruct o; [|contradiction]. destruct Hp as [<-|[]]. exact Hx.
    + right. apply In_nth_error in Hn as [i Ei]. exists i. destruct (pi_nm _ _ _ I i nm Ei) as [_ P]. apply (proj_in oeq). exact (Permutation_in _ P Hp).
    + contradiction.
  - intros [H|[i H]].
    + left. exists (Page, p). split; [exact H|]. now left.
    + right. destruct (pi_tag _ _ _ I i p H) as [nm Ei]. exists (Some nm). split; [eapply nth_error_In; exact Ei|].
      destruct (pi_nm _ _ _ I i nm Ei) as [_ P]. apply (Permutation_in _ (Permutation_sym P)). apply proj_in. exact H.
Qed.

Lemma page_of_live w B free p : PInv w B free -> In (Page, p) (pw_live w ++ free) <-> In (Page, p) B.
Proof.
  intros I. split; intros H.
  - destruct (pi_block I _ H) as ([o q] & Hb & E & _ & Hs). cbn [fst] in E. subst o. destruct Hs as [[= ->]|[]]. exact Hb.
  - apply (Permutation_in _ (pi_sl _ _ _ I)). apply in_flat_map. exists (Page, p). split; [exact H|]. now left.
Qed.

Lemma pages_again w p : preach w -> In p (all_pages (pw_pm w)) -> ~ In p (pages_in_use w) -> forall os os',
  page_alloc os (pw_pm w) (pw_mem w) = page_alloc os' (pw_pm w) (pw_mem w) /\
  exists pm' m' q, page_alloc os (pw_pm w) (pw_mem w) = Got (pm', m', q) /\ psegs pm' = psegs (pw_pm w) /\ In q (all_pages (pw_pm w)) /\ ~ In q (pages_in_use w).
Proof.
  intros R Hp Hu os os'. destruct (preach_inv _ R) as (B & free & I).
  assert (Hf : In (Page, p) free).
  { apply (Permutation_in _ (Permutation_sym (pi_pages _ _ _ I))) in Hp. apply in_map_iff in Hp as ([o q] & Eq & Hb). cbn [snd] in Eq. subst q. destruct o as [|i].
    - apply (proj2 (page_of_live _ _ _ p I)) in Hb. apply in_app_or in Hb as [Hb|Hb]; [|exact Hb]. exfalso. apply Hu, (in_use _ _ _ _ I). now left.
    - exfalso. apply Hu, (in_use _ _ _ _ I). right. eauto. }
  assert (Z : pfree (pw_pm w) <> 0).
  { eapply chain_nil; [exact (pi_fp _ _ _ I)|]. intros E. apply (proj_in oeq) in Hf. rewrite E in Hf. exact Hf. }
  unfold page_alloc. destruct (N.eqb_spec (pfree (pw_pm w)) 0) as [E|_]; [contradiction|]. split; [reflexivity|].
  eexists _, _, _. split; [reflexivity|]. split; [reflexivity|]. destruct (chain_head _ _ _ (pi_fp _ _ _ I) Z) as (l & El & _).
  assert (Hq : In (Page, pfree (pw_pm w)) free) by (apply (proj_in oeq); rewrite El; now left). set (q := pfree (pw_pm w)) in *.
  assert (Hb : In (Page, q) B) by (apply (page_of_live _ _ _ q I), in_or_app; now right). split.
  - apply (Permutation_in _ (pi_pages _ _ _ I)), (in_map snd _ _ Hb).
  - intros Hn. apply (in_use _ _ _ _ I) in Hn as [Hn|[i Hn]].
    + pose proof (pi_nodup I) as ND. rewrite map_app in ND. clear - ND Hn Hq. apply (in_map snd) in Hn, Hq. cbn [snd] in *.
      induction (pw_live w) as [|x l IH]; [contradiction|]. simpl in *. apply NoDup_cons_iff in ND as [N1 N2]. destruct Hn as [E|Hn]; [|first [exact (IH N2 Hn)|exact (IH Hn N2)]].
      apply N1, in_or_app. right. rewrite E. exact Hq.
    + pose proof (pi_pd _ _ _ I) as P. clear - P Hb Hn. apply in_split in Hb as (B1 & B2 & ->).
      assert (A : apart (pext (Page, q)) (pext (Node i, q))).
      { rewrite map_app in P. apply PD_app in P as (P1 & [P2 P3] & P4). apply in_app_or in Hn as [Hn|[Hn|Hn]]; [|discriminate|].
        - apply apart_sym, P4; [apply (in_map pext _ _ Hn)|now left].
        - apply P2, (in_map pext _ _ Hn). }
      apply (A q); unfold within, pext, PAGE_SIZE; cbn [fst snd]; lia.
Qed.

Lemma nodes_proj w i : nodes_in_use w i = PoolBase.proj oeq (Node i) (pw_live w).
Proof.
  unfold nodes_in_use. induction (pw_live w) as [|[o a] l IH]; [reflexivity|]. simpl flat_map. rewrite proj_cons, <- IH. cbn [fst snd]. destruct o as [|j].
  - destruct (oeq (Node i) Page); [discriminate|reflexivity].
  - destruct (Nat.eqb_spec i j), (oeq (Node i) (Node j)); try congruence; reflexivity.
Qed.

Lemma proj_slots i B : length (PoolBase.proj oeq (Node i) (flat_map slots B)) = (length (PoolBase.proj oeq (Node i) B) * NUM_NODES_PER_PAGE)%nat.
Proof.
  induction B as [|[o p] B IH]; [reflexivity|]. simpl flat_map. rewrite proj_app, app_length, IH, proj_cons. unfold slots. cbn [fst snd]. destruct o as [|j].
  - rewrite proj_other by discriminate. destruct (oeq (Node i) Page); [discriminate|]. reflexivity.
  - destruct (oeq (Node i) (Node j)) as [<-|N].
    + rewrite proj_map, cut_len. reflexivity.
    + rewrite proj_map_other by exact N. reflexivity.
Qed.

Lemma nodes_again w i nm : preach w -> nth_error (pw_nms w) i = Some (Some nm) ->
  (length (nodes_in_use w i) < length (npages nm) * NUM_NODES_PER_PAGE)%nat -> forall os os',
  node_alloc os (pw_pm w) nm (pw_mem w) = node_alloc os' (pw_pm w) nm (pw_mem w) /\
  exists nm' m' a, node_alloc os (pw_pm w) nm (pw_mem w) = Got (pw_pm w, nm', m', a) /\ npages nm' = npages nm /\
    ~ In (Node i, a) (pw_live w) /\ exists p, In p (npages nm) /\ contained (a, NODE_SIZE) (p, PAGE_SIZE).
Proof.
  intros R E L os os'. destruct (preach_inv _ R) as (B & free & I). destruct (pi_nm _ _ _ I i nm E) as [C P]. rewrite nodes_proj in L.
  assert (Z : nfree nm <> 0).
  { eapply chain_nil; [exact C|]. intros Ef. pose proof (proj_perm oeq (Node i) _ _ (pi_sl _ _ _ I)) as Q. rewrite proj_app, Ef, app_nil_r in Q.
    apply Permutation_length in Q. rewrite proj_slots in Q. apply Permutation_length in P. rewrite P in L. lia. }
  unfold node_alloc. destruct (N.eqb_spec (nfree nm) 0) as [Ez|_]; [contradiction|]. cbn [negb]. split; [reflexivity|].
  eexists _, _, _. split; [reflexivity|]. split; [reflexivity|]. destruct (chain_head _ _ _ C Z) as (l & El & _).
  assert (Hq : In (Node i, nfree nm) free) by (apply (proj_in oeq); rewrite El; now left). set (q := nfree nm) in *. split.
  - intros Hn. pose proof (pi_nodup I) as ND. rewrite map_app in ND. clear - ND Hn Hq. apply (in_map snd) in Hn, Hq. cbn [snd] in *.
    induction (pw_live w) as [|x r IH]; [contradiction|]. simpl in *. apply NoDup_cons_iff in ND as [N1 N2]. destruct Hn as [Ex|Hn]; [|first [exact (IH N2 Hn)|exact (IH Hn N2)]].
    apply N1, in_or_app. right. rewrite Ex. exact Hq.
  - destruct (pi_block I (Node i, q) (in_or_app _ _ _ (or_intror Hq))) as ([o p] & Hb & Et & Cc & _). cbn [fst] in Et. subst o. exists p. split; [|exact Cc].
    apply (Permutation_in _ (Permutation_sym P)). apply proj_in. exact Hb.
Qed.

Lemma nodes_clear os pm nm m pm' nm' m' a : node_alloc os pm nm m = Got (pm', nm', m', a) -> m' a = 0 /\ m' (a + 8) = 0 /\ m' (a + 16) = 0 /\ m' (a + 24) = 0.
Proof.
  assert (H : forall m b, clear_node m b b = 0 /\ clear_node m b (b + 8) = 0 /\ clear_node m b (b + 16) = 0 /\ clear_node m b (b + 24) = 0).
  { intros mm b. unfold clear_node, poke.
    repeat match goal with |- context [?x =? ?y] => destruct (N.eqb_spec x y); try lia end; auto. }
  unfold node_alloc. destruct (negb _).
  - intros E. injection E as <- <- <- <-. apply H.
  - destruct (page_alloc os pm m) as [[[pm1 m1] p]| |]; try discriminate. intros E. injection E as <- <- <- <-. apply H.
Qed.

Lemma never_stuck os pm nm m : page_alloc os pm m <> Stuck /\ node_alloc os pm nm m <> Stuck.
Proof.
  assert (A : page_alloc os pm m <> Stuck).
  { unfold page_alloc. pose proof (page_expand_not_stuck os pm m). destruct (pfree pm =? 0); [|discriminate]. destruct (page_expand os pm m) as [[? ?]| |]; congruence. }
  split; [exact A|]. unfold node_alloc. destruct (negb _); [discriminate|]. destruct (page_alloc os pm m) as [[[? ?] ?]| |]; congruence.
Qed.

(** ** Records *)
Lemma rec_live_apart w : rreach w -> forall i j x y, i <> j -> nth_error (rw_live w) i = Some x -> nth_error (rw_live w) j = Some y -> apart (rec_extent w x) (rec_extent w y).
Proof.
  intros R i j x y N Ei Ej. destruct (rreach_inv _ R) as (sz & B & free & I). pose proof (ri_ext I) as P. rewrite map_app in P. apply PD_app in P as (_ & P & _). apply PD_app in P as (P & _).
  rewrite (rec_extent_ok _ _ _ _ _ I (nth_error_In _ _ Ei)), (rec_extent_ok _ _ _ _ _ I (nth_error_In _ _ Ej)).
  apply (PD_nth _ P i j); [exact N| |]; now apply map_nth_error.
Qed.

Lemma rec_live_place w : rreach w -> forall x, In x (rw_live w) ->
  snd x <> 0 /\ snd x mod 8 = 0 /\ 8 <= snd (rec_extent w x) /\ exists b, In b (rw_blocks w) /\ contained (rec_extent w x) (block_extent b).
Proof.
  intros R x Hx. destruct (rreach_inv _ R) as (sz & B & free & I). pose proof (in_or_app _ free _ (or_introl Hx)) as H.
  destruct (ri_al_ext I _ H) as [A1 A2]. split; [exact A1|]. split; [exact A2|]. rewrite (rec_extent_ok _ _ _ _ _ I Hx). split; [exact (ri_pos I _ H)|].
  destruct (ri_block I _ H) as (b & Hb & _ & C & _). exists (snd b). split; [|exact C]. apply (Permutation_in _ (ri_blocks _ _ _ _ I)), in_map, Hb.
Qed.

Lemma records_proj w i : records_of w i = PoolBase.proj Nat.eq_dec i (rw_live w).
Proof.
  unfold records_of. induction (rw_live w) as [|[o a] l IH]; [reflexivity|]. simpl flat_map. rewrite proj_cons, <- IH. cbn [fst snd].
  destruct (Nat.eqb_spec i o), (Nat.eq_dec i o); try congruence; reflexivity.
Qed.

Lemma proj_recs sz i B : length (PoolBase.proj Nat.eq_dec i (flat_map (recs sz) B)) = (length (PoolBase.proj Nat.eq_dec i B) * N.to_nat (snd (sz i)))%nat.
Proof.
  induction B as [|[o p] B IH]; [reflexivity|]. simpl flat_map. rewrite proj_app, app_length, IH, proj_cons. unfold recs. cbn [fst snd].
  destruct (Nat.eq_dec i o) as [<-|N].
  - rewrite proj_map, cut_len. reflexivity.
  - rewrite proj_map_other by exact N. reflexivity.
Qed.

Lemma records_again w i r : rreach w -> nth_error (rw_ms w) i = Some (Some r) ->
  N.of_nat (length (records_of w i)) < rnum r * rper r -> forall b b',
  rec_alloc b r (rw_mem w) = rec_alloc b' r (rw_mem w) /\ ~ In (i, snd (rec_alloc b r (rw_mem w))) (rw_live w).
Proof.
  intros R E L b b'. destruct (rreach_inv _ R) as (sz & B & free & I). rewrite records_proj in L. pose proof (ri_m _ _ _ _ I i r E) as C.
  assert (Z : rfree r <> 0).
  { eapply chain_nil; [exact C|]. intros Ef. pose proof (proj_perm Nat.eq_dec i _ _ (ri_sl _ _ _ _ I)) as Q. rewrite proj_app, Ef, app_nil_r in Q.
    apply Permutation_length in Q. rewrite proj_recs, (ri_sz _ _ _ _ I _ _ E) in Q. cbn [snd] in Q.
    destruct (ri_b _ _ _ _ I i r E) as (l & _ & P & Ln). apply Permutation_length in P. rewrite <- P in Q. nia. }
  unfold rec_alloc. destruct (N.eqb_spec (rfree r) 0) as [Ez|_]; [contradiction|]. cbn [negb fst snd]. split; [reflexivity|].
  destruct (chain_head _ _ _ C Z) as (l & El & _). assert (Hq : In (i, rfree r) free) by (apply (proj_in Nat.eq_dec); rewrite El; now left).
  intros Hn. pose proof (ri_ext I) as P. apply PD_app in P as (_ & P & _). rewrite map_app in P. apply PD_app in P as (_ & _ & P).
  apply (P (rext sz (i, rfree r)) (rext sz (i, rfree r)) (in_map (rext sz) _ _ Hn) (in_map (rext sz) _ _ Hq) (rfree r));
    pose proof (ri_pos I _ (in_or_app _ _ _ (or_intror Hq))); unfold within, rext in *; cbn [fst snd] in *; lia.
Qed.

(** Giving up a manager gives back blocks it holds, each once, and never blocks with records of other managers. *)
Lemma quit_blocks w i r : rreach w -> nth_error (rw_ms w) i = Some (Some r) -> exists l, rec_quit r (rw_mem w) = Got l /\ NoDup l /\
  N.of_nat (length l) = rnum r /\ forall x, In x (rw_live w) -> (exists b, In b l /\ contained (rec_extent w x) (block_extent b)) <-> fst x = i.
Proof.
  intros R E. destruct (rreach_inv _ R) as (sz & B & free & I). destruct (rec_quit_spec _ _ _ _ _ _ I E) as (l & El & P). exists l. split; [exact El|].
  assert (NB : NoDup B) by (eapply NoDup_map_inv, nodup_blocks; exact I).
  split; [|split].
  - eapply Permutation_NoDup; [apply Permutation_sym, P|]. pose proof (nodup_blocks _ _ _ _ I) as ND. clear - ND. induction B as [|[j b] B IH]; [constructor|].
    rewrite proj_cons. simpl in ND. apply NoDup_cons_iff in ND as [N1 N2]. destruct (Nat.eq_dec i j); [|exact (IH N2)]. constructor; [|exact (IH N2)].
    intros H. apply proj_in in H. apply N1. exact (in_map snd _ _ H).
  - destruct (ri_b _ _ _ _ I i r E) as (l' & C & P' & Ln). apply Permutation_length in P, P'. rewrite <- Ln. f_equal. congruence.
  - intros x Hx. rewrite (rec_extent_ok _ _ _ _ _ I Hx). destruct (ri_block I x (in_or_app _ _ _ (or_introl Hx))) as ([j b] & Hb & Et & C & _). cbn [fst] in Et. split.
    + intros (b' & Hb' & C'). apply (Permutation_in _ P) in Hb'. apply proj_in in Hb'. rewrite Et. destruct (Nat.eq_dec j i) as [|N]; [assumption|]. exfalso.
      pose proof (ri_pd _ _ _ _ I) as PDb. apply In_nth_error in Hb as [k1 K1]. apply In_nth_error in Hb' as [k2 K2].
      assert (Nk : k1 <> k2) by (intros ->; congruence). pose proof (PD_nth _ PDb k1 k2 _ _ Nk (map_nth_error bext _ _ K1) (map_nth_error bext _ _ K2)) as A.
      pose proof (ri_pos I _ (in_or_app _ _ _ (or_introl Hx))) as Ps. unfold contained, within, apart, bext, rext, block_extent in *. cbn [fst snd] in *.
      apply (A (snd x)); unfold within; cbn [fst snd]; lia.
    + intros Ex. exists b. split; [|exact C]. apply (Permutation_in _ (Permutation_sym P)). apply proj_in. rewrite <- Ex, Et. exact Hb.
Qed.

Lemma rec_size size r : rec_init size = Got r -> size <= rsize r /\ rsize r mod 8 = 0 /\ 1 <= rper r.
Proof. intros E. apply rec_init_spec in E as (_ & _ & _ & _ & A & B & C & _). auto. Qed.

(** ** Examples *)
(** The operating system refuses eight pages and gives four. *)
Definition os4 (n : N) : option N := if n =? 4 then Some 65536 else None.
Definition no_os (n : N) : option N := None.
Definition mem0 : mem := fun _ => 77.

Definition init_of (r : res (pmgr * mem)) : pworld := match r with Got (pm, m) => PW pm [] m [] | _ => PW (PM 0 0 []) [] mem0 [] end.
Definition page_of (w : pworld) : pworld :=
  match page_alloc no_os (pw_pm w) (pw_mem w) with Got (pm, m, p) => PW pm (pw_nms w) m ((Page, p) :: pw_live w) | _ => w end.
Definition new_of (w : pworld) : pworld := PW (pw_pm w) (pw_nms w ++ [Some node_init]) (pw_mem w) (pw_live w).
Definition node_of (w : pworld) : pworld :=
  match nth_error (pw_nms w) 0 with
  | Some (Some nm) => match node_alloc no_os (pw_pm w) nm (pw_mem w) with
      | Got (pm, nm', m, a) => PW pm (set_nth (pw_nms w) 0 (Some nm')) m ((Node 0, a) :: pw_live w) | _ => w end
  | _ => w
  end.

Lemma no_os_honest pm : honest no_os pm.
Proof. intros n a E. discriminate E. Qed.

Lemma page_of_reach w : preach w -> preach (page_of w).
Proof.
  intros R. unfold page_of. destruct (page_alloc no_os (pw_pm w) (pw_mem w)) as [[[pm m] p]| |] eqn:E; try exact R.
  eapply pr_step; [exact R|]. destruct w as [pm0 nms m0 live]. exact (ps_page _ _ _ _ _ _ _ _ (no_os_honest _) E).
Qed.

Lemma new_of_reach w : preach w -> preach (new_of w).
Proof. intros R. eapply pr_step; [exact R|]. destruct w as [pm0 nms m0 live]. apply ps_new. Qed.

Lemma node_of_reach w : preach w -> preach (node_of w).
Proof.
  intros R. unfold node_of. destruct (nth_error (pw_nms w) 0) as [[nm|]|] eqn:E0; try exact R.
  destruct (node_alloc no_os (pw_pm w) nm (pw_mem w)) as [[[[pm nm'] m] a]| |] eqn:E; try exact R.
  eapply pr_step; [exact R|]. destruct w as [pm0 nms m0 live]. exact (ps_node _ _ _ _ _ _ _ _ _ _ _ (no_os_honest _) E0 E).
Qed.

Definition pool_world : pworld := node_of (node_of (new_of (page_of (page_of (init_of (page_init os4 8 mem0)))))).

Lemma pool_world_reach : preach pool_world.
Proof.
  unfold pool_world. apply node_of_reach, node_of_reach, new_of_reach, page_of_reach, page_of_reach.
  destruct (page_init os4 8 mem0) as [[pm m]| |] eqn:E.
  - apply (pr_init os4 8 pm m mem0); [|exact E]. intros n a. unfold os4. destruct (N.eqb_spec n 4) as [->|]; [|discriminate]. intros [= <-].
    split; [discriminate|]. split; [reflexivity|]. intros s [].
  - vm_compute in E. discriminate E.
  - vm_compute in E. discriminate E.
Qed.

Lemma pool_world_live : map extent (pw_live pool_world) = [(65536 + 8192 + 32, 32); (65536 + 8192, 32); (65536 + 4096, 4096); (65536, 4096)] /\
  segments (pw_pm pool_world) = [(65536, 16384)] /\ In (65536 + 12288) (all_pages (pw_pm pool_world)) /\
  pages_in_use pool_world = [65536 + 4096; 65536; 65536 + 8192] /\ length (nodes_in_use pool_world 0) = 2%nat.
Proof. vm_compute. repeat (split; [reflexivity|]). split; [right; right; right; left; reflexivity|]. auto. Qed.

Definition rec_of (b : N) (w : rworld) : rworld :=
  match nth_error (rw_ms w) 0 with
  | Some (Some r) => let x := rec_alloc b r (rw_mem w) in
      RW (set_nth (rw_ms w) 0 (Some (fst (fst x)))) (snd (fst x)) (if rfree r =? 0 then b :: rw_blocks w else rw_blocks w) ((0%nat, snd x) :: rw_live w)
  | _ => w
  end.
Definition mgr_of (r : res rmgr) : rworld := match r with Got r => RW [Some r] mem0 [] [] | _ => RW [] mem0 [] [] end.

Lemma rec_of_reach b w : fresh_block b w -> rreach w -> rreach (rec_of b w).
Proof.
  intros Fb R. unfold rec_of. destruct (nth_error (rw_ms w) 0) as [[r|]|] eqn:E; try exact R. eapply rr_step; [exact R|].
  apply (rs_alloc w 0 r b _ _ _ E Fb). destruct (rec_alloc b r (rw_mem w)) as [[? ?] ?]. reflexivity.
Qed.

(** Records of 2000 bytes: two to a block; the third takes a second block. *)
Definition rec_world : rworld := rec_of 40000 (rec_of 8000 (rec_of 20000 (mgr_of (rec_init 1999)))).

Lemma rec_world_reach : rreach rec_world.
Proof.
  unfold rec_world. apply rec_of_reach; [|apply rec_of_reach; [|apply rec_of_reach]].
  - split; [discriminate|]. split; [reflexivity|]. intros x Hx. vm_compute in Hx. destruct Hx as [<-|[]]. intros a [A1 A2] [B1 B2].
    unfold block_extent, ALLOC_SIZE, PAGE_SIZE in *. cbn [fst snd] in *. lia.
  - split; [discriminate|]. split; [reflexivity|]. intros x Hx. vm_compute in Hx. destruct Hx as [<-|[]]. intros a [A1 A2] [B1 B2].
    unfold block_extent, ALLOC_SIZE, PAGE_SIZE in *. cbn [fst snd] in *. lia.
  - split; [discriminate|]. split; [reflexivity|]. intros x [].
  - unfold mgr_of. destruct (rec_init 1999) as [r| |] eqn:E; [|apply rr_init|apply rr_init].
    eapply rr_step; [apply (rr_init mem0)|]. exact (rs_new (RW [] mem0 [] []) 1999 r E).
Qed.

Lemma rec_world_live : map (rec_extent rec_world) (rw_live rec_world) = [(40008, 2000); (22008, 2000); (20008, 2000)] /\ rw_blocks rec_world = [40000; 20000].
Proof. vm_compute. auto. Qed.
