(** * Pages and nodes: the invariant and its preservation. *)
From Verif Require Import Base PoolModel SpecPool PoolBase.
From Coq Require Import Permutation.
Open Scope N_scope.

Definition oeq (a b : owner) : {a = b} + {a <> b}.
Proof. decide equality. apply Nat.eq_dec. Defined.
Arguments oeq : simpl never.
Local Notation proj := (proj oeq).
Local Notation drop := (drop oeq).

(** What a page gives: itself, or its nodes. *)
Definition slots (x : owner * N) : list (owner * N) :=
  match fst x with Page => [x] | Node i => map (pair (Node i)) (cut (snd x) NODE_SIZE NUM_NODES_PER_PAGE) end.
Definition pext (x : owner * N) : iv := (snd x, PAGE_SIZE).

Lemma page_nodes : N.of_nat NUM_NODES_PER_PAGE * NODE_SIZE = PAGE_SIZE.
Proof. reflexivity. Qed.
Lemma nodes_S : NUM_NODES_PER_PAGE = Datatypes.S (NUM_NODES_PER_PAGE - 1).
Proof. reflexivity. Qed.
Lemma nodes_127 : N.of_nat (NUM_NODES_PER_PAGE - 1) = 127.
Proof. reflexivity. Qed.
Global Opaque NUM_NODES_PER_PAGE.
Arguments cut : simpl never.

Lemma slots_tag x y : In y (slots x) -> fst y = fst x.
Proof. destruct x as [[|i] p]; unfold slots; cbn [fst snd]; [intros [<-|[]]; reflexivity|]. intros H. apply in_map_iff in H as (a & <- & _). reflexivity. Qed.

Lemma slots_pieces x : PD (map extent (slots x)) /\ forall i, In i (map extent (slots x)) -> contained i (pext x).
Proof.
  destruct x as [[|i] p]; unfold slots; cbn [fst snd].
  - split; [split; [intros ? []|exact Logic.I]|]. intros j [<-|[]]. unfold extent, pext. simpl. apply contained_refl.
  - rewrite map_map. unfold extent. cbn [fst snd size_of]. split; [apply cut_PD|].
    intros j H. apply in_map_iff in H as (a & <- & H). apply cut_contained in H. rewrite page_nodes in H. exact H.
Qed.

Record PInv (w : pworld) (B free : list (owner * N)) : Prop := {
  pi_pages : Permutation (map snd B) (all_pages (pw_pm w));
  pi_pd : PD (map pext B);
  pi_al : forall x, In x B -> snd x <> 0 /\ snd x mod PAGE_SIZE = 0;
  pi_sl : Permutation (flat_map slots B) (pw_live w ++ free);
  pi_fp : chain (pw_mem w) (pfree (pw_pm w)) (proj Page free);
  pi_nm : forall i nm, nth_error (pw_nms w) i = Some (Some nm) ->
    chain (pw_mem w) (nfree nm) (proj (Node i) free) /\ Permutation (npages nm) (proj (Node i) B);
  pi_tag : forall i p, In (Node i, p) B -> exists nm, nth_error (pw_nms w) i = Some (Some nm) }.

Section Facts.
Context {w : pworld} {B free : list (owner * N)} (I : PInv w B free).

Lemma pi_ext : PD (map extent (pw_live w ++ free)).
Proof.
  eapply PD_perm; [apply Permutation_map, (pi_sl _ _ _ I)|]. rewrite flat_map_concat_map, concat_map, map_map, <- flat_map_concat_map.
  eapply PD_pieces; [apply (pi_pd _ _ _ I)|]. intros x _. apply slots_pieces.
Qed.

Lemma ext_pos x : 0 < snd (extent x).
Proof. destruct x as [[|i] a]; reflexivity. Qed.

Lemma pi_nodup : NoDup (map snd (pw_live w ++ free)).
Proof.
  replace (map snd (pw_live w ++ free)) with (map fst (map extent (pw_live w ++ free))).
  - apply PD_nodup; [apply pi_ext|]. intros i H. apply in_map_iff in H as (x & <- & _). apply ext_pos.
  - rewrite map_map. reflexivity.
Qed.

Lemma pi_block x : In x (pw_live w ++ free) -> exists b, In b B /\ fst x = fst b /\ contained (extent x) (pext b) /\ In x (slots b).
Proof.
  intros H. apply (Permutation_in _ (Permutation_sym (pi_sl _ _ _ I))) in H. apply in_flat_map in H as (b & Hb & Hx).
  exists b. split; [exact Hb|]. split; [exact (slots_tag _ _ Hx)|]. split; [|exact Hx]. destruct (slots_pieces b) as [_ Q]. apply Q, in_map, Hx.
Qed.

Lemma pi_seg b : In b B -> exists s, In s (segments (pw_pm w)) /\ contained (pext b) s.
Proof.
  intros H. apply (in_map snd) in H. apply (Permutation_in _ (pi_pages _ _ _ I)) in H. unfold all_pages in H. apply in_flat_map in H as (s & Hs & Hp).
  exists (fst s, snd s * PAGE_SIZE). split.
  - unfold segments. apply in_map_iff. exists s. auto.
  - apply cut_contained in Hp. rewrite N2Nat.id in Hp. exact Hp.
Qed.

Lemma pi_al_ext x : In x (pw_live w ++ free) -> snd x <> 0 /\ snd x mod size_of (fst x) = 0.
Proof.
  intros H. destruct (pi_block _ H) as (b & Hb & Et & _ & Hs). destruct (pi_al _ _ _ I _ Hb) as [A1 A2]. unfold slots in Hs.
  destruct b as [[|i] p]; cbn [fst snd] in *.
  - destruct Hs as [<-|[]]. split; assumption.
  - apply in_map_iff in Hs as (a & <- & Ha). cbn [fst snd size_of]. apply cut_in in Ha as (j & _ & ->). split; [lia|].
    unfold PAGE_SIZE, NODE_SIZE in *. apply N.mod_divide in A2; [|lia]. destruct A2 as [q ->].
    replace (q * 4096 + N.of_nat j * 32) with ((q * 128 + N.of_nat j) * 32) by lia. apply N.mod_mul. lia.
Qed.

(** Memory may change wherever no free list runs. *)
Lemma pi_frame m' : (forall x, In x free -> m' (snd x) = pw_mem w (snd x)) -> PInv (PW (pw_pm w) (pw_nms w) m' (pw_live w)) B free.
Proof.
  intros H. destruct I as [I1 I2 I3 I4 I5 I6 I7]. constructor; cbn [pw_pm pw_nms pw_mem pw_live]; try assumption.
  - eapply chain_frame; [|exact I5]. intros x Hx. apply proj_in in Hx. exact (H _ Hx).
  - intros i nm E. destruct (I6 i nm E) as [C P]. split; [|exact P]. eapply chain_frame; [|exact C]. intros x Hx. apply proj_in in Hx. exact (H _ Hx).
Qed.

Lemma live_write a x : In x (pw_live w) -> within a (extent x) -> forall y, In y free -> snd y <> a.
Proof.
  intros Hx Ha y Hy. pose proof pi_ext as P. rewrite map_app in P.
  apply (PD_neq _ _ (extent x) (extent y) P (in_map extent _ _ Hx) (in_map extent _ _ Hy) (ext_pos y) a Ha).
Qed.

Lemma pi_write a v : (exists x, In x (pw_live w) /\ within a (extent x)) \/ (forall s, In s (segments (pw_pm w)) -> ~ within a s) ->
  PInv (PW (pw_pm w) (pw_nms w) (poke (pw_mem w) a v) (pw_live w)) B free.
Proof.
  intros H. apply pi_frame. intros y Hy. apply poke_ne. destruct H as [(x & Hx & Ha)|H].
  - exact (live_write a x Hx Ha y Hy).
  - intros E. destruct (pi_block y (in_or_app _ _ _ (or_intror Hy))) as (b & Hb & _ & C & _). destruct (pi_seg _ Hb) as (s & Hs & C').
    apply (H s Hs). pose proof (contained_trans _ _ _ C C') as [D1 D2]. pose proof (ext_pos y). unfold extent in *. cbn [fst snd] in *. unfold within. lia.
Qed.

End Facts.

(** Nothing about a world depends on the order in which the live objects are listed. *)
Lemma pi_live pm nms m live live' B free : Permutation live live' -> PInv (PW pm nms m live) B free -> PInv (PW pm nms m live') B free.
Proof.
  intros P [I1 I2 I3 I4 I5 I6 I7]. constructor; cbn [pw_pm pw_nms pw_mem pw_live] in *; try assumption.
  eapply Permutation_trans; [exact I4|]. apply Permutation_app_tail, P.
Qed.

(** ** Pages *)
Lemma page_take pm nms m live B free l : PInv (PW pm nms m live) B free -> proj Page free = l -> pfree pm <> 0 ->
  exists free', PInv (PW (PM (m (pfree pm)) (pper pm) (psegs pm)) nms m ((Page, pfree pm) :: live)) B free'.
Proof.
  intros [I1 I2 I3 I4 I5 I6 I7] E H. cbn [pw_pm pw_nms pw_mem pw_live] in *. rewrite E in I5. destruct (chain_head _ _ _ I5 H) as (l' & -> & C).
  destruct (proj_take oeq _ _ _ _ E) as (l1 & l2 & -> & E1 & E2). exists (l1 ++ l2). constructor; cbn [pw_pm pw_nms pw_mem pw_live pfree psegs]; try assumption.
  - eapply Permutation_trans; [exact I4|]. simpl. rewrite app_assoc. eapply Permutation_trans; [apply Permutation_sym, Permutation_middle|]. rewrite <- app_assoc. apply Permutation_refl.
  - rewrite proj_app, E1, E2. exact C.
  - intros i nm Ei. destruct (I6 i nm Ei) as [C1 P1]. split; [|exact P1]. rewrite proj_app in C1 |- *. rewrite (proj_other oeq) in C1 by discriminate. exact C1.
Qed.

Lemma page_put pm nms m live B free p : PInv (PW pm nms m ((Page, p) :: live)) B free ->
  PInv (PW (fst (page_free pm m p)) nms (snd (page_free pm m p)) live) B ((Page, p) :: free).
Proof.
  intros I. pose proof (pi_al_ext I (Page, p) (or_introl eq_refl)) as [A0 _]. cbn [snd] in A0.
  assert (Wp : within p (extent (Page, p))) by (unfold within, extent, size_of, PAGE_SIZE; cbn [fst snd]; lia).
  pose proof (fun v => pi_write I p v (or_introl (ex_intro _ (Page, p) (conj (or_introl eq_refl) Wp)))) as J.
  cbn [pw_pm pw_nms pw_mem pw_live] in J. specialize (J (pfree pm)). destruct J as [I1 I2 I3 I4 I5 I6 I7]. cbn [pw_pm pw_nms pw_mem pw_live] in *.
  unfold page_free. cbn [fst snd]. constructor; cbn [pw_pm pw_nms pw_mem pw_live pfree psegs]; try assumption.
  - eapply Permutation_trans; [exact I4|]. simpl. apply Permutation_middle.
  - rewrite proj_same. simpl. split; [reflexivity|]. split; [exact A0|]. rewrite poke_eq. exact I5.
Qed.

Lemma expand_Got fuel os pm m pm' m' : expand fuel os pm m = Got (pm', m') ->
  exists n seg, os n = Some seg /\ 0 < n /\ pm' = PM seg n (psegs pm ++ [(seg, n)]) /\ m' = segment_to_list (wipe m seg (n * PAGE_SIZE)) seg n (pfree pm).
Proof.
  revert pm. induction fuel as [|fuel IH]; intros pm; simpl; [discriminate|]. destruct (os (pper pm)) as [seg|] eqn:E.
  - destruct (N.eqb_spec (pper pm) 0) as [E0|E0]; [discriminate|]. intros [= <- <-]. exists (pper pm), seg. split; [exact E|]. split; [lia|auto].
  - destruct (_ <? _); [discriminate|]. intros H. exact (IH _ H).
Qed.

Lemma size_half n : 4 <= n / 2 -> N.size (n / 2) < N.size n.
Proof.
  intros H. assert (n <> 0) by (intros ->; revert H; vm_compute; auto). rewrite !N.size_log2 by (try lia).
  assert (E : N.log2 n = N.succ (N.log2 (n / 2))).
  { pose proof (N.div_mod n 2 ltac:(lia)) as D. pose proof (N.mod_lt n 2 ltac:(lia)). set (q := n / 2) in *. set (r := n mod 2) in *.
    assert (r = 0 \/ r = 1) as [Hr|Hr] by lia; rewrite D, Hr.
    - rewrite N.add_0_r. apply N.log2_double. lia.
    - apply N.log2_succ_double. lia. }
  lia.
Qed.

Lemma expand_not_stuck fuel os pm m : (N.to_nat (N.size (pper pm)) < fuel)%nat -> expand fuel os pm m <> Stuck.
Proof.
  revert pm. induction fuel as [|fuel IH]; intros pm H; [lia|]. simpl. destruct (os (pper pm)) as [seg|].
  - destruct (_ =? _); discriminate.
  - destruct (N.ltb_spec (pper pm / 2) MIN_NUM_PAGES_PER_SEGMENT) as [L|L]; [discriminate|]. apply IH. cbn [pper].
    pose proof (size_half (pper pm) L). lia.
Qed.

Lemma page_expand_not_stuck os pm m : page_expand os pm m <> Stuck.
Proof. apply expand_not_stuck. unfold expand_fuel. lia. Qed.

Lemma wipe_out m a n b : b < a \/ a + n <= b -> wipe m a n b = m b.
Proof. intros H. unfold wipe. destruct (N.leb_spec a b), (N.ltb_spec b (a + n)); simpl; try reflexivity. lia. Qed.

Lemma seg_out m seg n last b : 0 < n -> b < seg \/ seg + n * PAGE_SIZE <= b -> segment_to_list m seg n last b = m b.
Proof.
  intros P H. unfold segment_to_list. unfold PAGE_SIZE in *. rewrite poke_ne by lia. apply link_up_out. intros x Hx ->.
  apply cut_contained in Hx. unfold contained in Hx. cbn [fst snd] in Hx. rewrite N2Nat.id in Hx. lia.
Qed.

Lemma page_more pm nms m live B free os pm' m' : PInv (PW pm nms m live) B free -> honest os pm -> page_expand os pm m = Got (pm', m') ->
  pfree pm' <> 0 /\ exists B' free', PInv (PW pm' nms m' live) B' free'.
Proof.
  intros I Ho E. apply expand_Got in E as (n & seg & En & P & -> & ->). destruct (Ho n seg En) as (A0 & A1 & A2).
  assert (Lm : forall x, In x free -> segment_to_list (wipe m seg (n * PAGE_SIZE)) seg n (pfree pm) (snd x) = m (snd x)).
  { intros x Hx. assert (Hs : snd x < seg \/ seg + n * PAGE_SIZE <= snd x).
    { destruct (pi_block I x (in_or_app _ _ _ (or_intror Hx))) as (b & Hb & _ & C & _). destruct (pi_seg I _ Hb) as (s & Hs & C'). cbn [pw_pm] in Hs.
      pose proof (contained_trans _ _ _ C C') as [D1 D2]. pose proof (ext_pos x). specialize (A2 s Hs (snd x)). unfold within in A2. unfold extent in *. cbn [fst snd] in *.
      assert (Q : ~ (seg <= snd x < seg + n * PAGE_SIZE)) by (intros Q; apply (A2 Q); lia). lia. }
    rewrite seg_out by assumption. apply wipe_out, Hs. }
  pose proof (pi_frame I _ Lm) as J. cbn [pw_pm pw_nms pw_mem pw_live] in J. set (M := segment_to_list _ _ _ _) in *.
  set (new := map (pair Page) (cut seg PAGE_SIZE (N.to_nat n))).
  assert (Hn : forall x, In x new -> fst x = Page /\ contained (pext x) (seg, n * PAGE_SIZE) /\ snd x <> 0 /\ snd x mod PAGE_SIZE = 0).
  { intros x Hx. unfold new in Hx. apply in_map_iff in Hx as (a & <- & Ha). cbn [fst snd]. split; [reflexivity|]. split.
    - apply cut_contained in Ha. rewrite N2Nat.id in Ha. exact Ha.
    - apply cut_in in Ha as (j & _ & ->). split; [lia|]. rewrite N.mul_comm, N.add_mod by (vm_compute; discriminate).
      rewrite A1, (N.mul_comm PAGE_SIZE), N.mod_mul by (vm_compute; discriminate). reflexivity. }
  split; [exact A0|]. exists (B ++ new), (new ++ free). destruct J as [I1 I2 I3 I4 I5 I6 I7]. cbn [pw_pm pw_nms pw_mem pw_live] in *.
  constructor; cbn [pw_pm pw_nms pw_mem pw_live pfree psegs].
  - rewrite map_app. unfold all_pages. cbn [psegs]. rewrite flat_map_app. simpl flat_map. rewrite app_nil_r. apply Permutation_app; [exact I1|].
    unfold new. rewrite map_map. cbn [fst snd]. rewrite map_id. apply Permutation_refl.
  - rewrite map_app. apply PD_app. split; [exact I2|]. split.
    + unfold new. rewrite map_map. unfold pext. cbn [snd]. apply cut_PD.
    + intros x y Hx Hy. apply in_map_iff in Hx as (b & <- & Hb). apply in_map_iff in Hy as (c & <- & Hc). destruct (pi_seg I _ Hb) as (s & Hs & C).
      destruct (Hn c Hc) as (_ & C2 & _). apply apart_sym. eapply apart_sub; [apply A2, Hs|exact C2|exact C].
  - intros x Hx. apply in_app_or in Hx as [Hx|Hx]; [now apply I3|]. apply Hn, Hx.
  - rewrite flat_map_app. assert (En' : flat_map slots new = new).
    { unfold new. clear. induction (cut seg PAGE_SIZE (N.to_nat n)) as [|a l IH]; [reflexivity|]. simpl. f_equal. exact IH. }
    rewrite En'. eapply Permutation_trans; [apply Permutation_app_tail, I4|]. rewrite <- app_assoc. apply Permutation_app_head, Permutation_app_comm.
  - rewrite proj_app. unfold new. rewrite proj_map. unfold M, segment_to_list. replace (N.to_nat n) with (Datatypes.S (N.to_nat (n - 1))) by lia.
    replace (seg + (n - 1) * PAGE_SIZE) with (seg + N.of_nat (N.to_nat (n - 1)) * PAGE_SIZE) by (rewrite N2Nat.id; reflexivity).
    apply link_up_chain; [reflexivity|exact A0|]. rewrite N2Nat.id. exact I5.
  - intros i nm Ei. destruct (I6 i nm Ei) as [C1 P1]. rewrite proj_app. unfold new at 1. rewrite proj_map_other by discriminate. split; [exact C1|].
    rewrite proj_app. unfold new. rewrite proj_map_other by discriminate. rewrite app_nil_r. exact P1.
  - intros i p Hp. apply in_app_or in Hp as [Hp|Hp]; [exact (I7 _ _ Hp)|]. destruct (Hn _ Hp) as [Q _]. discriminate Q.
Qed.

Lemma page_alloc_spec pm nms m live B free os pm' m' p : PInv (PW pm nms m live) B free -> honest os pm -> page_alloc os pm m = Got (pm', m', p) ->
  exists B' free', PInv (PW pm' nms m' ((Page, p) :: live)) B' free'.
Proof.
  intros I Ho. unfold page_alloc. destruct (N.eqb_spec (pfree pm) 0) as [E0|E0].
  - destruct (page_expand os pm m) as [[pm1 m1]| |] eqn:E; try discriminate. destruct (page_more _ _ _ _ _ _ _ _ _ I Ho E) as (E1 & B1 & f1 & I1).
    intros [= <- <- <-]. destruct (page_take _ _ _ _ _ _ _ I1 eq_refl E1) as (f2 & I2). eauto.
  - intros [= <- <- <-]. destruct (page_take _ _ _ _ _ _ _ I eq_refl E0) as (f2 & I2). eauto.
Qed.

(** ** Nodes *)
Lemma node_take pm nms m live B free i nm : PInv (PW pm nms m live) B free -> nth_error nms i = Some (Some nm) -> nfree nm <> 0 ->
  exists free', PInv (PW pm (set_nth nms i (Some (NM (m (nfree nm)) (npages nm)))) m ((Node i, nfree nm) :: live)) B free'.
Proof.
  intros [I1 I2 I3 I4 I5 I6 I7] E H. cbn [pw_pm pw_nms pw_mem pw_live] in *. destruct (I6 i nm E) as [C0 P0]. destruct (chain_head _ _ _ C0 H) as (l' & E' & C).
  destruct (proj_take oeq _ _ _ _ E') as (l1 & l2 & -> & E1 & E2). pose proof (nth_error_lt _ _ _ E) as Li. exists (l1 ++ l2).
  constructor; cbn [pw_pm pw_nms pw_mem pw_live]; try assumption.
  - eapply Permutation_trans; [exact I4|]. simpl. rewrite app_assoc. eapply Permutation_trans; [apply Permutation_sym, Permutation_middle|]. rewrite <- app_assoc. apply Permutation_refl.
  - rewrite proj_app in I5 |- *. rewrite (proj_other oeq) in I5 by discriminate. exact I5.
  - intros j mj Ej. destruct (Nat.eq_dec i j) as [<-|N].
    + rewrite set_nth_same in Ej by exact Li. injection Ej as <-. cbn [nfree npages]. rewrite proj_app, E1, E2. split; [exact C|exact P0].
    + rewrite set_nth_other in Ej by assumption. destruct (I6 j mj Ej) as [C1 P1]. split; [|exact P1]. rewrite proj_app in C1 |- *.
      rewrite (proj_other oeq) in C1 by congruence. exact C1.
  - intros j q Hq. destruct (I7 j q Hq) as [mj Ej]. destruct (Nat.eq_dec i j) as [<-|N].
    + rewrite set_nth_same by exact Li. eauto.
    + rewrite set_nth_other by assumption. eauto.
Qed.

Lemma node_put pm nms m live B free i nm a : PInv (PW pm nms m ((Node i, a) :: live)) B free -> nth_error nms i = Some (Some nm) ->
  PInv (PW pm (set_nth nms i (Some (fst (node_free nm m a)))) (snd (node_free nm m a)) live) B ((Node i, a) :: free).
Proof.
  intros I E. pose proof (pi_al_ext I (Node i, a) (or_introl eq_refl)) as [A0 _]. cbn [snd] in A0. pose proof (nth_error_lt _ _ _ E) as Li.
  assert (Wp : within a (extent (Node i, a))) by (unfold within, extent, size_of, NODE_SIZE; cbn [fst snd]; lia).
  pose proof (fun v => pi_write I a v (or_introl (ex_intro _ (Node i, a) (conj (or_introl eq_refl) Wp)))) as J.
  cbn [pw_pm pw_nms pw_mem pw_live] in J. specialize (J (nfree nm)). destruct J as [I1 I2 I3 I4 I5 I6 I7]. cbn [pw_pm pw_nms pw_mem pw_live] in *.
  unfold node_free. cbn [fst snd]. constructor; cbn [pw_pm pw_nms pw_mem pw_live]; try assumption.
  - eapply Permutation_trans; [exact I4|]. simpl. apply Permutation_middle.
  - intros j mj Ej. destruct (Nat.eq_dec i j) as [<-|N].
    + rewrite set_nth_same in Ej by exact Li. injection Ej as <-. cbn [nfree npages]. rewrite proj_same. destruct (I6 i nm E) as [C1 P1].
      split; [|exact P1]. simpl. split; [reflexivity|]. split; [exact A0|]. rewrite poke_eq. exact C1.
    + rewrite set_nth_other in Ej by assumption. destruct (I6 j mj Ej) as [C1 P1]. split; [|exact P1]. rewrite proj_other by congruence. exact C1.
  - intros j q Hq. destruct (I7 j q Hq) as [mj Ej]. destruct (Nat.eq_dec i j) as [<-|N].
    + rewrite set_nth_same by exact Li. eauto.
    + rewrite set_nth_other by assumption. eauto.
Qed.

(** The descending loop links the nodes of a page from the second to the last. *)
Lemma link_down_out n a next m b : (forall j, (j < n)%nat -> b <> a - N.of_nat j * NODE_SIZE) -> link_down n a next m b = m b.
Proof.
  revert a next m. induction n as [|n IH]; intros a next m H; [reflexivity|]. simpl. rewrite IH.
  - apply poke_ne. specialize (H O ltac:(lia)). simpl in H. rewrite N.sub_0_r in H. exact H.
  - intros j Hj. specialize (H (Datatypes.S j) ltac:(lia)). unfold NODE_SIZE in *. intros ->. apply H. rewrite Nat2N.inj_succ. lia.
Qed.

Lemma link_down_chain n : forall a m next l, 0 < a -> chain (link_down n (a + N.of_nat n * NODE_SIZE) next m) next l ->
  (forall x, In x l -> a + N.of_nat n * NODE_SIZE < x) ->
  chain (link_down n (a + N.of_nat n * NODE_SIZE) next m) (if n then next else a + NODE_SIZE) (cut (a + NODE_SIZE) NODE_SIZE n ++ l).
Proof.
  induction n as [|n IH]; intros a m next l P C H; [exact C|]. set (top := a + N.of_nat (Datatypes.S n) * NODE_SIZE) in *.
  simpl link_down in *. assert (Et : top - NODE_SIZE = a + N.of_nat n * NODE_SIZE) by (unfold top, NODE_SIZE; lia). rewrite Et in *.
  assert (Lt : forall x m, top <= x -> link_down n (a + N.of_nat n * NODE_SIZE) top m x = m x).
  { intros x mm Hx. apply link_down_out. intros j Hj. unfold top, NODE_SIZE in *. lia. }
  assert (C' : chain (link_down n (a + N.of_nat n * NODE_SIZE) top (poke m top next)) top (top :: l)).
  { simpl. split; [reflexivity|]. split; [unfold top, NODE_SIZE; lia|]. rewrite Lt by lia. rewrite poke_eq. exact C. }
  pose proof (IH a (poke m top next) top (top :: l) P C') as R.
  assert (Ec : cut (a + NODE_SIZE) NODE_SIZE (Datatypes.S n) = cut (a + NODE_SIZE) NODE_SIZE n ++ [top]).
  { unfold cut. rewrite seq_S, map_app. simpl map at 2. f_equal. f_equal. unfold top. unfold NODE_SIZE. lia. }
  rewrite Ec, <- app_assoc. simpl app. destruct n as [|n].
  - simpl in *. replace (a + NODE_SIZE) with top by (unfold top, NODE_SIZE; lia). apply R. intros x [<-|Hx]; [unfold top, NODE_SIZE; lia|apply H in Hx; lia].
  - apply R. intros x [<-|Hx]; [unfold top, NODE_SIZE; lia|apply H in Hx; lia].
Qed.

Lemma node_page pm nms m live B free i nm p : PInv (PW pm nms m ((Page, p) :: live)) B free -> nth_error nms i = Some (Some nm) -> nfree nm = 0 ->
  exists B' free', PInv (PW pm (set_nth nms i (Some (NM (p + NODE_SIZE) (npages nm ++ [p]))))
    (link_down (NUM_NODES_PER_PAGE - 1) (p + N.of_nat (NUM_NODES_PER_PAGE - 1) * NODE_SIZE) 0 m) ((Node i, p) :: live)) B' free'.
Proof.
  intros I E Ef. pose proof (pi_al_ext I (Page, p) (or_introl eq_refl)) as [A0 A1]. cbn [snd fst size_of] in A0, A1. pose proof (nth_error_lt _ _ _ E) as Li.
  set (n := (NUM_NODES_PER_PAGE - 1)%nat). set (M := link_down n (p + N.of_nat n * NODE_SIZE) 0 m).
  assert (Lm : forall x, In x free -> M (snd x) = m (snd x)).
  { intros x Hx. unfold M. apply link_down_out. intros j Hj.
    apply (live_write I _ (Page, p) (or_introl eq_refl)); [|exact Hx]. unfold within, extent. cbn [fst snd size_of].
    assert (En : N.of_nat n = 127) by exact nodes_127. rewrite En. unfold NODE_SIZE, PAGE_SIZE. lia. }
  pose proof (pi_frame I _ Lm) as J. cbn [pw_pm pw_nms pw_mem pw_live] in J. destruct J as [I1 I2 I3 I4 I5 I6 I7]. cbn [pw_pm pw_nms pw_mem pw_live] in *.
  destruct (pi_block I (Page, p) (or_introl eq_refl)) as ([o q] & Hb & Et & _ & Hs). cbn [fst snd] in *. subst o. unfold slots in Hs. cbn [fst] in Hs.
  destruct Hs as [[= ->]|[]]. destruct (in_split _ _ Hb) as (B1 & B2 & ->). exists (B1 ++ (Node i, p) :: B2), (map (pair (Node i)) (cut (p + NODE_SIZE) NODE_SIZE n) ++ free).
  destruct (I6 i nm E) as [C0 P0]. rewrite Ef in C0. assert (Z : proj (Node i) free = []).
  { destruct (proj (Node i) free) as [|x l]; [reflexivity|]. destruct C0 as (<- & C0 & _). congruence. }
  constructor; cbn [pw_pm pw_nms pw_mem pw_live].
  - rewrite map_app in *. exact I1.
  - rewrite map_app in *. exact I2.
  - intros x Hx. apply in_app_or in Hx as [Hx|[<-|Hx]]; [apply I3, in_or_app; now left|split; assumption|apply I3, in_or_app; right; now right].
  - rewrite flat_map_app in I4 |- *. simpl flat_map in I4 |- *. unfold slots at 2. cbn [fst snd].
    replace (cut p NODE_SIZE NUM_NODES_PER_PAGE) with (cut p NODE_SIZE (Datatypes.S n)) by (f_equal; symmetry; exact nodes_S). rewrite cut_S. simpl map. simpl app.
    apply Permutation_sym. eapply Permutation_trans; [|apply Permutation_middle]. constructor. simpl in I4.
    apply (Permutation_sym) in I4. pose proof (Permutation_app_inv [] (live ++ free) (flat_map slots B1) (flat_map slots B2) (Page, p) I4) as Q. simpl in Q.
    rewrite !app_assoc. eapply Permutation_trans; [apply Permutation_app_tail, Permutation_app_comm|]. rewrite <- app_assoc.
    eapply Permutation_trans; [apply Permutation_app_head, Q|]. rewrite !app_assoc. apply Permutation_app_tail, Permutation_app_comm.
  - rewrite proj_app, proj_map_other by discriminate. exact I5.
  - intros j mj Ej. destruct (Nat.eq_dec i j) as [<-|N].
    + rewrite set_nth_same in Ej by exact Li. injection Ej as <-. cbn [nfree npages]. rewrite proj_app, proj_map, Z. split.
      * apply (link_down_chain n p m 0 []); [lia|reflexivity|intros x []].
      * rewrite proj_app, proj_same. rewrite (proj_app oeq) in P0. rewrite (proj_other oeq) in P0 by discriminate.
        eapply Permutation_trans; [|apply Permutation_middle]. apply Permutation_sym, Permutation_cons_app. rewrite app_nil_r. apply Permutation_sym, P0.
    + rewrite set_nth_other in Ej by assumption. destruct (I6 j mj Ej) as [C1 P1]. split; [rewrite proj_app, proj_map_other by congruence; exact C1|].
      rewrite proj_app in P1 |- *. rewrite (proj_other oeq) in P1 by discriminate. rewrite proj_other by congruence. exact P1.
  - intros j q Hq. assert (Hj : exists mj, nth_error nms j = Some (Some mj)).
    { apply in_app_or in Hq as [Hq|[[= <- <-]|Hq]]; [apply (I7 j q), in_or_app; now left|eauto|apply (I7 j q), in_or_app; right; now right]. }
    destruct Hj as [mj Ej]. destruct (Nat.eq_dec i j) as [<-|N]; [rewrite set_nth_same by exact Li; eauto|rewrite set_nth_other by assumption; eauto].
Qed.

Lemma clear_inv pm nms m live B free i a : PInv (PW pm nms m ((Node i, a) :: live)) B free -> PInv (PW pm nms (clear_node m a) ((Node i, a) :: live)) B free.
Proof.
  intros I. assert (W : forall b m, a <= b < a + NODE_SIZE -> PInv (PW pm nms m ((Node i, a) :: live)) B free -> PInv (PW pm nms (poke m b 0) ((Node i, a) :: live)) B free).
  { intros b mm Hb J. apply (pi_write J b 0). left. exists (Node i, a). split; [now left|]. exact Hb. }
  unfold clear_node. unfold NODE_SIZE in W. do 4 (apply W; [lia|]). exact I.
Qed.

Lemma node_alloc_spec pm nms m live B free os i nm pm' nm' m' a : PInv (PW pm nms m live) B free -> honest os pm -> nth_error nms i = Some (Some nm) ->
  node_alloc os pm nm m = Got (pm', nm', m', a) -> exists B' free', PInv (PW pm' (set_nth nms i (Some nm')) m' ((Node i, a) :: live)) B' free'.
Proof.
  intros I Ho E. unfold node_alloc. destruct (N.eqb_spec (nfree nm) 0) as [E0|E0]; cbn [negb].
  - destruct (page_alloc os pm m) as [[[pm1 m1] p]| |] eqn:Ep; try discriminate. intros H.
    destruct (page_alloc_spec _ _ _ _ _ _ _ _ _ _ I Ho Ep) as (B1 & f1 & J). destruct (node_page _ _ _ _ _ _ _ _ _ J E E0) as (B2 & f2 & J2).
    apply clear_inv in J2. injection H as <- <- <- <-. eauto.
  - intros H. destruct (node_take _ _ _ _ _ _ _ _ I E E0) as (f2 & J). apply clear_inv in J. injection H as <- <- <- <-. eauto.
Qed.

(** The end of a node manager: first its pages become pages in use, then they are freed. *)
Definition retag (i : nat) (x : owner * N) : owner * N := if oeq (Node i) (fst x) then (Page, snd x) else x.
Definition dropi i (live : list (owner * N)) := filter (fun x => match fst x with Node j => negb (Nat.eqb i j) | Page => true end) live.

Lemma dropi_drop i l : dropi i l = drop (Node i) l.
Proof.
  unfold dropi, PoolBase.drop. apply filter_ext. intros [[|j] a]; cbn [fst].
  - destruct (oeq (Node i) Page); [discriminate|reflexivity].
  - destruct (Nat.eqb_spec i j) as [E|N]; destruct (oeq (Node i) (Node j)); simpl; congruence.
Qed.

Lemma drop_slots i x : drop (Node i) (slots x) = if oeq (Node i) (fst x) then [] else slots x.
Proof.
  destruct (oeq (Node i) (fst x)) as [E|N].
  - destruct (drop (Node i) (slots x)) as [|y l] eqn:D; [reflexivity|]. assert (H : In y (drop (Node i) (slots x))) by (rewrite D; now left).
    apply drop_in in H as [H1 H2]. apply slots_tag in H1. congruence.
  - assert (H : forall y, In y (slots x) -> Node i <> fst y) by (intros y Hy; apply slots_tag in Hy; congruence).
    induction (slots x) as [|y l IH]; [reflexivity|]. simpl. destruct (oeq (Node i) (fst y)) as [E|_]; [exfalso; apply (H y); [now left|exact E]|].
    f_equal. apply IH. intros z Hz. apply H. now right.
Qed.

Lemma retag_slots i B : Permutation (flat_map slots (map (retag i) B)) (map (pair Page) (proj (Node i) B) ++ drop (Node i) (flat_map slots B)).
Proof.
  induction B as [|[o p] B IH]; [constructor|]. simpl map. simpl flat_map. rewrite drop_app, drop_slots. unfold retag at 1. cbn [fst snd].
  rewrite proj_cons. destruct (oeq (Node i) o) as [<-|N].
  - simpl. constructor. exact IH.
  - rewrite app_assoc. eapply Permutation_trans; [apply Permutation_app_head, IH|]. rewrite !app_assoc. apply Permutation_app_tail, Permutation_app_comm.
Qed.

Lemma quit_convert pm nms m live B free i nm : PInv (PW pm nms m live) B free -> nth_error nms i = Some (Some nm) ->
  PInv (PW pm (set_nth nms i None) m (map (pair Page) (npages nm) ++ dropi i live)) (map (retag i) B) (drop (Node i) free).
Proof.
  intros [I1 I2 I3 I4 I5 I6 I7] E. cbn [pw_pm pw_nms pw_mem pw_live] in *. pose proof (nth_error_lt _ _ _ E) as Li. destruct (I6 i nm E) as [C0 P0].
  assert (Es : forall l, map snd (map (retag i) l) = map snd l).
  { intros l. rewrite map_map. apply map_ext. intros x. unfold retag. destruct (oeq _ _); reflexivity. }
  assert (Ex : map pext (map (retag i) B) = map pext B).
  { rewrite map_map. apply map_ext. intros x. unfold retag, pext. destruct (oeq _ _); reflexivity. }
  constructor; cbn [pw_pm pw_nms pw_mem pw_live].
  - rewrite Es. exact I1.
  - rewrite Ex. exact I2.
  - intros x Hx. apply in_map_iff in Hx as (y & <- & Hy). specialize (I3 y Hy). unfold retag. destruct (oeq _ _); exact I3.
  - eapply Permutation_trans; [apply retag_slots|]. rewrite dropi_drop, <- app_assoc, <- drop_app. apply Permutation_app.
    + apply Permutation_map, Permutation_sym, P0.
    + apply drop_perm, I4.
  - rewrite proj_drop by discriminate. exact I5.
  - intros j mj Ej. destruct (Nat.eq_dec i j) as [<-|N].
    + rewrite set_nth_same in Ej by exact Li. discriminate.
    + rewrite set_nth_other in Ej by assumption. destruct (I6 j mj Ej) as [C1 P1]. split; [rewrite proj_drop by congruence; exact C1|].
      replace (proj (Node j) (map (retag i) B)) with (proj (Node j) B); [exact P1|]. clear - N. induction B as [|[o p] B IH]; [reflexivity|]. simpl map. unfold retag at 1. cbn [fst snd].
      destruct (oeq (Node i) o) as [<-|N2]; rewrite !proj_cons, IH.
      * destruct (oeq (Node j) (Node i)), (oeq (Node j) Page); congruence.
      * reflexivity.
  - intros j q Hq. apply in_map_iff in Hq as ([o p] & Eq & Hq). unfold retag in Eq. cbn [fst snd] in Eq. destruct (oeq (Node i) o) as [E1|N]; [discriminate|].
    injection Eq as -> ->. destruct (I7 j q Hq) as [mj Ej]. exists mj. rewrite set_nth_other; [exact Ej|exact Li|congruence].
Qed.

Lemma free_pages pages : forall pm nms m live B free, PInv (PW pm nms m (map (pair Page) pages ++ live)) B free ->
  exists free', PInv (PW (fst (fold_left (fun x page => page_free (fst x) (snd x) page) pages (pm, m))) nms
    (snd (fold_left (fun x page => page_free (fst x) (snd x) page) pages (pm, m))) live) B free'.
Proof.
  induction pages as [|p pages IH]; intros pm nms m live B free I; [eauto|]. simpl in I. apply page_put in I. simpl. cbn [fst snd].
  destruct (page_free pm m p) as [pm1 m1]. exact (IH _ _ _ _ _ _ I).
Qed.

(** ** All steps *)
Lemma pstep_inv w w' B free : PInv w B free -> pstep w w' -> exists B' free', PInv w' B' free'.
Proof.
  intros I H. inversion H; subst; clear H.
  - eapply page_alloc_spec; eassumption.
  - exists B, ((Page, p) :: free). apply page_put. eapply pi_live; [|exact I]. apply Permutation_sym, Permutation_middle.
  - exists B, free. destruct I as [I1 I2 I3 I4 I5 I6 I7]. cbn [pw_pm pw_nms pw_mem pw_live] in *. constructor; cbn [pw_pm pw_nms pw_mem pw_live]; try assumption.
    + intros i nm E. destruct (Nat.lt_ge_cases i (length nms)) as [L|L].
      * rewrite nth_error_app1 in E by exact L. exact (I6 i nm E).
      * rewrite nth_error_app2 in E by exact L. destruct (i - length nms)%nat as [|k] eqn:Ek; [|destruct k; discriminate]. injection E as <-.
        assert (Z : forall p, ~ In (Node i, p) B). { intros p Hp. destruct (I7 i p Hp) as [nm En]. apply nth_error_lt in En. lia. }
        assert (Z2 : forall l, (forall x, In (Node i, x) l -> False) -> proj (Node i) l = []).
        { intros l Hl. destruct (proj (Node i) l) as [|x r] eqn:El; [reflexivity|]. exfalso. apply (Hl x). apply (proj_in oeq). rewrite El. now left. }
        cbn [nfree npages node_init]. rewrite (Z2 B) by (intros x Hx; exact (Z x Hx)). rewrite Z2; [split; [reflexivity|constructor]|].
        intros x Hx. assert (Hx' : In (Node i, x) (flat_map slots B)).
        { eapply Permutation_in; [apply Permutation_sym, I4|]. apply in_or_app. now right. }
        apply in_flat_map in Hx' as ([o q] & Hq & Hs). apply slots_tag in Hs. cbn [fst] in Hs. subst o. exact (Z q Hq).
    + intros i p Hp. destruct (I7 i p Hp) as [nm En]. exists nm. rewrite nth_error_app1; [exact En|]. exact (nth_error_lt _ _ _ En).
  - eapply node_alloc_spec; eassumption.
  - exists B, ((Node i, a) :: free). apply node_put; [|assumption]. eapply pi_live; [|exact I]. apply Permutation_sym, Permutation_middle.
  - pose proof (quit_convert _ _ _ _ _ _ _ _ I H0) as J. destruct (free_pages _ _ _ _ _ _ _ J) as (f' & J'). eauto.
  - exists B, free. exact (pi_write I a v H0).
Qed.

Lemma preach_inv w : preach w -> exists B free, PInv w B free.
Proof.
  induction 1 as [os per pm m m0 Ho E|w w' R (B & free & I) S].
  - assert (I0 : PInv (PW (PM 0 per []) [] m0 []) [] []).
    { constructor; cbn [pw_pm pw_nms pw_mem pw_live]; try (constructor; fail); try exact I; try (intros ? []; fail); try reflexivity.
      - intros [|i] nm; discriminate.
      - intros i p []. }
    destruct (page_more _ _ _ _ _ _ _ _ _ I0 Ho E) as (_ & R). exact R.
  - exact (pstep_inv _ _ _ _ I S).
Qed.
