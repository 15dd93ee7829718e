(** * Every step of a client keeps the invariant and the functions of its handles. *)
From Coq Require Import Permutation Sorted.
From Verif Require Import Base BFModel ITEModel MgrModel ApiModel StoreInv Own EngInv ApplyProof BinopProof ReduceProof EngineProof
  OpProof MultiProof QProof GCProof VarProof MInv ApiProof ApiOps ApiStruct ApiVar GraphModel GraphProof GraphCube GraphCall AssocModel AssocProof QuantModel QuantBFModel QuantApiModel QuantApi ComposeModel ComposeProof CofactorModel CofactorProof ReduceOpModel ReduceApi DumpModel DumpCall ReorderModel ReorderCover BFReorderModel BFReorderMgr BFSiftMgr AutoModel AutoProof SubstModel SwapModel SwapProof PipeModel PipeProof SubstApi PackProof SpecApi.

(** ** Handles and functions *)

Lemma takes_hv m hs lk D h b : MInv m hs lk D -> In h hs -> takes m h b -> exists rho, hv m D h rho = b.
Proof.
  intros I Ih [rho H]. exists rho. apply (ev_iff (mo m) D (st (me m))) in H; auto; [apply I|eapply MI_swf; eauto|eapply MI_dok; eauto|eapply MI_int; eauto].
Qed.
(** Size measurements succeed. *)
Lemma sized lk m hs D f d : MInv m hs lk D -> In f hs ->
  exists n m1 D1, size1 d m f = Ok (n, m1) /\ kept m hs lk D m1 D1 /\ (fun (_ : order) (_ : (N -> bool) -> bool) (_ : N) => True) (mo m) (hv m D f) n.
Proof. intros I If. destruct (size1_live d m hs lk D f I If) as (n & m1 & D1 & E & K). exists n, m1, D1. auto. Qed.

Lemma means_hv m hs lk D h F : MInv m hs lk D -> In h hs -> (means m h F <-> forall rho, hv m D h rho = F rho).
Proof.
  intros I Ih. unfold means. split; intros H rho; specialize (H rho).
  - apply (ev_iff (mo m) D (st (me m))) in H; auto; [apply I|eapply MI_swf; eauto|eapply MI_dok; eauto|eapply MI_int; eauto].
  - apply (ev_iff (mo m) D (st (me m))); auto; [apply I|eapply MI_swf; eauto|eapply MI_dok; eauto|eapply MI_int; eauto].
Qed.
Lemma means_self m hs lk D h : MInv m hs lk D -> In h hs -> means m h (fun rho => hv m D h rho).
Proof. intros I Ih. apply (means_hv m hs lk D); auto. Qed.

(** Images which are variables or constants, as the proofs of substitution want them. *)
Lemma variables_only m hs lk D : MInv m hs lk D -> variable_images m -> vars_only m D.
Proof.
  intros I H i e Ei Ne rho. pose proof (proj2 (ao_dom _ _ _ (mi_as _ _ _ _ I _ (current_in m)) i e Ei)) as Ve.
  assert (K : forall r b, ev (mmem m) r e b -> dv D e r = b).
  { intros r b He. apply (ev_iff (mo m) D (st (me m))) in He; auto; [apply I|eapply MI_swf; eauto|eapply MI_dok; eauto]. }
  destruct (top_dep (mo m) D (st (me m)) e (mi_wfo _ _ _ _ I) (MI_swf _ _ _ _ I) (MI_dok _ _ _ _ I) Ve Ne) as (r & Hd).
  destruct (H i e Ei) as [(j & Hj)|(b & Hb)].
  - rewrite (K _ _ (Hj rho)). rewrite (K _ _ (Hj _)), (K _ _ (Hj _)) in Hd. unfold flip in Hd. destruct (N.eqb_spec j (eid e)) as [Q|]; [now rewrite Q|now elim Hd].
  - rewrite (K _ _ (Hb _)), (K _ _ (Hb _)) in Hd. now elim Hd.
Qed.

Definition keep (hs hs' : list ubdd) (m : mgr) (D : den) (m' : mgr) (D' : den) : Prop :=
  (forall h, In h hs -> In h hs' -> forall rho, hv m' D' h rho = hv m D h rho) /\ Forall2 (arel D D') (massoc m) (massoc m').
Lemma keep_mext hs hs' m D m' D' : mext hs m D m' D' -> keep hs hs' m D m' D'.
Proof. intros X. split; [|apply X]. intros h Ih _ rho. now apply (mx_h _ _ _ _ _ X). Qed.

Definition next (m : mgr) (hs : list ubdd) (lk : N -> N) (D : den) (m' : mgr) (hs' : list ubdd) : Prop :=
  exists D', MInv m' hs' lk D' /\ keep hs hs' m D m' D'.

Lemma next_cons m hs lk D h m' D' : MInv m' (h :: hs) lk D' -> mext hs m D m' D' -> next m hs lk D m' (own [h] hs).
Proof.
  intros I X. exists D'. cbn [own]. rewrite (uok_notnull m' (h :: hs) lk D' h I) by now left.
  split; auto. now apply keep_mext.
Qed.
Lemma next_null m hs lk D : MInv m hs lk D -> next m hs lk D m (own [unull] hs).
Proof. intros I. exists D. split; auto. now apply keep_mext, mext_refl. Qed.
Lemma next_same m hs lk D m' D' : MInv m' hs lk D' -> mext hs m D m' D' -> next m hs lk D m' hs.
Proof. intros I X. exists D'. split; auto. now apply keep_mext. Qed.
Lemma next_result m hs lk D f h m' : result m hs lk D f h m' -> next m hs lk D m' (own [h] hs).
Proof.
  intros (D' & X & [(-> & O & I)|(I & _)]).
  - exists D'. split; auto. now apply keep_mext.
  - eapply next_cons; eauto.
Qed.
Lemma next_result' m hs lk D f h m' : result' m hs lk D f h m' -> next m hs lk D m' (own [h] hs).
Proof. intros (D' & X & I & _). eapply next_cons; eauto. Qed.

Lemma next_kept m hs lk D m' : (exists D', kept m hs lk D m' D') -> next m hs lk D m' hs.
Proof. intros (D' & I & X). eapply next_same; eauto. Qed.
Lemma own_live m hs lk D l : MInv m (l ++ hs) lk D -> own l hs = l ++ hs.
Proof.
  intros I. assert (H : forall h, In h l -> uisnull h = false).
  { intros h Ih. eapply uok_notnull; [exact I|]. apply in_or_app; now left. }
  clear I. induction l as [|h l IH]; simpl; auto. rewrite (H h) by now left. f_equal. apply IH. intros. apply H. now right.
Qed.

Lemma arg_cases hs (l : list ubdd) : (forall h, In h l -> arg hs h) ->
  (forall h, In h l -> In h hs) \/ exists h, In h l /\ uisnull h = true.
Proof.
  induction l as [|h l IH]; intros H; [left; intros ? []|].
  destruct (H h) as [Hn|Hi]; [now left|right; exists h; simpl; auto|].
  destruct IH as [A|(k & Ik & Hk)]; [intros; apply H; now right| |].
  - left. intros k [<-|Ik]; auto.
  - right. exists k. simpl. auto.
Qed.

(** The last pending pair, as the engine computes it. *)
Lemma array_mi_app o op l1 l2 mi : array_mi o op mi (l1 ++ l2) = array_mi o op (array_mi o op mi l1) l2.
Proof.
  revert mi. induction l1 as [|[F G] l1 IH]; simpl; intros mi; auto. destruct (tcase op F G); apply IH.
Qed.
Lemma array_mi_none o op l mi : (forall r, In r l -> pending op r = false) -> array_mi o op mi l = mi.
Proof.
  revert mi. induction l as [|[F G] l IH]; simpl; intros mi H; auto.
  pose proof (H _ (or_introl eq_refl)) as P. unfold pending in P. simpl in P. destruct (tcase op F G); [|discriminate]. apply IH. auto.
Qed.
Lemma topindex_min o p : topindex o p = minindex2 o (fst p) (snd p).
Proof.
  unfold topindex, minindex2, eidx. destruct (N.ltb_spec (idx o (eid (fst p))) (idx o (eid (snd p)))); lia.
Qed.
Lemma last_top o op ps : last_pending_is_top o op ps -> last_is_top o op ps.
Proof.
  intros H p Ip Tp. destruct (H p Ip) as (l1 & q & l2 & E & Pq & P2 & Le). { unfold pending. now rewrite Tp. }
  rewrite E, array_mi_app. destruct q as [F G]. simpl. unfold pending in Pq. simpl in Pq. destruct (tcase op F G) eqn:T; [discriminate|].
  rewrite array_mi_none by auto. rewrite !topindex_min in Le. exact Le.
Qed.

Lemma op_ok op : In op [op_and; op_nand; op_or; op_xor] -> binop_ok op.
Proof. intros [<-|[<-|[<-|[<-|[]]]]]; [apply op_and_ok|apply op_nand_ok|apply op_or_ok|apply op_xor_ok]. Qed.
Lemma op3 op : In op [op_and; op_or; op_xor] -> In op [op_and; op_nand; op_or; op_xor].
Proof. simpl. tauto. Qed.
Lemma op_unit op : In op [op_and; op_or; op_xor] -> exists u, (forall b, bsem op u b = b) /\ (forall b, bsem op b u = b) /\
  (forall a b c, bsem op a (bsem op b c) = bsem op (bsem op a b) c).
Proof.
  intros [<-|[<-|[<-|[]]]]; [exists true|exists false|exists false];
    (split; [now intros []|]; split; [now intros []|]; now intros [] [] []).
Qed.

(** The client's condition for reordering, in terms of the denotations. *)
Lemma ready_spec m hs D : MInv m hs lk0 D -> ready_to_reorder m hs ->
  (forall a i e, In a (mtemp m :: massoc m) -> amap a i = Some e -> togeth m D hs (dv D e)) /\
  (forall v b, v <> 0 -> In b (ut (st (me m)) v) -> cr (mmem m b) = MAXREF -> togeth m D hs (D b)).
Proof.
  intros I [Ra Rs].
  assert (T : forall F, occur_together m hs F -> togeth m D hs F).
  { intros F H p q N Hp Hq. destruct (H p q N Hp Hq) as (h & G & Ih & M & Dp & Dq). exists h. split; auto.
    pose proof (proj1 (means_hv m hs lk0 D h G I Ih) M) as E. split; (eapply depF_ext; [intros rho; symmetry; apply E|]); assumption. }
  assert (EM : forall e, vedge (nodeR (st (me m))) e -> edge_means m e (dv D e)).
  { intros e Ve rho. apply (ev_iff (mo m) D (st (me m))); auto; [apply I|eapply MI_swf; eauto|eapply MI_dok; eauto]. }
  split.
  - intros a i e Ia Ee. apply T. apply (Ra a i e); auto. apply EM. exact (proj2 (ao_dom _ _ _ (mi_as _ _ _ _ I a Ia) i e Ee)).
  - intros v b Nv Ib Hc. apply T. apply (Rs v b); auto. intros rho.
    assert (E : D b rho = dv D (E v b false) rho) by (unfold dv; cbn [eptr eneg]; now rewrite ?xorb_false_l).
    rewrite E. apply EM. right. split; auto.
Qed.

Lemma topvar_top m D g i : topvar m D g i -> topmost m (hv m D g) i.
Proof.
  intros (T1 & (rho & T2) & T3). split; auto. split; [now exists rho|].
  intros j Ij Lt (r & Dj). apply Dj. change (assign r j true) with (flip r j true).
  change (assign r j false) with (flip r j false). now rewrite !(T3 j Ij Lt).
Qed.
(** *** The levels of a pipeline *)
Lemma prog_ok_from' hs prog : forall n, (forall k x y, nth_error prog k = Some (x, y) -> operand_from hs (n + k) x /\ operand_from hs (n + k) y) ->
  prog_ok hs n prog.
Proof.
  induction prog as [|[x y] prog IH]; intros n H; cbn [prog_ok]; auto.
  destruct (H O x y eq_refl) as [Hx Hy]. rewrite Nat.add_0_r in Hx, Hy. split; [exact Hx|]. split; [exact Hy|].
  apply IH. intros k u v E. specialize (H (S k) u v E). now rewrite Nat.add_succ_r in H.
Qed.
Lemma prog_ok_from hs prog : well_formed hs prog -> prog_ok hs 0 prog.
Proof. intros H. apply prog_ok_from'. exact H. Qed.

Lemma prog_levels_le (level : nat -> nat) prog : forall ls,
  (forall k, (nth k ls O <= level k)%nat) ->
  (forall k x y, nth_error prog k = Some (x, y) -> beneath level x (level (length ls + k)%nat) /\ beneath level y (level (length ls + k)%nat)) ->
  forall k, (nth k (prog_levels ls prog) O <= level k)%nat.
Proof.
  induction prog as [|[x y] prog IH]; intros ls H1 H2; cbn [prog_levels]; auto. apply IH.
  - intros k. destruct (Nat.lt_trichotomy k (length ls)) as [Hk|[->|Hk]].
    + rewrite app_nth1 by auto. apply H1.
    + rewrite app_nth2, Nat.sub_diag by lia. cbn [nth]. destruct (H2 O x y eq_refl) as [Bx By]. rewrite Nat.add_0_r in Bx, By.
      assert (Q : forall z, beneath level z (level (length ls)) -> (oplev ls z <= level (length ls))%nat).
      { intros [h|j b]; simpl; [lia|]. intros Hj. specialize (H1 j). lia. }
      specialize (Q x Bx) as Qx. specialize (Q y By) as Qy. lia.
    + rewrite nth_overflow; [lia|]. rewrite app_length. simpl. lia.
  - intros k u v E. rewrite app_length. cbn [length]. specialize (H2 (S k) u v E).
    now replace (length ls + 1 + k)%nat with (length ls + S k)%nat by lia.
Qed.
Lemma prog_levels_len prog : forall ls, length (prog_levels ls prog) = (length ls + length prog)%nat.
Proof. induction prog as [|[x y] prog IH]; intros ls; cbn [prog_levels length]; [lia|]. rewrite IH, app_length. simpl. lia. Qed.
Lemma prog_levels_max prog : max_levels prog -> forall l, In l (prog_levels [] prog) -> (l < MAX_INSERT)%nat.
Proof.
  intros (level & H) l Il. destruct (In_nth _ _ O Il) as (k & Hk & <-). rewrite prog_levels_len in Hk. simpl in Hk.
  pose proof (prog_levels_le level prog []) as Le. specialize (Le ltac:(intros [|j]; simpl; lia)).
  specialize (Le ltac:(intros j x y E; apply (H j x y E)) k).
  destruct (nth_error prog k) as [[x y]|] eqn:E; [|apply nth_error_None in E; lia].
  destruct (H k x y E) as [Hl _]. unfold MAX_INSERT. lia.
Qed.

Theorem call_next w w' lk D : lk = lk0 -> call w w' -> MInv (wm w) (wh w) lk D -> next (wm w) (wh w) lk D (wm w') (wh w').
Proof.
  intros El S. destruct S; cbn [wm wh]; intros I.
  - exists D. split; [now apply MInv_const|]. now apply keep_mext, mext_refl.
  - exists D. split; [eapply MInv_perm; eauto|]. apply keep_mext, mext_refl.
  - exists D. split; [|apply keep_mext, mext_refl]. destruct I as [B1 B2 B3 B4 B5 B6 B7 B8 B9 B10 B11].
    constructor; auto. intros k [<-|Ik]; [apply (B6 h); now left|apply B6; now right].
  - unfold cal_identity in *. rewrite (uok_notnull m hs lk D h I) in * by auto. injection H0 as <- <-.
    destruct (uinc_spec m hs lk D h h I) as [I2 X2]; auto. exists D. split; auto. now apply keep_mext.
  - unfold cal_not in *. rewrite (uok_notnull m hs lk D h I) in * by auto. injection H0 as <- <-.
    destruct (uinc_spec m hs lk D h (unot h) I) as [I2 X2]; auto. exists D. split; auto. now apply keep_mext.
  - unfold cal_unfree in *. rewrite (uok_notnull m hs lk D h I) in * by auto. injection H0 as <-.
    destruct (uinc_spec m hs lk D h h I) as [I2 X2]; auto. exists D. split; auto. now apply keep_mext.
  - unfold cal_free in *. rewrite (uok_notnull m (h :: hs) lk D h I) in * by now left. injection H as <-.
    destruct (udec_spec m hs lk D h I) as [I2 X2]. exists D. split; auto.
    split; [|apply X2]. intros k _ Ik rho. now apply (mx_h _ _ _ _ _ X2).
  - unfold cal_free, cal_unfree in *. rewrite (uok_notnull m hs lk D h I) in * by auto. injection H0 as <-. injection H1 as <-.
    destruct (in_split h hs H) as (l1 & l2 & ->). assert (P : Permutation (l1 ++ h :: l2) (h :: l1 ++ l2)) by (symmetry; apply Permutation_middle).
    destruct (refree_spec m (l1 ++ l2) lk D h (MInv_perm m _ _ lk D P I)) as [I2 X2]. exists D.
    split; [exact (MInv_perm _ _ _ lk D (Permutation_sym P) I2)|]. apply keep_mext. eapply mext_sub; [|exact X2]. intros k Ik. now apply (Permutation_in k P).
  - destruct (arg_cases hs [f; g]) as [A|(k & Ik & Hk)]; [now intros k [<-|[<-|[]]]| |].
    + destruct (binary_spec enum H op neg d1 d2 m hs lk D f g (op_ok op H0) I) as (r' & m1 & E & R); [apply A; simpl; auto ..|].
      rewrite H3 in E. injection E as <- <-. eapply next_result; eauto.
    + rewrite (binary_null enum op neg d1 d2 m hs lk D f g I) in H3; auto.
      * injection H3 as <- <-. now apply next_null.
      * destruct Ik as [<-|[<-|[]]]; auto.
  - destruct (arg_cases hs [f; g; h]) as [A|(k & Ik & Hk)]; [now intros k [<-|[<-|[<-|[]]]]| |].
    + destruct (ite_spec enum H d1 d2 m hs lk D f g h I) as (r' & m1 & E & R); [apply A; simpl; auto ..|].
      rewrite H3 in E. injection E as <- <-. eapply next_result; eauto.
    + rewrite (ite_null enum d1 d2 m hs lk D f g h I) in H3; [|now intros j [<-|[<-|[<-|[]]]]|eauto].
      injection H3 as <- <-. now apply next_null.
  - destruct (Bool.bool_dec (Nat.eqb (length l) 0 || Nat.odd (length l)) true) as [Od|Od].
    + destruct (pairwise_odd enum op post ds d m hs lk D l I H1) as (m1 & D1 & E & I1 & X1).
      { apply orb_true_iff in Od as [Od|Od]; auto. left. destruct l; auto; discriminate. }
      rewrite H3 in E. injection E as -> ->. eapply next_same; eauto.
    + apply not_true_iff_false, orb_false_iff in Od as [Od1 Od2].
      destruct (pairwise_spec enum H op post ds d m hs lk D l (op_ok op (op3 op H0)) I H1) as (us & m1 & E & D1 & X1 & R).
      * intros ->. discriminate.
      * unfold Nat.odd in Od2. now apply negb_false_iff in Od2.
      * intros m1 E. now apply last_top, H2.
      * rewrite H3 in E. injection E as -> ->. destruct R as [(_ & _ & -> & I1)|(I1 & _)].
        -- exists D1. replace (own (map (fun _ => unull) (pairs l)) hs) with hs; [split; [auto|now apply keep_mext]|].
           clear. induction (pairs l); simpl; auto.
        -- exists D1. rewrite (own_live m1 hs lk D1 us I1). split; auto. now apply keep_mext.
  - destruct l as [|a l].
    + rewrite multiway_empty in H2. injection H2 as <- <-. now apply next_null.
    + destruct (op_unit op H0) as (u & U1 & U2 & U3).
      destruct (N.leb_spec (N.of_nat (length (a :: l))) 1024) as [Le|Gt].
      * destruct (multiway_spec enum H op u ds m hs lk D (a :: l) (op_ok op (op3 op H0)) U1 U2 U3 I H1) as (r' & m1 & E & R); auto; [discriminate|].
        rewrite H2 in E. injection E as <- <-. eapply next_result'; eauto.
      * rewrite (multiway_fatal enum op ds m hs lk D (a :: l) I H1 Gt) in H2. discriminate.
  - destruct (arg_cases hs [f; g]) as [A|(k & Ik & Hk)]; [now intros k [<-|[<-|[]]]| |].
    + destruct (intersects_spec neg d m hs lk D f g I) as (r' & m1 & D1 & E & X1 & I1 & _); [apply A; simpl; auto ..|].
      rewrite H1 in E. injection E as <- <-. eapply next_cons; eauto.
    + unfold intersects in H1. rewrite (preproc_null d m hs lk D [f; g] I) in H1; [|now intros j [<-|[<-|[]]]|eauto].
      injection H1 as <- <-. now apply next_null.
  - destruct H as [Hn|Hi].
    + unfold cal_ifindex in H0. rewrite (preproc_null d m hs lk D [f] I) in H0; [|intros j [<-|[]]; now left|exists f; simpl; auto].
      injection H0 as <- <-. eapply next_same; eauto. apply mext_refl.
    + destruct (ifindex_spec d m hs lk D f I Hi) as (r & m1 & D1 & E & I1 & X1 & _). rewrite H0 in E. injection E as <- <-.
      eapply next_same; eauto.
  - destruct H as [Hn|Hi].
    + unfold cal_ifid in H0. rewrite (preproc_null d m hs lk D [f] I) in H0; [|intros j [<-|[]]; now left|exists f; simpl; auto].
      injection H0 as <- <-. eapply next_same; eauto. apply mext_refl.
    + destruct (ifid_spec d m hs lk D f I Hi) as (r & m1 & D1 & E & I1 & X1 & _). rewrite H0 in E. injection E as <- <-.
      eapply next_same; eauto.
  - destruct H as [Hn|Hi].
    + unfold cal_if in H0. rewrite (preproc_null d m hs lk D [f] I) in H0; [|intros j [<-|[]]; now left|exists f; simpl; auto].
      injection H0 as <- <-. now apply next_null.
    + destruct (cal_isconst m f) eqn:C.
      { rewrite (proj1 (const_undefined d m hs lk D f I Hi C)) in H0. discriminate. }
      destruct (parts d m hs lk D f I Hi C) as (i & (r' & m1 & D1 & E & X1 & I1 & _) & _ & _).
      rewrite H0 in E. injection E as <- <-. eapply next_cons; eauto.
  - destruct H as [Hn|Hi].
    + unfold cal_then in H0. rewrite (preproc_null d m hs lk D [f] I) in H0; [|intros j [<-|[]]; now left|exists f; simpl; auto].
      injection H0 as <- <-. now apply next_null.
    + destruct (cal_isconst m f) eqn:C.
      { rewrite (proj1 (proj2 (const_undefined d m hs lk D f I Hi C))) in H0. discriminate. }
      destruct (parts d m hs lk D f I Hi C) as (i & _ & (r' & m1 & D1 & E & X1 & I1 & _) & _).
      rewrite H0 in E. injection E as <- <-. eapply next_cons; eauto.
  - destruct H as [Hn|Hi].
    + unfold cal_else in H0. rewrite (preproc_null d m hs lk D [f] I) in H0; [|intros j [<-|[]]; now left|exists f; simpl; auto].
      injection H0 as <- <-. now apply next_null.
    + destruct (cal_isconst m f) eqn:C.
      { rewrite (proj2 (proj2 (const_undefined d m hs lk D f I Hi C))) in H0. discriminate. }
      destruct (parts d m hs lk D f I Hi C) as (i & _ & _ & (r' & m1 & D1 & E & X1 & I1 & _) & _).
      rewrite H0 in E. injection E as <- <-. eapply next_cons; eauto.
  - apply next_kept. eapply query_inv; eauto.
  - destruct H as [Hn|Hi].
    + unfold cal_satisfy, satisfy_with in H0. rewrite (preproc_null d m hs lk D [f] I) in H0; [|intros j [<-|[]]; now left|exists f; simpl; auto].
      injection H0 as <- <-. now apply next_null.
    + destruct (zero_dec m hs lk D f I Hi) as [Z|Z].
      * destruct (satisfy_zero (fun m s F => satisfy_step (depth (mo m)) s F) d m hs lk D f I Hi Z) as (m1 & D1 & E & X1 & I1 & Ef).
        unfold cal_satisfy in H0. rewrite E in H0. injection H0 as <- <-. apply (next_cons m hs lk D f m1 D1); auto.
        rewrite Ef, <- (mx_one _ _ _ _ _ X1). now apply MInv_const.
      * destruct (satisfy_spec d m hs lk D f I Hi Z) as (h & m1 & D1 & L & E & X1 & I1 & _). rewrite H0 in E. injection E as <- <-. eapply next_cons; eauto.
  - destruct H as [Hn|Hi].
    + unfold cal_satisfy_support, satisfy_with in H0. rewrite (preproc_null d m hs lk D [f] I) in H0; [|intros j [<-|[]]; now left|exists f; simpl; auto].
      injection H0 as <- <-. now apply next_null.
    + destruct (zero_dec m hs lk D f I Hi) as [Z|Z].
      * destruct (satisfy_zero (fun m s F => satisfy_support_step (mo m) (depth (mo m) + length (ord (mo m))) s F (support_ids m)) d m hs lk D f I Hi Z) as (m1 & D1 & E & X1 & I1 & Ef).
        unfold cal_satisfy_support in H0. rewrite E in H0. injection H0 as <- <-. apply (next_cons m hs lk D f m1 D1); auto.
        rewrite Ef, <- (mx_one _ _ _ _ _ X1). now apply MInv_const.
      * destruct (satisfy_support_spec' d m hs lk D f I Hi Z) as (h & m1 & D1 & L & E & X1 & I1 & _). rewrite H0 in E. injection E as <- <-. eapply next_cons; eauto.
  - apply next_kept. eapply query_inv; eauto.
  - apply next_kept. eapply query_inv; eauto.
  - apply next_kept. eapply query_inv; eauto.
  - apply next_kept. exact (multi_inv ds m hs lk D l (fun m1 => size_of neg (mo m1) (mmem m1) unmarked (map (uint (mmem m1)) (upto_null l))) n m' I H H0).
  - apply next_kept. exact (multi_inv ds m hs lk D l (fun m1 => profile_of neg (mo m1) (mmem m1) unmarked (map (uint (mmem m1)) (upto_null l))) lc m' I H H0).
  - apply next_kept. eapply function_profile_inv; eauto.
  - destruct H as [Hn|Hi].
    + unfold cal_support in H0. rewrite (preproc_null d m hs lk D [f] I) in H0; [|intros j [<-|[]]; now left|exists f; simpl; auto].
      injection H0 as <- <- <-. exists D. split; auto. now apply keep_mext, mext_refl.
    + destruct (support_spec d m hs lk D f I Hi) as (ids & rs' & mk' & m1 & D1 & E & X1 & I1 & _). rewrite H0 in E. injection E as <- <- <-.
      exists D1. rewrite (own_live m' hs lk D1 rs I1). split; auto. now apply keep_mext.
  - apply next_kept. exact (depends_inv d m hs lk D f v r m' I H H0 H1).
  - destruct (N.ltb_spec (numvars m) 65534) as [Lt|Ge].
    + destruct (N.leb_spec k (numvars m)) as [Le|Gt].
      * destruct (newvar_at_spec m hs lk D k I Lt Le) as (r' & m1 & D1 & E & I1 & X1 & _). rewrite H in E. injection E as <- <-.
        eapply next_cons; eauto.
      * unfold newvar_at, newvar in H. destruct (N.eqb_spec (numvars m) 65534); [lia|]. destruct (N.ltb_spec (numvars m) k); [discriminate|lia].
    + unfold newvar_at, newvar in H. destruct (N.eqb_spec (numvars m) 65534); [discriminate|].
      pose proof (wfo_len _ (mi_wfo _ _ _ _ I)). unfold numvars, CONST_INDEX in *. lia.
  - destruct (var_with_index_spec m hs lk D k I) as [V1 V2].
    destruct (nth_error (ord (mo m)) (N.to_nat k)) as [i|] eqn:E.
    + destruct (V1 i eq_refl) as (r' & m1 & D1 & E1 & I1 & X1 & _). rewrite H in E1. injection E1 as <- <-. eapply next_cons; eauto.
    + rewrite (V2 eq_refl) in H. injection H as <- <-. now apply next_null.
  - destruct (var_with_id_spec m hs lk D k I) as [V1 V2].
    destruct (in_dec N.eq_dec k (ord (mo m))) as [Ik|Nk].
    + destruct (V1 Ik) as (r' & m1 & D1 & E1 & I1 & X1 & _). rewrite H in E1. injection E1 as <- <-. eapply next_cons; eauto.
    + rewrite (V2 Nk) in H. injection H as <- <-. now apply next_null.
  - destruct (gc_MInv m hs lk D I). eapply next_same; eauto.
  - destruct (set_gclimit_MInv m hs lk D I). eapply next_same; eauto.
  - unfold cal_nodelimit in H. injection H as _ <-.
    match goal with |- next _ _ _ _ (M _ _ _ _ _ _ _ _ _ ?a ?b ?c) _ => destruct (MInv_limits m hs lk D a b c I) as [I1 X1] end.
    eapply next_same; eauto.
  - unfold cal_overflow in H. injection H as _ <-. destruct (MInv_limits m hs lk D (mlim m) (mnl m) false I) as [I1 X1]. eapply next_same; eauto.
  - change m' with (snd (r, m')). rewrite <- H. destruct (set_current_spec m hs lk D id I) as [I1 K1]. exists D. split; auto. split; [auto|].
    assert (E : massoc (snd (cal_assoc_set_current m id)) = massoc m) by (simpl; destruct id; [destruct (existsb _ _)|]; reflexivity).
    rewrite E. apply Forall2_refl'. intros. apply arel_refl.
  - unfold cal_temp_init in H1. destruct (temp_quit_spec m hs lk D I) as (I1 & K1 & _ & E1).
    destruct (temp_augment_spec ds (cal_temp_quit m) hs lk D l pr I1 H H0) as (m2 & D2 & E2 & I2 & K2 & F2).
    rewrite H1 in E2. injection E2 as <-. exists D2. split; auto. split; [|now rewrite <- E1].
    intros h Ih _ rho. rewrite K2; auto.
  - destruct (temp_augment_spec ds m hs lk D l pr I H H0) as (m2 & D2 & E2 & I2 & K2 & F2).
    rewrite H1 in E2. injection E2 as <-. exists D2. split; auto. split; auto.
  - destruct (temp_quit_spec m hs lk D I) as (I1 & K1 & _ & E1). exists D. split; auto. split; auto.
    rewrite E1. apply Forall2_refl'. intros. apply arel_refl.
  - destruct H0 as [Hn|Hi].
    + rewrite (quantify_null enum slot neg d1 d2 m hs lk D f I Hn) in H2. injection H2 as <- <-. now apply next_null.
    + destruct (quantify_spec enum H slot neg d1 d2 m hs lk D f I Hi H1) as (r' & m1 & E & R).
      rewrite H2 in E. injection E as <- <-. eapply next_result; eauto.
  - destruct (arg_cases hs [f; g]) as [A|(k & Ik & Hk)]; [now intros k [<-|[<-|[]]]| |].
    + assert (If : In f hs) by (apply A; simpl; auto). assert (Ig : In g hs) by (apply A; simpl; auto).
      destruct (relprod_spec enum H slot d1 d2 m hs lk D f g I If Ig H2) as (r' & m1 & E & R).
      rewrite H3 in E. injection E as <- <-. eapply next_result; eauto.
    + rewrite (relprod_null enum slot d1 d2 m hs lk D f g I) in H3; auto.
      * injection H3 as <- <-. now apply next_null.
      * destruct Ik as [<-|[<-|[]]]; auto.
  - destruct (arg_cases hs [f; g; h]) as [A|(k & Ik & Hk)]; [now intros k [<-|[<-|[<-|[]]]]| |].
    + destruct (compose_spec enum H d m hs lk D f g h I) as (r' & m1 & E & R1 & R2); [apply A; simpl; auto ..|].
      rewrite H3 in E. injection E as <- <-. destruct (cal_isconst m g).
      * eapply next_result'; exact (R1 eq_refl).
      * destruct (R2 eq_refl) as (i & _ & R). eapply next_result'; exact R.
    + rewrite (compose_null enum d m hs lk D f g h I) in H3; [discriminate|now intros j [<-|[<-|[<-|[]]]]|eauto].
  - destruct (arg_cases hs [f; c]) as [A|(k & Ik & Hk)]; [now intros k [<-|[<-|[]]]| |].
    + destruct (cofactor_spec enum H d1 d2 m hs lk D f c I) as (r' & m1 & F & E & _ & R); [apply A; simpl; auto ..|].
      rewrite H2 in E. injection E as <- <-. eapply next_result; eauto.
    + rewrite (cofactor_null enum d1 d2 m hs lk D f c I) in H2; [|now intros j [<-|[<-|[]]]|eauto].
      injection H2 as <- <-. now apply next_null.
  - destruct H as [Hn|Hi].
    + rewrite (dump_null d0 d1 ds1 ds2 ds3 m hs lk D f vs I Hn) in H1. injection H1 as <- <- <-. exists D. split; auto. now apply keep_mext, mext_refl.
    + destruct (dump_spec d0 d1 ds1 ds2 ds3 m hs lk D f vs I Hi H0) as (r' & sup' & m1 & D1 & E & X1 & I1 & _).
      rewrite H1 in E. injection E as <- <- <-. exists D1. rewrite (own_live m' hs lk D1 sup I1). split; auto. now apply keep_mext.
  - pose proof (undump_spec enum ds m hs lk D vs inp H I H0) as U. rewrite H1 in U. destruct U as (D1 & X1 & _ & [(E & I1 & _)|(_ & I1)]).
    + rewrite E. exists D1. split; auto. now apply keep_mext.
    + eapply next_cons; eauto.
  - subst lk. destruct (ready_spec m hs D I H) as [Ha Hs].
    destruct (reorder_spec m hs D sw I Ha Hs) as (D' & I' & X & _). exists D'. split; auto. now apply keep_mext.
  - destruct (arg_cases hs [f; c]) as [A|(k & Ik & Hk)]; [now intros k [<-|[<-|[]]]| |].
    + assert (If : In f hs) by (apply A; simpl; auto). assert (Ic : In c hs) by (apply A; simpl; auto).
      assert (Sc : exists rho, hv m D c rho = true).
      { destruct H2 as [Hn|Hs]; [rewrite (uok_notnull _ _ _ _ _ I Ic) in Hn; discriminate|]. eapply takes_hv; eauto. }
      destruct (reduce_spec enum H lk (fun _ _ _ => True) (fun _ _ _ _ _ _ => Logic.I) (sized lk) d1 d2 d3 d4 m hs D f c I If Ic Sc) as (r' & m1 & F & E & _ & R).
      rewrite H3 in E. injection E as <- <-. eapply next_result; eauto.
    + rewrite (reduce_null enum lk d1 d2 d3 d4 m hs D f c I) in H3; [|now intros j [<-|[<-|[]]]|eauto].
      injection H3 as <- <-. now apply next_null.
  - destruct (arg_cases hs [f; g]) as [A|(k & Ik & Hk)]; [now intros k [<-|[<-|[]]]| |].
    + assert (If : In f hs) by (apply A; simpl; auto). assert (Ig : In g hs) by (apply A; simpl; auto).
      assert (Sc : exists rho, hv m D f rho = true \/ hv m D g rho = false).
      { destruct H2 as [Hn|[Hn|[Hs|Hs]]]; [rewrite (uok_notnull _ _ _ _ _ I If) in Hn; discriminate|rewrite (uok_notnull _ _ _ _ _ I Ig) in Hn; discriminate| |].
        - destruct (takes_hv m hs lk D f true I If Hs) as [rho Hr]. exists rho. now left.
        - destruct (takes_hv m hs lk D g false I Ig Hs) as [rho Hr]. exists rho. now right. }
      destruct (between_spec enum H lk (fun _ _ _ => True) (fun _ _ _ _ _ _ => Logic.I) (sized lk) d1 d2 d3 d4 d5 m hs D f g I If Ig Sc) as (r' & m1 & F & E & _ & R).
      rewrite H3 in E. injection E as <- <-. eapply next_result; eauto.
    + rewrite (between_null enum lk d1 d2 d3 d4 d5 m hs D f g I) in H3; [|now intros j [<-|[<-|[]]]|eauto].
      injection H3 as <- <-. now apply next_null.
  - destruct H0 as [Hn|Hi].
    + rewrite (substitute_null enum d m hs lk D f I Hn) in H1. injection H1 as <- <-. now apply next_null.
    + destruct (substitute_spec enum H d m hs lk D f I Hi) as (r' & m1 & E & R). rewrite H1 in E. injection E as <- <-. eapply next_result'; exact R.
  - destruct H0 as [Hn|Hi].
    + rewrite (varsubstitute_null enum slot d1 d2 m hs lk D f I Hn) in H3. injection H3 as <- <-. now apply next_null.
    + destruct (varsubstitute_spec enum H slot d1 d2 m hs lk D f I Hi H1 (variables_only m hs lk D I H2)) as (r' & m1 & E & R).
      rewrite H3 in E. injection E as <- <-. eapply next_result; exact R.
  - destruct (arg_cases hs [f; g; h]) as [A|(k & Ik & Hk)]; [now intros k [<-|[<-|[<-|[]]]]| |].
    + destruct (swapvars_spec enum H d m hs lk D f g h I) as (r' & m1 & E & R1 & R2); [apply A; simpl; auto ..| |].
      { intros i Tg Th. apply (H3 _ _ i (means_self m hs lk D g I (A g (or_intror (or_introl eq_refl)))) (means_self m hs lk D h I (A h (or_intror (or_intror (or_introl eq_refl))))));
          now apply topvar_top. }
      rewrite H4 in E. injection E as <- <-. destruct (cal_isconst m g || cal_isconst m h).
      * destruct (R1 eq_refl) as (-> & D' & I' & X). exact (next_same m hs lk D m' D' I' X).
      * destruct (R2 eq_refl) as (i & j & _ & _ & R). eapply next_result'; exact R.
    + rewrite (swapvars_null enum d m hs lk D f g h I) in H4; [|now intros j [<-|[<-|[<-|[]]]]|eauto].
      injection H4 as <- <-. now apply next_null.
  - subst lk. destruct (run_pipeline_spec enum H op (op_ok op (op3 op H0)) d0 ds m p hs D prog outs I H1
      (prog_ok_from hs prog H2) (prog_levels_max prog H3) (fun kb Ik => H4 (fst kb) (snd kb) (eq_ind_r (fun z => In z outs) Ik (eq_sym (surjective_pairing kb)))))
      as (r' & m1 & p1 & E & R).
    rewrite H5 in E. injection E as <- <- <-. destruct R as (_ & D' & I' & X & _). exists D'. split; auto. now apply keep_mext.
  - subst lk. destruct (PackProof.gc_repack_spec p m hs D H H0 I) as (m1 & _ & E & _ & R). rewrite H2 in E. injection E as ->.
    destruct (R H1) as (D' & I' & X). exists D'. split; auto. now apply keep_mext.
  - subst lk. destruct (ready_spec m hs D I H) as [Ha Hs].
    destruct (reorder_window_spec m hs D lim fuel m' I Ha Hs H0) as (D' & I' & X & _). exists D'. split; auto. now apply keep_mext.
  - subst lk. destruct (ready_spec m hs D I H) as [Ha Hs].
    destruct (reorder_sift_spec m hs D lim maxv maxs grow m' I Ha Hs H0) as (D' & I' & X & _). exists D'. split; auto. now apply keep_mext.
  - subst lk. destruct (ready_spec m hs D I H) as [Ha Hs].
    destruct (post_auto_spec m hs D d thr t ov m' I Ha Hs H0) as (D' & I' & X & _). exists D'. split; auto. now apply keep_mext.
Qed.

Theorem step_next w w' lk D : lk = lk0 -> step w w' -> MInv (wm w) (wh w) lk D ->
  exists D', MInv (wm w') (wh w') lk D' /\ forall h, In h (wh w) -> In h (wh w') -> forall rho, hv (wm w') D' h rho = hv (wm w) D h rho.
Proof.
  intros El S I. destruct S.
  - destruct (call_next w w' lk D El H I) as (D' & I' & K & _). exists D'. auto.
  - cbn [wm wh] in *. destruct (assoc_init_spec ds m hs lk D l pr I H H2 H0 H1) as (m1 & D1 & I1 & X1 & [[_ E]|(_ & mp & la & j & m2 & _ & E & I2 & K2 & _)]);
      rewrite H3 in E; injection E as -> ->; exists D1; (split; [assumption|]); intros h Ih _ rho.
    + now apply X1.
    + rewrite K2 by auto. now apply X1.
  - cbn [wm wh] in *. destruct (assoc_quit_spec m hs lk D id I) as [I1 K1]. exists D. auto.
Qed.

Definition Inv (w : world) : Prop := exists D, MInv (wm w) (wh w) lk0 D.
Theorem reachable_inv w : reachable w -> Inv w.
Proof.
  induction 1 as [|w w' _ [D I] S]; [exists D_init; apply init_MInv|].
  destruct (step_next w w' lk0 D eq_refl S I) as (D' & I' & _). exists D'; auto.
Qed.
