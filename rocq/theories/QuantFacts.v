(** * Examples and counterexamples for quantification. *)
From Verif Require Import Base BFModel ITEModel MgrModel ApiModel GraphModel AssocModel QuantModel QuantBFModel QuantApiModel StoreInv MInv ApiProof SpecApi SpecAssoc SpecQuant
  WorldProof Client ApiLemmas ApiFacts AssocWorld AssocFacts QuantWorld.

(** The world of the association examples: association 0 (x1, x4) is current. *)
Lemma aworld_current : current_means (wm aworld) s_plain.
Proof.
  assert (H : forall m S, mcur m = Some 0 -> assoc_means m 0 S -> current_means m S).
  { intros m S E A. unfold current_means. now rewrite E. }
  apply H; [vm_compute; reflexivity|exact aworld_plain].
Qed.
Lemma aworld_room : room_for_temporary (wm aworld).
Proof. apply has_room_ok. vm_compute. reflexivity. Qed.
Lemma aworld_handles : In (a_h 0) (wh aworld) /\ In (a_h 3) (wh aworld) /\
  means (wm aworld) (a_h 0) (fun rho => if rho 3 then rho 1 && rho 2 else rho 4) /\ means (wm aworld) (a_h 3) (fun rho => rho 3).
Proof. split; [vm_compute; auto 8|]. split; [vm_compute; auto 8|]. split; means4. Qed.
Lemma quant_example :
  (exists h m', cal_exists reversed slot0 dec1 dec1 (wm aworld) (a_h 0) = Ok (h, m') /\ value m' h (fun i => i =? 3) = Some false /\ value m' h (fun _ => false) = Some true) /\
  (exists h m', cal_forall reversed slot0 dec1 dec1 (wm aworld) (a_h 4) = Ok (h, m') /\ value m' h (fun i => i =? 2) = Some true /\ value m' h (fun _ => false) = Some false) /\
  (exists h m', cal_relprod reversed slot0 dec1 dec1 (wm aworld) (a_h 0) (a_h 3) = Ok (h, m') /\
     value m' h (fun i => (i =? 2) || (i =? 3)) = Some true /\ value m' h (fun i => i =? 3) = Some false /\ value m' h (fun _ => false) = Some false).
Proof.
  split; [|split].
  - destruct (isok_ex (cal_exists reversed slot0 dec1 dec1 (wm aworld) (a_h 0)) (fun h m' => is_val m' h (fun i => i =? 3) false && is_val m' h (fun _ => false) true))
      as (h & m' & E & P); [vm_compute; reflexivity|].
    apply andb_true_iff in P as [P1 P2]. exists h, m'. split; [exact E|]. split; apply is_val_eq; assumption.
  - destruct (isok_ex (cal_forall reversed slot0 dec1 dec1 (wm aworld) (a_h 4)) (fun h m' => is_val m' h (fun i => i =? 2) true && is_val m' h (fun _ => false) false))
      as (h & m' & E & P); [vm_compute; reflexivity|].
    apply andb_true_iff in P as [P1 P2]. exists h, m'. split; [exact E|]. split; apply is_val_eq; assumption.
  - destruct (isok_ex (cal_relprod reversed slot0 dec1 dec1 (wm aworld) (a_h 0) (a_h 3))
      (fun h m' => is_val m' h (fun i => (i =? 2) || (i =? 3)) true && is_val m' h (fun i => i =? 3) false && is_val m' h (fun _ => false) false))
      as (h & m' & E & P); [vm_compute; reflexivity|].
    apply andb_true_iff in P as [P P3]. apply andb_true_iff in P as [P1 P2]. exists h, m'. split; [exact E|].
    split; [|split]; apply is_val_eq; assumption.
Qed.

(** A result that is remembered across a collection. *)
Definition qworld : world := run (acmds ++ [CQuant false 0; CBin BXor false 0 1; CFree; CGc]).
Definition q_h (n : nat) : ubdd := nth n (wh qworld) unull.
Lemma remembered_dec slot m op h : match cache_lookup slot op (uint (mmem m) h) one (mca m) with Some _ => true | None => false end = true ->
  remembered slot m op h.
Proof. unfold remembered. destruct (cache_lookup _ _ _ _ _); [discriminate|]. intros H; discriminate H. Qed.
Lemma qworld_example : reachable qworld /\ In (q_h 1) (wh qworld) /\ remembered slot0 (wm qworld) 16384 (q_h 1) /\
  room_for_temporary (wm qworld).
Proof.
  split; [apply run_reachable|]. split; [vm_compute; auto 8|]. split; [apply remembered_dec; vm_compute; reflexivity|].
  apply has_room_ok. vm_compute. reflexivity.
Qed.

(** ** The operation codes run out *)

(** Quantifying the constant. *)
Notation again := (quantify_constant reversed slot0).

(** Managers that only differ in the operation codes used up. *)
Record sim (m m' : mgr) : Prop := {
  sm_mem : forall a, mmem m' a = mmem m a;
  sm_ut : forall i, ut (st (me m')) i = ut (st (me m)) i;
  sm_nn : nn (st (me m')) = nn (st (me m));
  sm_o : mo m' = mo m;
  sm_one : muone m' = muone m;
  sm_ca : mca m' = mca m;
  sm_tmp : mtemp m' = mtemp m;
  sm_cur : mcur m' = mcur m
}.
Lemma sim_refl m : sim m m.
Proof. constructor; auto. Qed.
Lemma sim_trans a b c : sim a b -> sim b c -> sim a c.
Proof.
  intros [A1 A2 A3 A4 A5 A6 A7 A8] [B1 B2 B3 B4 B5 B6 B7 B8]. constructor; congruence.
Qed.
Lemma tfind_sim m m' l t e : (forall a, m' a = m a) -> tfind m' l t e = tfind m l t e.
Proof. intros E. unfold tfind. induction l as [|a l IH]; simpl; auto. now rewrite E, IH. Qed.

(** A call that finds its answer without computing: the operand is a live handle, the answer [r] has the handle [a],
    whose count is saturated or not. *)
Definition found_at (m : mgr) (r : edge) : option N := tfind (mmem m) (ut (st (me m)) 0) (if eneg r then enot r else r) one.
Lemma ret_found m r a : found_at m r = Some a ->
  exists m', ret m r = (U a (eneg r), m') /\ (forall b, ct (mmem m' b) = ct (mmem m b) /\ ce (mmem m' b) = ce (mmem m b)) /\
    (cr (mmem m a) = 255 -> sim m m') /\ mtop m' = mtop m.
Proof.
  intros F. unfold ret, getext. unfold found_at in F. unfold tfindadd. rewrite F. eexists. split; [reflexivity|].
  assert (P : forall b, upd (mem (st (me m))) a (set_cr (mem (st (me m)) a) (rc_icr (cr (mem (st (me m)) a)))) b =
                        if b =? a then set_cr (mem (st (me m)) a) (rc_icr (cr (mem (st (me m)) a))) else mem (st (me m)) b).
  { intros b. unfold upd. destruct (N.eqb_spec b a), (N.eqb_spec a b); congruence. }
  split; [|split].
  - intros b. cbn. rewrite P. destruct (N.eqb_spec b a) as [->|]; auto.
  - intros Sat. constructor; try reflexivity.
    + intros b. cbn. rewrite P. destruct (N.eqb_spec b a) as [->|]; auto.
      change (cr (mem (st (me m)) a) = 255) in Sat. rewrite Sat. change (rc_icr 255) with 255. rewrite <- Sat. now destruct (mem (st (me m)) a).
    + intros i. cbn. unfold upd. destruct (N.eqb_spec 0 i) as [<-|]; auto. destruct (N.eqb_spec i 0) as [->|]; auto.
  - reflexivity.
Qed.
Lemma shortcut m f r a op : mcur m = None -> uisnull f = false -> zero_ref m f = false -> nn (st (me m)) <= LARGE -> op = mtop m ->
  exists_df slot0 (mo m) (amap (mtemp m)) (alast (mtemp m)) op (depth (mo m)) (st (me m)) (mca m) (uint (mmem m) f) =
    Some (r, st (me m), mca m) -> found_at m r = Some a ->
  exists m', cal_exists reversed slot0 dec0 dec0 m f = Ok (U a (eneg r), m') /\ (forall b, ct (mmem m' b) = ct (mmem m b) /\ ce (mmem m' b) = ce (mmem m b)) /\
    (cr (mmem m a) = 255 -> sim m m') /\ mtop m' = pred16 (mtop m).
Proof.
  intros Hc Hn Hz Hl -> He Hf. unfold cal_exists, quantify, preproc. cbn [existsb]. rewrite Hz, Hn. cbn [orb obind]. change (postproc dec0 m) with (false, m).
  cbn [snd negb]. unfold current. rewrite Hc. cbv beta iota zeta.
  change (nn (st (me (set_mtop m (pred16 (mtop m)))))) with (nn (st (me m))).
  destruct (N.ltb_spec LARGE (nn (st (me m)))) as [L|_]; [exfalso; revert Hl L; clear; lia|].
  assert (Ep : ephase (uint (mmem m) f) false = uint (mmem m) f) by (destruct (uint (mmem m) f) as [? ? []]; reflexivity).
  change (mo (set_mtop m (pred16 (mtop m)))) with (mo m). change (me (set_mtop m (pred16 (mtop m)))) with (me m).
  change (mca (set_mtop m (pred16 (mtop m)))) with (mca m). change (mmem (set_mtop m (pred16 (mtop m)))) with (mmem m). rewrite Ep, He.
  assert (Er : ephase r false = r) by (destruct r as [? ? []]; reflexivity). rewrite Er.
  set (m1 := set_mca (set_mst (set_mtop m (pred16 (mtop m))) (st (me m))) (mca m)).
  assert (S1 : sim m m1) by (constructor; reflexivity).
  destruct (ret_found m1 r a Hf) as (m' & E & T & Sat & Tp). unfold finish. rewrite E. change (postproc dec0 m') with (false, m'). cbv beta iota zeta.
  exists m'. split; [reflexivity|]. split; [exact T|]. split; [intros H; apply (sim_trans m m1); auto|exact Tp].
Qed.

(** What makes quantifying the constant a call without effect on anything but the codes. *)
Definition idle (m : mgr) : bool :=
  let e := uint (mmem m) (cal_one m) in
  match mcur m with None => true | Some _ => false end && negb (uisnull (cal_one m)) && negb (zero_ref m (cal_one m)) &&
  (nn (st (me m)) <=? LARGE) && (alast (mtemp m) <? Z.of_N (idx (mo m) (eid e)))%Z &&
  match found_at m e with Some a => cr (mmem m a) =? 255 | None => false end.
Lemma uint_sim m m' f : sim m m' -> uint (mmem m') f = uint (mmem m) f.
Proof. intros S. unfold uint. now rewrite (sm_mem _ _ S). Qed.
Lemma found_sim m m' r : sim m m' -> found_at m' r = found_at m r.
Proof. intros S. unfold found_at. rewrite (sm_ut _ _ S). apply tfind_sim. apply S. Qed.
Lemma zero_sim m m' f : sim m m' -> zero_ref m' f = zero_ref m f.
Proof. intros S. unfold zero_ref. now rewrite (uint_sim _ _ f S), (sm_mem _ _ S). Qed.
Lemma one_sim m m' : sim m m' -> cal_one m' = cal_one m.
Proof. intros S. unfold cal_one. now rewrite (sm_one _ _ S). Qed.
Lemma idle_sim m m' : sim m m' -> idle m = true -> idle m' = true.
Proof.
  intros S H. unfold idle in *. rewrite (one_sim _ _ S), (uint_sim _ _ _ S), (found_sim _ _ _ S), (zero_sim _ _ _ S), (sm_nn _ _ S), (sm_tmp _ _ S), (sm_o _ _ S), (sm_cur _ _ S).
  destruct (found_at m _) as [a|]; [|exact H]. rewrite (sm_mem _ _ S). exact H.
Qed.
Lemma again_idle m : idle m = true -> sim m (again m) /\ mtop (again m) = pred16 (mtop m).
Proof.
  intros H. unfold idle in H. destruct (mcur m) eqn:Hc; [discriminate|]. cbn [andb] in H.
  apply andb_true_iff in H as [H H5]. apply andb_true_iff in H as [H H4]. apply andb_true_iff in H as [H H3]. apply andb_true_iff in H as [H1 H2].
  apply negb_true_iff in H1, H2. apply N.leb_le in H3. destruct (found_at m _) as [a|] eqn:F; [|discriminate]. apply N.eqb_eq in H5.
  destruct (shortcut m (cal_one m) (uint (mmem m) (cal_one m)) a (mtop m) Hc H1 H2 H3 eq_refl) as (m' & E & _ & Sat & Tp); [|exact F|].
  - change (depth (mo m)) with (S (length (ord (mo m)))). cbn [exists_df]. now rewrite H4.
  - unfold quantify_constant. rewrite E. auto.
Qed.
Lemma again_many n m : idle m = true -> n <= mtop m -> sim m (N.iter n again m) /\ mtop (N.iter n again m) = mtop m - n.
Proof.
  intros H. revert n. refine (N.peano_ind _ _ _).
  - intros _. simpl. split; [apply sim_refl|lia].
  - intros n IH L. destruct IH as [S T]; [lia|]. rewrite N.iter_succ. destruct (again_idle _ (idle_sim _ _ S H)) as [S1 T1].
    split; [eapply sim_trans; eauto|]. rewrite T1, T. unfold pred16. destruct (N.eqb_spec (mtop m - n) 0); lia.
Qed.
Lemma again_wraps m : idle m = true -> let n := mtop m + 1 in
  sim m (N.iter n again m) /\ mtop (N.iter n again m) = 65535.
Proof.
  intros H n. unfold n. rewrite N.add_1_r, N.iter_succ. destruct (again_many (mtop m) m H) as [S T]; [lia|].
  destruct (again_idle _ (idle_sim _ _ S H)) as [S1 T1]. split; [eapply sim_trans; eauto|]. rewrite T1, T, N.sub_diag. reflexivity.
Qed.

(** A remembered answer under the first code. *)
Definition hit (m : mgr) (f : ubdd) (r : edge) (a : N) : bool :=
  let e := uint (mmem m) f in
  match mcur m with None => true | Some _ => false end && negb (uisnull f) && negb (zero_ref m f) && (nn (st (me m)) <=? LARGE) &&
  negb (alast (mtemp m) <? Z.of_N (idx (mo m) (eid e)))%Z &&
  match cache_lookup slot0 65535 e one (mca m) with Some e' => (eid e' =? eid r) && (eptr e' =? eptr r) && Bool.eqb (eneg e') (eneg r) | None => false end &&
  match found_at m r with Some a' => a' =? a | None => false end.
Lemma hit_answer m f r a : hit m f r a = true -> forall m', sim m m' -> mtop m' = 65535 ->
  exists m2, cal_exists reversed slot0 dec0 dec0 m' f = Ok (U a (eneg r), m2) /\ forall b, ct (mmem m2 b) = ct (mmem m b) /\ ce (mmem m2 b) = ce (mmem m b).
Proof.
  intros H m' S T. unfold hit in H. destruct (mcur m) eqn:Hc; [discriminate|]. cbn [andb] in H.
  apply andb_true_iff in H as [H H6]. apply andb_true_iff in H as [H H5]. apply andb_true_iff in H as [H H4].
  apply andb_true_iff in H as [H H3]. apply andb_true_iff in H as [H1 H2].
  apply negb_true_iff in H1, H2, H4. apply N.leb_le in H3. destruct (found_at m r) as [a'|] eqn:F; [|discriminate]. apply N.eqb_eq in H6. subst a'.
  destruct (cache_lookup _ _ _ _ _) as [e'|] eqn:L; [|discriminate].
  assert (e' = r) as ->.
  { apply andb_true_iff in H5 as [H5 Q3]. apply andb_true_iff in H5 as [Q1 Q2]. apply N.eqb_eq in Q1, Q2. apply eqb_prop in Q3.
    destruct e', r. simpl in *. congruence. }
  destruct (shortcut m' f r a 65535) as (m2 & E & TE & _).
  - rewrite (sm_cur _ _ S). exact Hc.
  - exact H1.
  - rewrite (zero_sim _ _ _ S). exact H2.
  - rewrite (sm_nn _ _ S). exact H3.
  - auto.
  - rewrite (uint_sim _ _ _ S), (sm_o _ _ S), (sm_tmp _ _ S), (sm_ca _ _ S).
    change (depth (mo m)) with (Datatypes.S (length (ord (mo m)))). cbn [exists_df]. now rewrite H4, L.
  - rewrite (found_sim _ _ _ S). exact F.
  - exists m2. split; [exact E|]. intros b. destruct (TE b) as [-> ->]. now rewrite (sm_mem _ _ S).
Qed.
Lemma ev_te m m' rho e b : (forall a, ct (m' a) = ct (m a) /\ ce (m' a) = ce (m a)) -> ev m rho e b -> ev m' rho e b.
Proof.
  intros H. induction 1 as [e E|e b E Ev IH]; [now constructor|]. constructor; auto. destruct (H (eptr e)) as [-> ->]. exact IH.
Qed.

(** x1 is quantified in x1 and x2 with the temporary association; then the association is changed to x2. *)
Definition wworld : world := run (setup ++ [CTemp [5%nat] false; CQuant false 1%nat; CTemp [5%nat] false]).
Definition w_f : ubdd := nth 2 (wh wworld) unull.
Definition w_h : ubdd := nth 0 (wh wworld) unull.
Definition s_two : substitution := fun i => if i =? 2 then Some (fun _ => true) else None.
Lemma wworld_idle : idle (wm wworld) = true. Proof. vm_compute. reflexivity. Qed.
Lemma wworld_hit : hit (wm wworld) w_f (uint (mmem (wm wworld)) w_h) (uptr w_h) = true. Proof. vm_compute. reflexivity. Qed.
Lemma wworld_top : mtop (wm wworld) = 65534. Proof. vm_compute. reflexivity. Qed.
Lemma wworld_pos : uneg w_h = eneg (uint (mmem (wm wworld)) w_h). Proof. vm_compute. reflexivity. Qed.
Lemma wworld_f : means (wm wworld) w_f (fun rho => rho 1 && rho 2). Proof. means4. Qed.
Lemma wworld_h : means (wm wworld) w_h (fun rho => rho 2). Proof. means4. Qed.

Lemma two_big i : N.of_nat 5 <= i -> s_two i = None.
Proof. intros L. unfold s_two. destruct (N.eqb_spec i 2); [|reflexivity]. exfalso. revert e L. clear. intros -> L. vm_compute in L. apply L. reflexivity. Qed.
Lemma wworld_ids : ord (mo (wm wworld)) = [1; 4; 2; 3]. Proof. vm_compute. reflexivity. Qed.
Lemma wworld_dom i : In (mtemp (wm wworld)) (mtemp (wm wworld) :: massoc (wm wworld)) -> amap (mtemp (wm wworld)) i <> None -> i < N.of_nat 5.
Proof.
  intros Ia N. pose proof (reach_dom wworld (mtemp (wm wworld)) i (run_reachable _) Ia N) as H. rewrite wworld_ids in H.
  destruct H as [<-|[<-|[<-|[<-|[]]]]]; reflexivity.
Qed.
Lemma wworld_trees : each shows_tree (trees (wm wworld) (mtemp (wm wworld)) 5) (map (fun i => s_two (N.of_nat i)) (seq 0 5)).
Proof.
  match goal with |- each _ ?x ?y => let v := eval vm_compute in x in assert (E : x = v) by (vm_compute; reflexivity); rewrite E; clear E;
    let u := eval cbv in y in change (each shows_tree v u) end.
  unfold each. repeat apply Forall2_cons; try apply Forall2_nil; try exact I. intros rho. reflexivity.
Qed.
Lemma wworld_temp : temp_means (wm wworld) s_two.
Proof. apply (temp_dec wworld s_two 5); [exact wworld_dom|exact two_big|exact wworld_trees]. Qed.
Lemma two_wrong : ~ is_exists s_two (fun rho => rho 1 && rho 2) (fun rho => rho 2).
Proof.
  intros H. destruct (proj1 (H (fun i => i =? 2)) eq_refl) as (r & D & T).
  apply andb_true_iff in T as [T _]. rewrite (D 1 eq_refl) in T. discriminate T.
Qed.
Lemma exhausted_gen w f h r a n : reachable w -> In f (wh w) -> idle (wm w) = true -> hit (wm w) f r a = true -> mtop (wm w) + 1 = n ->
  forall F H, means (wm w) f F -> means (wm w) h H -> r = uint (mmem (wm w)) h -> uptr h = a -> uneg h = eneg r ->
  means (N.iter n again (wm w)) f F /\
  exists m', cal_exists reversed slot0 dec0 dec0 (N.iter n again (wm w)) f = Ok (h, m') /\ means m' h H.
Proof.
  intros R If Id Hi <- F H Mf Mh -> <- Ng. destruct (again_wraps (wm w) Id) as [S T]. split.
  - intros rho. rewrite (uint_sim _ _ _ S). apply (ev_te (mmem (wm w))); [|apply Mf]. intros a. now rewrite (sm_mem _ _ S).
  - destruct (hit_answer _ _ _ _ Hi _ S T) as (m' & E & TE). exists m'.
    assert (Eh : U (uptr h) (eneg (uint (mmem (wm w)) h)) = h) by (rewrite <- Ng; now destruct h). rewrite Eh in E. split; [exact E|].
    intros rho. specialize (Mh rho). unfold uint in *. destruct (TE (uptr h)) as [-> _]. apply (ev_te (mmem (wm w))); [exact TE|exact Mh].
Qed.
Lemma exhausted : exists w f F S n, reachable w /\ In f (wh w) /\ mcur (wm w) = None /\ current_means (wm w) S /\ means (wm w) f F /\
  means (N.iter n again (wm w)) f F /\
  exists h m' H, cal_exists reversed slot0 dec0 dec0 (N.iter n again (wm w)) f = Ok (h, m') /\ means m' h H /\ ~ is_exists S F H.
Proof.
  exists wworld, w_f, (fun rho => rho 1 && rho 2), s_two, 65535.
  split; [apply run_reachable|]. split; [vm_compute; auto 10|]. split; [vm_compute; reflexivity|].
  split. { assert (G : forall m S, mcur m = None -> temp_means m S -> current_means m S).
           { intros m S E A. unfold current_means. now rewrite E. }
           apply G; [vm_compute; reflexivity|exact wworld_temp]. }
  split; [exact wworld_f|].
  assert (If : In w_f (wh wworld)) by (vm_compute; auto 10). assert (Et : mtop (wm wworld) + 1 = 65535) by (rewrite wworld_top; reflexivity).
  destruct (exhausted_gen wworld w_f w_h (uint (mmem (wm wworld)) w_h) (uptr w_h) 65535 (run_reachable _) If wworld_idle wworld_hit Et
    (fun rho : N -> bool => rho 1 && rho 2) (fun rho : N -> bool => rho 2) wworld_f wworld_h eq_refl eq_refl wworld_pos) as [M (m' & E & Mh)].
  split; [exact M|]. exists w_h, m', (fun rho => rho 2). split; [exact E|]. split; [exact Mh|exact two_wrong].
Qed.

(** ** The routines for managers of more than 2^19 nodes, on a small one *)
Definition bf_exists (m : mgr) (f : ubdd) : ubdd * mgr :=
  let '(r, s, c) := exists_bf reversed slot0 (mo m) (amap (current m)) (alast (current m)) 16384 (st (me m)) (mca m) (uint (mmem m) f) in
  finish dec1 (set_mca (set_mst m s) c) r.
Definition bf_relprod (m : mgr) (f g : ubdd) : ubdd * mgr :=
  let '(r, s, c) := relprod_bf reversed slot0 (mo m) (amap (current m)) (alast (current m)) 20480 (st (me m)) (mca m) (uint (mmem m) f) (uint (mmem m) g) in
  finish dec1 (set_mca (set_mst m s) c) r.
Lemma bf_example :
  (exists h m', bf_exists (wm aworld) (a_h 0) = (h, m') /\ value m' h (fun i => i =? 3) = Some false /\ value m' h (fun _ => false) = Some true) /\
  (exists h m', bf_relprod (wm aworld) (a_h 0) (a_h 3) = (h, m') /\
     value m' h (fun i => (i =? 2) || (i =? 3)) = Some true /\ value m' h (fun i => i =? 3) = Some false /\ value m' h (fun _ => false) = Some false).
Proof.
  assert (T : forall (q : ubdd * mgr) (P : ubdd -> mgr -> bool), P (fst q) (snd q) = true -> exists h m', q = (h, m') /\ P h m' = true).
  { intros [h m'] P H. exists h, m'. auto. }
  split.
  - destruct (T (bf_exists (wm aworld) (a_h 0)) (fun h m' => is_val m' h (fun i => i =? 3) false && is_val m' h (fun _ => false) true))
      as (h & m' & E & P); [vm_compute; reflexivity|].
    apply andb_true_iff in P as [P1 P2]. exists h, m'. split; [exact E|]. split; apply is_val_eq; assumption.
  - destruct (T (bf_relprod (wm aworld) (a_h 0) (a_h 3))
      (fun h m' => is_val m' h (fun i => (i =? 2) || (i =? 3)) true && is_val m' h (fun i => i =? 3) false && is_val m' h (fun _ => false) false))
      as (h & m' & E & P); [vm_compute; reflexivity|].
    apply andb_true_iff in P as [P P3]. apply andb_true_iff in P as [P1 P2]. exists h, m'. split; [exact E|].
    split; [|split]; apply is_val_eq; assumption.
Qed.
