(** * Examples and counterexamples for the interface properties. *)
From Coq Require Import Permutation.
From Verif Require Import Base BFModel ITEModel MgrModel ApiModel StoreInv MInv ApiProof SpecApi WorldProof Client ApiLemmas.

Definition setup : list cmd := [CNewvar 0; CNewvar 1; CNewvar 2; CNewvar 1; CBin BAnd false 3 2; CIte 2 0 1].
Definition demo : world := run (setup ++ [CBin BXor false 0 1; CFree; CGc; CNot 0]).
Definition garbage : world := run (setup ++ [CBin BXor false 0 1; CFree; CNot 0]).
Definition tight : world := run (setup ++ [CLimit 12]).
Definition h_ite : ubdd := nth 1 (wh demo) unull.
Definition h_and : ubdd := nth 2 (wh demo) unull.
Definition h_var (i : nat) : ubdd := nth (7 - i) (wh demo) unull.

Ltac means4 := eapply tree_means; [vm_compute; reflexivity|];
  intros rho; cbv [teval]; destruct (rho 1), (rho 2), (rho 3), (rho 4); reflexivity.

Lemma h_and_means : means (wm demo) h_and (fun rho => rho 1 && rho 2).
Proof. means4. Qed.
Lemma h_ite_means : means (wm demo) h_ite (fun rho => if rho 3 then rho 1 && rho 2 else rho 4).
Proof. means4. Qed.
Lemma demo_facts : length (wh demo) = 7%nat /\ numvars (wm demo) = 4 /\ In h_and (wh demo) /\ In h_ite (wh demo) /\
  means (wm demo) h_and (fun rho => rho 1 && rho 2) /\ means (wm demo) h_ite (fun rho => if rho 3 then rho 1 && rho 2 else rho 4).
Proof.
  split; [vm_compute; auto|]. split; [vm_compute; auto|]. split; [vm_compute; auto 8|]. split; [vm_compute; auto 8|].
  split; [apply h_and_means|apply h_ite_means].
Qed.

Lemma every_handle_means : forall w f, reachable w -> In f (wh w) ->
  exists F, means (wm w) f F /\ forall F', means (wm w) f F' -> same F F'.
Proof.
  intros w f R If. destruct (W_means w R f If) as [F M]. exists F. split; auto. intros F' M'. eapply W_unique; eauto.
Qed.

(** Splits a call into the parts an example needs without computing the manager itself. *)
Ltac call r := let p := fresh "p" in destruct r as [[? ?]| |] eqn:p.

Definition isok (r : outcome (ubdd * mgr)) (P : ubdd -> mgr -> bool) : bool :=
  match r with Ok (h, m') => P h m' | _ => false end.
Lemma isok_ex r P : isok r P = true -> exists h m', r = Ok (h, m') /\ P h m' = true.
Proof. destruct r as [[h m']| |]; try discriminate. intros H. eauto. Qed.
Definition is_val (m : mgr) (h : ubdd) (rho : N -> bool) (b : bool) : bool :=
  match value m h rho with Some c => Bool.eqb b c | None => false end.
Lemma is_val_eq m h rho b : is_val m h rho b = true -> value m h rho = Some b.
Proof. unfold is_val. destruct (value m h rho); [|discriminate]. intros H. apply eqb_prop in H. now subst. Qed.

Lemma xor_example : exists h m', cal_xor listed dec1 dec1 (wm demo) h_and h_ite = Ok (h, m') /\
  value m' h (fun i => i =? 4) = Some true /\ value m' h (fun _ => true) = Some false /\ ~ overflowed (wm demo) h m'.
Proof.
  destruct (isok_ex (cal_xor listed dec1 dec1 (wm demo) h_and h_ite)
    (fun h m' => is_val m' h (fun i => i =? 4) true && is_val m' h (fun _ => true) false && negb (cal_isnull h))) as (h & m' & E & P);
    [vm_compute; reflexivity|].
  apply andb_true_iff in P as [P P3]. apply andb_true_iff in P as [P1 P2]. exists h, m'. split; [exact E|].
  split; [apply is_val_eq; assumption|]. split; [apply is_val_eq; assumption|]. intros [O _]. rewrite O in P3. discriminate.
Qed.

Lemma ite_example : exists h m', cal_ite listed dec1 dec1 (wm demo) h_and h_ite (cal_zero (wm demo)) = Ok (h, m') /\
  value m' h (fun _ => true) = Some true /\ value m' h (fun i => i =? 4) = Some false.
Proof.
  destruct (isok_ex (cal_ite listed dec1 dec1 (wm demo) h_and h_ite (cal_zero (wm demo)))
    (fun h m' => is_val m' h (fun i => i =? 4) false && is_val m' h (fun _ => true) true)) as (h & m' & E & P);
    [vm_compute; reflexivity|].
  apply andb_true_iff in P as [P1 P2]. exists h, m'. split; [exact E|]. split; apply is_val_eq; assumption.
Qed.

Lemma eq_example : cal_isequal h_and h_ite = false /\ exists h m', cal_and listed dec0 dec0 (wm demo) h_and h_and = Ok (h, m') /\ cal_isequal h h_and = true.
Proof.
  split; [vm_compute; reflexivity|]. apply (isok_ex (cal_and listed dec0 dec0 (wm demo) h_and h_and) (fun h m' => cal_isequal h h_and)). vm_compute. reflexivity.
Qed.

Lemma gc_reachable : forall w, reachable w -> reachable (World (gc (wm w)) (wh w)).
Proof. intros [m hs] R. eapply re_call; [exact R|]. apply st_gc. Qed.
Lemma gc_step_example : step demo (World (gc (wm demo)) (wh demo)) /\ In h_and (wh demo).
Proof.
  split; [|vm_compute; auto 8]. assert (H : forall w, step w (World (gc (wm w)) (wh w))) by (intros [m hs]; apply st_call, st_gc). apply H.
Qed.

Lemma const_example : cal_isconst (wm demo) h_and = false /\ exists h m', cal_xnor listed dec0 dec0 (wm demo) h_and h_and = Ok (h, m') /\ cal_isone m' h = true.
Proof.
  split; [vm_compute; reflexivity|]. apply (isok_ex (cal_xnor listed dec0 dec0 (wm demo) h_and h_and) (fun h m' => cal_isone m' h)). vm_compute. reflexivity.
Qed.

Lemma means_ext w f F : reachable w -> In f (wh w) -> means (wm w) f F -> bext F.
Proof.
  intros R If M. destruct (reachable_inv w R) as [D I]. rewrite (means_hv (wm w) (wh w) _ D) in M by eauto.
  intros r1 r2 E. rewrite <- !M. apply (dv_bext (mo (wm w)) D (st (me (wm w)))); auto; [apply I|eapply MI_swf; eauto|eapply MI_dok; eauto|eapply MI_int; eauto].
Qed.
Lemma shannon_facts : forall w f F i, reachable w -> In f (wh w) -> means (wm w) f F ->
  (forall rho, F rho = if rho i then F (assign rho i true) else F (assign rho i false)) /\
  ~ depends (fun rho => F (assign rho i true)) i /\ ~ depends (fun rho => F (assign rho i false)) i.
Proof.
  intros w f F i R If M. pose proof (means_ext w f F R If M) as Ex. split; [|split].
  - intros rho. destruct (rho i) eqn:E; apply Ex; intros j; unfold assign; destruct (N.eqb_spec j i); subst; auto.
  - intros [rho H]. apply H. apply Ex. intros j. unfold assign. now destruct (j =? i).
  - intros [rho H]. apply H. apply Ex. intros j. unfold assign. now destruct (j =? i).
Qed.

Lemma if_example : exists m1, cal_ifid dec1 (wm demo) h_ite = Ok (1, m1) /\ exists h m', cal_else dec1 (wm demo) h_ite = Ok (h, m') /\ value m' h (fun i => i =? 4) = Some true.
Proof.
  assert (H : match cal_ifid dec1 (wm demo) h_ite with Ok (i, _) => i =? 1 | _ => false end = true) by (vm_compute; reflexivity).
  destruct (cal_ifid dec1 (wm demo) h_ite) as [[i m1]| |]; try discriminate.
  apply N.eqb_eq in H. subst i. exists m1. split; [reflexivity|].
  destruct (isok_ex (cal_else dec1 (wm demo) h_ite) (fun h m' => is_val m' h (fun i => i =? 4) true)) as (h & m' & E' & P); [vm_compute; reflexivity|].
  exists h, m'. split; [exact E'|]. apply is_val_eq; assumption.
Qed.

Lemma const_parts_refuted : exists w f, reachable w /\ In f (wh w) /\ forall d,
  cal_if d (wm w) f = Undefined /\ cal_then d (wm w) f = Undefined /\ cal_else d (wm w) f = Undefined.
Proof.
  exists (run [CNewvar 0; CConst true]), (U 3 true). assert (R := run_reachable [CNewvar 0; CConst true]).
  assert (If : In (U 3 true) (wh (run [CNewvar 0; CConst true]))) by (vm_compute; auto).
  split; auto. split; auto. intros d. apply W_const_parts; [exact R|exact If|vm_compute; reflexivity].
Qed.

Definition isok2 (r : outcome (option (list ubdd) * mgr)) (P : list ubdd -> mgr -> bool) : bool :=
  match r with Ok (Some us, m') => P us m' | _ => false end.
Lemma isok2_ex r P : isok2 r P = true -> exists us m', r = Ok (Some us, m') /\ P us m' = true.
Proof. destruct r as [[[us|] m']| |]; try discriminate. intros H. eauto. Qed.

Lemma pairwise_example : exists us m', cal_pairwise_and listed (fun _ => dec0) dec0 (wm demo) [h_var 3; h_var 4; h_var 1; h_var 2] = Ok (Some us, m') /\
  map (fun h => value m' h (fun i => i <=? 3)) us = [Some false; Some true].
Proof.
  destruct (isok2_ex (cal_pairwise_and listed (fun _ => dec0) dec0 (wm demo) [h_var 3; h_var 4; h_var 1; h_var 2])
    (fun us m' => match us with [a; b] => is_val m' a (fun i => i <=? 3) false && is_val m' b (fun i => i <=? 3) true | _ => false end)) as (us & m' & E & P);
    [vm_compute; reflexivity|].
  exists us, m'. split; [exact E|]. destruct us as [|a [|b [|]]]; try discriminate P. apply andb_true_iff in P as [P1 P2].
  cbn [map]. rewrite (is_val_eq _ _ _ _ P1), (is_val_eq _ _ _ _ P2). reflexivity.
Qed.

Definition four : world := run [CNewvar 0; CNewvar 1; CNewvar 2; CNewvar 3].
Lemma pairwise_refuted : exists w l, reachable w /\ args (wh w) l /\
  exists us m', cal_pairwise_and listed (fun _ => dec0) dec0 (wm w) l = Ok (Some us, m') /\
  exists f g F G h, hd_error (pairs l) = Some (f, g) /\ means (wm w) f F /\ means (wm w) g G /\ hd_error us = Some h /\
    cal_isnull h = false /\ ~ means m' h (fun rho => F rho && G rho).
Proof.
  exists four, (rev (wh four)). split; [apply run_reachable|].
  split; [intros h Ih; apply in_rev; exact Ih|].
  destruct (isok2_ex (cal_pairwise_and listed (fun _ => dec0) dec0 (wm four) (rev (wh four)))
    (fun us m' => match us with a :: _ => is_val m' a (fun i => i =? 1) true && negb (cal_isnull a) | _ => false end)) as (us & m' & E & P);
    [vm_compute; reflexivity|].
  exists us, m'. split; [exact E|]. destruct us as [|a us]; [discriminate P|].
  apply andb_true_iff in P as [P1 P2].
  exists (nth 3 (wh four) unull), (nth 2 (wh four) unull), (fun rho => rho 1), (fun rho => rho 2), a.
  split; [vm_compute; reflexivity|].
  split; [means4|].
  split; [means4|].
  split; [reflexivity|]. split; [destruct (cal_isnull a); [discriminate P2|reflexivity]|].
  intros M. specialize (M (fun i => i =? 1)). apply is_val_eq in P1. apply value_ev in P1.
  pose proof (ev_det _ _ _ _ P1 _ M) as H. discriminate.
Qed.

Lemma multiway_example : exists h m', cal_multiway_xor listed (fun _ => dec0) (wm demo) [h_var 1; h_and; h_ite; h_var 2; h_var 1] = Ok (h, m') /\
  value m' h (fun _ => true) = Some true /\ value m' h (fun i => i =? 2) = Some true.
Proof.
  destruct (isok_ex (cal_multiway_xor listed (fun _ => dec0) (wm demo) [h_var 1; h_and; h_ite; h_var 2; h_var 1])
    (fun h m' => is_val m' h (fun i => i =? 2) true && is_val m' h (fun _ => true) true)) as (h & m' & E & P);
    [vm_compute; reflexivity|].
  apply andb_true_iff in P as [P1 P2]. exists h, m'. split; [exact E|]. split; apply is_val_eq; assumption.
Qed.

Lemma implies_example : exists h m', cal_implies dec1 (wm demo) h_ite h_and = Ok (h, m') /\ cal_iszero m' h = false.
Proof.
  destruct (isok_ex (cal_implies dec1 (wm demo) h_ite h_and) (fun h m' => negb (cal_iszero m' h))) as (h & m' & E & P); [vm_compute; reflexivity|].
  exists h, m'. split; [exact E|]. destruct (cal_iszero m' h); [discriminate P|reflexivity].
Qed.

Lemma gc_assoc : forall w a i e, reachable w -> In a (mtemp (wm w) :: massoc (wm w)) -> amap a i = Some e ->
  In a (mtemp (gc (wm w)) :: massoc (gc (wm w))) /\
  forall rho b, ev (mmem (wm w)) rho e b -> ev (mmem (gc (wm w))) rho e b.
Proof.
  intros w a i e R Ia Ea. destruct (gc_frame (wm w)) as (F1 & _ & _ & F4 & F5).
  assert (Ia' : In a (mtemp (gc (wm w)) :: massoc (gc (wm w)))) by now rewrite F4, F5. split; auto.
  destruct (reachable_inv w R) as [D I].
  destruct (gc_MInv (wm w) (wh w) _ D I) as [I' X].
  intros rho b.
  rewrite (ev_iff (mo (wm w)) D (st (me (wm w)))); [|apply I|eapply MI_swf; eauto|eapply MI_dok; eauto|apply (ao_dom _ _ _ (mi_as _ _ _ _ I a Ia) i e Ea)].
  rewrite (ev_iff (mo (gc (wm w))) D (st (me (gc (wm w))))); [|apply I'|eapply MI_swf; eauto|eapply MI_dok; eauto|apply (ao_dom _ _ _ (mi_as _ _ _ _ I' a Ia') i e Ea)].
  auto.
Qed.

Lemma garbage_example : nn (st (me (wm garbage))) = 15 /\ nn (st (me (gc (wm garbage)))) = 11 /\ reachable garbage.
Proof. split; [vm_compute; reflexivity|]. split; [vm_compute; reflexivity|]. apply run_reachable. Qed.

Lemma order_example : ord (mo (wm demo)) = [1; 4; 2; 3] /\ In (h_var 2) (wh demo) /\ means (wm demo) (h_var 2) (fun rho => rho 2) /\
  exists h m', cal_newvar_after (wm demo) (h_var 2) = Ok (h, m') /\ ord (mo m') = [1; 4; 2; 5; 3].
Proof.
  split; [vm_compute; reflexivity|]. split; [vm_compute; auto 8|]. split.
  - means4.
  - destruct (isok_ex (cal_newvar_after (wm demo) (h_var 2)) (fun h m' => if list_eq_dec N.eq_dec (ord (mo m')) [1; 4; 2; 5; 3] then true else false)) as (h & m' & E & P); [vm_compute; reflexivity|].
    exists h, m'. split; [exact E|]. destruct (list_eq_dec N.eq_dec _ _); [auto|discriminate].
Qed.

Definition crowded : world := run (setup ++ [CLimit 5]).
Lemma crowded_full : mlim (wm crowded) < nn (st (me (wm crowded))).
Proof. vm_compute. reflexivity. Qed.
Lemma overflow_example : reachable tight /\ exists h m', cal_xor listed dec1 dec1 (wm tight) h_and h_ite = Ok (h, m') /\ cal_isnull h = true /\
  value m' h_ite (fun i => i =? 4) = Some true.
Proof.
  split; [apply run_reachable|].
  destruct (isok_ex (cal_xor listed dec1 dec1 (wm tight) h_and h_ite) (fun h m' => cal_isnull h && is_val m' h_ite (fun i => i =? 4) true)) as (h & m' & E & P);
    [vm_compute; reflexivity|].
  apply andb_true_iff in P as [P1 P2]. exists h, m'. split; [exact E|]. split; auto. apply is_val_eq; assumption.
Qed.

Lemma null_refuted : forall m, cal_identity m cal_null = Undefined /\ cal_not m cal_null = Undefined /\ cal_free m cal_null = Undefined.
Proof. intros m. auto. Qed.

Lemma limit_refuted : exists w, reachable w /\ mnl (wm w) = 0 /\ mlim (wm w) < 10000.
Proof. exists (run [CLimit 5000; CLimit 0]). split; [apply run_reachable|]. vm_compute. auto. Qed.
