(** * Files in reachable worlds. *)
From Coq Require Import Permutation.
From Verif Require Import Base BFModel ITEModel MgrModel ApiModel StoreInv Own EngInv ApplyProof BinopProof ReduceProof EngineProof
  OpProof MultiProof QProof GCProof VarProof MInv ApiProof ApiOps ApiStruct ApiVar CofSem CofactorProof CodecModel DumpModel DumpCall SpecApi SpecDump
  WorldProof Client ApiLemmas ApiFacts.

Lemma only_covered l (F : bfun) ids r1 r2 : only l F -> covers ids F -> (forall i, In i ids -> r1 i = r2 i) -> F r1 = F r2.
Proof.
  intros O C A. set (mix := fun k i => if in_dec N.eq_dec i k then r2 i else r1 i).
  assert (H : forall k, F (mix k) = F r1).
  { induction k as [|a k IH]; [apply O; intros i _; unfold mix; destruct (in_dec N.eq_dec i []) as [[]|]; auto|]. rewrite <- IH.
    destruct (in_dec N.eq_dec a ids) as [Ia|Na].
    - apply O. intros i _. unfold mix. destruct (in_dec N.eq_dec i (a :: k)) as [Hi|Hi], (in_dec N.eq_dec i k) as [Hk|Hk]; auto.
      + destruct Hi as [<-|Hi]; [|contradiction]. symmetry. auto.
      + elim Hi. now right.
    - assert (E : forall b, F (assign (mix k) a b) = F (mix k)).
      { intros b. assert (Q : F (assign (mix k) a true) = F (assign (mix k) a false)).
        { destruct (bool_dec (F (assign (mix k) a true)) (F (assign (mix k) a false))) as [e|ne]; auto. elim Na. apply C. now exists (mix k). }
        transitivity (F (assign (mix k) a (mix k a))); [destruct b, (mix k a); congruence|]. apply O. intros i _. unfold assign. now destruct (N.eqb_spec i a) as [->|]. }
      rewrite <- (E (r2 a)). apply O. intros i _. unfold assign, mix. destruct (N.eqb_spec i a) as [->|Hne].
      + destruct (in_dec N.eq_dec a (a :: k)) as [|n]; auto. elim n. now left.
      + destruct (in_dec N.eq_dec i (a :: k)) as [[->|Hi]|Hi], (in_dec N.eq_dec i k) as [Hk|Hk]; auto; try contradiction. elim Hi. now right. }
  rewrite <- (H l). apply O. intros i Il. unfold mix. destruct (in_dec N.eq_dec i l); [auto|contradiction].
Qed.

Lemma variables_vlist m hs lk D vs ids : MInv m hs lk D -> args hs vs -> (variables m vs ids <-> vlist m D vs ids).
Proof.
  intros I Hv. unfold variables, each, vlist. split; intros F; induction F as [|v i vs ids Q F IH]; constructor;
    try (apply IH; intros x Hx; apply Hv; now right).
  - exact (proj1 (means_hv m hs lk D v _ I (Hv v (or_introl eq_refl))) Q).
  - exact (proj2 (means_hv m hs lk D v _ I (Hv v (or_introl eq_refl))) Q).
Qed.
Lemma depends_F (F G : bfun) i : same F G -> (depends F i <-> dependsF G i).
Proof. intros S. split; intros [rho H]; exists rho; [rewrite <- !S|rewrite !S]; exact H. Qed.
Lemma vlist_inj m D vs a b : vlist m D vs a -> vlist m D vs b -> a = b.
Proof.
  intros A. revert b. induction A as [|v i vs a Q A IH]; intros b B; inversion B; subst; auto. f_equal; [eapply is_v_inj; eauto|auto].
Qed.

Section World.
Variable w : world.
Hypothesis Rw : reachable w.
Notation m := (wm w).
Notation hs := (wh w).

Lemma W_dump f vs F d0 d1 ds1 ds2 ds3 : In f hs -> args hs vs -> means m f F ->
  exists r sup m', cal_dump d0 d1 ds1 ds2 ds3 m f vs = Ok ((r, sup), m') /\
  ((exists b, r = Some b) <-> exists ids, variables m vs ids /\ NoDup ids /\ covers ids F).
Proof.
  intros If Hv Mf. destruct (W_inv w Rw) as [D I]. rewrite (means_hv m hs lk0 D) in Mf by auto.
  destruct (dump_spec d0 d1 ds1 ds2 ds3 m hs lk0 D f vs I If Hv) as (r & sup & m' & D' & E & _ & _ & _ & H).
  exists r, sup, m'. split; auto.
  assert (S : forall ids, covers ids F <-> forall i, dependsF (hv m D f) i -> In i ids).
  { intros ids. unfold covers. split; intros C i Hi; apply C; [apply (depends_F F (hv m D f))|apply (depends_F F (hv m D f))]; auto; intros rho; auto. }
  destruct r as [b|].
  - split; [intros _|eauto]. destruct H as (ids & A & B & C & _). exists ids. rewrite (variables_vlist m hs lk0 D) by auto. split; auto. split; auto. now apply S.
  - split; [intros [b Hb]; discriminate|]. intros (ids & A & B & C). elim H. exists ids. rewrite (variables_vlist m hs lk0 D) in A by auto. split; auto. split; auto. now apply S.
Qed.

(** Whatever the file contains: the call reads safely, or it writes beyond its table. *)
Lemma W_undump_total enum ds vs inp : good_enum enum -> args hs vs ->
  reads_safely w vs (cal_undump enum ds m vs inp) \/ cal_undump enum ds m vs inp = Undefined /\ ~ announces_enough inp.
Proof.
  intros He Hv. destruct (W_inv w Rw) as [D I]. pose proof (undump_spec enum ds m hs lk0 D vs inp He I Hv) as U.
  destruct (cal_undump enum ds m vs inp) as [[u m']| |] eqn:Eu; [left|destruct U|].
  2:{ right. split; auto. unfold announces_enough. destruct U as (ns & i3 & Q & L). rewrite Q. lia. }
  destruct U as (D' & X & _ & U). exists u, m'. split; auto.
  assert (C : call w (World m' (own [ud_h u] hs))) by (destruct w as [m0 hs0]; eapply st_undump; eauto). split; [eapply re_call; eauto|]. split.
  + intros h F Ih Mh. assert (exists hs1, In h hs1 /\ MInv m' hs1 lk0 D') as (hs1 & I1 & Q) by (destruct U as [(_ & Q & _)|(_ & Q)]; [now exists hs|exists (ud_h u :: hs); split; auto; now right]).
    apply (means_hv m' hs1 lk0 D' h F Q I1). intros rho. rewrite (mx_h _ _ _ _ _ X h Ih). now apply (means_hv m hs lk0 D).
  + destruct U as [(Hn & _ & [[H0 H1]|H0])|[H0 I1]].
    * right. left. rewrite Hn. split; auto. split; auto. intros [ids V]. apply H1. intros v Iv. rewrite (variables_vlist m hs lk0 D) in V by auto.
      clear - V Iv. induction V as [|x i vs ids Q V IH]; [destruct Iv|]. destruct Iv as [<-|Iv]; [now exists i|auto].
    * left. rewrite Hn. split; auto. unfold error_code. destruct H0 as [->|[->| ->]]; vm_compute; auto.
    * right. right. split; [|split; auto; exists (fun rho => hv m' D' (ud_h u) rho); apply (means_self m' (ud_h u :: hs) lk0 D'); auto; now left].
      exact (uok_notnull m' (ud_h u :: hs) lk0 D' (ud_h u) I1 (or_introl eq_refl)).
Qed.
Lemma W_undump enum ds vs inp : good_enum enum -> args hs vs -> announces_enough inp -> reads_safely w vs (cal_undump enum ds m vs inp).
Proof. intros He Hv Ha. destruct (W_undump_total enum ds vs inp He Hv) as [|[_ H]]; [auto|contradiction]. Qed.
End World.

Lemma W_round_trip w w2 f F vs ids d0 d1 ds1 ds2 ds3 b sup m1 enum ds vs2 ids2 rest :
  reachable w -> In f (wh w) -> means (wm w) f F -> args (wh w) vs -> variables (wm w) vs ids ->
  cal_dump d0 d1 ds1 ds2 ds3 (wm w) f vs = Ok ((Some b, sup), m1) -> N.of_nat (length b) <= 2 ^ 32 ->
  reachable w2 -> args (wh w2) vs2 -> variables (wm w2) vs2 ids2 -> length ids2 = length ids -> good_enum enum ->
  exists h m2, cal_undump enum ds (wm w2) vs2 (b ++ rest) = Ok (UD h 0 rest, m2) /\ cal_isnull h = false /\
    exists G, means m2 h G /\ renamed ids ids2 F G.
Proof.
  intros R If Mf Hv V E Lb R2 Hv2 V2 Ll He. destruct (W_inv w R) as [D I]. destruct (W_inv w2 R2) as [D2 I2].
  rewrite (means_hv (wm w) (wh w) lk0 D) in Mf by auto. rewrite (variables_vlist _ _ _ _ _ _ I Hv) in V. rewrite (variables_vlist _ _ _ _ _ _ I2 Hv2) in V2.
  destruct (dump_spec d0 d1 ds1 ds2 ds3 (wm w) (wh w) lk0 D f vs I If Hv) as (r & sup' & m' & D' & E' & _ & _ & _ & H).
  rewrite E in E'. injection E' as <- <- <-. destruct H as (ids' & V' & Nd & Cv & p & Hp & Lv & Cd).
  rewrite <- (vlist_inj _ _ _ _ _ V V') in *. clear ids' V'.
  assert (Lvs : length vs2 = length vs).
  { rewrite (Forall2_len _ _ _ V2), (Forall2_len _ _ _ V). exact Ll. }
  rewrite <- Lvs in Lv, Cd.
  destruct (undump_coded enum ds (wm w2) (wh w2) lk0 D2 vs2 ids2 b _ rest He I2 Hv2 V2 Lv Cd Lb) as (h & m2 & D2' & Eu & _ & I2' & Hh).
  exists h, m2. split; auto. split; [exact (uok_notnull _ _ _ _ _ I2' (or_introl eq_refl))|].
  exists (fun rho => hv m2 D2' h rho). split; [apply (means_self m2 (h :: wh w2) lk0 D2'); auto; now left|].
  intros rho sigma Q. rewrite Hh. rewrite <- Mf.
  apply (only_covered (ord (mo (wm w))) (hv (wm w) D f) ids); [eapply only_hv; eauto|intros i Hi; apply Cv; exact Hi|].
  intros i Ii. apply In_nth_error in Ii as [k Hk]. rewrite (Hp k i Hk), Nat2N.id.
  destruct (nth_error ids2 k) as [j|] eqn:Ej.
  - rewrite (nth_error_nth ids2 k 0 Ej). symmetry. eapply Q; eauto.
  - apply nth_error_None in Ej. assert (k < length ids)%nat by (apply nth_error_Some; congruence). lia.
Qed.
(** Reading in the manager the file was written from. *)
Lemma W_restore w f vs ids d0 d1 ds1 ds2 ds3 b sup m1 enum ds rest :
  reachable w -> In f (wh w) -> args (wh w) vs -> variables (wm w) vs ids ->
  cal_dump d0 d1 ds1 ds2 ds3 (wm w) f vs = Ok ((Some b, sup), m1) -> N.of_nat (length b) <= 2 ^ 32 -> good_enum enum ->
  exists h m2, cal_undump enum ds m1 vs (b ++ rest) = Ok (UD h 0 rest, m2) /\ cal_isequal h f = true.
Proof.
  intros R If Hv V E Lb He. destruct (W_inv w R) as [D I].
  set (w1 := World m1 (own sup (wh w))).
  assert (C : call w w1) by (unfold w1; destruct w as [m hs]; eapply st_dump; eauto; now right).
  pose proof (re_call w w1 R C) as R1.
  assert (Sub : forall h, In h (wh w) -> In h (wh w1)).
  { unfold w1. cbn [wh]. clear. induction sup as [|x l IH]; cbn [own]; intros h Ih; [exact Ih|]. destruct (uisnull x); [exact (IH h Ih)|right; exact (IH h Ih)]. }
  assert (Kp : forall h F, In h (wh w) -> means (wm w) h F -> means m1 h F).
  { intros h F Ih Mh. exact (W_keep w R w1 h F (st_call w w1 C) Ih (Sub h Ih) Mh). }
  set (F := fun rho => hv (wm w) D f rho).
  assert (Mf : means (wm w) f F) by (apply (means_self (wm w) (wh w) lk0 D); auto).
  assert (Hv1 : args (wh w1) vs) by (intros h Ih; auto).
  assert (V1 : variables (wm w1) vs ids).
  { unfold variables, each in *. change (wm w1) with m1. clear - V Kp Hv. induction V as [|v i vs ids Q V IH]; constructor; [apply Kp; [apply Hv; now left|exact Q]|apply IH; intros x Hx; apply Hv; now right]. }
  destruct (W_round_trip w w1 f F vs ids d0 d1 ds1 ds2 ds3 b sup m1 enum ds vs ids rest R If Mf Hv V E Lb R1 Hv1 V1 eq_refl He)
    as (h & m2 & Eu & Hn & G & Mh & Rn).
  exists h, m2. split; [exact Eu|].
  set (w2 := World m2 (own [h] (wh w1))).
  assert (C2 : call w1 w2) by (unfold w2; apply (st_undump enum ds m1 (own sup (wh w)) vs (b ++ rest) (UD h 0 rest) m2); auto).
  pose proof (re_call w1 w2 R1 C2) as R2. assert (Iw : wh w2 = h :: wh w1) by (unfold w2; cbn [own wh]; unfold cal_isnull in Hn; now rewrite Hn).
  assert (If2 : In f (wh w2)) by (rewrite Iw; right; auto).
  assert (Ih2 : In h (wh w2)) by (rewrite Iw; now left).
  assert (Mf2 : means (wm w2) f F) by (apply (W_keep w1 R1 w2 f F (st_call w1 w2 C2)); auto; exact (Kp f F If Mf)).
  apply (W_canonical w2 R2 h f G F Ih2 If2 Mh Mf2). intros rho. apply Rn.
  intros k i j A B. rewrite A in B. injection B as <-. reflexivity.
Qed.

(** ** Examples *)

(** Write the conditional of the demonstration world and read it with the list reversed. *)
Definition vars_in : list ubdd := [h_var 1; h_var 2; h_var 3; h_var 4].
Definition vars_out : list ubdd := [h_var 4; h_var 3; h_var 2; h_var 1].
Definition dumped_ok (p : list N -> mgr -> bool) : bool :=
  match cal_dump dec1 dec1 (fun _ => dec1) (fun _ => dec1) (fun _ => dec1) (wm demo) h_ite vars_in with
  | Ok ((Some b, _), m') => p b m' | _ => false end.
Definition reread (b : list N) (m' : mgr) : bool :=
  match cal_undump listed (fun _ => dec1) m' vars_in (b ++ [7]), cal_undump listed (fun _ => dec1) m' vars_out (b ++ [7]) with
  | Ok (u, m2), Ok (u2, m3) =>
      cal_isequal (ud_h u) h_ite && (ud_err u =? 0) && negb (cal_isequal (ud_h u2) h_ite) && (ud_err u2 =? 0) &&
      is_val m3 (ud_h u2) (fun i => i =? 1) true && is_val m3 (ud_h u2) (fun i => 3 <=? i) false && is_val m3 (ud_h u2) (fun i => 2 <=? i) true
  | _, _ => false
  end.
Lemma reread_example : dumped_ok (fun b m' => (length b <=? 40)%nat && reread b m') = true.
Proof. vm_compute. reflexivity. Qed.
Lemma dump_refuses_example : exists sup m', cal_dump dec1 dec1 (fun _ => dec1) (fun _ => dec1) (fun _ => dec1) (wm demo) h_ite [h_var 1; h_var 2] = Ok ((None, sup), m').
Proof.
  assert (H : match cal_dump dec1 dec1 (fun _ => dec1) (fun _ => dec1) (fun _ => dec1) (wm demo) h_ite [h_var 1; h_var 2] with Ok ((None, _), _) => true | _ => false end = true)
    by (vm_compute; reflexivity).
  destruct (cal_dump _ _ _ _ _ _ _ _) as [[[[b|] sup] m']| |]; [discriminate H| |discriminate H|discriminate H]. exists sup, m'. exact eq_refl.
Qed.

(** A file that announces no shared node and then defines one. *)
Definition bad_file : list N := dwrite 8 MAGIC ++ [0; 0] ++ [0; 0; 0; 0; 0; 0; 0; 0] ++ [255; C_LABEL; 255; C_TRUE].
Lemma bad_file_overruns : cal_undump listed (fun _ => dec1) (wm demo) [] bad_file = Undefined.
Proof. vm_compute. reflexivity. Qed.
(** The same definition with an announced node is a good file. *)
Definition good_file : list N := dwrite 8 MAGIC ++ [0; 0] ++ [0; 0; 0; 0; 0; 0; 0; 1] ++ [255; C_LABEL; 255; C_TRUE].
Lemma good_file_reads : match cal_undump listed (fun _ => dec1) (wm demo) [] good_file with Ok (u, m') => is_val m' (ud_h u) (fun _ => false) true | _ => false end = true.
Proof. vm_compute. reflexivity. Qed.
(** Errors that are reported: a truncated file, a wrong number of variables. *)
Lemma errors_example :
  match cal_undump listed (fun _ => dec1) (wm demo) [] (firstn 20 good_file) with Ok (u, _) => ud_err u =? 4 | _ => false end &&
  match cal_undump listed (fun _ => dec1) (wm demo) [h_var 1] good_file with Ok (u, _) => ud_err u =? 1 | _ => false end &&
  match cal_undump listed (fun _ => dec1) (wm demo) [h_and] good_file with Ok (u, _) => cal_isnull (ud_h u) && (ud_err u =? 0) | _ => false end = true.
Proof. vm_compute. reflexivity. Qed.
Lemma overrun_witness : exists w inp, reachable w /\ cal_undump listed (fun _ => dec1) (wm w) [] inp = Undefined.
Proof. exists demo, bad_file. split; [exact (run_reachable _)|exact bad_file_overruns]. Qed.
Lemma silent_gen w h inp : reachable w -> In h (wh w) ->
  match cal_undump listed (fun _ => dec1) (wm w) [h] inp with Ok (u, _) => cal_isnull (ud_h u) && (ud_err u =? 0) | _ => false end = true ->
  exists w vs inp u m', reachable w /\ args (wh w) vs /\
  cal_undump listed (fun _ => dec1) (wm w) vs inp = Ok (u, m') /\ cal_isnull (ud_h u) = true /\ ud_err u = 0.
Proof.
  intros R Ih H. destruct (cal_undump listed _ (wm w) [h] inp) as [[u m']| |] eqn:E; try discriminate. apply andb_true_iff in H as [H1 H2].
  exists w, [h], inp, u, m'. split; auto. split; [intros x [<-|[]]; auto|]. split; auto. split; auto. now apply N.eqb_eq.
Qed.
Lemma silent_witness : exists w vs inp u m', reachable w /\ args (wh w) vs /\
  cal_undump listed (fun _ => dec1) (wm w) vs inp = Ok (u, m') /\ cal_isnull (ud_h u) = true /\ ud_err u = 0.
Proof. apply (silent_gen demo h_and good_file (run_reachable _)); [vm_compute; repeat (first [left; reflexivity|right])|vm_compute; reflexivity]. Qed.
(** A file that announces more nodes than it has. *)
Definition good_long : list N := dwrite 8 MAGIC ++ [0; 0] ++ [0; 0; 0; 0; 0; 0; 0; 4] ++ [255; C_LABEL; 255; C_TRUE].
Lemma good_long_example : announces_enough good_long /\
  match cal_undump listed (fun _ => dec1) (wm demo) [] good_long with Ok (u, _) => ud_err u =? 1 | _ => false end = true.
Proof. split; [vm_compute; discriminate|vm_compute; reflexivity]. Qed.
