(** * Reduction by a care set and interpolation in reachable worlds. *)
From Coq Require Import Permutation.
From Verif Require Import Base BFModel ITEModel MgrModel ApiModel StoreInv Own EngInv ApplyProof BinopProof ReduceProof EngineProof
  OpProof MultiProof QProof GCProof VarProof MInv ApiProof ApiOps ApiStruct ApiVar CofactorModel CofactorProof GraphModel GraphCall ReduceOpModel ReduceApi
  SpecApi SpecGraph SpecReduce WorldProof Client ApiLemmas GraphApi ApiFacts.
Open Scope N_scope.

(** The number that is measured. *)
Definition sz (o : order) (F : bfun) (n : N) : Prop := number same_or_opposite (subfunction (ord o) [F]) n.

Lemma restriction_ext l k F G H : (forall rho, F rho = G rho) -> restriction l k F H -> restriction l k G H.
Proof. intros E [rho R]. exists rho. intros r. rewrite R. unfold fixed. apply E. Qed.
Lemma subfunction_ext l F G H : (forall rho, F rho = G rho) -> subfunction l [F] H -> subfunction l [G] H.
Proof. intros E (F' & k & [<-|[]] & R). exists G, k. split; [now left|]. eapply restriction_ext; eauto. Qed.
Lemma sz_ext o F G n : (forall rho, F rho = G rho) -> sz o F n -> sz o G n.
Proof.
  intros E (L & Hn & H1 & H2 & H3). exists L. split; auto. split; [|split; auto].
  - intros H Ih. eapply subfunction_ext; [exact E|auto].
  - intros H Sh. apply H2. eapply subfunction_ext; [|exact Sh]. intros rho. now rewrite E.
Qed.
Lemma sz_size m hs D f d : MInv m hs lk0 D -> In f hs ->
  exists n m1 D1, size1 d m f = Ok (n, m1) /\ kept m hs lk0 D m1 D1 /\ sz (mo m) (hv m D f) n.
Proof.
  intros I If. unfold size1, cal_size.
  destruct (query_live d m hs lk0 D f (0, unmarked) (fun m1 F => fueled (size_of true (mo m1) (mmem m1) unmarked [F])) I If) as (m1 & D1 & K1 & E).
  destruct (kept_facts m hs lk0 D m1 D1 f K1 If) as (Wo & W & K & V & H).
  destruct (size_profile (World m hs) D [uint (mmem m1) f] [hv m D f] m1 D1 true K1) as (n & lc & mk & E1 & _ & _ & Hn & _).
  { constructor; [split; auto|constructor]. }
  exists n, m1, D1. rewrite E, E1. cbn [obind fueled]. split; auto. split; auto.
  assert (Eo : mo m1 = mo m).
  { apply (size1_order d m f n m1). unfold size1, cal_size. now rewrite E, E1. }
  unfold sz. rewrite <- Eo. exact Hn.
Qed.

Section World.
Variable w : world.
Hypothesis Rw : reachable w.
Notation m := (wm w).
Notation hs := (wh w).

Lemma W_reduce f c F C enum d1 d2 d3 d4 : In f hs -> In c hs -> means m f F -> means m c C -> good_enum enum -> (exists rho, C rho = true) ->
  exists R, agrees_on C F R /\ no_larger (ord (mo m)) R F /\ computes m (cal_reduce enum d1 d2 d3 d4 m f c) R.
Proof.
  intros If Ic Mf Mc He [q Hq]. destruct (W_inv w Rw) as [D I]. rewrite (means_hv m hs lk0 D) in Mf, Mc by auto.
  destruct (reduce_spec enum He lk0 sz sz_ext sz_size d1 d2 d3 d4 m hs D f c I If Ic) as (r & m' & R & E & [A (nR & nF & S1 & S2 & Le)] & Rs).
  { exists q. now rewrite Mc. }
  exists R. split; [|split].
  - intros rho Hr. rewrite <- Mf. apply A. now rewrite Mc.
  - exists nR, nF. split; auto. split; auto. exact (sz_ext _ _ _ _ Mf S2).
  - exists r, m'. split; auto. eapply result_computes; [exact I|exact (proj1 (lrel_reduce _ _ _ _ _ _ _ _ _ _ E))| |exact Rs]. reflexivity.
Qed.
Lemma W_between f g F G enum d1 d2 d3 d4 d5 : In f hs -> In g hs -> means m f F -> means m g G -> good_enum enum -> implies F G ->
  (exists rho, F rho = true \/ G rho = false) ->
  exists R, implies F R /\ implies R G /\ (no_larger (ord (mo m)) R F \/ no_larger (ord (mo m)) R G) /\
    computes m (cal_between enum d1 d2 d3 d4 d5 m f g) R.
Proof.
  intros If Ig Mf Mg He Imp [q Hq]. destruct (W_inv w Rw) as [D I]. rewrite (means_hv m hs lk0 D) in Mf, Mg by auto.
  destruct (between_spec enum He lk0 sz sz_ext sz_size d1 d2 d3 d4 d5 m hs D f g I If Ig) as (r & m' & R & E & (_ & A & (nR & nF & nG & S1 & S2 & S3 & Le)) & Rs).
  { exists q. now rewrite Mf, Mg. }
  assert (A' : forall rho, (F rho = true -> R rho = true) /\ (R rho = true -> G rho = true)).
  { intros rho. rewrite <- Mf, <- Mg. apply A. intros r0. rewrite Mf, Mg. apply Imp. }
  exists R. split; [intros rho; apply A'|]. split; [intros rho; apply A'|]. split.
  - destruct Le as [Le|Le]; [left; exists nR, nF|right; exists nR, nG]; (split; [exact S1|split; [|exact Le]]); eapply sz_ext; eauto.
  - exists r, m'. split; auto. eapply result_computes; [exact I|exact (proj1 (lrel_between _ _ _ _ _ _ _ _ _ _ _ E))| |exact Rs]. reflexivity.
Qed.
End World.

(** ** Examples *)

Lemma reduce_example :
  exists h m', cal_reduce listed dec1 dec1 dec1 dec1 (wm demo) h_ite h_and = Ok (h, m') /\
     value m' h (fun i => i =? 3) = Some true /\ value m' h (fun i => i =? 4) = Some true /\ value m' h (fun i => i <=? 2) = Some false.
Proof.
  destruct (isok_ex (cal_reduce listed dec1 dec1 dec1 dec1 (wm demo) h_ite h_and)
      (fun h m' => is_val m' h (fun i => i =? 3) true && is_val m' h (fun i => i =? 4) true && is_val m' h (fun i => i <=? 2) false))
      as (h & m' & E & P); [vm_compute; reflexivity|].
  apply andb_true_iff in P as [P P3]. apply andb_true_iff in P as [P1 P2]. exists h, m'. split; [exact E|].
  split; [|split]; apply is_val_eq; assumption.
Qed.
(** The second argument only matters below the first: the quantified care set is used. *)
Lemma reduce_pull_example :
  exists h m', cal_reduce listed dec1 dec1 dec1 dec1 (wm demo) (h_var 2) h_and = Ok (h, m') /\
     value m' h (fun _ => true) = Some true /\ value m' h (fun _ => false) = Some true.
Proof.
  destruct (isok_ex (cal_reduce listed dec1 dec1 dec1 dec1 (wm demo) (h_var 2) h_and)
      (fun h m' => is_val m' h (fun _ => true) true && is_val m' h (fun _ => false) true))
      as (h & m' & E & P); [vm_compute; reflexivity|].
  apply andb_true_iff in P as [P1 P2]. exists h, m'. split; [exact E|]. split; apply is_val_eq; assumption.
Qed.
Lemma between_example :
  exists h m', cal_between listed dec1 dec1 dec1 dec1 dec1 (wm demo) h_and (h_var 1) = Ok (h, m') /\
     value m' h (fun i => i =? 1) = Some true /\ value m' h (fun i => i =? 2) = Some false.
Proof.
  destruct (isok_ex (cal_between listed dec1 dec1 dec1 dec1 dec1 (wm demo) h_and (h_var 1))
      (fun h m' => is_val m' h (fun i => i =? 1) true && is_val m' h (fun i => i =? 2) false))
      as (h & m' & E & P); [vm_compute; reflexivity|].
  apply andb_true_iff in P as [P1 P2]. exists h, m'. split; [exact E|]. split; apply is_val_eq; assumption.
Qed.

(** ** The empty care set *)

(** A client that also holds both constants. *)
Definition constworld : world := run (setup ++ [CConst true; CConst false]).
Definition k_one : ubdd := nth 0 (wh constworld) unull.
Definition k_zero : ubdd := nth 1 (wh constworld) unull.
Definition k_and : ubdd := nth 3 (wh constworld) unull.
Definition undef {A} (r : outcome A) : bool := match r with Undefined => true | _ => false end.
Lemma undef_eq {A} (r : outcome A) : undef r = true -> r = Undefined.
Proof. now destruct r. Qed.
Lemma zero_means : means (wm constworld) k_zero (fun _ => false).
Proof. means4. Qed.
Lemma one_means : means (wm constworld) k_one (fun _ => true).
Proof. means4. Qed.
Lemma kand_means : means (wm constworld) k_and (fun rho => rho 1 && rho 2).
Proof. means4. Qed.
Lemma const_in : In k_zero (wh constworld) /\ In k_one (wh constworld) /\ In k_and (wh constworld).
Proof. split; [|split]; vm_compute; repeat (first [left; reflexivity|right]). Qed.
Lemma reduce_undef : cal_reduce listed dec1 dec1 dec1 dec1 (wm constworld) k_and k_zero = Undefined.
Proof. apply undef_eq. vm_compute. reflexivity. Qed.
Lemma between_undef : cal_between listed dec1 dec1 dec1 dec1 dec1 (wm constworld) k_zero k_one = Undefined.
Proof. apply undef_eq. vm_compute. reflexivity. Qed.
Lemma reduce_refuted : exists w f c F enum d1 d2 d3 d4, reachable w /\ In f (wh w) /\ In c (wh w) /\ means (wm w) f F /\
  means (wm w) c (fun _ => false) /\ good_enum enum /\ cal_reduce enum d1 d2 d3 d4 (wm w) f c = Undefined.
Proof.
  exists constworld, k_and, k_zero, (fun rho => rho 1 && rho 2), listed, dec1, dec1, dec1, dec1.
  split; [exact (run_reachable _)|]. split; [exact (proj2 (proj2 const_in))|]. split; [exact (proj1 const_in)|]. split; [exact kand_means|].
  split; [exact zero_means|]. split; [exact listed_good|exact reduce_undef].
Qed.
Lemma between_refuted : exists w f g F G enum d1 d2 d3 d4 d5, reachable w /\ In f (wh w) /\ In g (wh w) /\ means (wm w) f F /\
  means (wm w) g G /\ implies F G /\ good_enum enum /\ cal_between enum d1 d2 d3 d4 d5 (wm w) f g = Undefined.
Proof.
  exists constworld, k_zero, k_one, (fun _ => false), (fun _ => true), listed, dec1, dec1, dec1, dec1, dec1.
  split; [exact (run_reachable _)|]. split; [exact (proj1 const_in)|]. split; [exact (proj1 (proj2 const_in))|]. split; [exact zero_means|].
  split; [exact one_means|]. split; [intros rho H; reflexivity|]. split; [exact listed_good|exact between_undef].
Qed.
