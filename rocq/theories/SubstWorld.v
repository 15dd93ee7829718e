(** * Simultaneous substitution in reachable worlds. *)
From Coq Require Import Permutation.
From Verif Require Import Base BFModel ITEModel MgrModel ApiModel StoreInv Own EngInv ApplyProof BinopProof ReduceProof EngineProof
  OpProof MultiProof QProof GCProof VarProof MInv ApiProof ApiOps ApiStruct ApiVar GraphModel GraphCube AssocModel AssocProof QuantModel QuantBFModel QuantApiModel QuantApi
  SubstModel SubstApi SpecApi SpecAssoc SpecQuant SpecSubst WorldProof Client ApiLemmas ApiFacts AssocWorld AssocFacts QuantWorld QuantFacts.

Lemma varsubstitute_mnl enum slot d1 d2 m f h m' : cal_varsubstitute enum slot d1 d2 m f = Ok (h, m') -> mnl m' = mnl m.
Proof.
  unfold cal_varsubstitute. destruct (preproc d1 m [f]) as [[ok m1]| |] eqn:P; try discriminate. cbn [obind]. apply preproc_mnl in P.
  destruct ok; cbn [negb]; [|intros [= <- <-]; auto].
  destruct (mcur m1); cbv beta iota zeta; (destruct (_ <? _)%Z; [|destruct (cache_lookup _ _ _ _ _); [|destruct (substBF _ _ _ _ _ _ _ _ _ _) as [r0 en]]]);
    intros [= E]; change m' with (snd (h, m')); rewrite <- E, finish_mnl; exact P.
Qed.

(** The current association and the substitution it stands for. *)
Lemma current_stands m hs lk D S : MInv m hs lk D -> current_means m S -> stands_for m (amap (current m)) S.
Proof.
  intros I H. unfold current_means in H. destruct (mcur m) as [j|] eqn:Mc; [|unfold current; rewrite Mc; exact H].
  destruct H as (a & Ia & Ea & Sa). destruct (current_perm m hs lk D j I Mc) as [Ic Ec].
  assert (a = current m) as <-; [|exact Sa].
  pose proof (mi_srt _ _ _ _ I) as Srt. clear - Srt Ia Ic Ea Ec. revert Ia Ic. generalize (current m) Ec. clear Ec. intros b Eb Ia Ib.
  induction (massoc m) as [|c l IH]; [destruct Ia|]. simpl in Srt. inversion Srt as [|x y S1 F1]; subst.
  rewrite Forall_forall in F1. destruct Ia as [->|Ia], Ib as [->|Ib]; auto; exfalso.
  - specialize (F1 (aid b) (in_map aid _ _ Ib)). lia.
  - specialize (F1 (aid a) (in_map aid _ _ Ia)). lia.
Qed.
Lemma current_replaced m hs lk D S : MInv m hs lk D -> current_means m S ->
  forall rho i, replaced D (amap (current m)) rho i = match S i with Some G => G rho | None => rho i end.
Proof.
  intros I H rho i. pose proof (proj1 (sfor_iff m hs lk D (current m) S I (current_in m)) (current_stands m hs lk D S I H)) as K.
  specialize (K i). unfold replaced. unfold both in K. destruct (amap (current m) i), (S i); auto; contradiction.
Qed.
Lemma renaming_images m hs lk D S : MInv m hs lk D -> current_means m S -> renaming S -> variable_images m.
Proof.
  intros I H R i e Ei. pose proof (current_stands m hs lk D S I H i) as K. rewrite Ei in K. unfold both in K. destruct (S i) as [G|] eqn:Es; [|contradiction].
  destruct (R i G Es) as [(j & Hj)|(b & Hb)]; [left; exists j|right; exists b]; intros rho; [rewrite <- Hj|rewrite <- (Hb rho)]; apply K.
Qed.

Section World.
Variable w : world.
Hypothesis Rw : reachable w.
Notation m := (wm w).
Notation hs := (wh w).

Lemma W_substitute f F S enum d : In f hs -> means m f F -> current_means m S -> good_enum enum ->
  returns (cal_substitute enum d m f) (substituted S F).
Proof.
  intros If Mf Hs He. destruct (W_inv w Rw) as [D I]. pose proof (means_bext _ _ _ _ _ _ I If Mf) as B.
  rewrite (means_hv m hs lk0 D) in Mf by auto.
  destruct (substitute_spec enum He d m hs lk0 D f I If) as (r & m' & E & R). exists r, m'. split; auto.
  eapply result_returns; [|exact R]. intros rho. unfold substituted. rewrite Mf. apply B. intros i. exact (current_replaced m hs lk0 D S I Hs rho i).
Qed.
Lemma W_varsubstitute f F S enum slot d1 d2 : In f hs -> means m f F -> current_means m S -> renaming S -> room_for_temporary m -> good_enum enum ->
  computes m (cal_varsubstitute enum slot d1 d2 m f) (substituted S F).
Proof.
  intros If Mf Hs Hr Rm He. destruct (W_inv w Rw) as [D I]. pose proof (means_bext _ _ _ _ _ _ I If Mf) as B.
  rewrite (means_hv m hs lk0 D) in Mf by auto.
  destruct (varsubstitute_spec enum He slot d1 d2 m hs lk0 D f I If Rm (variables_only m hs lk0 D I (renaming_images m hs lk0 D S I Hs Hr))) as (r & m' & E & R).
  exists r, m'. split; auto. eapply either_computes; [exact I|exact (varsubstitute_mnl _ _ _ _ _ _ _ _ E)| |exact R].
  intros rho. cbv beta. unfold substituted. rewrite Mf. apply B. intros i. exact (current_replaced m hs lk0 D S I Hs rho i).
Qed.
(** The same with an emptied computed table. *)
Lemma W_varsubstitute_forgetful f F S enum slot d1 d2 : In f hs -> means m f F -> current_means m S -> renaming S -> room_for_temporary m -> good_enum enum ->
  computes (forgetful m) (cal_varsubstitute enum slot d1 d2 (forgetful m) f) (substituted S F).
Proof.
  intros If Mf Hs Hr Rm He. destruct (either_inv w Rw (forgetful m) (or_intror eq_refl)) as (D & I & I'). pose proof (means_bext _ _ _ _ _ _ I If Mf) as B.
  rewrite (means_hv m hs lk0 D) in Mf by auto.
  destruct (varsubstitute_spec enum He slot d1 d2 (forgetful m) hs lk0 D f I' If Rm (variables_only m hs lk0 D I (renaming_images m hs lk0 D S I Hs Hr))) as (r & m' & E & R).
  exists r, m'. split; auto. eapply either_computes; [exact I'|exact (varsubstitute_mnl _ _ _ _ _ _ _ _ E)| |exact R].
  intros rho. cbv beta. unfold substituted. change (hv (forgetful m) D f) with (hv m D f). rewrite Mf. apply B.
  intros i. exact (current_replaced m hs lk0 D S I Hs rho i).
Qed.
Lemma W_subst_null f enum slot d d1 d2 : uisnull f = true ->
  cal_substitute enum d m f = Ok (unull, m) /\ cal_varsubstitute enum slot d1 d2 m f = Ok (unull, m).
Proof.
  intros Hn. destruct (W_inv w Rw) as [D I]. split; [exact (substitute_null enum d m hs lk0 D f I Hn)|exact (varsubstitute_null enum slot d1 d2 m hs lk0 D f I Hn)].
Qed.
End World.

(** ** Examples *)

(** x1 and x3 exchanged by the temporary association. *)
Definition xworld : world := run (setup ++ [CTemp [5; 3; 3; 5]%nat true]).
Definition x_h (n : nat) : ubdd := nth n (wh xworld) unull.
Definition s_exchange : substitution :=
  fun i => if i =? 1 then Some (fun rho : N -> bool => rho 3) else if i =? 3 then Some (fun rho : N -> bool => rho 1) else None.
Lemma s_exchange_renaming : renaming s_exchange.
Proof.
  intros i G. unfold s_exchange. destruct (i =? 1); [|destruct (i =? 3)]; intros [= <-]; left; [exists 3|exists 1]; intros rho; reflexivity.
Qed.
Lemma xworld_reachable : reachable xworld.
Proof. exact (run_reachable _). Qed.
Lemma xworld_ids : ord (mo (wm xworld)) = [1; 4; 2; 3]. Proof. vm_compute. reflexivity. Qed.
Lemma xworld_dom a i : In a (mtemp (wm xworld) :: massoc (wm xworld)) -> amap a i <> None -> i < N.of_nat 5.
Proof.
  intros Ia N. pose proof (reach_dom xworld a i xworld_reachable Ia N) as H. rewrite xworld_ids in H.
  destruct H as [<-|[<-|[<-|[<-|[]]]]]; reflexivity.
Qed.
Lemma xworld_temp_trees : each shows_tree (trees (wm xworld) (mtemp (wm xworld)) 5) (map (fun i => s_exchange (N.of_nat i)) (seq 0 5)).
Proof. trees4. Qed.
Lemma xworld_temp : temp_means (wm xworld) s_exchange.
Proof.
  apply (temp_dec xworld s_exchange 5); [apply xworld_dom| |exact xworld_temp_trees].
  intros i L. assert (forall k, k < 5 -> (i =? k) = false) as E by (intros k Hk; apply N.eqb_neq; lia).
  unfold s_exchange. rewrite (E 1), (E 3) by (vm_compute; reflexivity). reflexivity.
Qed.
Lemma current_temp m S : mcur m = None -> temp_means m S -> current_means m S.
Proof. intros E A. unfold current_means. now rewrite E. Qed.
Lemma xworld_current : current_means (wm xworld) s_exchange.
Proof. apply current_temp; [vm_compute; reflexivity|exact xworld_temp]. Qed.
Lemma xworld_room : room_for_temporary (wm xworld).
Proof. apply has_room_ok. vm_compute. reflexivity. Qed.
Lemma xworld_handle : In (x_h 0) (wh xworld) /\ means (wm xworld) (x_h 0) (fun rho => if rho 3 then rho 1 && rho 2 else rho 4).
Proof. split; [vm_compute; auto 8|]. means4. Qed.

(** If x3 then x1 and x2 else x4 becomes if x1 then x3 and x2 else x4. *)
Lemma exchange_example :
  (exists h m', cal_substitute listed dec1 (wm xworld) (x_h 0) = Ok (h, m') /\
     value m' h (fun i => i <=? 3) = Some true /\ value m' h (fun i => (i =? 3) || (i =? 2)) = Some false /\
     value m' h (fun i => (i =? 3) || (i =? 4)) = Some true /\ value m' h (fun i => (i =? 1) || (i =? 4)) = Some false) /\
  (exists h m', cal_varsubstitute listed slot0 dec1 dec1 (wm xworld) (x_h 0) = Ok (h, m') /\
     value m' h (fun i => i <=? 3) = Some true /\ value m' h (fun i => (i =? 3) || (i =? 2)) = Some false /\
     value m' h (fun i => (i =? 3) || (i =? 4)) = Some true /\ value m' h (fun i => (i =? 1) || (i =? 4)) = Some false).
Proof.
  set (t := fun h m' => is_val m' h (fun i => i <=? 3) true && is_val m' h (fun i => (i =? 3) || (i =? 2)) false &&
     is_val m' h (fun i => (i =? 3) || (i =? 4)) true && is_val m' h (fun i => (i =? 1) || (i =? 4)) false).
  split.
  - destruct (isok_ex (cal_substitute listed dec1 (wm xworld) (x_h 0)) t) as (h & m' & E & P); [vm_compute; reflexivity|].
    unfold t in P. apply andb_true_iff in P as [P P4]. apply andb_true_iff in P as [P P3]. apply andb_true_iff in P as [P1 P2].
    exists h, m'. split; [exact E|]. split; [|split; [|split]]; apply is_val_eq; assumption.
  - destruct (isok_ex (cal_varsubstitute listed slot0 dec1 dec1 (wm xworld) (x_h 0)) t) as (h & m' & E & P); [vm_compute; reflexivity|].
    unfold t in P. apply andb_true_iff in P as [P P4]. apply andb_true_iff in P as [P P3]. apply andb_true_iff in P as [P1 P2].
    exists h, m'. split; [exact E|]. split; [|split; [|split]]; apply is_val_eq; assumption.
Qed.

(** ** Images which are no variables *)

(** x1 with the image x1 and x2. *)
Definition vworld : world := run (setup ++ [CTemp [5; 1]%nat true]).
Definition v_h (n : nat) : ubdd := nth n (wh vworld) unull.
Definition s_and : substitution := fun i => if i =? 1 then Some (fun rho : N -> bool => rho 1 && rho 2) else None.
Lemma vworld_ids : ord (mo (wm vworld)) = [1; 4; 2; 3]. Proof. vm_compute. reflexivity. Qed.
Lemma vworld_dom a i : In a (mtemp (wm vworld) :: massoc (wm vworld)) -> amap a i <> None -> i < N.of_nat 5.
Proof.
  intros Ia N. pose proof (reach_dom vworld a i (run_reachable _) Ia N) as H. rewrite vworld_ids in H.
  destruct H as [<-|[<-|[<-|[<-|[]]]]]; reflexivity.
Qed.
Lemma vworld_temp_trees : each shows_tree (trees (wm vworld) (mtemp (wm vworld)) 5) (map (fun i => s_and (N.of_nat i)) (seq 0 5)).
Proof. trees4. Qed.
Lemma vworld_temp : temp_means (wm vworld) s_and.
Proof.
  apply (temp_dec vworld s_and 5); [apply vworld_dom| |exact vworld_temp_trees].
  intros i L. assert (forall k, k < 5 -> (i =? k) = false) as E by (intros k Hk; apply N.eqb_neq; lia).
  unfold s_and. rewrite (E 1) by (vm_compute; reflexivity). reflexivity.
Qed.
Lemma vworld_current : current_means (wm vworld) s_and.
Proof. apply current_temp; [vm_compute; reflexivity|exact vworld_temp]. Qed.
Lemma vworld_handle : In (v_h 5) (wh vworld) /\ means (wm vworld) (v_h 5) (fun rho => rho 1).
Proof. split; [vm_compute; auto 8|]. means4. Qed.
Lemma nonvariable_refuted : exists w f F S, reachable w /\ In f (wh w) /\ means (wm w) f F /\ current_means (wm w) S /\ room_for_temporary (wm w) /\
  exists h m' rho b, cal_varsubstitute listed slot0 dec1 dec1 (wm w) f = Ok (h, m') /\ value m' h rho = Some b /\ substituted S F rho = negb b.
Proof.
  exists vworld, (v_h 5), (fun rho => rho 1), s_and. split; [exact (run_reachable _)|]. destruct vworld_handle as [V1 V2]. split; [exact V1|]. split; [exact V2|].
  split; [exact vworld_current|]. split; [apply has_room_ok; vm_compute; reflexivity|].
  destruct (isok_ex (cal_varsubstitute listed slot0 dec1 dec1 (wm vworld) (v_h 5)) (fun h m' => is_val m' h (fun i => i =? 1) true)) as (h & m' & E & P);
    [vm_compute; reflexivity|].
  exists h, m', (fun i => i =? 1), true. split; [exact E|]. split; [apply is_val_eq; assumption|reflexivity].
Qed.
