(** * Generalized cofactors in reachable worlds. *)
From Coq Require Import Permutation.
From Verif Require Import Base BFModel ITEModel MgrModel ApiModel StoreInv Own EngInv ApplyProof BinopProof ReduceProof EngineProof
  OpProof MultiProof QProof GCProof VarProof MInv ApiProof ApiOps ApiStruct ApiVar CofSem NearProof CofactorModel CofactorProof SpecApi SpecCofactor
  WorldProof Client ApiLemmas ApiFacts.

Section World.
Variable w : world.
Hypothesis Rw : reachable w.
Notation m := (wm w).
Notation hs := (wh w).

Lemma W_cofactor f c F C enum d1 d2 : In f hs -> In c hs -> means m f F -> means m c C -> good_enum enum -> (exists rho, C rho = true) ->
  exists R, constrains (ord (mo m)) F C R /\ computes m (cal_cofactor enum d1 d2 m f c) R.
Proof.
  intros If Ic Mf Mc He Sc. destruct (W_inv w Rw) as [D I]. rewrite (means_hv m hs lk0 D) in Mf, Mc by auto.
  destruct (cofactor_spec enum He d1 d2 m hs lk0 D f c I If Ic) as (r & m' & R & E & [_ Hc] & Rs).
  pose proof (wfo_nodup _ (mi_wfo _ _ _ _ I)) as Nd.
  assert (OF : only (ord (mo m)) F). { intros r1 r2 Q. rewrite <- !Mf. now apply (only_hv m hs lk0 D f I If). }
  assert (OC : only (ord (mo m)) C). { intros r1 r2 Q. rewrite <- !Mc. now apply (only_hv m hs lk0 D c I Ic). }
  assert (HR : forall rho, R rho = gc (ord (mo m)) false (ord (mo m)) F C rho).
  { intros rho. rewrite Hc. { apply gc_ext; auto. } destruct Sc as [q Hq]. exists q. now rewrite Mc. }
  exists R. split.
  - split; [|split].
    + intros rho q P. rewrite HR. apply gc_proj; auto. apply incl_refl.
    + intros rho. apply (proj_ex (ord (mo m))); auto. apply incl_refl.
    + intros rho Hr. rewrite HR. now apply gc_care.
  - exists r, m'. split; auto. eapply result_computes; [exact I|eapply cofactor_mnl; eauto| |exact Rs]. reflexivity.
Qed.
Lemma W_cofactor_zero f c enum d1 d2 : In f hs -> In c hs -> means m c (fun _ => false) -> good_enum enum ->
  computes m (cal_cofactor enum d1 d2 m f c) (fun _ => true).
Proof.
  intros If Ic Mc He. destruct (W_inv w Rw) as [D I]. rewrite (means_hv m hs lk0 D) in Mc by auto.
  destruct (cofactor_spec enum He d1 d2 m hs lk0 D f c I If Ic) as (r & m' & R & E & [Hc _] & Rs).
  exists r, m'. split; auto. eapply result_computes; [exact I|eapply cofactor_mnl; eauto| |exact Rs]. now apply Hc.
Qed.
End World.

(** ** Examples *)

Lemma cofactor_example :
  exists h m', cal_cofactor listed dec1 dec1 (wm demo) h_ite h_and = Ok (h, m') /\
     value m' h (fun i => i =? 3) = Some true /\ value m' h (fun i => i =? 4) = Some true /\ value m' h (fun i => i <=? 2) = Some false.
Proof.
  destruct (isok_ex (cal_cofactor listed dec1 dec1 (wm demo) h_ite h_and)
      (fun h m' => is_val m' h (fun i => i =? 3) true && is_val m' h (fun i => i =? 4) true && is_val m' h (fun i => i <=? 2) false))
      as (h & m' & E & P); [vm_compute; reflexivity|].
  apply andb_true_iff in P as [P P3]. apply andb_true_iff in P as [P1 P2]. exists h, m'. split; [exact E|].
  split; [|split]; apply is_val_eq; assumption.
Qed.
Lemma projection_example : projection [1; 4; 2; 3] (fun rho => rho 1 && rho 2) (fun i => i =? 4) (fun i => negb (i =? 3)).
Proof.
  split; [reflexivity|]. intros s H. apply andb_true_iff in H as [H1 H2]. cbn. rewrite H1, H2. cbn. destruct (s 4), (s 3); reflexivity.
Qed.
