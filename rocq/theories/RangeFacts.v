(** * Small C++ programs with ranges, for the examples beside the theorems. *)
From Coq Require Import ZArith.
From Verif Require Import Base BFModel ITEModel MgrModel ApiModel StoreInv AssocModel SpecApi Client CppModel SpecCpp CppProof CppFacts RangeModel SpecRange RangeProof.

Definition rdemo : cpp := prun [PVar 0; PVar 1; PVar 2; PAnd 3 0 1; PNew 4].
Definition ro (n : nat) : ubdd := operand n rdemo.
Definition hold_check (os : objects) (ks : list nat) (l : list ubdd) : bool :=
  Nat.eqb (length ks) (length l) && forallb (fun p => match obj_get (fst p) os with Some h => ueq h (snd p) | None => false end) (combine ks l).
Lemma ueq_eq g h : ueq g h = true -> g = h.
Proof.
  destruct g as [p b], h as [q e]. unfold ueq. simpl. intros H. apply andb_true_iff in H as [H1 H2]. apply N.eqb_eq in H1. apply Bool.eqb_prop in H2. now subst.
Qed.
Lemma hold_checked os ks : forall l, hold_check os ks l = true -> are_held os ks l.
Proof.
  unfold hold_check. induction ks as [|k ks IH]; intros [|h l] H; try discriminate; [constructor|].
  cbn [length combine forallb Nat.eqb fst snd] in H. apply andb_true_iff in H as [H1 H2]. apply andb_true_iff in H2 as [H2 H3].
  constructor.
  - destruct (obj_get k os) as [x|]; [|discriminate]. f_equal. now apply ueq_eq.
  - apply IH. rewrite H1. exact H3.
Qed.
Lemma rdemo_program : program rdemo.
Proof. exact (prun_program _). Qed.
Lemma rdemo_example : program rdemo /\ are_held (snd rdemo) [2; 3; 0]%nat [ro 2; ro 3; ro 0] /\ (forall h, In h [ro 2; ro 3; ro 0] -> uisnull h = false) /\
  (exists Fs, each (means (fst rdemo)) [ro 2; ro 3; ro 0] Fs) /\
  match range_xor listed (fun _ => dec0) (fst rdemo) (OfBdds [ro 2; ro 3; ro 0]) with
  | Ok (h, m') => map (fun k => value m' h (fun i => negb (i =? k))) [0; 1; 2; 3] = [Some true; Some true; Some false; Some false] /\
      cr (mmem m' (uptr (ro 3))) = 1
  | _ => False
  end.
Proof.
  assert (H : are_held (snd rdemo) [2; 3; 0]%nat [ro 2; ro 3; ro 0]) by (apply hold_checked; vm_compute; reflexivity).
  assert (N : forall h, In h [ro 2; ro 3; ro 0] -> uisnull h = false).
  { intros h [<-|[<-|[<-|[]]]]; vm_compute; reflexivity. }
  split; [exact rdemo_program|]. split; [exact H|]. split; [exact N|]. split.
  - assert (K : forall c ks l, program c -> are_held (snd c) ks l -> (forall h, In h l -> uisnull h = false) -> exists Fs, each (means (fst c)) l Fs).
    { clear. intros c ks l P H. induction H as [|k h ks l G F IH]; intros N; [exists []; constructor|].
      destruct IH as [Fs IH]; [intros g Ig; apply N; now right|]. destruct (object_means c k h P G (N h (or_introl eq_refl))) as [F1 M1]. exists (F1 :: Fs). now constructor. }
    exact (K rdemo _ _ rdemo_program H N).
  - vm_compute. split; reflexivity.
Qed.
Lemma rids_example : program rdemo /\ ord (mo (fst rdemo)) = [3; 2; 1] /\
  match range_and listed (fun _ => dec0) (fst rdemo) (OfIds [3; 1]%Z) with
  | Ok (h, m') => map (fun k => value m' h (fun i => negb (i =? k))) [0; 1; 2; 3] = [Some true; Some false; Some true; Some false]
  | _ => False
  end.
Proof. split; [exact rdemo_program|]. split; vm_compute; reflexivity. Qed.

(** A null among the operands. *)
Lemma null_refuted_gen c k1 k2 k3 f g rho : program c -> are_held (snd c) [k1; k2; k3] [f; unull; g] -> uisnull f = false -> uisnull g = false ->
  value (fst c) f rho = Some true -> value (fst c) g rho = Some false ->
  exists c ks f g F G, program c /\ are_held (snd c) ks [f; unull; g] /\ means (fst c) f F /\ means (fst c) g G /\ ~ same F (fun rho => F rho && G rho) /\
    forall enum ds, good_enum enum -> yields c (range_and enum ds (fst c) (OfBdds [f; unull; g])) F.
Proof.
  intros P H Nf Ng Vf Vg. inversion H as [|? ? ? ? G1 H1]; subst. inversion H1 as [|? ? ? ? _ H2]; subst. inversion H2 as [|? ? ? ? G3 _]; subst.
  destruct (object_means c k1 f P G1 Nf) as [F Mf]. destruct (object_means c k3 g P G3 Ng) as [G Mg].
  exists c, [k1; k2; k3], f, g, F, G. split; auto. split; auto. split; auto. split; auto. split.
  - intros Sm. specialize (Sm rho). cbv beta in Sm.
    pose proof (ev_det _ _ _ _ (value_ev _ _ _ _ Vf) _ (Mf rho)) as E1. pose proof (ev_det _ _ _ _ (value_ev _ _ _ _ Vg) _ (Mg rho)) as E2.
    rewrite <- E1, <- E2 in Sm. discriminate.
  - intros enum ds He.
    destruct (range_cut c [k1; k2; k3] [f] [g] [F] P H ltac:(intros h [<-|[]]; exact Nf) ltac:(discriminate) ltac:(cbn; lia) ltac:(constructor; [exact Mf|constructor]) enum ds He) as ((h & m' & Y1 & Y2 & Y3 & Y4) & _).
    exists h, m'. split; [exact Y1|]. split; auto. split; auto. intros r. specialize (Y3 r). cbn [map all_true forallb] in Y3. now rewrite andb_true_r in Y3.
Qed.
Lemma null_refuted : exists c ks f g F G, program c /\ are_held (snd c) ks [f; unull; g] /\ means (fst c) f F /\ means (fst c) g G /\ ~ same F (fun rho => F rho && G rho) /\
    forall enum ds, good_enum enum -> yields c (range_and enum ds (fst c) (OfBdds [f; unull; g])) F.
Proof.
  exact (null_refuted_gen rdemo 0 4 1 (ro 0) (ro 1) (fun i => i =? 1) rdemo_program
    (hold_checked (snd rdemo) [0; 4; 1]%nat [ro 0; unull; ro 1] ltac:(vm_compute; reflexivity)) ltac:(vm_compute; reflexivity) ltac:(vm_compute; reflexivity)
    ltac:(vm_compute; reflexivity) ltac:(vm_compute; reflexivity)).
Qed.
Lemma wrapped_example : program rdemo /\ In (to_id 65537) (ord (mo (fst rdemo))) /\ to_id 65537 = 1 /\ ~ In (Z.to_N 65537) (ord (mo (fst rdemo))).
Proof.
  assert (E : ord (mo (fst rdemo)) = [3; 2; 1]) by (vm_compute; reflexivity).
  split; [exact rdemo_program|]. rewrite E. split; [right; right; left; vm_compute; reflexivity|]. split; [vm_compute; reflexivity|].
  intros [H|[H|[H|[]]]]; vm_compute in H; discriminate.
Qed.
Lemma ends_well {A} (x : outcome A) : match x with Ok _ => true | _ => false end = true -> x <> Undefined.
Proof. intros H E. rewrite E in H. discriminate. Qed.
Lemma pair_example : program rdemo /\ obj_get 0 (snd rdemo) = Some (ro 0) /\ obj_get 3 (snd rdemo) = Some (ro 3) /\ uisnull (ro 0) = false /\ uisnull (ro 3) = false /\
  cal_pairwise_and listed (fun _ => dec0) dec0 (unfree_all (fst rdemo) [ro 0; ro 3]) [ro 0; ro 3; unull] <> Undefined /\
  range_pairwise listed op_and true (fun _ => dec0) dec0 (fun _ => dec0) (fst rdemo) (OfBdds [ro 0; ro 3]) = Undefined.
Proof.
  split; [exact rdemo_program|]. split; [vm_compute; reflexivity|]. split; [vm_compute; reflexivity|]. split; [vm_compute; reflexivity|]. split; [vm_compute; reflexivity|].
  split; [|vm_compute; reflexivity]. apply ends_well. vm_compute. reflexivity.
Qed.
Lemma rassoc_example : program rdemo /\ are_held (snd rdemo) [0; 1]%nat [ro 0; ro 1] /\ no_constants (fst rdemo) true [ro 0; ro 1] /\
  distinct_variables true [ro 0; ro 1] /\ room_for_association (fst rdemo) /\
  match range_assoc_init (fun _ => dec0) true (fst rdemo) (OfBdds [ro 0; ro 1]) with Ok (Some _, _) => True | _ => False end.
Proof.
  split; [exact rdemo_program|]. split; [apply hold_checked; vm_compute; reflexivity|]. split; [intros E; discriminate|].
  split; [intros _; constructor; [intros []|constructor]|]. split; [|vm_compute; exact Logic.I].
  unfold room_for_association. assert (E : massoc (fst rdemo) = []) by (vm_compute; reflexivity). rewrite E. cbn [length]. lia.
Qed.
