(** * Substitution of one variable in reachable worlds. *)
From Coq Require Import Permutation.
From Verif Require Import Base BFModel ITEModel MgrModel ApiModel StoreInv Own EngInv ApplyProof BinopProof ReduceProof EngineProof
  OpProof MultiProof QProof GCProof VarProof MInv ApiProof ApiOps ApiStruct ApiVar ComposeModel ComposeProof SpecApi SpecSubst WorldProof Client ApiLemmas ApiFacts.

Lemma topmost_unique m F i j : wfo (mo m) -> topmost m F i -> topmost m F j -> i = j.
Proof.
  intros Wo (I1 & D1 & M1) (I2 & D2 & M2).
  destruct (N.lt_total (idx (mo m) i) (idx (mo m) j)) as [L|[E|L]].
  - now elim (M2 i I1 L).
  - exact (wfo_inj _ _ _ Wo I1 I2 E).
  - now elim (M1 j I2 L).
Qed.

Section World.
Variable w : world.
Hypothesis Rw : reachable w.
Notation m := (wm w).
Notation hs := (wh w).

Lemma topvar_topmost D g G i : (forall rho, hv m D g rho = G rho) -> topvar m D g i -> topmost m G i.
Proof.
  intros Mg (T1 & (rho & T2) & T3). split; auto. split.
  - exists rho. now rewrite !Mg in T2.
  - intros j Ij Lt (r & Dj). apply Dj. rewrite <- !Mg. change (assign r j true) with (flip r j true).
    change (assign r j false) with (flip r j false). now rewrite !(T3 j Ij Lt).
Qed.

Lemma W_compose f g h F G H i enum d : In f hs -> In g hs -> In h hs -> means m f F -> means m g G -> means m h H ->
  good_enum enum -> topmost m G i -> returns (cal_compose enum d m f g h) (replace_var F i H).
Proof.
  intros If Ig Ih Mf Mg Mh He Ti. destruct (W_inv w Rw) as [D I]. rewrite (means_hv m hs lk0 D) in Mf, Mg, Mh by auto.
  destruct (compose_spec enum He d m hs lk0 D f g h I If Ig Ih) as (r & m' & E & R1 & R2).
  destruct (cal_isconst m g) eqn:Cg.
  - exfalso. destruct Ti as (_ & (rho & Dp) & _). apply Dp. unfold cal_isconst in Cg. apply orb_true_iff in Cg as [C|C].
    + pose proof (proj1 (isone_spec m hs lk0 D g I Ig) C) as K. now rewrite <- !Mg, !K.
    + pose proof (proj1 (iszero_spec m hs lk0 D g I Ig) C) as K. now rewrite <- !Mg, !K.
  - destruct (R2 eq_refl) as (i' & Ti' & R). rewrite (topmost_unique m G i i' (mi_wfo _ _ _ _ I) Ti (topvar_topmost D g G i' Mg Ti')).
    exists r, m'. split; auto. eapply result_returns; [|exact R]. intros rho. unfold replace_var. rewrite Mf, Mh. reflexivity.
Qed.
Lemma W_compose_variable f g h F H i enum d : In f hs -> In g hs -> In h hs -> means m f F -> means m g (fun rho => rho i) -> means m h H ->
  good_enum enum -> returns (cal_compose enum d m f g h) (replace_var F i H).
Proof.
  intros If Ig Ih Mf Mg Mh He. apply (W_compose f g h F (fun rho => rho i) H i enum d); auto.
  destruct (W_inv w Rw) as [D I]. pose proof Mg as Mg'. rewrite (means_hv m hs lk0 D) in Mg' by auto.
  assert (C : cal_isconst m g = false).
  { apply not_true_iff_false. intros C. unfold cal_isconst in C. apply orb_true_iff in C as [C|C].
    - pose proof (proj1 (isone_spec m hs lk0 D g I Ig) C) as K. specialize (Mg' (fun _ => false)). rewrite K in Mg'. discriminate.
    - pose proof (proj1 (iszero_spec m hs lk0 D g I Ig) C) as K. specialize (Mg' (fun _ => true)). rewrite K in Mg'. discriminate. }
  rewrite <- (isconst_int m hs lk0 D g I Ig) in C.
  pose proof (topvar_topmost D g _ _ Mg' (top_depends m hs lk0 D g I Ig C)) as T.
  set (j := eid (uint (mmem m) g)) in *. assert (j = i) as <-; auto.
  destruct T as (_ & (rho & Dp) & _). unfold assign in Dp. destruct (N.eqb_spec i j); auto. now elim Dp.
Qed.
Lemma W_compose_constant f g h F enum d : In f hs -> In g hs -> In h hs -> means m f F -> good_enum enum -> cal_isconst m g = true ->
  returns (cal_compose enum d m f g h) F.
Proof.
  intros If Ig Ih Mf He Cg. destruct (W_inv w Rw) as [D I]. rewrite (means_hv m hs lk0 D) in Mf by auto.
  destruct (compose_spec enum He d m hs lk0 D f g h I If Ig Ih) as (r & m' & E & R1 & _).
  exists r, m'. split; auto. eapply result_returns; [|exact (R1 Cg)]. exact Mf.
Qed.
Lemma W_compose_null f g h enum d : arg hs f -> arg hs g -> arg hs h -> (exists k, In k [f; g; h] /\ uisnull k = true) ->
  cal_compose enum d m f g h = Undefined.
Proof.
  intros Af Ag Ah Hn. destruct (W_inv w Rw) as [D I]. apply (compose_null enum d m hs lk0 D); auto.
  now intros k [<-|[<-|[<-|[]]]].
Qed.
End World.

(** ** Examples *)

Lemma compose_example :
  (exists h m', cal_compose listed dec1 (wm demo) h_ite (h_var 3) h_and = Ok (h, m') /\
     value m' h (fun i => i <=? 2) = Some true /\ value m' h (fun i => i =? 3) = Some false) /\
  (exists h m', cal_compose listed dec1 (wm demo) h_ite h_and (h_var 4) = Ok (h, m') /\
     value m' h (fun i => 2 <=? i) = Some true /\ value m' h (fun i => i =? 4) = Some true /\ value m' h (fun i => i <=? 3) = Some false).
Proof.
  split.
  - destruct (isok_ex (cal_compose listed dec1 (wm demo) h_ite (h_var 3) h_and) (fun h m' => is_val m' h (fun i => i <=? 2) true && is_val m' h (fun i => i =? 3) false))
      as (h & m' & E & P); [vm_compute; reflexivity|].
    apply andb_true_iff in P as [P1 P2]. exists h, m'. split; [exact E|]. split; apply is_val_eq; assumption.
  - destruct (isok_ex (cal_compose listed dec1 (wm demo) h_ite h_and (h_var 4))
      (fun h m' => is_val m' h (fun i => 2 <=? i) true && is_val m' h (fun i => i =? 4) true && is_val m' h (fun i => i <=? 3) false))
      as (h & m' & E & P); [vm_compute; reflexivity|].
    apply andb_true_iff in P as [P P3]. apply andb_true_iff in P as [P1 P2]. exists h, m'. split; [exact E|].
    split; [|split]; apply is_val_eq; assumption.
Qed.
(** The topmost variable of x1 and x2 is x1 in the order 1, 4, 2, 3. *)
Lemma topmost_example : topmost (wm demo) (fun rho => rho 1 && rho 2) 1.
Proof.
  assert (H : forall m, ord (mo m) = [1; 4; 2; 3] -> idx (mo m) 1 = 0 -> topmost m (fun rho => rho 1 && rho 2) 1).
  { intros m Eo Ei. split; [rewrite Eo; now left|]. split.
    - exists (fun _ => true). vm_compute. discriminate.
    - intros j _ Lt. rewrite Ei in Lt. lia. }
  apply H; vm_compute; reflexivity.
Qed.
Lemma compose_refuted : exists w f g, reachable w /\ In f (wh w) /\ In g (wh w) /\ forall enum d, cal_compose enum d (wm w) f g unull = Undefined.
Proof.
  assert (H : forall w f g, reachable w -> In f (wh w) -> In g (wh w) -> forall enum d, cal_compose enum d (wm w) f g unull = Undefined).
  { intros w f g R If Ig enum d. apply W_compose_null; [exact R|now right|now right|now left|]. exists unull. split; [simpl; auto|reflexivity]. }
  exists demo, h_ite, h_and. 
  assert (I1 : In h_ite (wh demo)) by (vm_compute; repeat (first [left; reflexivity|right])). assert (I2 : In h_and (wh demo)) by (vm_compute; repeat (first [left; reflexivity|right])).
  assert (R : reachable demo) by apply run_reachable.
  split; [exact R|]. split; [exact I1|]. split; [exact I2|]. exact (H demo h_ite h_and R I1 I2).
Qed.
