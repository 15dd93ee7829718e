(** * The exchange of two variables in reachable worlds. *)
From Coq Require Import Permutation.
From Verif Require Import Base BFModel ITEModel MgrModel ApiModel StoreInv Own EngInv ApplyProof BinopProof ReduceProof EngineProof
  OpProof MultiProof QProof GCProof VarProof MInv ApiProof ApiOps ApiStruct ApiVar ComposeModel ComposeProof SwapModel SwapProof SpecApi SpecSubst WorldProof Client
  ApiLemmas ApiFacts ComposeWorld.

Section World.
Variable w : world.
Hypothesis Rw : reachable w.
Notation m := (wm w).
Notation hs := (wh w).

Lemma topmost_nonconst D g G i : MInv m hs lk0 D -> In g hs -> (forall rho, hv m D g rho = G rho) -> topmost m G i -> cal_isconst m g = false.
Proof.
  intros I Ig Mg (_ & (rho & Dp) & _). apply not_true_iff_false. intros C. apply Dp. unfold cal_isconst in C. apply orb_true_iff in C as [C|C].
  - pose proof (proj1 (isone_spec m hs lk0 D g I Ig) C) as K. now rewrite <- !Mg, !K.
  - pose proof (proj1 (iszero_spec m hs lk0 D g I Ig) C) as K. now rewrite <- !Mg, !K.
Qed.

Lemma exch_swapped i j rho k : exch i j rho k = if k =? i then rho j else if k =? j then rho i else rho k.
Proof. unfold exch, flip. now destruct (k =? i). Qed.

Lemma W_swapvars f g h F G H i j enum d : In f hs -> In g hs -> In h hs -> means m f F -> means m g G -> means m h H ->
  good_enum enum -> topmost m G i -> topmost m H j -> (i = j -> same G H) -> returns (cal_swapvars enum d m f g h) (swapped i j F).
Proof.
  intros If Ig Ih Mf Mg Mh He Ti Tj Sm. destruct (W_inv w Rw) as [D I]. rewrite (means_hv m hs lk0 D) in Mf, Mg, Mh by auto.
  destruct (swapvars_spec enum He d m hs lk0 D f g h I If Ig Ih) as (r & m' & E & _ & R2).
  { intros k Tg Th rho. rewrite Mg, Mh. apply Sm.
    rewrite (topmost_unique m G i k (mi_wfo _ _ _ _ I) Ti (topvar_topmost w D g G k Mg Tg)).
    symmetry. apply (topmost_unique m H j k (mi_wfo _ _ _ _ I) Tj). apply (topvar_topmost w D h H k Mh Th). }
  destruct R2 as (i' & j' & Ti' & Tj' & R).
  { rewrite (topmost_nonconst D g G i I Ig Mg Ti), (topmost_nonconst D h H j I Ih Mh Tj). reflexivity. }
  rewrite (topmost_unique m G i i' (mi_wfo _ _ _ _ I) Ti (topvar_topmost w D g G i' Mg Ti')),
    (topmost_unique m H j j' (mi_wfo _ _ _ _ I) Tj (topvar_topmost w D h H j' Mh Tj')).
  exists r, m'. split; auto. eapply result_returns; [|exact R]. intros rho. unfold swapped. rewrite <- Mf.
  apply (hv_bext m hs lk0 D f I If). intros k. apply exch_swapped.
Qed.
Lemma variable_topmost g i : In g hs -> means m g (fun rho => rho i) -> topmost m (fun rho => rho i) i.
Proof.
  intros Ig Mg. destruct (W_inv w Rw) as [D I]. pose proof Mg as Mg'. rewrite (means_hv m hs lk0 D) in Mg' by auto.
  assert (C : cal_isconst m g = false).
  { apply not_true_iff_false. intros C. unfold cal_isconst in C. apply orb_true_iff in C as [C|C].
    - pose proof (proj1 (isone_spec m hs lk0 D g I Ig) C) as K. specialize (Mg' (fun _ => false)). rewrite K in Mg'. discriminate.
    - pose proof (proj1 (iszero_spec m hs lk0 D g I Ig) C) as K. specialize (Mg' (fun _ => true)). rewrite K in Mg'. discriminate. }
  rewrite <- (isconst_int m hs lk0 D g I Ig) in C.
  pose proof (topvar_topmost w D g _ _ Mg' (top_depends m hs lk0 D g I Ig C)) as T.
  set (j := eid (uint (mmem m) g)) in *. assert (j = i) as <-; auto.
  destruct T as (_ & (rho & Dp) & _). unfold assign in Dp. destruct (N.eqb_spec i j); auto. now elim Dp.
Qed.
Lemma W_swapvars_variables f g h F i j enum d : In f hs -> In g hs -> In h hs -> means m f F ->
  means m g (fun rho => rho i) -> means m h (fun rho => rho j) ->
  good_enum enum -> returns (cal_swapvars enum d m f g h) (swapped i j F).
Proof.
  intros If Ig Ih Mf Mg Mh He. apply (W_swapvars f g h F (fun rho => rho i) (fun rho => rho j) i j enum d); auto.
  - exact (variable_topmost g i Ig Mg). - exact (variable_topmost h j Ih Mh). - now intros ->.
Qed.
Lemma W_swapvars_constant f g h enum d : In f hs -> In g hs -> In h hs -> good_enum enum ->
  cal_isconst m g = true \/ cal_isconst m h = true -> exists m', cal_swapvars enum d m f g h = Ok (unull, m').
Proof.
  intros If Ig Ih He C. destruct (W_inv w Rw) as [D I].
  destruct (preproc_live d m hs lk0 D [f; g; h] I) as (m1 & D1 & P & I1 & X1). { now intros k [<-|[<-|[<-|[]]]]. }
  exists m1. unfold cal_swapvars. rewrite P. cbn [obind negb]. cbv zeta.
  rewrite (isconst_int m1 hs lk0 D1 g I1 Ig), (isconst_int m1 hs lk0 D1 h I1 Ih), !(isconst_mext _ _ _ _ _ _ X1).
  destruct C as [C|C]; rewrite C; [reflexivity|]. now rewrite orb_true_r.
Qed.
Lemma W_swapvars_null f g h enum d : arg hs f -> arg hs g -> arg hs h -> (exists k, In k [f; g; h] /\ uisnull k = true) ->
  cal_swapvars enum d m f g h = Ok (unull, m).
Proof.
  intros Af Ag Ah Hn. destruct (W_inv w Rw) as [D I]. apply (swapvars_null enum d m hs lk0 D); auto.
  now intros k [<-|[<-|[<-|[]]]].
Qed.
End World.

(** ** Examples *)

(** Exchanging x3 with x2 in "if x3 then x1 and x2 else x4", where the order is 1, 4, 2, 3; exchanging a variable that does not
    occur. *)
Lemma swap_example :
  (exists h m', cal_swapvars listed dec1 (wm demo) h_ite (h_var 3) (h_var 2) = Ok (h, m') /\
     value m' h (fun i => (i =? 1) || (i =? 2)) = Some false /\ value m' h (fun i => negb (i =? 4)) = Some true /\ value m' h (fun i => 3 <=? i) = Some true) /\
  (exists h m', cal_swapvars reversed dec1 (wm demo) h_and (h_var 2) (h_var 4) = Ok (h, m') /\
     value m' h (fun i => (i =? 1) || (i =? 4)) = Some true /\ value m' h (fun i => i <=? 3) = Some false).
Proof.
  split.
  - destruct (isok_ex (cal_swapvars listed dec1 (wm demo) h_ite (h_var 3) (h_var 2))
      (fun h m' => is_val m' h (fun i => (i =? 1) || (i =? 2)) false && is_val m' h (fun i => negb (i =? 4)) true && is_val m' h (fun i => 3 <=? i) true))
      as (h & m' & E & P); [vm_compute; reflexivity|].
    apply andb_true_iff in P as [P P3]. apply andb_true_iff in P as [P1 P2]. exists h, m'. split; [exact E|]. split; [|split]; apply is_val_eq; assumption.
  - destruct (isok_ex (cal_swapvars reversed dec1 (wm demo) h_and (h_var 2) (h_var 4))
      (fun h m' => is_val m' h (fun i => (i =? 1) || (i =? 4)) true && is_val m' h (fun i => i <=? 3) false))
      as (h & m' & E & P); [vm_compute; reflexivity|].
    apply andb_true_iff in P as [P1 P2]. exists h, m'. split; [exact E|]. split; apply is_val_eq; assumption.
Qed.
Lemma swap_constant_example : cal_isconst (wm demo) (cal_one (wm demo)) = true.
Proof. vm_compute. reflexivity. Qed.
