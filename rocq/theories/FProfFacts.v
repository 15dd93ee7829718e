(** * Function profiles of several functions: what a client sees, and examples. *)
From Coq Require Import Permutation Sorted.
From Verif Require Import Base BFModel ITEModel MgrModel ApiModel StoreInv Own EngInv ApplyProof BinopProof ReduceProof
  EngineProof OpProof MultiProof QProof GCProof VarProof MInv ApiProof ApiOps ApiStruct ApiVar GraphModel GraphProof GraphCube
  GraphFrac GraphMarks GraphSupp GraphFProf GraphSem GraphCall FProfModel FProfMulti SpecApi SpecGraph WorldProof ApiLemmas GraphApi Client ApiFacts GraphFacts.
Open Scope N_scope.

Lemma preproc_each_mo l : forall ds m m', preproc_each ds m l = Ok m' -> mo m' = mo m.
Proof.
  induction l as [|h l IH]; intros ds m m'; cbn [preproc_each]; [intros [= <-]; reflexivity|].
  destruct (preproc (ds 0%nat) m [h]) as [[ok m1]| |] eqn:P; try discriminate. cbn [obind]. intros H.
  rewrite (IH _ _ _ H). exact (preproc_mo _ _ _ _ _ P).
Qed.
Lemma each_l {A B} (R : A -> B -> Prop) l k a : Forall2 R l k -> In a l -> exists b, In b k /\ R a b.
Proof. induction 1 as [|x y l k H F IH]; intros []; [subst; exists y; split; [now left|exact H]|]. destruct (IH H0) as (b & Ib & Rb). exists b. split; [now right|exact Rb]. Qed.
Lemma each_r {A B} (R : A -> B -> Prop) l k b : Forall2 R l k -> In b k -> exists a, In a l /\ R a b.
Proof. induction 1 as [|x y l k H F IH]; intros []; [subst; exists x; split; [now left|exact H]|]. destruct (IH H0) as (a & Ia & Ra). exists a. split; [now right|exact Ra]. Qed.

Lemma W_function_profile_multiple w l Fs ds n : reachable w -> args (wh w) l -> each (means (wm w)) l Fs ->
  number same (subfunction (ord (mo (wm w))) Fs) n -> n + N.of_nat (length l) < 1280 ->
  exists R m', cal_function_profile_multiple ds (wm w) l = Ok (R, m') /\ mo m' = mo (wm w) /\
  (exists c, R (N.of_nat (length (ord (mo m')))) = Z.of_N c /\
     number same (fun G => subfunction (ord (mo m')) Fs G /\ top_at (ord (mo m')) G (N.of_nat (length (ord (mo m'))))) c) /\
  forall k i, nth_error (ord (mo m')) (N.to_nat k) = Some i ->
    ((exists F, In F Fs /\ depends F i) -> exists c, R k = Z.of_N c /\ number same (fun G => exists F, In F Fs /\ restriction (ord (mo m')) k F G) c) /\
    (~ (exists F, In F Fs /\ depends F i) -> R k = 0%Z).
Proof.
  intros Rw Al M Hn Cap. destruct w as [m hs]. cbn [wm wh] in *. destruct (reachable_inv _ Rw) as [D I]. cbn [wm wh] in I.
  destruct (preproc_each_spec hs lk0 l D ds m I Al) as (m2 & D2 & P & I2 & X2). pose proof (preproc_each_mo _ _ _ _ P) as Eo.
  assert (K2 : kept m hs lk0 D m2 D2) by (split; assumption).
  pose proof (roots (World m hs) D l Fs m2 D2 I K2 Al M) as EF. cbn [wm wh] in EF.
  assert (Wo : wfo (mo m2)) by apply I2. pose proof (MI_swf _ _ _ _ I2) as W. pose proof (MI_dok _ _ _ _ I2) as K.
  set (es := map (uint (mmem m2)) l) in *.
  assert (Vs : forall e, In e es -> vedge (nodeR (st (me m2))) e). { intros e Ie. destruct (each_l _ _ _ _ EF Ie) as (F & _ & V & _). exact V. }
  destruct (size_profile (World m hs) D es Fs m2 D2 false K2 EF) as (n1 & lc1 & mk1 & S1 & P1 & _ & Hn1 & Hl1).
  destruct (size_profile_spec (mo m2) (st (me m2)) Wo W es unmarked false Vs) as (n2 & lc & mk & Ln & S2 & P2 & _ & _ & _ & Hf); [intros; reflexivity|].
  destruct (Hf eq_refl) as (E & LE & En & Hlc). change (mem (st (me m2))) with (mmem m2) in *.
  assert (Cap' : N.of_nat (length E) + N.of_nat (length es) < 1280).
  { rewrite <- Eo in Hn. pose proof (number_unique same _ _ _ same_equiv Hn Hn1). assert (n1 = n2) by congruence.
    unfold es. rewrite map_length. rewrite <- En. lia. }
  destruct (function_profile_all_graph (mo m2) (st (me m2)) Wo W es lc E Vs LE Cap' Hlc) as (R & ER & Rn & HR). change (mem (st (me m2))) with (mmem m2) in ER.
  exists R, m2. split.
  { unfold cal_function_profile_multiple. rewrite (upto_null_live m hs lk0 D l I Al). rewrite P. cbn [obind]. cbv zeta. fold es. rewrite P2. cbn [fueled obind]. rewrite ER. reflexivity. }
  split; [exact Eo|]. split.
  { eexists. split; [exact Rn|]. assert (El : lc = lc1) by congruence. rewrite El. apply Hl1. }
  intros k i Ek.
  assert (Lk : k < N.of_nat (length (ord (mo m2)))). { assert (N.to_nat k < length (ord (mo m2)))%nat by (apply nth_error_Some; congruence). lia. }
  destruct (wfo_idx _ Wo _ _ Ek) as [_ Ei]. rewrite N2Nat.id in Ei. assert (Ii : In i (ord (mo m2))) by (eapply nth_error_In; eauto).
  destruct LE as [NE HE].
  assert (Dep : (exists F, In F Fs /\ depends F i) <-> lc k <> 0).
  { transitivity (exists e, In e es /\ dep D2 e i).
    { split.
      - intros (F & IF & rho & N0). destruct (each_r _ _ _ _ EF IF) as (e & Ie & _ & He). exists e. split; [exact Ie|]. exists rho. rewrite !He. exact N0.
      - intros (e & Ie & rho & N0). destruct (each_l _ _ _ _ EF Ie) as (F & IF & _ & He). exists F. split; [exact IF|]. exists rho. rewrite !He in N0. exact N0. }
    rewrite Hlc. split.
    - intros (e & Ie & De). apply (dep_iff (mo m2) D2 (st (me m2)) Wo W K e i (Vs e Ie) Ii) in De. destruct De as (x & S & C & Ex).
      assert (Ix : In x (at_lvl (mo m2) k E)).
      { apply filter_In. split; [apply HE; exists e; auto|]. unfold level. rewrite C, Ex, Ei. apply N.eqb_refl. }
      destruct (at_lvl (mo m2) k E); [elim Ix|simpl; lia].
    - intros N0. destruct (at_lvl (mo m2) k E) as [|x k'] eqn:El2; [now elim N0|].
      assert (Ix : In x (at_lvl (mo m2) k E)) by (rewrite El2; now left). apply filter_In in Ix as [Ix Lx]. apply N.eqb_eq in Lx.
      apply HE in Ix as (e & Ie & S). exists e. split; [exact Ie|]. apply (dep_iff (mo m2) D2 (st (me m2)) Wo W K e i (Vs e Ie) Ii).
      exists x. split; [exact S|]. pose proof (sub_V _ _ Wo W _ x (Vs e Ie) S) as Vx. unfold level in Lx.
      destruct (isconst x) eqn:C; [lia|]. split; [reflexivity|]. apply (wfo_inj (mo m2)); auto; [|congruence]. apply (node_split (mo m2) (st (me m2)) Wo W x); auto. }
  destruct (HR k Lk) as (L & NDL & HL & Rk). split.
  - intros Df. apply Dep in Df. exists (N.of_nat (length L)). destruct (N.eqb_spec (lc k) 0); [congruence|]. split; [rewrite Rk; lia|].
    apply (number_edges D2).
    + intros x Ix. apply HL in Ix as [(e0 & Ie0 & S0) [Lv C]].
      assert (Q : exists e, In e es /\ sub (mem (st (me m2))) e x /\ cut (mo m2) (st (me m2)) e k x).
      { destruct C as [Ix|(p & (e & Ie & Sp) & Cp & Lp)].
        - exists x. split; [exact Ix|]. split; [constructor|]. split; [exact Lv|now left].
        - exists e. split; [exact Ie|]. split; [destruct Cp as [Cc [-> | ->]]; now constructor|]. split; [exact Lv|]. right. exists p. auto. }
      destruct Q as (e & Ie & S & C'). destruct (each_l _ _ _ _ EF Ie) as (F & IF & Ve & He). exists F. split; [exact IF|].
      destruct (cut_fix (mo m2) D2 (st (me m2)) Wo W K _ k x Ve S C') as [rho Ex]. exists rho.
      intros r. rewrite Ex, He. reflexivity.
    + intros G (F & IF & RG). destruct (each_r _ _ _ _ EF IF) as (e & Ie & Ve & He). assert (Lk' : k <= N.of_nat (length (ord (mo m2)))) by lia.
      destruct (restr_cut (mo m2) D2 (st (me m2)) Wo W K F _ k G Ve He Lk' RG) as (x & S & [Lv C] & Ex). exists x. split; [|exact Ex]. apply HL.
      split; [exists e; auto|]. split; [exact Lv|]. destruct C as [->|(p & Sp & Cp & Lp)]; [now left|]. right. exists p. split; [exists e; auto|auto].
    + apply nodup_fop; auto. intros x y Ix Iy S. apply HL in Ix as [Sx _], Iy as [Sy _].
      apply (canon (mo m2) D2 (st (me m2)) Wo W K); auto; [exact (below_V _ _ Wo W es x Vs Sx)|exact (below_V _ _ Wo W es y Vs Sy)].
  - intros Nd. destruct (N.eqb_spec (lc k) 0) as [Z|Z]; auto. elim Nd. now apply Dep.
Qed.

(** ** Examples.  Order 1, 4, 2, 3; the function x3 is one of the functions below [h_ite]. *)
Definition fn3 : bfun := fun rho => rho 3.
Definition fnite : bfun := fun rho => if rho 3 then rho 1 && rho 2 else rho 4.
Lemma h_var3_means : means (wm demo) (h_var 3) (fun rho => rho 3).
Proof. means4. Qed.
Lemma each_cons {A B} (R : A -> B -> Prop) a b l k : R a b -> each R l k -> each R (a :: l) (b :: k).
Proof. intros. constructor; assumption. Qed.
Lemma each_repeat {A B} (R : A -> B -> Prop) a b n : R a b -> each R (repeat a n) (repeat b n).
Proof. intros H. induction n; cbn [repeat]; [constructor|]. apply each_cons; assumption. Qed.
Lemma args_cons hs f g n : In f hs -> In g hs -> args hs (f :: repeat g n).
Proof. intros H1 H2 h [<-|I]; [exact H1|]. apply repeat_spec in I. subst. exact H2. Qed.
Lemma in_var3 : In (h_var 3) (wh demo).
Proof. vm_compute. auto 8. Qed.
Lemma in_ite : In h_ite (wh demo).
Proof. vm_compute. auto 8. Qed.
Lemma copies_args n : args (wh demo) (h_var 3 :: repeat h_ite n).
Proof. exact (args_cons _ _ _ n in_var3 in_ite). Qed.
Lemma copies_means n : each (means (wm demo)) (h_var 3 :: repeat h_ite n) (fn3 :: repeat fnite n).
Proof. exact (each_cons _ _ _ _ _ h_var3_means (each_repeat _ _ _ n h_ite_means)). Qed.

Lemma number_from_size w l Fs ds n : reachable w -> args (wh w) l -> each (means (wm w)) l Fs ->
  shows (cal_size_multiple ds (wm w) l false) (fun '(k, _) => N.eqb k n) = true -> number same (subfunction (ord (mo (wm w))) Fs) n.
Proof.
  intros R Al M S. destruct (W_size_multiple w R l Fs ds false Al M) as (k & mk & m' & E & _ & Nk). rewrite E in S. cbn [shows] in S.
  apply N.eqb_eq in S. subst k. assert (Eo : mo m' = mo (wm w)); [|rewrite <- Eo; exact Nk].
  unfold cal_size_multiple in E. destruct (preproc_each ds (wm w) (upto_null l)) as [m1| |] eqn:P; try discriminate. cbn [obind] in E.
  destruct (size_of _ _ _ _ _) as [r|]; try discriminate. injection E as _ <-. exact (preproc_each_mo _ _ _ _ P).
Qed.
Lemma copies_number : number same (subfunction (ord (mo (wm demo))) (fn3 :: repeat fnite 1)) 9.
Proof.
  apply (number_from_size demo _ _ (fun _ => dec1) 9 (run_reachable _) (copies_args 1) (copies_means 1)). vm_compute. exact eq_refl.
Qed.
Lemma shows_list (r : outcome ((N -> Z) * mgr)) ks vs : shows r (fun R => if list_eq_dec Z.eq_dec (map R ks) vs then true else false) = true ->
  exists R m', r = Ok (R, m') /\ map R ks = vs.
Proof. intros S. destruct (shows_ex _ _ S) as (R & m' & E & P). exists R, m'. split; [exact E|]. destruct (list_eq_dec _ _ _); [assumption|discriminate P]. Qed.
Lemma copies_small : exists R m', cal_function_profile_multiple (fun _ => dec1) (wm demo) (h_var 3 :: repeat h_ite 1) = Ok (R, m') /\
  map R [0; 1; 2; 3; 4] = [2; 3; 5; 4; 2]%Z.
Proof. apply shows_list. vm_compute. exact eq_refl. Qed.
Lemma copies_large : exists R m', cal_function_profile_multiple (fun _ => dec1) (wm demo) (h_var 3 :: repeat h_ite (N.to_nat 1300)) = Ok (R, m') /\
  map R [0; 1; 2; 3] = [1; 2; 4; 4]%Z.
Proof. apply shows_list. vm_compute. exact eq_refl. Qed.

Lemma not_one order Fs F G : In F Fs -> In G Fs -> ~ same F G -> ~ number same (fun H => exists F, In F Fs /\ restriction order 0 F H) 1.
Proof.
  intros IF IG N0 (L & Len & _ & C & _).
  destruct (C F) as (H1 & I1 & S1); [exists F; split; [exact IF|]; exists (fun _ => true); intros r; reflexivity|].
  destruct (C G) as (H2 & I2 & S2); [exists G; split; [exact IG|]; exists (fun _ => true); intros r; reflexivity|].
  destruct L as [|H [|H' L]]; [elim I1| |cbn [length] in Len; lia].
  destruct I1 as [<-|[]], I2 as [<-|[]]. apply N0. intros r. rewrite (S1 r), (S2 r). reflexivity.
Qed.
Lemma rehash_wrong : exists w l Fs R m', reachable w /\ args (wh w) l /\ each (means (wm w)) l Fs /\
  cal_function_profile_multiple (fun _ => dec1) (wm w) l = Ok (R, m') /\
  (exists i F, nth_error (ord (mo (wm w))) 0 = Some i /\ In F Fs /\ depends F i) /\ R 0 = 1%Z /\
  ~ number same (fun G => exists F, In F Fs /\ restriction (ord (mo (wm w))) 0 F G) 1.
Proof.
  destruct copies_large as (R & m' & E & P). exists demo, (h_var 3 :: repeat h_ite (N.to_nat 1300)), (fn3 :: repeat fnite (N.to_nat 1300)), R, m'.
  assert (I : In fnite (fn3 :: repeat fnite (N.to_nat 1300))).
  { right. replace (N.to_nat 1300) with (S (N.to_nat 1299)) by (rewrite <- N2Nat.inj_succ; vm_compute; exact eq_refl). left. exact eq_refl. }
  split; [exact (run_reachable _)|]. split; [exact (copies_args _)|]. split; [exact (copies_means _)|]. split; [exact E|].
  split. { exists 1, fnite. split; [vm_compute; exact eq_refl|]. split; [exact I|]. exists (fun _ => true). intros H. discriminate H. }
  split. { injection P as P _ _ _. exact P. }
  apply (not_one _ _ fn3 fnite); [left; exact eq_refl|exact I|]. intros H. discriminate (H (fun i => i =? 4)).
Qed.
