(** * Printed profiles depend on the set of functions only: proofs. *)
From Coq Require Import ZArith String Lia.
From Verif Require Import Base BFModel ITEModel MgrModel MInv ApiModel ApiProof ApiOps GraphModel GraphFacts SpecApi SpecGraph WorldProof Client ApiLemmas ApiFacts GraphApi
  PrintModel PrintFacts SpecPrint OpProof FProfModel FProfFacts FProfPrint FProfPrintFacts RangeQProof RangePProof.
Open Scope list_scope.
Open Scope N_scope.

Lemma levels_ext nm lc lc' ids : (forall k, lc k = lc' k) -> forall i, levels nm lc ids i = levels nm lc' ids i.
Proof. intros H. induction ids as [|id ids IH]; intros i; cbn [levels]; [reflexivity|]. now rewrite H, IH. Qed.
Lemma print_aux_ext o nm len lc lc' : (forall k, lc k = lc' k) -> print_aux o nm len lc = print_aux o nm len lc'.
Proof. intros H. unfold print_aux. rewrite (levels_ext nm lc lc' _ H 0), H. reflexivity. Qed.
Lemma sub_mono o Fs Fs' G : (forall F, In F Fs -> exists F', In F' Fs' /\ same F F') -> subfunction o Fs G -> subfunction o Fs' G.
Proof.
  intros H (F & k & I & rho & S). destruct (H F I) as (F' & I' & S'). exists F', k. split; [exact I'|]. exists rho.
  intros r. rewrite (S r). unfold fixed. apply S'.
Qed.
Lemma print_counts w l Fs d1 d2 naming len : reachable w -> args (wh w) l -> each (means (wm w)) l Fs ->
  exists lc m', cal_print_profile_multiple d1 d2 (wm w) l naming len = Ok (Some (print_aux (mo (wm w)) naming len lc), m') /\
    forall k, number (up_to true) (fun G => subfunction (ord (mo (wm w))) Fs G /\ top_at (ord (mo (wm w))) G k) (lc k).
Proof.
  intros R Al M. pose proof (upto_null_owned w l R Al) as U. destruct w as [m hs]. cbn [wm wh] in *.
  destruct (pre_array hs l m d1 R Al) as (m1 & E1 & R1 & _ & K1).
  destruct (W_profile_multiple (World m1 hs) R1 l Fs d2 true Al (each_keep _ _ _ _ _ K1 Al M)) as (lc & mk & m2 & E2 & _ & H). cbn [wm] in E2.
  pose proof (profile_mo _ _ _ _ _ _ E2) as P2. apply preproc_each_mo in P2. pose proof (preproc_each_mo _ _ _ _ (array_each _ _ _ _ E1)) as P1.
  assert (Eo : mo m2 = mo m) by congruence. rewrite Eo in H. exists lc, m2. split; [|exact H].
  unfold cal_print_profile_multiple. rewrite U, E1. cbn [obind negb]. rewrite E2. cbn [obind]. rewrite Eo. reflexivity.
Qed.
Lemma print_same w l Fs l' Fs' : reachable w -> args (wh w) l -> each (means (wm w)) l Fs -> args (wh w) l' -> each (means (wm w)) l' Fs' ->
  (forall F, In F Fs -> exists F', In F' Fs' /\ same F F') -> (forall F', In F' Fs' -> exists F, In F Fs /\ same F' F) ->
  forall d1 d2 d3 d4 naming len, exists lines m1 m2,
    cal_print_profile_multiple d1 d2 (wm w) l naming len = Ok (Some lines, m1) /\ cal_print_profile_multiple d3 d4 (wm w) l' naming len = Ok (Some lines, m2).
Proof.
  intros R A M A' M' H H' d1 d2 d3 d4 naming len.
  destruct (print_counts w l Fs d1 d2 naming len R A M) as (lc & m1 & E & N1).
  destruct (print_counts w l' Fs' d3 d4 naming len R A' M') as (lc' & m2 & E' & N2).
  exists (print_aux (mo (wm w)) naming len lc), m1, m2. split; [exact E|].
  rewrite (print_aux_ext _ naming len lc lc'); [exact E'|]. intros k.
  apply (number_unique (up_to true) _ _ _ (up_to_equiv true) (N1 k)). eapply number_iff; [|exact (N2 k)].
  intros G. split; intros [S T]; (split; [|exact T]).
  - exact (sub_mono _ _ _ _ H' S).
  - exact (sub_mono _ _ _ _ H S).
Qed.

Lemma levels_ext_in nm lc lc' ids : forall i, (forall j, (j < List.length ids)%nat -> lc (i + N.of_nat j) = lc' (i + N.of_nat j)) -> levels nm lc ids i = levels nm lc' ids i.
Proof.
  induction ids as [|id ids IH]; intros i H; cbn [levels]; [reflexivity|].
  assert (H0 : lc i = lc' i) by (rewrite <- (N.add_0_r i); apply (H 0%nat); cbn [List.length]; lia).
  rewrite H0, (IH (i + 1)); [reflexivity|]. intros j Hj. specialize (H (S j)). cbn [List.length] in H. replace (i + 1 + N.of_nat j) with (i + N.of_nat (S j)) by lia. apply H. lia.
Qed.
Lemma print_aux_ext_in o nm len lc lc' : (forall k, k <= N.of_nat (List.length (ord o)) -> lc k = lc' k) -> print_aux o nm len lc = print_aux o nm len lc'.
Proof.
  intros H. unfold print_aux. rewrite (levels_ext_in nm lc lc' (ord o) 0) by (intros j Hj; apply H; lia).
  rewrite (H (N.of_nat (List.length (ord o)))) by lia. reflexivity.
Qed.
Definition restricted_counts (o : order) (Fs : list bfun) (lc : N -> N) : Prop :=
  number same (fun G => subfunction (ord o) Fs G /\ top_at (ord o) G (N.of_nat (List.length (ord o)))) (lc (N.of_nat (List.length (ord o)))) /\
  forall k i, nth_error (ord o) (N.to_nat k) = Some i ->
    ((exists F, In F Fs /\ depends F i) -> number same (fun G => exists F, In F Fs /\ restriction (ord o) k F G) (lc k)) /\
    (~ (exists F, In F Fs /\ depends F i) -> lc k = 0).
Lemma fprint_counts w l Fs d1 d2 naming len n : reachable w -> args (wh w) l -> each (means (wm w)) l Fs ->
  number same (subfunction (ord (mo (wm w))) Fs) n -> n + N.of_nat (List.length l) < 1280 ->
  exists lc m', cal_print_function_profile_multiple d1 d2 (wm w) l naming len = Ok (Some (print_aux (mo (wm w)) naming len lc), m') /\ restricted_counts (mo (wm w)) Fs lc.
Proof.
  intros R Al M Hn Cap. pose proof (upto_null_owned w l R Al) as U. destruct w as [m hs]. cbn [wm wh] in *.
  destruct (pre_array hs l m d1 R Al) as (m1 & E1 & R1 & O1 & K1). rewrite <- O1 in Hn.
  destruct (W_function_profile_multiple (World m1 hs) l Fs d2 n R1 Al (each_keep _ _ _ _ _ K1 Al M) Hn Cap) as (Rr & m2 & E2 & _ & (c0 & Ec0 & Nc0) & H). cbn [wm] in E2.
  pose proof (fprofile_pre _ _ _ _ _ E2) as P2. apply preproc_each_mo in P2. pose proof (preproc_each_mo _ _ _ _ (array_each _ _ _ _ E1)) as P1.
  assert (Eo : mo m2 = mo m) by congruence. rewrite Eo in H, Ec0, Nc0. exists (fun k => Z.to_N (Rr k)), m2. split; [|split].
  - unfold cal_print_function_profile_multiple. rewrite U, E1. cbn [obind negb]. rewrite E2. cbn [obind]. rewrite Eo. reflexivity.
  - rewrite Ec0, N2Z.id. exact Nc0.
  - intros k i Ek. destruct (H k i Ek) as [H1 H2]. split.
    + intros Df. destruct (H1 Df) as (c & Ec & Nc). rewrite Ec, N2Z.id. exact Nc.
    + intros Nd. rewrite (H2 Nd). reflexivity.
Qed.
Lemma depends_mono Fs Fs' i : (forall F, In F Fs -> exists F', In F' Fs' /\ same F F') -> (exists F, In F Fs /\ depends F i) -> exists F, In F Fs' /\ depends F i.
Proof.
  intros H (F & I & D). destruct (H F I) as (F' & I' & S). exists F'. split; [exact I'|]. destruct D as (r & D). exists r. now rewrite <- !S.
Qed.
Lemma restr_mono o k Fs Fs' G : (forall F, In F Fs -> exists F', In F' Fs' /\ same F F') ->
  (exists F, In F Fs /\ restriction o k F G) -> exists F, In F Fs' /\ restriction o k F G.
Proof.
  intros H (F & I & rho & S). destruct (H F I) as (F' & I' & S'). exists F'. split; [exact I'|]. exists rho. intros r. rewrite (S r). unfold fixed. apply S'.
Qed.
Lemma restricted_unique o Fs Fs' lc lc' : (forall F, In F Fs -> exists F', In F' Fs' /\ same F F') -> (forall F', In F' Fs' -> exists F, In F Fs /\ same F' F) ->
  restricted_counts o Fs lc -> restricted_counts o Fs' lc' -> forall k, k <= N.of_nat (List.length (ord o)) -> lc k = lc' k.
Proof.
  intros H H' [C0 C] [C0' C'] k Lk. destruct (N.eq_dec k (N.of_nat (List.length (ord o)))) as [->|Nk].
  - apply (number_unique same _ _ _ same_equiv C0). eapply number_iff; [|exact C0'].
    intros G. split; intros [S T]; (split; [|exact T]); [exact (sub_mono _ _ _ _ H' S)|exact (sub_mono _ _ _ _ H S)].
  - destruct (nth_error (ord o) (N.to_nat k)) as [i|] eqn:Ei.
    2:{ apply nth_error_None in Ei. lia. }
    destruct (C k i Ei) as [A B]. destruct (C' k i Ei) as [A' B'].
    destruct (N.eq_dec (lc k) (lc' k)) as [E|Ne]; [exact E|exfalso].
    assert (Nd : ~ exists F, In F Fs /\ depends F i).
    { intros D. apply Ne. apply (number_unique same _ _ _ same_equiv (A D)). eapply number_iff; [|exact (A' (depends_mono _ _ _ H D))].
      intros G. split; [exact (restr_mono _ _ _ _ _ H')|exact (restr_mono _ _ _ _ _ H)]. }
    apply Ne. rewrite (B Nd), B'; [reflexivity|]. intros D. apply Nd. exact (depends_mono _ _ _ H' D).
Qed.
Lemma fprint_same w l Fs l' Fs' n : reachable w -> args (wh w) l -> each (means (wm w)) l Fs -> args (wh w) l' -> each (means (wm w)) l' Fs' ->
  (forall F, In F Fs -> exists F', In F' Fs' /\ same F F') -> (forall F', In F' Fs' -> exists F, In F Fs /\ same F' F) ->
  number same (subfunction (ord (mo (wm w))) Fs) n -> n + N.of_nat (List.length l) < 1280 -> n + N.of_nat (List.length l') < 1280 ->
  forall d1 d2 d3 d4 naming len, exists lines m1 m2,
    cal_print_function_profile_multiple d1 d2 (wm w) l naming len = Ok (Some lines, m1) /\ cal_print_function_profile_multiple d3 d4 (wm w) l' naming len = Ok (Some lines, m2).
Proof.
  intros R A M A' M' H H' Hn L L' d1 d2 d3 d4 naming len.
  assert (Hn' : number same (subfunction (ord (mo (wm w))) Fs') n).
  { eapply number_iff; [|exact Hn]. intros G. split; [exact (sub_mono _ _ _ _ H)|exact (sub_mono _ _ _ _ H')]. }
  destruct (fprint_counts w l Fs d1 d2 naming len n R A M Hn L) as (lc & m1 & E & N1).
  destruct (fprint_counts w l' Fs' d3 d4 naming len n R A' M' Hn' L') as (lc' & m2 & E' & N2).
  exists (print_aux (mo (wm w)) naming len lc), m1, m2. split; [exact E|].
  rewrite (print_aux_ext_in _ naming len lc lc' (restricted_unique _ _ _ _ _ H H' N1 N2)). exact E'.
Qed.
Lemma copies_same n k : forall F, In F (fn3 :: repeat fnite n) -> exists F', In F' (fn3 :: repeat fnite (S k)) /\ same F F'.
Proof.
  intros F [<-|I]; [exists fn3; split; [left; exact eq_refl|intros r; exact eq_refl]|].
  apply repeat_spec in I. subst F. exists fnite. split; [right; left; exact eq_refl|intros r; exact eq_refl].
Qed.
