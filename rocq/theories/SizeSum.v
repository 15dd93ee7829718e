(** * Sizes of joined arrays: proofs. *)
From Coq Require Import ZArith Lia.
From Verif Require Import Base BFModel ITEModel MgrModel MInv ApiModel ApiProof ApiOps GraphModel GraphFacts SpecApi SpecGraph WorldProof Client ApiLemmas ApiFacts GraphApi
  OpProof FProfFacts RangeQProof RangePProof.
Open Scope N_scope.

Lemma number_le eqv (P P' : bfun -> Prop) n n' : equiv_rel eqv -> (forall G, P G -> P' G) -> number eqv P n -> number eqv P' n' -> n <= n'.
Proof.
  intros Q I (L1 & <- & A1 & _ & C1) (L2 & <- & _ & B2 & _).
  pose proof (fop_le eqv Q L1 L2 C1 (fun G IG => B2 G (I G (A1 G IG)))). lia.
Qed.
Lemma number_sum eqv (P P' R : bfun -> Prop) n n' k : equiv_rel eqv -> (forall G, R G -> P G \/ P' G) -> number eqv P n -> number eqv P' n' -> number eqv R k -> k <= n + n'.
Proof.
  intros Q I (L1 & <- & _ & B1 & _) (L2 & <- & _ & B2 & _) (L3 & <- & A3 & _ & C3).
  enough (length L3 <= length (L1 ++ L2))%nat as H by (rewrite app_length in H; lia).
  apply (fop_le eqv Q L3 (L1 ++ L2) C3). intros G IG. destruct (I G (A3 G IG)) as [H|H].
  - destruct (B1 G H) as (K & Ik & E). exists K. split; [apply in_or_app; left; exact Ik|exact E].
  - destruct (B2 G H) as (K & Ik & E). exists K. split; [apply in_or_app; right; exact Ik|exact E].
Qed.
Lemma sub_left o Fs Fs' G : subfunction o Fs G -> subfunction o (Fs ++ Fs') G.
Proof. intros (F & k & I & H). exists F, k. split; [apply in_or_app; left; exact I|exact H]. Qed.
Lemma sub_right o Fs Fs' G : subfunction o Fs' G -> subfunction o (Fs ++ Fs') G.
Proof. intros (F & k & I & H). exists F, k. split; [apply in_or_app; right; exact I|exact H]. Qed.
Lemma sub_app o Fs Fs' G : subfunction o (Fs ++ Fs') G -> subfunction o Fs G \/ subfunction o Fs' G.
Proof. intros (F & k & I & H). apply in_app_or in I as [I|I]; [left|right]; exists F, k; split; assumption. Qed.
Lemma size_counts w l Fs ds neg : reachable w -> args (wh w) l -> each (means (wm w)) l Fs ->
  exists n mk m', cal_size_multiple ds (wm w) l neg = Ok ((n, mk), m') /\ number (up_to neg) (subfunction (ord (mo (wm w))) Fs) n.
Proof.
  intros R A M. destruct (W_size_multiple w R l Fs ds neg A M) as (n & mk & m' & E & _ & H). exists n, mk, m'. split; [exact E|].
  apply size_mo in E. apply preproc_each_mo in E. rewrite E in H. exact H.
Qed.
Lemma size_of_joined w l Fs l' Fs' : reachable w -> args (wh w) l -> each (means (wm w)) l Fs -> args (wh w) l' -> each (means (wm w)) l' Fs' ->
  forall d1 d2 d3 neg, exists n n' k k1 k2 k3 m1 m2 m3,
    cal_size_multiple d1 (wm w) l neg = Ok ((n, k1), m1) /\ cal_size_multiple d2 (wm w) l' neg = Ok ((n', k2), m2) /\
    cal_size_multiple d3 (wm w) (l ++ l') neg = Ok ((k, k3), m3) /\ n <= k /\ n' <= k /\ k <= n + n'.
Proof.
  intros R A M A' M' d1 d2 d3 neg.
  destruct (size_counts w l Fs d1 neg R A M) as (n & k1 & m1 & E1 & N1).
  destruct (size_counts w l' Fs' d2 neg R A' M') as (n' & k2 & m2 & E2 & N2).
  assert (Aj : args (wh w) (l ++ l')) by (intros h I; apply in_app_or in I as [I|I]; auto).
  destruct (size_counts w (l ++ l') (Fs ++ Fs') d3 neg R Aj (each_both _ _ _ _ _ M M')) as (k & k3 & m3 & E3 & N3).
  exists n, n', k, k1, k2, k3, m1, m2, m3. split; [exact E1|]. split; [exact E2|]. split; [exact E3|].
  split; [exact (number_le _ _ _ _ _ (up_to_equiv neg) (sub_left _ Fs Fs') N1 N3)|].
  split; [exact (number_le _ _ _ _ _ (up_to_equiv neg) (sub_right _ Fs Fs') N2 N3)|].
  exact (number_sum _ _ _ _ _ _ _ (up_to_equiv neg) (sub_app _ Fs Fs') N1 N2 N3).
Qed.
Lemma joined_example : reachable demo /\ args (wh demo) [h_ite] /\ each (means (wm demo)) [h_ite] [fnite] /\ args (wh demo) [h_var 3] /\ each (means (wm demo)) [h_var 3] [fn3].
Proof.
  split; [exact (run_reachable _)|]. split; [intros h [<-|[]]; exact in_ite|]. split; [exact (each_cons _ _ _ _ _ h_ite_means (Forall2_nil _))|].
  split; [intros h [<-|[]]; exact in_var3|]. exact (each_cons _ _ _ _ _ h_var3_means (Forall2_nil _)).
Qed.
