(** * Queries about ranges of BDDs: proofs. *)
From Coq Require Import ZArith Lia.
From Verif Require Import Base BFModel ITEModel MgrModel MInv ApiModel ApiProof ApiOps GraphModel GraphFacts SpecApi SpecGraph WorldProof Client ApiLemmas ApiFacts GraphApi
  PrintModel PrintFacts OpProof FProfModel FProfFacts CppModel SpecCpp CppProof RangeModel SpecRange RangeProof RangeFacts RangeQModel.
Open Scope N_scope.

Lemma unfree_mo m l : mo (unfree_all m l) = mo m.
Proof. unfold unfree_all. revert m. induction l as [|h l IH]; intros m; simpl; auto. rewrite IH. unfold bdd_unfree. now destruct (uisnull h). Qed.
Lemma size_mo ds m l neg x m' : cal_size_multiple ds m l neg = Ok (x, m') -> preproc_each ds m (upto_null l) = Ok m'.
Proof.
  unfold cal_size_multiple. destruct (preproc_each ds m (upto_null l)) as [m1| |]; try discriminate. cbn [obind].
  destruct (size_of _ _ _ _ _) as [r|]; [|discriminate]. intros H. injection H as _ <-. reflexivity.
Qed.
Lemma profile_mo ds m l neg x m' : cal_profile_multiple ds m l neg = Ok (x, m') -> preproc_each ds m (upto_null l) = Ok m'.
Proof.
  unfold cal_profile_multiple. destruct (preproc_each ds m (upto_null l)) as [m1| |]; try discriminate. cbn [obind].
  destruct (profile_of _ _ _ _ _) as [r|]; [|discriminate]. intros H. injection H as _ <-. reflexivity.
Qed.
Lemma fprofile_pre ds m l x m' : cal_function_profile_multiple ds m l = Ok (x, m') -> preproc_each ds m (upto_null l) = Ok m'.
Proof.
  unfold cal_function_profile_multiple. destruct (preproc_each ds m (upto_null l)) as [m1| |]; try discriminate. cbn [obind].
  destruct (profile_of _ _ _ _ _) as [[lc mk]|]; [|discriminate]. cbn [fueled obind].
  destruct (function_profile_all _ _ _ _) as [r|]; [|discriminate]. intros H. injection H as _ <-. reflexivity.
Qed.
Lemma size_end ds m l neg : cal_size_multiple ds m (l ++ [unull]) neg = cal_size_multiple ds m (upto_null l) neg.
Proof. unfold cal_size_multiple. now rewrite upto_end, upto_twice. Qed.
Lemma profile_end ds m l neg : cal_profile_multiple ds m (l ++ [unull]) neg = cal_profile_multiple ds m (upto_null l) neg.
Proof. unfold cal_profile_multiple. now rewrite upto_end, upto_twice. Qed.
Lemma fprofile_end ds m l : cal_function_profile_multiple ds m (l ++ [unull]) = cal_function_profile_multiple ds m (upto_null l).
Proof. unfold cal_function_profile_multiple. now rewrite upto_end, upto_twice. Qed.

Section Range.
Variables (c : cpp) (ks : list nat) (l : list ubdd) (Fs : list bfun).
Hypothesis P : program c.
Hypothesis U : are_held (snd c) ks l.
Hypothesis Nn : forall h, In h l -> uisnull h = false.
Hypothesis M : each (means (fst c)) l Fs.
Notation m1 := (unfree_all (fst c) l).

Lemma inside : exists hs, reachable (World m1 hs) /\ args hs l /\ each (means m1) l Fs.
Proof.
  destruct (names_above (map fst (snd c))) as [b B].
  destruct (loaded c (OfBdds l) b P (ex_intro _ ks U) B) as (ts & T1 & T2 & T3 & T4 & T5). cbn [elements fst snd] in *.
  exists (held_handles (rev ts ++ snd c)). split; [exact (program_reachable _ T4)|]. split.
  - intros h Ih. rewrite <- T1 in Ih. apply held_in; [exact Ih|]. apply Nn. rewrite <- T1. exact Ih.
  - eapply Forall2_impl_in; [|exact M]. intros h F _. exact (means_graph _ _ _ _ (unfree_graph (fst c) l)).
Qed.

(** A query leaves the manager as the pre-processing of the array does. *)
Lemma query_run {A} (f : mgr -> list ubdd -> outcome (A * mgr)) x m2 ds : f m1 (l ++ [unull]) = Ok (x, m2) -> preproc_each ds m1 l = Ok m2 ->
  exists m', over (fst c) (OfBdds l) f = Ok (x, m') /\ program (m', snd c) /\ undisturbed c m'.
Proof.
  intros E Pe. destruct (over_run c (OfBdds l) f [] P (ex_intro _ ks U)) with (x := x) (m2 := m2) as (m' & E1 & P1 & U1 & _).
  - intros n [].
  - constructor.
  - exact E.
  - intros hs Rh Hh. cbn [elements fst snd map own] in *. assert (Al : args hs l) by (intros h Ih; apply Hh; auto).
    assert (Ms : exists Gs, each (means m1) l Gs). { exists Fs. destruct inside as (_ & _ & _ & H). exact H. }
    destruct Ms as [Gs Ms]. destruct (W_size_multiple (World m1 hs) Rh l Gs ds false Al Ms) as (n & mk & m3 & E3 & _). cbn [wm] in E3.
    pose proof (size_mo _ _ _ _ _ _ E3) as P3. rewrite (upto_all l Nn) in P3. assert (m3 = m2) by congruence. subst m3.
    apply st_call. exact (st_size_multiple ds m1 hs l false (n, mk) m2 Al E3).
  - exists m'. split; [exact E1|]. split; [exact P1|exact U1].
Qed.

Lemma range_size_spec ds neg : exists n m', range_size ds neg (fst c) (OfBdds l) = Ok (n, m') /\
  number (up_to neg) (subfunction (ord (mo (fst c))) Fs) n /\ program (m', snd c) /\ undisturbed c m'.
Proof.
  destruct inside as (hs & Rh & Al & Ms). destruct (W_size_multiple (World m1 hs) Rh l Fs ds neg Al Ms) as (n & mk & m2 & E & _ & Hn). cbn [wm] in E.
  pose proof (size_mo _ _ _ _ _ _ E) as Pe. rewrite (upto_all l Nn) in Pe.
  destruct (query_run (fun m v => obind (cal_size_multiple ds m v neg) (fun '((n, _), m2) => Ok (n, m2))) n m2 ds) as (m' & E1 & P1 & U1); [|exact Pe|].
  { rewrite size_end, (upto_all l Nn), E. reflexivity. }
  exists n, m'. split; [exact E1|]. split; [|split; [exact P1|exact U1]].
  rewrite (preproc_each_mo _ _ _ _ Pe), unfree_mo in Hn. exact Hn.
Qed.
Lemma range_profile_spec ds neg : exists v m', range_profile ds neg (fst c) (OfBdds l) = Ok (v, m') /\ vec_list v = [] /\ program (m', snd c) /\ undisturbed c m'.
Proof.
  destruct inside as (hs & Rh & Al & Ms). destruct (W_profile_multiple (World m1 hs) Rh l Fs ds neg Al Ms) as (lc & mk & m2 & E & _). cbn [wm] in E.
  pose proof (profile_mo _ _ _ _ _ _ E) as Pe. rewrite (upto_all l Nn) in Pe. pose proof (preproc_each_mo _ _ _ _ Pe) as Eo.
  destruct (store_ok (vars_of m1 + 1) (vars_of m2 + 1) (fun k => Z.of_N (lc k))) as (v & Ev & Hv & _); [unfold vars_of; rewrite Eo; apply N.le_refl|].
  destruct (query_run (fun m v => obind (cal_profile_multiple ds m v neg) (fun '((lc, _), m2) =>
    obind (store_counts (vars_of m2 + 1) (Some (fun k => Z.of_N (lc k))) (vec_reserve (vars_of m + 1) vec_new)) (fun x => Ok (x, m2)))) v m2 ds) as (m' & E1 & P1 & U1); [|exact Pe|].
  { rewrite profile_end, (upto_all l Nn), E. cbn [obind]. rewrite Ev. reflexivity. }
  exists v, m'. split; [exact E1|]. split; [exact (empty_list v Hv)|]. split; [exact P1|exact U1].
Qed.
Lemma range_function_profile_spec ds n : number same (subfunction (ord (mo (fst c))) Fs) n -> n + N.of_nat (length l) < 1280 ->
  exists v m', range_function_profile ds (fst c) (OfBdds l) = Ok (v, m') /\ vec_list v = [] /\ program (m', snd c) /\ undisturbed c m'.
Proof.
  intros Hn Cap. rewrite <- (unfree_mo (fst c) l) in Hn.
  destruct inside as (hs & Rh & Al & Ms). destruct (W_function_profile_multiple (World m1 hs) l Fs ds n Rh Al Ms Hn Cap) as (R & m2 & E & Eo & _). cbn [wm] in E, Eo.
  pose proof (fprofile_pre _ _ _ _ _ E) as Pe. rewrite (upto_all l Nn) in Pe.
  destruct (store_ok (vars_of m1 + 1) (vars_of m2 + 1) R) as (v & Ev & Hv & _); [unfold vars_of; rewrite Eo; apply N.le_refl|].
  destruct (query_run (fun m v => obind (cal_function_profile_multiple ds m v) (fun '(lc, m2) =>
    obind (store_counts (vars_of m2 + 1) (Some lc) (vec_reserve (vars_of m + 1) vec_new)) (fun x => Ok (x, m2)))) v m2 ds) as (m' & E1 & P1 & U1); [|exact Pe|].
  { rewrite fprofile_end, (upto_all l Nn), E. cbn [obind]. rewrite Ev. reflexivity. }
  exists v, m'. split; [exact E1|]. split; [exact (empty_list v Hv)|]. split; [exact P1|exact U1].
Qed.
End Range.

(** ** Examples *)
Lemma size_shown c ks l ds k : program c -> are_held (snd c) ks l -> (forall h, In h l -> uisnull h = false) ->
  GraphFacts.shows (range_size ds false (fst c) (OfBdds l)) (fun n => N.eqb n k) = true ->
  exists Fs m', each (means (fst c)) l Fs /\ range_size ds false (fst c) (OfBdds l) = Ok (k, m') /\ number same (subfunction (ord (mo (fst c))) Fs) k.
Proof.
  intros P U Nn S.
  assert (K : exists Fs, each (means (fst c)) l Fs).
  { clear S. revert Nn. induction U as [|j h ks l G F IH]; intros N0; [exists []; constructor|].
    destruct IH as [Fs IH]; [intros g Ig; apply N0; now right|]. destruct (object_means c j h P G (N0 h (or_introl eq_refl))) as [F1 M1]. exists (F1 :: Fs). now constructor. }
  destruct K as [Fs M]. destruct (range_size_spec c ks l Fs P U Nn M ds false) as (n & m' & E & Hn & _). rewrite E in S. cbn [GraphFacts.shows] in S.
  apply N.eqb_eq in S. subst n. exists Fs, m'. split; [exact M|]. split; [exact E|exact Hn].
Qed.
Lemma rq_held : are_held (snd rdemo) [2; 3; 0]%nat [ro 2; ro 3; ro 0].
Proof. apply hold_checked. vm_compute. exact eq_refl. Qed.
Lemma rq_notnull : forall h, In h [ro 2; ro 3; ro 0] -> uisnull h = false.
Proof. intros h [<-|[<-|[<-|[]]]]; vm_compute; exact eq_refl. Qed.
Lemma rq_example : program rdemo /\ are_held (snd rdemo) [2; 3; 0]%nat [ro 2; ro 3; ro 0] /\ (forall h, In h [ro 2; ro 3; ro 0] -> uisnull h = false) /\
  exists Fs m', each (means (fst rdemo)) [ro 2; ro 3; ro 0] Fs /\ range_size (fun _ => dec0) false (fst rdemo) (OfBdds [ro 2; ro 3; ro 0]) = Ok (5, m') /\
    number same (subfunction (ord (mo (fst rdemo))) Fs) 5.
Proof.
  split; [exact rdemo_program|]. split; [exact rq_held|]. split; [exact rq_notnull|].
  apply (size_shown rdemo _ _ (fun _ => dec0) 5 rdemo_program rq_held rq_notnull). vm_compute. exact eq_refl.
Qed.
