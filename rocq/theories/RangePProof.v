(** * Printing the profile of a range of BDDs: proofs. *)
From Coq Require Import ZArith String Lia.
From Verif Require Import Base BFModel ITEModel MgrModel MInv ApiModel ApiProof ApiOps GraphModel GraphFacts SpecApi SpecGraph WorldProof Client ApiLemmas ApiFacts GraphApi
  PrintModel PrintFacts SpecPrint OpProof FProfModel FProfFacts FProfPrint FProfPrintFacts CppModel SpecCpp CppProof RangeModel SpecRange RangeProof RangeFacts RangeQModel RangeQProof RangePModel.
Open Scope list_scope.
Open Scope N_scope.

(** Two rounds of pre-processing are one round over the array written twice. *)
Definition both (n : nat) (d1 d2 : nat -> dec) : nat -> dec := fun k => if (k <? n)%nat then d1 k else d2 (k - n)%nat.
Lemma each_ext l : forall d d' m, (forall k, (k < length l)%nat -> d k = d' k) -> preproc_each d m l = preproc_each d' m l.
Proof.
  induction l as [|h l IH]; intros d d' m H; cbn [preproc_each]; [reflexivity|]. rewrite (H 0%nat) by (cbn [List.length]; lia).
  destruct (preproc (d' 0%nat) m [h]) as [[ok m1]| |]; cbn [obind]; auto. apply IH. intros k Hk. apply H. cbn [List.length]. lia.
Qed.
Lemma each_app l1 l2 : forall d m, preproc_each d m (l1 ++ l2) = obind (preproc_each d m l1) (fun m1 => preproc_each (fun k => d (length l1 + k)%nat) m1 l2).
Proof.
  induction l1 as [|h l1 IH]; intros d m; cbn [app preproc_each List.length]; [reflexivity|].
  destruct (preproc (d 0%nat) m [h]) as [[ok m1]| |]; cbn [obind]; auto. rewrite IH. reflexivity.
Qed.
Lemma array_each l : forall d m m1, preproc_array d m l = Ok (true, m1) -> preproc_each d m l = Ok m1.
Proof.
  induction l as [|h l IH]; intros d m m1; cbn [preproc_array preproc_each]; [intros H; injection H as <-; reflexivity|].
  destruct (preproc (d 0%nat) m [h]) as [[ok m2]| |]; cbn [obind]; try discriminate. destruct ok; [|discriminate]. apply IH.
Qed.
Lemma twice l d1 d2 m m1 m2 : preproc_array d1 m l = Ok (true, m1) -> preproc_each d2 m1 l = Ok m2 -> preproc_each (both (length l) d1 d2) m (l ++ l) = Ok m2.
Proof.
  intros A B. apply array_each in A. rewrite each_app.
  rewrite (each_ext l (both (length l) d1 d2) d1) by (intros k Hk; unfold both; destruct (Nat.ltb_spec k (length l)); [reflexivity|lia]).
  rewrite A. cbn [obind]. rewrite <- B. apply each_ext. intros k _. unfold both. destruct (Nat.ltb_spec (length l + k) (length l)); [lia|]. f_equal. lia.
Qed.
Lemma print_end d1 d2 m l nm len : cal_print_profile_multiple d1 d2 m (l ++ [unull]) nm len = cal_print_profile_multiple d1 d2 m (upto_null l) nm len.
Proof.
  unfold cal_print_profile_multiple. rewrite upto_end, upto_twice. destruct (preproc_array d1 m (upto_null l)) as [[ok m1]| |]; cbn [obind]; auto.
  destruct ok; cbn [negb]; auto. now rewrite profile_end.
Qed.
Lemma print_fend d1 d2 m l nm len : cal_print_function_profile_multiple d1 d2 m (l ++ [unull]) nm len = cal_print_function_profile_multiple d1 d2 m (upto_null l) nm len.
Proof.
  unfold cal_print_function_profile_multiple. rewrite upto_end, upto_twice. destruct (preproc_array d1 m (upto_null l)) as [[ok m1]| |]; cbn [obind]; auto.
  destruct ok; cbn [negb]; auto. now rewrite fprofile_end.
Qed.
Lemma print_twice d1 d2 m l nm len x m' : upto_null l = l -> cal_print_profile_multiple d1 d2 m l nm len = Ok (Some x, m') ->
  preproc_each (both (length l) d1 d2) m (l ++ l) = Ok m'.
Proof.
  intros Ul. unfold cal_print_profile_multiple. rewrite Ul. destruct (preproc_array d1 m l) as [[ok m1]| |] eqn:A; cbn [obind]; try discriminate.
  destruct ok; cbn [negb]; [|discriminate]. destruct (cal_profile_multiple d2 m1 l true) as [[[lc mk] m2]| |] eqn:E; cbn [obind]; try discriminate.
  intros H. injection H as _ <-. apply profile_mo in E. rewrite Ul in E. exact (twice l d1 d2 m m1 m2 A E).
Qed.
Lemma print_ftwice d1 d2 m l nm len x m' : upto_null l = l -> cal_print_function_profile_multiple d1 d2 m l nm len = Ok (Some x, m') ->
  preproc_each (both (length l) d1 d2) m (l ++ l) = Ok m'.
Proof.
  intros Ul. unfold cal_print_function_profile_multiple. rewrite Ul. destruct (preproc_array d1 m l) as [[ok m1]| |] eqn:A; cbn [obind]; try discriminate.
  destruct ok; cbn [negb]; [|discriminate]. destruct (cal_function_profile_multiple d2 m1 l) as [[lc m2]| |] eqn:E; cbn [obind]; try discriminate.
  intros H. injection H as _ <-. apply fprofile_pre in E. rewrite Ul in E. exact (twice l d1 d2 m m1 m2 A E).
Qed.
Lemma each_both {A B} (R : A -> B -> Prop) l k l' k' : each R l k -> each R l' k' -> each R (l ++ l') (k ++ k').
Proof. unfold each. intros H H'. induction H; cbn [app]; [exact H'|]. constructor; assumption. Qed.

Section Range.
Variables (c : cpp) (ks : list nat) (l : list ubdd) (Fs : list bfun).
Hypothesis P : program c.
Hypothesis U : are_held (snd c) ks l.
Hypothesis Nn : forall h, In h l -> uisnull h = false.
Hypothesis M : each (means (fst c)) l Fs.
Notation m1 := (unfree_all (fst c) l).

Lemma query_twice {A} (f : mgr -> list ubdd -> outcome (A * mgr)) x m2 ds : f m1 (l ++ [unull]) = Ok (x, m2) -> preproc_each ds m1 (l ++ l) = Ok m2 ->
  exists m', over (fst c) (OfBdds l) f = Ok (x, m') /\ program (m', snd c) /\ undisturbed c m'.
Proof.
  intros E Pe. destruct (over_run c (OfBdds l) f [] P (ex_intro _ ks U)) with (x := x) (m2 := m2) as (m' & E1 & P1 & U1 & _).
  - intros n [].
  - constructor.
  - exact E.
  - intros hs Rh Hh. cbn [elements fst snd map own] in *.
    assert (Al : args hs (l ++ l)) by (intros h Ih; apply in_app_or in Ih as [Ih|Ih]; apply Hh; auto).
    destruct (inside c ks l Fs P U Nn M) as (_ & _ & _ & Ms).
    destruct (W_size_multiple (World m1 hs) Rh (l ++ l) (Fs ++ Fs) ds false Al (each_both _ _ _ _ _ Ms Ms)) as (n & mk & m3 & E3 & _). cbn [wm] in E3.
    pose proof (size_mo _ _ _ _ _ _ E3) as P3. rewrite upto_all in P3 by (intros h Ih; apply in_app_or in Ih as [Ih|Ih]; auto). assert (m3 = m2) by congruence. subst m3.
    apply st_call. exact (st_size_multiple ds m1 hs (l ++ l) false (n, mk) m2 Al E3).
  - exists m'. split; [exact E1|]. split; [exact P1|exact U1].
Qed.
Lemma range_print_profile_spec d1 d2 len : exists lines lc m', range_print_profile d1 d2 len (fst c) (OfBdds l) = Ok (Some lines, m') /\
  profile_text (fun _ => None) len (ord (mo (fst c))) lc lines /\
  (forall k, number (up_to true) (fun G => subfunction (ord (mo (fst c))) Fs G /\ top_at (ord (mo (fst c))) G k) (lc k)) /\
  program (m', snd c) /\ undisturbed c m'.
Proof.
  destruct (inside c ks l Fs P U Nn M) as (hs & Rh & Al & Ms).
  destruct (W_print_profile_multiple (World m1 hs) l Fs d1 d2 (fun _ => None) len Rh Al Ms) as (lines & lc & m2 & E & T & Hk). cbn [wm] in E.
  pose proof (print_twice _ _ _ _ _ _ _ _ (upto_all l Nn) E) as Pe. pose proof (preproc_each_mo _ _ _ _ Pe) as Eo. rewrite unfree_mo in Eo. rewrite Eo in T, Hk.
  destruct (query_twice (fun m v => cal_print_profile_multiple d1 d2 m v (fun _ => None) len) (Some lines) m2 (both (Datatypes.length l) d1 d2)) as (m' & E1 & P1 & U1); [|exact Pe|].
  { rewrite print_end, (upto_all l Nn). exact E. }
  exists lines, lc, m'. split; [exact E1|]. split; [exact T|]. split; [exact Hk|]. split; [exact P1|exact U1].
Qed.
Lemma range_print_function_profile_spec d1 d2 len n : number same (subfunction (ord (mo (fst c))) Fs) n -> n + N.of_nat (List.length l) < 1280 ->
  exists lines lc m', range_print_function_profile d1 d2 len (fst c) (OfBdds l) = Ok (Some lines, m') /\
  profile_text (fun _ => None) len (ord (mo (fst c))) lc lines /\
  number same (fun G => subfunction (ord (mo (fst c))) Fs G /\ top_at (ord (mo (fst c))) G (N.of_nat (List.length (ord (mo (fst c)))))) (lc (N.of_nat (List.length (ord (mo (fst c)))))) /\
  (forall k i, nth_error (ord (mo (fst c))) (N.to_nat k) = Some i ->
     ((exists F, In F Fs /\ depends F i) -> number same (fun G => exists F, In F Fs /\ restriction (ord (mo (fst c))) k F G) (lc k)) /\
     (~ (exists F, In F Fs /\ depends F i) -> lc k = 0)) /\
  program (m', snd c) /\ undisturbed c m'.
Proof.
  intros Hn Cap. rewrite <- (unfree_mo (fst c) l) in Hn.
  destruct (inside c ks l Fs P U Nn M) as (hs & Rh & Al & Ms).
  destruct (W_print_function_profile_multiple (World m1 hs) l Fs d1 d2 (fun _ => None) len n Rh Al Ms Hn Cap) as (lines & lc & m2 & E & T & H1 & H2). cbn [wm] in E.
  pose proof (print_ftwice _ _ _ _ _ _ _ _ (upto_all l Nn) E) as Pe. pose proof (preproc_each_mo _ _ _ _ Pe) as Eo. rewrite unfree_mo in Eo. rewrite Eo in T, H1, H2.
  destruct (query_twice (fun m v => cal_print_function_profile_multiple d1 d2 m v (fun _ => None) len) (Some lines) m2 (both (Datatypes.length l) d1 d2)) as (m' & E1 & P1 & U1); [|exact Pe|].
  { rewrite print_fend, (upto_all l Nn). exact E. }
  exists lines, lc, m'. split; [exact E1|]. split; [exact T|]. split; [exact H1|]. split; [exact H2|]. split; [exact P1|exact U1].
Qed.
End Range.
Lemma rp_example : program rdemo /\ are_held (snd rdemo) [2; 3; 0]%nat [ro 2; ro 3; ro 0] /\ (forall h, In h [ro 2; ro 3; ro 0] -> uisnull h = false) /\
  exists Fs, each (means (fst rdemo)) [ro 2; ro 3; ro 0] Fs /\ number same (subfunction (ord (mo (fst rdemo))) Fs) 5 /\ 5 + N.of_nat (List.length [ro 2; ro 3; ro 0]) < 1280.
Proof.
  destruct rq_example as (Pd & H & Nn & Fs & m' & M & _ & E). split; [exact Pd|]. split; [exact H|]. split; [exact Nn|].
  exists Fs. split; [exact M|]. split; [exact E|]. cbn [List.length]. lia.
Qed.
