(** * Property of the C++ queries about ranges of BDDs: C62.

    See SpecGraph.v for the counting of subfunctions, SpecCpp.v for programs and SpecRange.v. *)
From Coq Require Import ZArith.
From Verif Require Import Base BFModel MgrModel ApiModel GraphModel PrintModel SpecApi SpecGraph CppModel SpecCpp RangeModel SpecRange CppFacts RangeFacts RangeQModel RangeQProof.
Open Scope N_scope.

(** C62: [Cal::Size] of a range of objects is the number of nodes below their functions, shared ones counted once; the program keeps
    its objects, each with its function, and holds no other handle afterwards. *)
Theorem C62_size : forall c ks l Fs, program c -> are_held (snd c) ks l -> (forall h, In h l -> uisnull h = false) -> each (means (fst c)) l Fs ->
  forall ds neg, exists n m', range_size ds neg (fst c) (OfBdds l) = Ok (n, m') /\
    number (up_to neg) (subfunction (ord (mo (fst c))) Fs) n /\ program (m', snd c) /\ undisturbed c m'.
Proof. exact range_size_spec. Qed.
Print Assumptions C62_size.
Example C62_example : program rdemo /\ are_held (snd rdemo) [2; 3; 0]%nat [ro 2; ro 3; ro 0] /\ (forall h, In h [ro 2; ro 3; ro 0] -> uisnull h = false) /\
  exists Fs m', each (means (fst rdemo)) [ro 2; ro 3; ro 0] Fs /\ range_size (fun _ => dec0) false (fst rdemo) (OfBdds [ro 2; ro 3; ro 0]) = Ok (5, m') /\
    number same (subfunction (ord (mo (fst rdemo))) Fs) 5.
Proof. exact rq_example. Qed.

(** The vectors [Cal::Profile] and [Cal::FunctionProfile] return for a range are empty, for every range. *)
Theorem C62_profile_refuted : forall c ks l Fs, program c -> are_held (snd c) ks l -> (forall h, In h l -> uisnull h = false) -> each (means (fst c)) l Fs ->
  forall ds neg, exists v m', range_profile ds neg (fst c) (OfBdds l) = Ok (v, m') /\ vec_list v = [] /\ program (m', snd c) /\ undisturbed c m'.
Proof. exact range_profile_spec. Qed.
Print Assumptions C62_profile_refuted.
(** (For arrays too large for C60 nothing is said here.) *)
Theorem C62_function_profile_refuted : forall c ks l Fs, program c -> are_held (snd c) ks l -> (forall h, In h l -> uisnull h = false) -> each (means (fst c)) l Fs ->
  forall ds n, number same (subfunction (ord (mo (fst c))) Fs) n -> n + N.of_nat (length l) < 1280 ->
  exists v m', range_function_profile ds (fst c) (OfBdds l) = Ok (v, m') /\ vec_list v = [] /\ program (m', snd c) /\ undisturbed c m'.
Proof. exact range_function_profile_spec. Qed.
Print Assumptions C62_function_profile_refuted.
