(** * Printing profiles of ranges of BDDs: rest of property C62.

    See SpecPrint.v for the text of a profile, SpecGraph.v for the counting of subfunctions, SpecCpp.v and SpecRange.v for programs. *)
From Coq Require Import ZArith String.
From Verif Require Import Base BFModel MgrModel ApiModel GraphModel SpecApi SpecGraph SpecPrint CppModel SpecCpp RangeModel SpecRange RangePModel RangeQProof RangePProof RangeFacts.
Open Scope list_scope.
Open Scope N_scope.

(** C62: [Cal::PrintProfile] of a range prints, level by level, how many nodes below the functions of its objects there are, shared
    ones counted once; the program keeps its objects, each with its function. *)
Theorem C62_print_profile : forall c ks l Fs, program c -> are_held (snd c) ks l -> (forall h, In h l -> uisnull h = false) -> each (means (fst c)) l Fs ->
  forall d1 d2 len, exists lines lc m', range_print_profile d1 d2 len (fst c) (OfBdds l) = Ok (Some lines, m') /\
  profile_text (fun _ => None) len (ord (mo (fst c))) lc lines /\
  (forall k, number (up_to true) (fun G => subfunction (ord (mo (fst c))) Fs G /\ top_at (ord (mo (fst c))) G k) (lc k)) /\
  program (m', snd c) /\ undisturbed c m'.
Proof. exact range_print_profile_spec. Qed.
Print Assumptions C62_print_profile.

(** C62: so does [Cal::PrintFunctionProfile] with the numbers of restrictions. Missing: ranges too large for C60. *)
Theorem C62_print_function_profile_partial : forall c ks l Fs, program c -> are_held (snd c) ks l -> (forall h, In h l -> uisnull h = false) -> each (means (fst c)) l Fs ->
  forall d1 d2 len n, number same (subfunction (ord (mo (fst c))) Fs) n -> n + N.of_nat (List.length l) < 1280 ->
  exists lines lc m', range_print_function_profile d1 d2 len (fst c) (OfBdds l) = Ok (Some lines, m') /\
  profile_text (fun _ => None) len (ord (mo (fst c))) lc lines /\
  number same (fun G => subfunction (ord (mo (fst c))) Fs G /\ top_at (ord (mo (fst c))) G (N.of_nat (List.length (ord (mo (fst c)))))) (lc (N.of_nat (List.length (ord (mo (fst c)))))) /\
  (forall k i, nth_error (ord (mo (fst c))) (N.to_nat k) = Some i ->
     ((exists F, In F Fs /\ depends F i) -> number same (fun G => exists F, In F Fs /\ restriction (ord (mo (fst c))) k F G) (lc k)) /\
     (~ (exists F, In F Fs /\ depends F i) -> lc k = 0)) /\
  program (m', snd c) /\ undisturbed c m'.
Proof. exact range_print_function_profile_spec. Qed.
Print Assumptions C62_print_function_profile_partial.
Example C62_print_example : program rdemo /\ are_held (snd rdemo) [2; 3; 0]%nat [ro 2; ro 3; ro 0] /\ (forall h, In h [ro 2; ro 3; ro 0] -> uisnull h = false) /\
  exists Fs, each (means (fst rdemo)) [ro 2; ro 3; ro 0] Fs /\ number same (subfunction (ord (mo (fst rdemo))) Fs) 5 /\ 5 + N.of_nat (List.length [ro 2; ro 3; ro 0]) < 1280.
Proof. exact rp_example. Qed.
