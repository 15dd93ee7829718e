(** * Properties of the C++ operations on ranges (C54). *)
From Coq Require Import ZArith.
From Verif Require Import Base BFModel ITEModel MgrModel ApiModel AssocModel SpecApi Client CppModel SpecCpp RangeModel SpecRange RangeProof CppFacts RangeFacts.

(** C54: [And], [Or] and [Xor] of a range of BDDs, none of them null. *)
Theorem C54_ranges_of_bdds_partial : forall c ks l Fs, program c -> are_held (snd c) ks l -> (forall h, In h l -> uisnull h = false) ->
  l <> [] -> N.of_nat (length l) <= 1024 -> each (means (fst c)) l Fs ->
  forall enum ds, good_enum enum ->
  yields c (range_and enum ds (fst c) (OfBdds l)) (fun rho => all_true (map (fun F => F rho) Fs)) /\
  yields c (range_or enum ds (fst c) (OfBdds l)) (fun rho => some_true (map (fun F => F rho) Fs)) /\
  yields c (range_xor enum ds (fst c) (OfBdds l)) (fun rho => odd_true (map (fun F => F rho) Fs)).
Proof. exact range_bdds. Qed.
Print Assumptions C54_ranges_of_bdds_partial.
Example C54_example : program rdemo /\ are_held (snd rdemo) [2; 3; 0]%nat [ro 2; ro 3; ro 0] /\ (forall h, In h [ro 2; ro 3; ro 0] -> uisnull h = false) /\
  (exists Fs, each (means (fst rdemo)) [ro 2; ro 3; ro 0] Fs) /\
  match range_xor listed (fun _ => dec0) (fst rdemo) (OfBdds [ro 2; ro 3; ro 0]) with
  | Ok (h, m') => map (fun k => value m' h (fun i => negb (i =? k))) [0; 1; 2; 3] = [Some true; Some true; Some false; Some false] /\
      cr (mmem m' (uptr (ro 3))) = 1
  | _ => False
  end.
Proof. exact rdemo_example. Qed.

(** The same for a range of identifiers; [rest] starts with an integer that names no variable, and is ignored. *)
Theorem C54_ranges_of_ids : forall c ids rest, program c -> ids <> [] -> N.of_nat (length ids) <= 1024 ->
  (forall z, In z ids -> (0 <= z < 65536)%Z /\ In (Z.to_N z) (ord (mo (fst c)))) ->
  match rest with [] => True | z :: _ => ~ In (to_id z) (ord (mo (fst c))) end ->
  forall enum ds, good_enum enum ->
  yields c (range_and enum ds (fst c) (OfIds (ids ++ rest))) (fun rho => all_true (map (fun z => rho (Z.to_N z)) ids)) /\
  yields c (range_or enum ds (fst c) (OfIds (ids ++ rest))) (fun rho => some_true (map (fun z => rho (Z.to_N z)) ids)) /\
  yields c (range_xor enum ds (fst c) (OfIds (ids ++ rest))) (fun rho => odd_true (map (fun z => rho (Z.to_N z)) ids)).
Proof. exact range_ids. Qed.
Print Assumptions C54_ranges_of_ids.
Example C54_ids_example : program rdemo /\ ord (mo (fst rdemo)) = [3; 2; 1] /\
  match range_and listed (fun _ => dec0) (fst rdemo) (OfIds [3; 1]%Z) with
  | Ok (h, m') => map (fun k => value m' h (fun i => negb (i =? k))) [0; 1; 2; 3] = [Some true; Some false; Some true; Some false]
  | _ => False
  end.
Proof. exact rids_example. Qed.

(** Associations from a range of BDDs: the operands are given back, nothing else changes for the program. *)
Theorem C54_associations : forall c ks l pr, program c -> are_held (snd c) ks l -> (forall h, In h l -> uisnull h = false) ->
  no_constants (fst c) pr l ->
  (forall ds, distinct_variables pr l -> room_for_association (fst c) -> leaves c (range_assoc_init ds pr (fst c) (OfBdds l))) /\
  (forall ds, leaves c (range_temp_init ds pr (fst c) (OfBdds l))) /\
  (forall ds, leaves c (range_temp_augment ds pr (fst c) (OfBdds l))).
Proof. exact range_associations. Qed.
Print Assumptions C54_associations.
Example C54_associations_example : program rdemo /\ are_held (snd rdemo) [0; 1]%nat [ro 0; ro 1] /\ no_constants (fst rdemo) true [ro 0; ro 1] /\
  distinct_variables true [ro 0; ro 1] /\ room_for_association (fst rdemo) /\
  match range_assoc_init (fun _ => dec0) true (fst rdemo) (OfBdds [ro 0; ro 1]) with Ok (Some _, _) => True | _ => False end.
Proof. exact rassoc_example. Qed.

(** Finding: a null among the operands, for example the result of an operation that overflowed, does not make the result
    null: it and all operands behind it are ignored. *)
Theorem C54_null_ignored : forall c ks l1 l2 Fs, program c -> are_held (snd c) ks (l1 ++ unull :: l2) -> (forall h, In h l1 -> uisnull h = false) ->
  l1 <> [] -> N.of_nat (length l1) <= 1024 -> each (means (fst c)) l1 Fs ->
  forall enum ds, good_enum enum ->
  yields c (range_and enum ds (fst c) (OfBdds (l1 ++ unull :: l2))) (fun rho => all_true (map (fun F => F rho) Fs)) /\
  yields c (range_or enum ds (fst c) (OfBdds (l1 ++ unull :: l2))) (fun rho => some_true (map (fun F => F rho) Fs)) /\
  yields c (range_xor enum ds (fst c) (OfBdds (l1 ++ unull :: l2))) (fun rho => odd_true (map (fun F => F rho) Fs)).
Proof. exact range_cut. Qed.
Print Assumptions C54_null_ignored.
Theorem C54_null_refuted : exists c ks f g F G, program c /\ are_held (snd c) ks [f; unull; g] /\ means (fst c) f F /\ means (fst c) g G /\
  ~ same F (fun rho => F rho && G rho) /\
  forall enum ds, good_enum enum -> yields c (range_and enum ds (fst c) (OfBdds [f; unull; g])) F.
Proof. exact null_refuted. Qed.
Print Assumptions C54_null_refuted.

(** Finding: integers are taken modulo 65536. *)
Theorem C54_wrapped_identifier : forall c z, program c -> In (to_id z) (ord (mo (fst c))) ->
  forall enum ds, good_enum enum -> yields c (range_and enum ds (fst c) (OfIds [z])) (fun rho => rho (to_id z)).
Proof. exact range_wrapped. Qed.
Print Assumptions C54_wrapped_identifier.
Example C54_wrapped_example : program rdemo /\ In (to_id 65537) (ord (mo (fst rdemo))) /\ to_id 65537 = 1 /\ ~ In (Z.to_N 65537) (ord (mo (fst rdemo))).
Proof. exact wrapped_example. Qed.

(** Finding: [PairwiseAnd], [PairwiseOr] and [PairwiseXor] of two BDDs read past the end of the array of results.  The only
    other outcome is that [PairwiseAnd] overflows. *)
Theorem C54_pairwise_refuted : forall c k1 k2 f g, program c -> obj_get k1 (snd c) = Some f -> obj_get k2 (snd c) = Some g ->
  uisnull f = false -> uisnull g = false ->
  forall enum op post ds d dv, good_enum enum -> In op [op_and; op_or; op_xor] ->
  range_pairwise enum op post ds d dv (fst c) (OfBdds [f; g]) = Undefined \/
  post = true /\ exists m', range_pairwise enum op post ds d dv (fst c) (OfBdds [f; g]) = Ok ([], m') /\ mov m' = true.
Proof. exact range_pair_undefined. Qed.
Print Assumptions C54_pairwise_refuted.
Example C54_pairwise_example : program rdemo /\ obj_get 0 (snd rdemo) = Some (ro 0) /\ obj_get 3 (snd rdemo) = Some (ro 3) /\ uisnull (ro 0) = false /\ uisnull (ro 3) = false /\
  cal_pairwise_and listed (fun _ => dec0) dec0 (unfree_all (fst rdemo) [ro 0; ro 3]) [ro 0; ro 3; unull] <> Undefined /\
  range_pairwise listed op_and true (fun _ => dec0) dec0 (fun _ => dec0) (fst rdemo) (OfBdds [ro 0; ro 3]) = Undefined.
Proof. exact pair_example. Qed.
