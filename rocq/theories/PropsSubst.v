(** * Properties of simultaneous substitution: C14, C15, C30. *)
From Verif Require Import Base BFModel MgrModel ApiModel GraphModel AssocModel QuantModel QuantBFModel QuantApiModel SubstModel SpecApi SpecAssoc SpecQuant SpecSubst Client ApiFacts
  SubstWorld.

(** C14: all the variables of the current association are replaced at once, whatever the images are and wherever they are in the order. *)
Theorem C14_substitute : forall w f F S enum d, reachable w -> In f (wh w) -> means (wm w) f F -> current_means (wm w) S -> good_enum enum ->
  returns (cal_substitute enum d (wm w) f) (substituted S F).
Proof. exact (fun w f F S enum d R => W_substitute w R f F S enum d). Qed.
Print Assumptions C14_substitute.
Example C14_example : reachable xworld /\ current_means (wm xworld) s_exchange /\
  (In (x_h 0) (wh xworld) /\ means (wm xworld) (x_h 0) (fun rho => if rho 3 then rho 1 && rho 2 else rho 4)).
Proof. exact (conj xworld_reachable (conj xworld_current xworld_handle)). Qed.

(** C15: the same for the routine which replaces variables by variables (or constants).  It may report an overflow. *)
Theorem C15_var_substitute : forall w f F S enum slot d1 d2, reachable w -> In f (wh w) -> means (wm w) f F -> current_means (wm w) S -> renaming S ->
  room_for_temporary (wm w) -> good_enum enum ->
  computes (wm w) (cal_varsubstitute enum slot d1 d2 (wm w) f) (substituted S F).
Proof. exact (fun w f F S enum slot d1 d2 R => W_varsubstitute w R f F S enum slot d1 d2). Qed.
Print Assumptions C15_var_substitute.
Example C15_example : renaming s_exchange /\ room_for_temporary (wm xworld).
Proof. exact (conj s_exchange_renaming xworld_room). Qed.
(** Both exchange x1 and x3 in (if x3 then x1 and x2 else x4); replacing one after the other would not. *)
Example C15_results :
  (exists h m', cal_substitute listed dec1 (wm xworld) (x_h 0) = Ok (h, m') /\
     value m' h (fun i => i <=? 3) = Some true /\ value m' h (fun i => (i =? 3) || (i =? 2)) = Some false /\
     value m' h (fun i => (i =? 3) || (i =? 4)) = Some true /\ value m' h (fun i => (i =? 1) || (i =? 4)) = Some false) /\
  (exists h m', cal_varsubstitute listed slot0 dec1 dec1 (wm xworld) (x_h 0) = Ok (h, m') /\
     value m' h (fun i => i <=? 3) = Some true /\ value m' h (fun i => (i =? 3) || (i =? 2)) = Some false /\
     value m' h (fun i => (i =? 3) || (i =? 4)) = Some true /\ value m' h (fun i => (i =? 1) || (i =? 4)) = Some false).
Proof. exact exchange_example. Qed.
(** The documentation assumes that images are variables; for other images the result is wrong, without any report. *)
Theorem C15_variables_needed : exists w f F S, reachable w /\ In f (wh w) /\ means (wm w) f F /\ current_means (wm w) S /\ room_for_temporary (wm w) /\
  exists h m' rho b, cal_varsubstitute listed slot0 dec1 dec1 (wm w) f = Ok (h, m') /\ value m' h rho = Some b /\ substituted S F rho = negb b.
Proof. exact nonvariable_refuted. Qed.
Print Assumptions C15_variables_needed.

(** Null operands. *)
Theorem C14_null : forall w f enum slot d d1 d2, reachable w -> cal_isnull f = true ->
  cal_substitute enum d (wm w) f = Ok (unull, wm w) /\ cal_varsubstitute enum slot d1 d2 (wm w) f = Ok (unull, wm w).
Proof. exact (fun w f enum slot d d1 d2 R => W_subst_null w R f enum slot d d1 d2). Qed.
Print Assumptions C14_null.

(** C30 for the other user of the computed table, partial: the answer is the same as with an empty table. *)
Theorem C30_remembered_substitutions_partial : forall w f F S enum slot d1 d2, reachable w -> In f (wh w) -> means (wm w) f F -> current_means (wm w) S -> renaming S ->
  room_for_temporary (wm w) -> good_enum enum ->
  computes (wm w) (cal_varsubstitute enum slot d1 d2 (wm w) f) (substituted S F) /\
  computes (forgetful (wm w)) (cal_varsubstitute enum slot d1 d2 (forgetful (wm w)) f) (substituted S F).
Proof.
  exact (fun w f F S enum slot d1 d2 R If Mf Cs Rn Rm He =>
    conj (W_varsubstitute w R f F S enum slot d1 d2 If Mf Cs Rn Rm He) (W_varsubstitute_forgetful w R f F S enum slot d1 d2 If Mf Cs Rn Rm He)).
Qed.
Print Assumptions C30_remembered_substitutions_partial.
