(** * Properties of quantification and the relational product: C10, C11, C12, C30.

    The place of an entry in the computed table ([slot]), the order in which requests are visited ([enum]) and the
    decisions [d1], [d2] are arbitrary.  Partial: with the temporary association current they need operation codes left for it
    ([room_for_temporary]); without, see [C12_refuted].  With another association current that condition is void. *)
From Verif Require Import Base BFModel MgrModel ApiModel GraphModel AssocModel QuantModel QuantBFModel QuantApiModel SpecApi SpecAssoc SpecQuant Client ApiFacts AssocFacts
  QuantWorld QuantFacts.

(** C10 *)
Theorem C10_exists_partial : forall w f F S, reachable w -> In f (wh w) -> means (wm w) f F -> current_means (wm w) S ->
  room_for_temporary (wm w) ->
  exists E, is_exists S F E /\ forall enum slot d1 d2, good_enum enum -> computes (wm w) (cal_exists enum slot d1 d2 (wm w) f) E.
Proof. exact P_exists. Qed.
Print Assumptions C10_exists_partial.
Theorem C10_forall_partial : forall w f F S, reachable w -> In f (wh w) -> means (wm w) f F -> current_means (wm w) S ->
  room_for_temporary (wm w) ->
  exists E, is_forall S F E /\ forall enum slot d1 d2, good_enum enum -> computes (wm w) (cal_forall enum slot d1 d2 (wm w) f) E.
Proof. exact P_forall. Qed.
Print Assumptions C10_forall_partial.
(** The current association always stands for some substitution. *)
Theorem C10_current_has_meaning : forall w, reachable w -> exists S, current_means (wm w) S.
Proof. exact W_current. Qed.
Print Assumptions C10_current_has_meaning.
Example C10_example : reachable aworld /\ current_means (wm aworld) s_plain /\ room_for_temporary (wm aworld) /\
  (In (a_h 0) (wh aworld) /\ In (a_h 3) (wh aworld) /\
   means (wm aworld) (a_h 0) (fun rho => if rho 3 then rho 1 && rho 2 else rho 4) /\ means (wm aworld) (a_h 3) (fun rho => rho 3)).
Proof. exact (conj aworld_reachable (conj aworld_current (conj aworld_room aworld_handles))). Qed.
Example C10_results :
  (exists h m', cal_exists reversed slot0 dec1 dec1 (wm aworld) (a_h 0) = Ok (h, m') /\ value m' h (fun i => i =? 3) = Some false /\ value m' h (fun _ => false) = Some true) /\
  (exists h m', cal_forall reversed slot0 dec1 dec1 (wm aworld) (a_h 4) = Ok (h, m') /\ value m' h (fun i => i =? 2) = Some true /\ value m' h (fun _ => false) = Some false) /\
  (exists h m', cal_relprod reversed slot0 dec1 dec1 (wm aworld) (a_h 0) (a_h 3) = Ok (h, m') /\
     value m' h (fun i => (i =? 2) || (i =? 3)) = Some true /\ value m' h (fun i => i =? 3) = Some false /\ value m' h (fun _ => false) = Some false).
Proof. exact quant_example. Qed.
(** The routines for managers of more than 2^19 nodes, on the small manager of the example. *)
Example C10_breadth_first :
  (exists h m', bf_exists (wm aworld) (a_h 0) = (h, m') /\ value m' h (fun i => i =? 3) = Some false /\ value m' h (fun _ => false) = Some true) /\
  (exists h m', bf_relprod (wm aworld) (a_h 0) (a_h 3) = (h, m') /\
     value m' h (fun i => (i =? 2) || (i =? 3)) = Some true /\ value m' h (fun i => i =? 3) = Some false /\ value m' h (fun _ => false) = Some false).
Proof. exact bf_example. Qed.

(** C11 *)
Theorem C11_relational_product_partial : forall w f g F G S, reachable w -> In f (wh w) -> In g (wh w) -> means (wm w) f F -> means (wm w) g G ->
  current_means (wm w) S -> room_for_temporary (wm w) ->
  exists E, is_exists S (fun rho => F rho && G rho) E /\ forall enum slot d1 d2, good_enum enum -> computes (wm w) (cal_relprod enum slot d1 d2 (wm w) f g) E.
Proof. exact P_relprod. Qed.
Print Assumptions C11_relational_product_partial.
(** Null operands. *)
Theorem C11_null : forall w enum slot d1 d2 f g, reachable w -> arg (wh w) f -> arg (wh w) g -> cal_isnull f = true ->
  cal_exists enum slot d1 d2 (wm w) f = Ok (unull, wm w) /\ cal_forall enum slot d1 d2 (wm w) f = Ok (unull, wm w) /\
  cal_relprod enum slot d1 d2 (wm w) f g = Ok (unull, wm w) /\ cal_relprod enum slot d1 d2 (wm w) g f = Ok (unull, wm w).
Proof. exact W_quant_null. Qed.
Print Assumptions C11_null.

(** C12, partial: as long as operation codes are left, the answer only depends on the function and the association. *)
Theorem C12_history_partial : forall w1 w2 f1 f2 F S, reachable w1 -> reachable w2 -> In f1 (wh w1) -> In f2 (wh w2) ->
  means (wm w1) f1 F -> means (wm w2) f2 F -> current_means (wm w1) S -> current_means (wm w2) S ->
  room_for_temporary (wm w1) -> room_for_temporary (wm w2) ->
  forall enum1 enum2 slot1 slot2 d1 d2 d3 d4, good_enum enum1 -> good_enum enum2 -> exists E, computes (wm w1) (cal_exists enum1 slot1 d1 d2 (wm w1) f1) E /\ computes (wm w2) (cal_exists enum2 slot2 d3 d4 (wm w2) f2) E.
Proof. exact W_history. Qed.
Print Assumptions C12_history_partial.
(** Without that condition it is false: after 65535 more operations with the temporary association an old result is taken for the
    answer. *)
Theorem C12_refuted : exists w f F S n, reachable w /\ In f (wh w) /\ mcur (wm w) = None /\ current_means (wm w) S /\ means (wm w) f F /\
  means (N.iter n (quantify_constant reversed slot0) (wm w)) f F /\
  exists h m' H, cal_exists reversed slot0 dec0 dec0 (N.iter n (quantify_constant reversed slot0) (wm w)) f = Ok (h, m') /\ means m' h H /\ ~ is_exists S F H.
Proof. exact exhausted. Qed.
Print Assumptions C12_refuted.

(** C30, partial: answers are the same as with an empty computed table. *)
Theorem C30_remembered_results_partial : forall w f g F G S, reachable w -> In f (wh w) -> In g (wh w) -> means (wm w) f F -> means (wm w) g G ->
  current_means (wm w) S -> room_for_temporary (wm w) ->
  (exists E, forall enum slot d1 d2, good_enum enum -> computes (wm w) (cal_exists enum slot d1 d2 (wm w) f) E /\
     computes (forgetful (wm w)) (cal_exists enum slot d1 d2 (forgetful (wm w)) f) E) /\
  (exists E, forall enum slot d1 d2, good_enum enum -> computes (wm w) (cal_forall enum slot d1 d2 (wm w) f) E /\
     computes (forgetful (wm w)) (cal_forall enum slot d1 d2 (forgetful (wm w)) f) E) /\
  (exists E, forall enum slot d1 d2, good_enum enum -> computes (wm w) (cal_relprod enum slot d1 d2 (wm w) f g) E /\
     computes (forgetful (wm w)) (cal_relprod enum slot d1 d2 (forgetful (wm w)) f g) E).
Proof. exact P_remembered. Qed.
Print Assumptions C30_remembered_results_partial.
(** A world with a remembered result that outlived a garbage collection. *)
Example C30_example : reachable qworld /\ In (q_h 1) (wh qworld) /\ remembered slot0 (wm qworld) 16384 (q_h 1) /\
  room_for_temporary (wm qworld).
Proof. exact qworld_example. Qed.
