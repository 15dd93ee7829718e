(** * Properties of variable associations: C35, C36. *)
From Verif Require Import Base BFModel MgrModel ApiModel GraphModel AssocModel SpecApi SpecAssoc Client ApiFacts AssocWorld AssocFacts.

(** C35: a new association gets the identifier of an association with the same functions if
    there is one and an unused identifier otherwise; other associations stay as they are.  A list of
    pairs that gives an image to something that is not a variable is rejected. *)
Theorem C35_init : forall w ds l pr, reachable w -> args (wh w) l -> no_constants (wm w) pr l -> distinct_variables pr l ->
  room_for_association (wm w) ->
  exists r m', cal_assoc_init ds (wm w) l pr = Ok (r, m') /\
    match r with
    | Some j => exists S, describes m' pr l S /\ assoc_means m' j S /\
        (forall i T, assoc_means (wm w) i T -> assoc_means m' i T /\ (i = j <-> same_substitution T S)) /\
        (forall i T, assoc_means m' i T -> i = j \/ assoc_means (wm w) i T)
    | None => pr = true /\ (exists p, In p (pairs l) /\ forall i, ~ is_variable (wm w) (fst p) i) /\
        forall i T, assoc_means (wm w) i T <-> assoc_means m' i T
    end.
Proof. exact W_assoc_init. Qed.
Print Assumptions C35_init.
Example C35_init_example : args (wh aworld) [a_h 2; a_h 5] /\ no_constants (wm aworld) false [a_h 2; a_h 5] /\
  distinct_variables false [a_h 2; a_h 5] /\ room_for_association (wm aworld) /\
  exists m', cal_assoc_init (fun _ => dec0) (wm aworld) [a_h 2; a_h 5] false = Ok (Some 0, m').
Proof. exact share_example. Qed.
Example C35_reject_example : args (wh aworld) [a_h 1; a_h 5] /\
  exists m', cal_assoc_init (fun _ => dec0) (wm aworld) [a_h 1; a_h 5] true = Ok (None, m').
Proof. exact reject_example. Qed.

(** An association exists as long as it was not given up as often as it was initialised. *)
Theorem C35_lifetime : forall w ids j, holding w ids -> ((exists S, assoc_means (wm w) j S) <-> In j ids).
Proof. exact W_lifetime. Qed.
Print Assumptions C35_lifetime.
Theorem C35_every_world_has_holdings : forall w, reachable w -> exists ids, holding w ids.
Proof. exact reachable_holding. Qed.
Print Assumptions C35_every_world_has_holdings.
(** While it exists it keeps its functions. *)
Theorem C35_kept : forall w w' j S, reachable w -> step w w' -> assoc_means (wm w) j S -> (exists T, assoc_means (wm w') j T) ->
  assoc_means (wm w') j S.
Proof. exact W_assoc_kept. Qed.
Print Assumptions C35_kept.
Example C35_example : holding aworld [1; 0; 0] /\ assoc_means (wm aworld) 0 s_plain /\ assoc_means (wm aworld) 1 s_pair.
Proof. exact (conj aworld_holds (conj aworld_plain aworld_pair)). Qed.

(** Selecting an association. *)
Theorem C35_select : forall w ids j, holding w ids ->
  exists m', cal_assoc_set_current (wm w) (Some j) = (mcur (wm w), m') /\
    (In j ids -> mcur m' = Some j) /\ (~ In j ids -> mcur m' = None) /\
    forall i S, assoc_means m' i S <-> assoc_means (wm w) i S.
Proof. exact W_set_current. Qed.
Print Assumptions C35_select.

(** The temporary association. *)
Theorem C35_temporary : forall w ds l pr S0, reachable w -> args (wh w) l -> no_constants (wm w) pr l -> distinct_variables pr l ->
  temp_means (wm w) S0 ->
  exists m', cal_temp_augment ds (wm w) l pr = Ok m' /\
    ((exists S, describes m' pr l S /\ temp_means m' (override S0 S)) \/
     (pr = true /\ (exists p, In p (pairs l) /\ forall i, ~ is_variable (wm w) (fst p) i) /\ temp_means m' S0)).
Proof. exact W_augment. Qed.
Print Assumptions C35_temporary.
Example C35_temporary_example : reachable aworld /\ temp_means (wm aworld) s_temp.
Proof. exact (conj aworld_reachable aworld_temp). Qed.

(** The current association does not stay current while it is held. *)
Theorem C35_current_refuted : exists w ids j, holding w ids /\ mcur (wm w) = Some j /\ In j (give_up j ids) /\
  mcur (cal_assoc_quit (wm w) j) = None.
Proof. exact current_refuted. Qed.
Print Assumptions C35_current_refuted.
(** With a variable listed twice, giving the association up leaves a node behind for good. *)
Theorem C35_duplicate_refuted : exists w l h, reachable w /\ args (wh w) l /\ room_for_association (wm w) /\ In h (wh w) /\
  exists j m', cal_assoc_init (fun _ => dec0) (wm w) l true = Ok (Some j, m') /\
    massoc (cal_assoc_quit m' j) = massoc (wm w) /\
    nn (st (me (freed (wm w) h))) < nn (st (me (freed (cal_assoc_quit m' j) h))).
Proof. exact duplicate_refuted. Qed.
Print Assumptions C35_duplicate_refuted.

(** C36 over all sequences of modelled calls, reordering included.  Partial: such a sequence puts no constant into a plain
    association ([no_constants]) and reorders only when [ready_to_reorder]. *)
Theorem C36_last_index_partial : forall w a, reachable w -> In a (mtemp (wm w) :: massoc (wm w)) ->
  last_position (ord (mo (wm w))) (fun i => amap a i <> None) (alast a).
Proof. exact W_last. Qed.
Print Assumptions C36_last_index_partial.
Example C36_example : alast (a_of 0) = 1%Z /\ alast (a_of 1) = 2%Z /\ alast (a_of 2) = 3%Z.
Proof. exact last_example. Qed.
(** Without [no_constants] it fails. *)
Theorem C36_constant_refuted : exists w l, reachable w /\ args (wh w) l /\ room_for_association (wm w) /\
  exists j m', cal_assoc_init (fun _ => dec0) (wm w) l false = Ok (Some j, m') /\
    exists a, In a (massoc m') /\ aid a = j /\ ~ last_position (ord (mo m')) (fun i => amap a i <> None) (alast a).
Proof. exact constant_refuted. Qed.
Print Assumptions C36_constant_refuted.
