(** * Properties of the interface operations.

    Every theorem is about worlds [reachable] from a fresh manager by any sequence of
    interface calls (see SpecApi.v); decisions that depend on addresses or counters ([d],
    [d1], [d2], [ds], [enum]) are arbitrary.  The examples use the world [demo]: four variables,
    the conjunction of the first two, an exclusive or that was freed and collected, and some
    more operations. *)
From Coq Require Import Permutation.
From Verif Require Import Base BFModel ITEModel MgrModel ApiModel SpecApi Client ApiLemmas ApiFacts.

Example demo_reachable : reachable demo. Proof. exact (run_reachable _). Qed.
Example demo_handles : length (wh demo) = 7%nat /\ numvars (wm demo) = 4 /\ In h_and (wh demo) /\ In h_ite (wh demo) /\
  means (wm demo) h_and (fun rho => rho 1 && rho 2) /\ means (wm demo) h_ite (fun rho => if rho 3 then rho 1 && rho 2 else rho 4).
Proof. exact demo_facts. Qed.

(** C01 *)
Theorem C01_binary_operators : forall w f g F G, reachable w -> In f (wh w) -> In g (wh w) ->
  means (wm w) f F -> means (wm w) g G -> forall enum d1 d2, good_enum enum ->
  computes (wm w) (cal_and enum d1 d2 (wm w) f g) (fun rho => F rho && G rho) /\
  computes (wm w) (cal_nand enum d1 d2 (wm w) f g) (fun rho => negb (F rho && G rho)) /\
  computes (wm w) (cal_or enum d1 d2 (wm w) f g) (fun rho => F rho || G rho) /\
  computes (wm w) (cal_nor enum d1 d2 (wm w) f g) (fun rho => negb (F rho || G rho)) /\
  computes (wm w) (cal_xor enum d1 d2 (wm w) f g) (fun rho => xorb (F rho) (G rho)) /\
  computes (wm w) (cal_xnor enum d1 d2 (wm w) f g) (fun rho => negb (xorb (F rho) (G rho))).
Proof. exact (fun w f g F G R If Ig Mf Mg => W_ops w R f g F G If Ig Mf Mg). Qed.
Print Assumptions C01_binary_operators.
(** Every live handle has a meaning, so the hypotheses about [F] and [G] can always be met,
    and the meaning is unique. *)
Theorem C01_handles_have_meaning : forall w f, reachable w -> In f (wh w) ->
  exists F, means (wm w) f F /\ forall F', means (wm w) f F' -> same F F'.
Proof. exact every_handle_means. Qed.
Print Assumptions C01_handles_have_meaning.
Example C01_example : good_enum listed /\ good_enum reversed /\ exists h m', cal_xor listed dec1 dec1 (wm demo) h_and h_ite = Ok (h, m') /\
  value m' h (fun i => i =? 4) = Some true /\ value m' h (fun _ => true) = Some false /\ ~ overflowed (wm demo) h m'.
Proof. exact (conj listed_good (conj reversed_good xor_example)). Qed.

(** C02 *)
Theorem C02_if_then_else : forall w f g h F G H, reachable w -> In f (wh w) -> In g (wh w) -> In h (wh w) ->
  means (wm w) f F -> means (wm w) g G -> means (wm w) h H -> forall enum d1 d2, good_enum enum ->
  computes (wm w) (cal_ite enum d1 d2 (wm w) f g h) (fun rho => if F rho then G rho else H rho).
Proof. exact (fun w f g h F G H R => W_ite w R f g h F G H). Qed.
Print Assumptions C02_if_then_else.
Example C02_example : exists h m', cal_ite listed dec1 dec1 (wm demo) h_and h_ite (cal_zero (wm demo)) = Ok (h, m') /\
  value m' h (fun _ => true) = Some true /\ value m' h (fun i => i =? 4) = Some false.
Proof. exact ite_example. Qed.

(** C03 *)
Theorem C03_equal_handles_equal_functions : forall w f g F G, reachable w -> In f (wh w) -> In g (wh w) ->
  means (wm w) f F -> means (wm w) g G -> (cal_isequal f g = true <-> same F G).
Proof. exact (fun w f g F G R => W_canonical w R f g F G). Qed.
Print Assumptions C03_equal_handles_equal_functions.
Example C03_example : cal_isequal h_and h_ite = false /\ exists h m', cal_and listed dec0 dec0 (wm demo) h_and h_and = Ok (h, m') /\ cal_isequal h h_and = true.
Proof. exact eq_example. Qed.

(** C04 *)
Theorem C04_other_handles_undisturbed : forall w w' h F, reachable w -> step w w' -> In h (wh w) -> In h (wh w') ->
  means (wm w) h F -> means (wm w') h F.
Proof. exact (fun w w' h F R => W_keep w R w' h F). Qed.
Print Assumptions C04_other_handles_undisturbed.
Example C04_example : step demo (World (gc (wm demo)) (wh demo)) /\ In h_and (wh demo).
Proof. exact gc_step_example. Qed.

(** C05 *)
Theorem C05_negation : forall w f F, reachable w -> In f (wh w) -> means (wm w) f F ->
  exists m', cal_not (wm w) f = Ok (unot f, m') /\ means m' (unot f) (fun rho => negb (F rho)) /\
    cal_isequal (unot (unot f)) f = true /\ cal_isequal (unot f) f = false.
Proof. exact (fun w f F R => W_not w R f F). Qed.
Print Assumptions C05_negation.
Theorem C05_constants : forall w, reachable w ->
  means (wm w) (cal_one (wm w)) (fun _ => true) /\ means (wm w) (cal_zero (wm w)) (fun _ => false) /\
  cal_isnull cal_null = true /\ forall f, In f (wh w) -> cal_isnull f = false.
Proof. exact (fun w R => W_consts w R). Qed.
Print Assumptions C05_constants.
Theorem C05_constant_tests : forall w f F, reachable w -> In f (wh w) -> means (wm w) f F ->
  (cal_isone (wm w) f = true <-> forall rho, F rho = true) /\ (cal_iszero (wm w) f = true <-> forall rho, F rho = false) /\
  (cal_isconst (wm w) f = true <-> exists b, forall rho, F rho = b).
Proof. exact (fun w f F R => W_tests w R f F). Qed.
Print Assumptions C05_constant_tests.
Theorem C05_identity : forall w f F, reachable w -> In f (wh w) -> means (wm w) f F ->
  exists m', cal_identity (wm w) f = Ok (f, m') /\ means m' f F.
Proof. exact (fun w f F R => W_identity w R f F). Qed.
Print Assumptions C05_identity.
Example C05_example : cal_isconst (wm demo) h_and = false /\ exists h m', cal_xnor listed dec0 dec0 (wm demo) h_and h_and = Ok (h, m') /\ cal_isone m' h = true.
Proof. exact const_example. Qed.

(** C06 *)
Theorem C06_shannon_expansion : forall w f F d, reachable w -> In f (wh w) -> means (wm w) f F -> cal_isconst (wm w) f = false ->
  exists i m1, cal_ifid d (wm w) f = Ok (i, m1) /\ cal_ifindex d (wm w) f = Ok (idx (mo m1) i, m1) /\
    nth_error (ord (mo m1)) (N.to_nat (idx (mo m1) i)) = Some i /\
    depends F i /\ (forall j, In j (ord (mo m1)) -> idx (mo m1) j < idx (mo m1) i -> ~ depends F j) /\
    returns (cal_if d (wm w) f) (fun rho => rho i) /\
    returns (cal_then d (wm w) f) (fun rho => F (assign rho i true)) /\
    returns (cal_else d (wm w) f) (fun rho => F (assign rho i false)).
Proof. exact (fun w f F d R => W_shannon w R f F d). Qed.
Print Assumptions C06_shannon_expansion.
Theorem C06_expansion_and_independence : forall w f F i, reachable w -> In f (wh w) -> means (wm w) f F ->
  (forall rho, F rho = if rho i then F (assign rho i true) else F (assign rho i false)) /\
  ~ depends (fun rho => F (assign rho i true)) i /\ ~ depends (fun rho => F (assign rho i false)) i.
Proof. exact shannon_facts. Qed.
Print Assumptions C06_expansion_and_independence.
Example C06_example : exists m1, cal_ifid dec1 (wm demo) h_ite = Ok (1, m1) /\ exists h m', cal_else dec1 (wm demo) h_ite = Ok (h, m') /\ value m' h (fun i => i =? 4) = Some true.
Proof. exact if_example. Qed.
(** On constants the three functions read uninitialised or unrelated memory. *)
Theorem C06_on_constants_refuted : exists w f, reachable w /\ In f (wh w) /\ forall d,
  cal_if d (wm w) f = Undefined /\ cal_then d (wm w) f = Undefined /\ cal_else d (wm w) f = Undefined.
Proof. exact const_parts_refuted. Qed.
Print Assumptions C06_on_constants_refuted.

(** C07: true when the last pair that needs work has the topmost variable. *)
Theorem C07_pairwise_partial : forall w l Fs Gs, reachable w -> l <> [] -> Nat.even (length l) = true -> args (wh w) l ->
  each (fun p F => means (wm w) (fst p) F) (pairs l) Fs -> each (fun p G => means (wm w) (snd p) G) (pairs l) Gs ->
  forall enum op post ds d, good_enum enum -> In op [op_and; op_or; op_xor] ->
  (forall m1, preproc_each ds (wm w) l = Ok m1 -> last_pending_is_top (mo m1) op (pairs (map (uint (mmem m1)) l))) ->
  exists us m', pairwise enum op post ds d (wm w) l = Ok (Some us, m') /\ length us = length Fs /\
    ((forall h, In h us -> overflowed (wm w) h m') \/
     each (fun h FG => means m' h (fun rho => bsem op (fst FG rho) (snd FG rho))) us (combine Fs Gs)).
Proof. exact (fun w l Fs Gs R => W_pairwise w R l Fs Gs). Qed.
Print Assumptions C07_pairwise_partial.
Example C07_example : exists us m', cal_pairwise_and listed (fun _ => dec0) dec0 (wm demo) [h_var 3; h_var 4; h_var 1; h_var 2] = Ok (Some us, m') /\
  map (fun h => value m' h (fun i => i <=? 3)) us = [Some false; Some true].
Proof. exact pairwise_example. Qed.
(** In general it is false: the conjunctions of (x1,x2) and of (x3,x4), asked for together. *)
Theorem C07_pairwise_refuted : exists w l, reachable w /\ args (wh w) l /\
  exists us m', cal_pairwise_and listed (fun _ => dec0) dec0 (wm w) l = Ok (Some us, m') /\
  exists f g F G h, hd_error (pairs l) = Some (f, g) /\ means (wm w) f F /\ means (wm w) g G /\ hd_error us = Some h /\
    cal_isnull h = false /\ ~ means m' h (fun rho => F rho && G rho).
Proof. exact pairwise_refuted. Qed.
Print Assumptions C07_pairwise_refuted.

(** C08 *)
Theorem C08_multiway : forall w l Fs, reachable w -> l <> [] -> N.of_nat (length l) <= 1024 -> args (wh w) l -> each (means (wm w)) l Fs ->
  forall enum ds, good_enum enum ->
  returns (cal_multiway_and enum ds (wm w) l) (fun rho => all_true (map (fun F => F rho) Fs)) /\
  returns (cal_multiway_or enum ds (wm w) l) (fun rho => some_true (map (fun F => F rho) Fs)) /\
  returns (cal_multiway_xor enum ds (wm w) l) (fun rho => odd_true (map (fun F => F rho) Fs)).
Proof. exact (fun w l Fs R => W_multiway w R l Fs). Qed.
Print Assumptions C08_multiway.
Example C08_example : exists h m', cal_multiway_xor listed (fun _ => dec0) (wm demo) [h_var 1; h_and; h_ite; h_var 2; h_var 1] = Ok (h, m') /\
  value m' h (fun _ => true) = Some true /\ value m' h (fun i => i =? 2) = Some true.
Proof. exact multiway_example. Qed.

(** C09 *)
Theorem C09_intersects_and_implies : forall w f g F G d, reachable w -> In f (wh w) -> In g (wh w) -> means (wm w) f F -> means (wm w) g G ->
  (exists H, returns (cal_intersects d (wm w) f g) H /\ (forall rho, H rho = true -> F rho = true /\ G rho = true) /\
     ((forall rho, H rho = false) <-> forall rho, F rho && G rho = false)) /\
  (exists H, returns (cal_implies d (wm w) f g) H /\ (forall rho, H rho = true -> F rho = true /\ G rho = false) /\
     ((forall rho, H rho = false) <-> forall rho, F rho = true -> G rho = true)).
Proof. exact (fun w f g F G d R => W_intersects w R f g F G d). Qed.
Print Assumptions C09_intersects_and_implies.
Example C09_example : exists h m', cal_implies dec1 (wm demo) h_ite h_and = Ok (h, m') /\ cal_iszero m' h = false.
Proof. exact implies_example. Qed.

(** C26 *)
Theorem C26_collection_keeps_functions : forall w f F, reachable w -> In f (wh w) -> means (wm w) f F -> means (gc (wm w)) f F.
Proof. exact (fun w f F R => W_gc w R f F). Qed.
Print Assumptions C26_collection_keeps_functions.
Theorem C26_collection_keeps_associations : forall w a i e, reachable w -> In a (mtemp (wm w) :: massoc (wm w)) -> amap a i = Some e ->
  In a (mtemp (gc (wm w)) :: massoc (gc (wm w))) /\
  forall rho b, ev (mmem (wm w)) rho e b -> ev (mmem (gc (wm w))) rho e b.
Proof. exact gc_assoc. Qed.
Print Assumptions C26_collection_keeps_associations.
Theorem C26_after_collection_reachable : forall w, reachable w -> reachable (World (gc (wm w)) (wh w)).
Proof. exact gc_reachable. Qed.
Print Assumptions C26_after_collection_reachable.

(** C27 *)
Theorem C27_collection_is_complete : forall w i b, reachable w -> In b (ut (st (me (gc (wm w)))) i) -> in_use (gc (wm w)) (wh w) b.
Proof. exact (fun w i b R => W_gc_complete w R i b). Qed.
Print Assumptions C27_collection_is_complete.
Example C27_example : nn (st (me (wm garbage))) = 15 /\ nn (st (me (gc (wm garbage)))) = 11 /\ reachable garbage.
Proof. exact garbage_example. Qed.

(** C32 *)
Theorem C32_order_is_a_permutation : forall w, reachable w ->
  NoDup (ord (mo (wm w))) /\ (forall i, In i (ord (mo (wm w))) <-> 1 <= i <= numvars (wm w)) /\
  forall i k, nth_error (ord (mo (wm w))) k = Some i <-> In i (ord (mo (wm w))) /\ idx (mo (wm w)) i = N.of_nat k.
Proof. exact (fun w R => W_order w R). Qed.
Print Assumptions C32_order_is_a_permutation.
Theorem C32_new_variable_position : forall w, reachable w -> numvars (wm w) < 65534 -> let v := numvars (wm w) + 1 in
  let made r o := exists h m', r = Ok (h, m') /\ cal_isnull h = false /\ means m' h (fun rho => rho v) /\ ord (mo m') = o in
  made (cal_newvar_first (wm w)) (v :: ord (mo (wm w))) /\ made (cal_newvar_last (wm w)) (ord (mo (wm w)) ++ [v]) /\
  (forall f i, In f (wh w) -> means (wm w) f (fun rho => rho i) -> In i (ord (mo (wm w))) ->
     exists l1 l2, ord (mo (wm w)) = l1 ++ i :: l2 /\ made (cal_newvar_before (wm w) f) (l1 ++ v :: i :: l2) /\
       made (cal_newvar_after (wm w) f) (l1 ++ i :: v :: l2)).
Proof. exact (fun w R => W_newvar_positions w R). Qed.
Print Assumptions C32_new_variable_position.
Example C32_example : ord (mo (wm demo)) = [1; 4; 2; 3] /\ In (h_var 2) (wh demo) /\ means (wm demo) (h_var 2) (fun rho => rho 2) /\
  exists h m', cal_newvar_after (wm demo) (h_var 2) = Ok (h, m') /\ ord (mo m') = [1; 4; 2; 5; 3].
Proof. exact order_example. Qed.

(** C41 *)
Theorem C41_null_operands : forall w f g k, reachable w -> arg (wh w) f -> arg (wh w) g -> arg (wh w) k ->
  (uisnull f = true \/ uisnull g = true -> forall enum op neg d1 d2, binary enum op neg d1 d2 (wm w) f g = Ok (unull, wm w)) /\
  (uisnull f = true \/ uisnull g = true \/ uisnull k = true -> forall enum d1 d2, cal_ite enum d1 d2 (wm w) f g k = Ok (unull, wm w)) /\
  (uisnull f = true \/ uisnull g = true -> forall neg d, intersects neg d (wm w) f g = Ok (unull, wm w)) /\
  (uisnull f = true -> forall d, cal_if d (wm w) f = Ok (unull, wm w) /\ cal_then d (wm w) f = Ok (unull, wm w) /\ cal_else d (wm w) f = Ok (unull, wm w)).
Proof. exact (fun w f g k R => W_null w R f g k). Qed.
Print Assumptions C41_null_operands.
Theorem C41_overflow_keeps_handles : forall w f g enum op neg d1 d2 h m', reachable w -> In f (wh w) -> In g (wh w) -> good_enum enum ->
  In op [op_and; op_nand; op_or; op_xor] -> binary enum op neg d1 d2 (wm w) f g = Ok (h, m') -> cal_isnull h = true ->
  fst (cal_overflow m') = true /\ mnl (wm w) <> 0 /\ forall k K, In k (wh w) -> means (wm w) k K -> means m' k K.
Proof. exact (fun w f g enum op neg d1 d2 h m' R => W_overflow w R f g enum op neg d1 d2 h m'). Qed.
Print Assumptions C41_overflow_keeps_handles.
Example C41_example : reachable tight /\ exists h m', cal_xor listed dec1 dec1 (wm tight) h_and h_ite = Ok (h, m') /\ cal_isnull h = true /\
  value m' h_ite (fun i => i =? 4) = Some true.
Proof. exact overflow_example. Qed.
(** [Cal_BddIdentity] and [Cal_BddNot] of a null handle dereference it. *)
Theorem C41_null_refuted : forall m, cal_identity m cal_null = Undefined /\ cal_not m cal_null = Undefined /\ cal_free m cal_null = Undefined.
Proof. exact null_refuted. Qed.
Print Assumptions C41_null_refuted.

(** C42: never above a node limit, and within both bounds after every recomputation. *)
Theorem C42_limit_partial : forall w, reachable w -> mnl (wm w) <> 0 -> mlim (wm w) <= mnl (wm w).
Proof. exact W_limit. Qed.
Print Assumptions C42_limit_partial.
Theorem C42_recomputed_limit : forall m, let l := mlim (set_gclimit m) in
  (10000 <= l \/ (mnl m <> 0 /\ l = mnl m)) /\ (mnl m <> 0 -> l <= mnl m) /\
  (mnl m = 0 \/ 2 * nn (st (me m)) <= mnl m -> 2 * nn (st (me m)) <= l \/ l = mnl m).
Proof. exact gclimit_bounds. Qed.
Print Assumptions C42_recomputed_limit.
(** Imposing a small node limit and lifting it again leaves a limit below the minimum. *)
(** A check that finds more nodes than the limit recomputes it, and reports an overflow exactly when after the collection
    there are still more nodes than allowed. *)
Theorem C42_check : forall d m, d_chk d = false -> mlim m < nn (st (me m)) -> let '(over, m') := postproc d m in
  (10000 <= mlim m' \/ (mnl m' <> 0 /\ mlim m' = mnl m')) /\
  (over = true <-> mnl m' <> 0 /\ mnl m' < nn (st (me m'))) /\ (over = true -> mov m' = true) /\ mnl m' = mnl m.
Proof. exact check_facts. Qed.
Print Assumptions C42_check.
(** [Cal_BddNodeLimit] answers with the old limit and sets the new one (negative: none); nothing else changes but the
    collection limit, which does not grow. *)
Theorem C42_node_limit : forall m z, let '(old, m') := cal_nodelimit m z in
  old = mnl m /\ mnl m' = Z.to_N (Z.max 0 z) /\ me m' = me m /\ mo m' = mo m /\ mov m' = mov m /\ mlim m' <= mlim m.
Proof. exact nodelimit_facts. Qed.
Print Assumptions C42_node_limit.
Example C42_check_example : mlim (wm crowded) < nn (st (me (wm crowded))).
Proof. exact crowded_full. Qed.
Theorem C42_limit_refuted : exists w, reachable w /\ mnl (wm w) = 0 /\ mlim (wm w) < 10000.
Proof. exact limit_refuted. Qed.
Print Assumptions C42_limit_refuted.
