(** * Properties of the read-only graph algorithms.

    See SpecApi.v for [reachable], [means], [returns], [depends], [same] and SpecGraph.v for the
    vocabulary of cubes, counting and restrictions. *)
From Coq Require Import QArith Qabs.
From Verif Require Import SpecRound Base BFModel ITEModel MgrModel ApiModel GraphModel SpecApi SpecGraph Client ApiLemmas ApiFacts GraphApi GraphFacts.
Open Scope N_scope.

(** C20 *)
Theorem C20_satisfy : forall w f F d, reachable w -> In f (wh w) -> means (wm w) f F ->
  (same F (fun _ => false) -> returns (cal_satisfy d (wm w) f) (fun _ => false)) /\
  (~ same F (fun _ => false) -> exists L, NoDup (map fst L) /\ implies (cube_of L) F /\ (exists rho, cube_of L rho = true) /\
     returns (cal_satisfy d (wm w) f) (cube_of L)).
Proof. exact (fun w f F d R => W_satisfy w R f F d). Qed.
Print Assumptions C20_satisfy.
Example C20_example : ~ same (fun rho => if rho 3 then rho 1 && rho 2 else rho 4) (fun _ => false) /\
  exists h m', cal_satisfy dec1 (wm demo) h_ite = Ok (h, m') /\ value m' h (fun i => i <=? 4) = Some true /\ value m' h (fun i => i =? 4) = Some false.
Proof. exact satisfy_example. Qed.
Theorem C20_satisfy_support : forall w f F d, reachable w -> In f (wh w) -> means (wm w) f F ->
  (same F (fun _ => false) -> returns (cal_satisfy_support d (wm w) f) (fun _ => false)) /\
  (~ same F (fun _ => false) -> exists L, NoDup (map fst L) /\ implies (cube_of L) F /\ (exists rho, cube_of L rho = true) /\
     (forall i, amap (current (wm w)) i <> None -> In i (map fst L)) /\
     returns (cal_satisfy_support d (wm w) f) (cube_of L)).
Proof. exact (fun w f F d R => W_satisfy_support w R f F d). Qed.
Print Assumptions C20_satisfy_support.

(** C21: for any rounding with the properties stated in SpecRound.v; [share] is the exact value. *)
Theorem C21_satisfying_fraction : forall w f F rnd vs d, reachable w -> In f (wh w) -> means (wm w) f F -> rounding rnd -> NoDup vs ->
  exists q m', cal_fraction rnd d (wm w) f = Ok (q, m') /\
  ((forall i, In i (ord (mo m')) -> In i vs) -> forall rho,
    let share := (inject_Z (Z.of_N (sat_count vs F rho)) / p2 (length vs))%Q in
    ((length (ord (mo m')) <= 53)%nat -> (q == share)%Q) /\
    (Qabs (q - share) <= inject_Z (3 * Z.of_nat (length (ord (mo m')))) / p2 54)%Q).
Proof. exact (fun w f F rnd vs d R => W_fraction w R f F rnd vs d). Qed.
Print Assumptions C21_satisfying_fraction.
Example C21_example : rounding trunc54 /\ exists q m', cal_fraction trunc54 dec1 (wm demo) h_ite = Ok (q, m') /\ (q == 3 # 8)%Q /\
  sat_count [1; 2; 3; 4] (fun rho => if rho 3 then rho 1 && rho 2 else rho 4) (fun _ => false) = 6.
Proof. exact (conj trunc54_rounding fraction_example). Qed.

(** C22: sizes count the distinct subfunctions (without and with identification of complements),
    which for the first kind of counting are the distinct reachable addresses. *)
Theorem C22_size : forall w f F d neg, reachable w -> In f (wh w) -> means (wm w) f F ->
  exists n mk m', cal_size d (wm w) f neg = Ok ((n, mk), m') /\
  (forall p, mk p = 0) /\ number (up_to neg) (subfunction (ord (mo m')) [F]) n.
Proof. exact (fun w f F d neg R => W_size w R f F d neg). Qed.
Print Assumptions C22_size.
Theorem C22_size_counts_nodes : forall w f d, reachable w -> In f (wh w) ->
  exists n mk m' L, cal_size d (wm w) f true = Ok ((n, mk), m') /\
  n = N.of_nat (length L) /\ NoDup L /\ forall p, In p L <-> exists x, reaches (mmem m') (uint (mmem m') f) x /\ eptr x = p.
Proof. exact (fun w f d R => W_size_nodes w R f d). Qed.
Print Assumptions C22_size_counts_nodes.
Theorem C22_profile : forall w f F d neg, reachable w -> In f (wh w) -> means (wm w) f F ->
  exists lc mk m', cal_profile d (wm w) f neg = Ok ((Some lc, mk), m') /\
  (forall p, mk p = 0) /\ forall k, number (up_to neg) (fun G => subfunction (ord (mo m')) [F] G /\ top_at (ord (mo m')) G k) (lc k).
Proof. exact (fun w f F d neg R => W_profile w R f F d neg). Qed.
Print Assumptions C22_profile.
Theorem C22_size_multiple : forall w l Fs ds neg, reachable w -> args (wh w) l -> each (means (wm w)) l Fs ->
  exists n mk m', cal_size_multiple ds (wm w) l neg = Ok ((n, mk), m') /\
  (forall p, mk p = 0) /\ number (up_to neg) (subfunction (ord (mo m')) Fs) n.
Proof. exact (fun w l Fs ds neg R => W_size_multiple w R l Fs ds neg). Qed.
Print Assumptions C22_size_multiple.
Theorem C22_profile_multiple : forall w l Fs ds neg, reachable w -> args (wh w) l -> each (means (wm w)) l Fs ->
  exists lc mk m', cal_profile_multiple ds (wm w) l neg = Ok ((lc, mk), m') /\
  (forall p, mk p = 0) /\ forall k, number (up_to neg) (fun G => subfunction (ord (mo m')) Fs G /\ top_at (ord (mo m')) G k) (lc k).
Proof. exact (fun w l Fs ds neg R => W_profile_multiple w R l Fs ds neg). Qed.
Print Assumptions C22_profile_multiple.
(** The number of functions with a property is unique, so the statements above determine the results. *)
Theorem C22_numbers_are_unique : forall neg P n1 n2, number (up_to neg) P n1 -> number (up_to neg) P n2 -> n1 = n2.
Proof. exact (fun neg P n1 n2 => number_unique (up_to neg) P n1 n2 (up_to_equiv neg)). Qed.
Print Assumptions C22_numbers_are_unique.
Example C22_example : exists n k mk mk' m1 m2, cal_size dec1 (wm demo) h_ite true = Ok ((n, mk), m1) /\ cal_size dec1 (wm demo) h_ite false = Ok ((k, mk'), m2) /\ n = 7 /\ k = 9.
Proof. exact size_example. Qed.
Example C22_profile_example : exists lc mk m1, cal_profile dec1 (wm demo) h_ite false = Ok ((Some lc, mk), m1) /\ map lc [0; 1; 2; 3; 4] = [1; 2; 2; 2; 2].
Proof. exact profile_example. Qed.
Example C22_multiple_example : args (wh demo) [h_ite; h_and] /\ exists n mk m1, cal_size_multiple (fun _ => dec1) (wm demo) [h_ite; h_and] false = Ok ((n, mk), m1) /\ n = 11.
Proof. exact multiple_example. Qed.

(** C23 *)
Theorem C23_support : forall w f F d, reachable w -> In f (wh w) -> means (wm w) f F ->
  exists rs mk m' ids, cal_support d (wm w) f = Ok ((rs, mk), m') /\
  (forall p, mk p = false) /\ NoDup ids /\ (forall i, In i ids <-> depends F i) /\
  each (fun h i => cal_isnull h = false /\ means m' h (fun rho => rho i)) rs ids.
Proof. exact (fun w f F d R => W_support w R f F d). Qed.
Print Assumptions C23_support.
Example C23_support_example : exists rs mk m', cal_support dec1 (wm demo) h_and = Ok ((rs, mk), m') /\ rs = [h_var 1; h_var 2].
Proof. exact support_example. Qed.
(** The second operand is a variable or a negated variable. *)
Theorem C23_depends_on : forall w f v F i b d, reachable w -> In f (wh w) -> In v (wh w) ->
  means (wm w) f F -> means (wm w) v (fun rho => xorb b (rho i)) ->
  exists r mk m', cal_depends_on d (wm w) f v = Ok ((r, mk), m') /\ (forall p, mk p = false) /\ (r = true <-> depends F i).
Proof. exact (fun w f v F i b d R => W_depends w R f v F i b d). Qed.
Print Assumptions C23_depends_on.
Example C23_depends_example : means (wm demo) (h_var 2) (fun rho => xorb false (rho 2)) /\
  exists mk m', cal_depends_on dec1 (wm demo) h_and (h_var 2) = Ok ((true, mk), m').
Proof. exact depends_example. Qed.
(** A constant second operand is always answered with yes. *)
Theorem C23_constant_operand : forall w f v b d, reachable w -> In f (wh w) -> In v (wh w) -> means (wm w) v (fun _ => b) ->
  exists m', cal_depends_on d (wm w) f v = Ok ((true, nomark), m').
Proof. exact (fun w f v b d R => W_depends_const w R f v b d). Qed.
Print Assumptions C23_constant_operand.

(** C24: for functions other than zero; the program exits on zero. *)
Theorem C24_iscube : forall w f F, reachable w -> In f (wh w) -> means (wm w) f F ->
  (same F (fun _ => false) -> cal_iscube (wm w) f = Fatal) /\
  (~ same F (fun _ => false) -> exists b, cal_iscube (wm w) f = Ok b /\ (b = true <-> exists L, same F (cube_of L))).
Proof. exact (fun w f F R => W_iscube w R f F). Qed.
Print Assumptions C24_iscube.
Example C24_example : cal_iscube (wm demo) h_and = Ok true /\ cal_iscube (wm demo) h_ite = Ok false.
Proof. exact cube_example. Qed.
Theorem C24_zero_refuted : exists w f, reachable w /\ In f (wh w) /\ means (wm w) f (fun _ => false) /\ cal_iscube (wm w) f = Fatal.
Proof. exact iscube_zero. Qed.
Print Assumptions C24_zero_refuted.

(** C25 *)
Theorem C25_type : forall w f F d, reachable w -> In f (wh w) -> means (wm w) f F ->
  exists t m', cal_type d (wm w) f = Ok (t, m') /\
  In t [TYPE_NONTERMINAL; TYPE_ZERO; TYPE_ONE; TYPE_POSVAR; TYPE_NEGVAR] /\
  (t = TYPE_ZERO <-> same F (fun _ => false)) /\ (t = TYPE_ONE <-> same F (fun _ => true)) /\
  (t = TYPE_POSVAR <-> exists i, same F (fun rho => rho i)) /\ (t = TYPE_NEGVAR <-> exists i, same F (fun rho => negb (rho i))).
Proof. exact (fun w f F d R => W_type w R f F d). Qed.
Print Assumptions C25_type.
Theorem C25_type_of_null : forall w f d, reachable w -> uisnull f = true -> cal_type d (wm w) f = Ok (TYPE_OVERFLOW, wm w).
Proof. exact (fun w f d R => W_type_null w R f d). Qed.
Print Assumptions C25_type_of_null.
Example C25_example : exists m1 m2, cal_type dec1 (wm demo) h_ite = Ok (TYPE_NONTERMINAL, m1) /\ cal_type dec1 (wm demo) (h_var 2) = Ok (TYPE_POSVAR, m2).
Proof. exact type_example. Qed.

(** C48 *)
Theorem C48_function_profile : forall w f F d1 d2, reachable w -> In f (wh w) -> means (wm w) f F ->
  exists R m', cal_function_profile d1 d2 (wm w) f = Ok (Some R, m') /\
  forall k i, nth_error (ord (mo m')) (N.to_nat k) = Some i ->
    (depends F i -> exists n, R k = Z.of_N n /\ number same (restriction (ord (mo m')) k F) n) /\
    (~ depends F i -> R k = 0%Z).
Proof. exact (fun w f F d1 d2 R => W_function_profile w R f F d1 d2). Qed.
Print Assumptions C48_function_profile.
Example C48_example : exists R m1, cal_function_profile dec1 dec1 (wm demo) h_ite = Ok (Some R, m1) /\ map (fun k => Z.to_N (R k)) [0; 1; 2; 3] = [1; 2; 4; 4].
Proof. exact fprofile_example. Qed.
