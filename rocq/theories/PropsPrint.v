(** * Properties of printed profiles, C++ profiles and the collection mode.

    See SpecApi.v for [reachable] and [means], SpecGraph.v for the counting of subfunctions and SpecPrint.v for the
    layout of the text. *)
From Coq Require Import String.
From Verif Require Import Base BFModel MgrModel ApiModel GraphModel SpecApi SpecGraph Client ApiFacts GraphApi PrintModel SpecPrint PrintFacts.
Open Scope N_scope.

(** C49: [Cal_BddPrintProfile] prints the numbers of nodes of every level, aligned, with bars scaled to the line. *)
Theorem C49_print_profile : forall w f F d1 d2 naming len, reachable w -> In f (wh w) -> means (wm w) f F ->
  exists lines lc m', cal_print_profile d1 d2 (wm w) f naming len = Ok (Some lines, m') /\
    profile_text naming len (ord (mo m')) lc lines /\
    forall k, number (up_to true) (fun G => subfunction (ord (mo m')) [F] G /\ top_at (ord (mo m')) G k) (lc k).
Proof. exact (fun w f F d1 d2 naming len R => W_print_profile w R f F d1 d2 naming len). Qed.
Print Assumptions C49_print_profile.
Example C49_print_example : printed_lines (cal_print_profile dec1 dec1 (wm demo) h_ite (fun _ => None) 79) =
  ["var.0: 1 #"; "var.1: 2 ##"; "var.2: 2 ##"; "var.3: 1 #"; "leaf:  1 #"; "Total: 7"]%string.
Proof. exact print_example. Qed.

(** [Cal_BddPrintFunctionProfile] prints nothing for every handle, and prints an array it never wrote for a null one. *)
Theorem C49_print_function_profile_refuted : exists w f F d1 d2 d3 m', reachable w /\ In f (wh w) /\ means (wm w) f F /\
  cal_print_function_profile d1 d2 d3 (wm w) f (fun _ => None) 79 = Ok (None, m').
Proof. exact print_function_refuted. Qed.
Print Assumptions C49_print_function_profile_refuted.
Theorem C49_print_function_profile_never_prints : forall w f F d1 d2 d3 naming len, reachable w -> In f (wh w) -> means (wm w) f F ->
  exists m', cal_print_function_profile d1 d2 d3 (wm w) f naming len = Ok (None, m').
Proof. exact (fun w f F d1 d2 d3 naming len R => W_print_function_profile w R f F d1 d2 d3 naming len). Qed.
Print Assumptions C49_print_function_profile_never_prints.
Theorem C49_print_function_profile_of_null : forall w f d1 d2 d3 naming len, reachable w -> uisnull f = true ->
  cal_print_function_profile d1 d2 d3 (wm w) f naming len = Undefined.
Proof. exact (fun w f d1 d2 d3 naming len R => W_print_function_profile_null w R f d1 d2 d3 naming len). Qed.
Print Assumptions C49_print_function_profile_of_null.

(** The vectors [BDD::Profile()] and [BDD::FunctionProfile()] return are empty for every handle. *)
Theorem C49_cpp_profile_refuted : forall w f F d neg, reachable w -> In f (wh w) -> means (wm w) f F ->
  exists v m', cpp_profile d (wm w) f neg = Ok (v, m') /\ vec_list v = [].
Proof. exact (fun w f F d neg R => W_cpp_profile w R f F d neg). Qed.
Print Assumptions C49_cpp_profile_refuted.
Theorem C49_cpp_function_profile_refuted : forall w f F d1 d2, reachable w -> In f (wh w) -> means (wm w) f F ->
  exists v m', cpp_function_profile d1 d2 (wm w) f = Ok (v, m') /\ vec_list v = [].
Proof. exact (fun w f F d1 d2 R => W_cpp_function_profile w R f F d1 d2). Qed.
Print Assumptions C49_cpp_function_profile_refuted.
Example C49_example : reachable demo /\ In h_ite (wh demo) /\ means (wm demo) h_ite (fun rho => if rho 3 then rho 1 && rho 2 else rho 4)%bool.
Proof. exact print_setting. Qed.

(** C52: with the mode set to "off" a call still collects: four nodes disappear. *)
Theorem C52_mode_refuted : exists w f x n x', reachable w /\ In f (wh w) /\ x = set_gc_mode (Moded 1 (wm w)) 0 /\
  moded_size dec1 x f true = Ok (n, x') /\ gcmode x' = 0 /\ node_count (gcmgr x) = 15 /\ node_count (gcmgr x') = 11.
Proof. exact mode_refuted. Qed.
Print Assumptions C52_mode_refuted.

(** C52: the check that reads the mode would leave the manager alone; the one that is in use does the same whatever
    the mode is. *)
Theorem C52_check_respects_mode : forall d m k, gcmgr (gc_check d (set_gc_mode (Moded k m) 0)) = m.
Proof. exact check_mode. Qed.
Print Assumptions C52_check_respects_mode.
Theorem C52_mode_ignored : forall d x f neg k, match moded_size d (set_gc_mode x k) f neg, moded_size d x f neg with
  | Ok (n, y), Ok (n', y') => n = n' /\ gcmgr y = gcmgr y' | Fatal, Fatal | Undefined, Undefined => True | _, _ => False end.
Proof. exact mode_ignored. Qed.
Print Assumptions C52_mode_ignored.
