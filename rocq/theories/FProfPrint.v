(** * Printed profiles of several functions (executable model): /repo/src/calPrintProfile.c:106-123, 152-167. *)
From Coq Require Import String.
From Verif Require Import Base BFModel MgrModel ApiModel GraphModel PrintModel FProfModel.
Open Scope N_scope.

(** [CalBddArrayPreProcessing] (/repo/src/calUtil.c:259-270): up to the first handle that fails. *)
Fixpoint preproc_array (ds : nat -> dec) (m : mgr) (hs : list ubdd) : outcome (bool * mgr) :=
  match hs with
  | [] => Ok (true, m)
  | h :: hs => obind (preproc (ds 0%nat) m [h]) (fun '(ok, m1) => if ok then preproc_array (fun k => ds (S k)) m1 hs else Ok (false, m1))
  end.
(** [Cal_BddPrintProfileMultiple] (/repo/src/calPrintProfile.c:106-123).  [None]: nothing is printed. *)
Definition cal_print_profile_multiple (d1 d2 : nat -> dec) (m : mgr) (fs : list ubdd) (naming : N -> option string) (len : Z)
  : outcome (option (list string) * mgr) :=
  obind (preproc_array d1 m (upto_null fs)) (fun '(ok, m1) =>
    if negb ok then Ok (None, m1)
    else obind (cal_profile_multiple d2 m1 fs true) (fun '((lc, _), m2) => Ok (Some (print_aux (mo m2) naming len lc), m2))).
(** [Cal_BddPrintFunctionProfileMultiple] (/repo/src/calPrintProfile.c:152-167).  The counts are taken for numbers that are not
    negative. *)
Definition cal_print_function_profile_multiple (d1 d2 : nat -> dec) (m : mgr) (fs : list ubdd) (naming : N -> option string) (len : Z)
  : outcome (option (list string) * mgr) :=
  obind (preproc_array d1 m (upto_null fs)) (fun '(ok, m1) =>
    if negb ok then Ok (None, m1)
    else obind (cal_function_profile_multiple d2 m1 fs) (fun '(lc, m2) =>
      Ok (Some (print_aux (mo m2) naming len (fun k => Z.to_N (lc k))), m2))).
