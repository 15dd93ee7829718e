(** * Vocabulary for writing a BDD to a file and reading it back. *)
From Verif Require Import Base BFModel MgrModel ApiModel CodecModel DumpModel SpecApi.
Open Scope N_scope.

(** The handles [vs] stand for the variables [ids], one by one. *)
Definition variables (m : mgr) (vs : list ubdd) (ids : list N) : Prop := each (fun v i => means m v (fun rho => rho i)) vs ids.
(** The list contains every variable that the function depends on. *)
Definition covers (ids : list N) (F : bfun) : Prop := forall i, depends F i -> In i ids.
(** [G] is [F] after replacing each variable of the list [ids] by the variable at the same place in [ids']. *)
Definition renamed (ids ids' : list N) (F G : bfun) : Prop :=
  forall rho sigma, (forall k i j, nth_error ids k = Some i -> nth_error ids' k = Some j -> sigma i = rho j) -> G rho = F sigma.

(** What a client relies on when it reads any file: a handle without an error code, or the null handle with one; and in
    both cases the handles it had are as good as before. *)
Definition error_code (e : N) : Prop := In e [1; 2; 4].
Definition reads_safely (w : world) (vs : list ubdd) (r : outcome (undumped * mgr)) : Prop :=
  exists u m', r = Ok (u, m') /\ reachable (World m' (own [ud_h u] (wh w))) /\
    (forall h F, In h (wh w) -> means (wm w) h F -> means m' h F) /\
    (cal_isnull (ud_h u) = true /\ error_code (ud_err u) \/
     cal_isnull (ud_h u) = true /\ ud_err u = 0 /\ (~ exists ids, variables (wm w) vs ids) \/
     cal_isnull (ud_h u) = false /\ ud_err u = 0 /\ exists G, means m' (ud_h u) G).
(** The number of shared nodes that the file announces, in its bytes 10 to 17, is not smaller than the number of bytes
    that follow; or the file is too short to announce a number. *)
Definition announces_enough (inp : list N) : Prop :=
  match dread 8 (skipn 10 inp) with Some (n, rest) => N.of_nat (length rest) <= n | None => True end.
