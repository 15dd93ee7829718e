(** * Quantification over the variables of an association. *)
From Verif Require Import Base BFModel MgrModel ApiModel GraphModel AssocModel QuantModel QuantBFModel QuantApiModel SpecApi SpecAssoc.

(** The current association stands for [S]. *)
Definition current_means (m : mgr) (S : substitution) : Prop :=
  match mcur m with None => temp_means m S | Some j => assoc_means m j S end.

(** [rho'] may differ from [rho] in the variables of [S] only. *)
Definition differ_in (S : substitution) (rho rho' : N -> bool) : Prop := forall i, S i = None -> rho' i = rho i.
(** [E] is true where some re-assignment of the variables of [S] makes [F] true; where every one does. *)
Definition is_exists (S : substitution) (F E : bfun) : Prop :=
  forall rho, E rho = true <-> exists rho', differ_in S rho rho' /\ F rho' = true.
Definition is_forall (S : substitution) (F E : bfun) : Prop :=
  forall rho, E rho = true <-> forall rho', differ_in S rho rho' -> F rho' = true.

(** The manager with an empty computed table. *)
Definition forgetful (m : mgr) : mgr := set_mca m (fun _ => None).
(** The computed table has the result of an earlier quantification of the handle's function, under the operation code [op]. *)
Definition remembered (slot : N -> edge -> edge -> N) (m : mgr) (op : N) (h : ubdd) : Prop :=
  cache_lookup slot op (uint (mmem m) h) one (mca m) <> None.

(** What the client gets by quantifying the constant with the current association (no precondition). *)
Definition quantify_constant (enum : memory -> list N -> list N) (slot : N -> edge -> edge -> N) (m : mgr) : mgr :=
  match cal_exists enum slot dec0 dec0 m (cal_one m) with Ok (_, m') => m' | _ => m end.
