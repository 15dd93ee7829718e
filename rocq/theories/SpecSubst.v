(** * Vocabulary for substitutions. *)
From Verif Require Import Base BFModel MgrModel ApiModel SpecApi SpecAssoc.

(** [F] with [H] in place of the variable [i]. *)
Definition replace_var (F : bfun) (i : N) (H : bfun) : bfun := fun rho => F (assign rho i (H rho)).
(** [F] with all the variables of [S] replaced at once by their images. *)
Definition substituted (S : substitution) (F : bfun) : bfun :=
  fun rho => F (fun i => match S i with Some G => G rho | None => rho i end).
(** Every image of [S] is a variable or a constant. *)
Definition renaming (S : substitution) : Prop :=
  forall i G, S i = Some G -> (exists j, same G (fun rho => rho j)) \/ (exists b, same G (fun _ => b)).
(** [F] with the variables [i] and [j] exchanged. *)
Definition swapped (i j : N) (F : bfun) : bfun :=
  fun rho => F (fun k => if k =? i then rho j else if k =? j then rho i else rho k).
