(** * Vocabulary for pipelined operations. *)
From Verif Require Import Base BFModel MgrModel ApiModel PipeModel SpecApi.

(** The three operations a pipeline can be used for. *)
Definition pipeline_operation (op : binop) (b : bool -> bool -> bool) : Prop :=
  (op = op_and /\ b = andb) \/ (op = op_or /\ b = orb) \/ (op = op_xor /\ b = xorb).

(** [F] is the function of an operand, when the operations before have the functions [Fs]. *)
Definition operand_means (m : mgr) (Fs : list bfun) (x : operand) (F : bfun) : Prop :=
  match x with
  | Own h => means m h F
  | Prov k c => exists G, nth_error Fs k = Some G /\ same F (fun rho => xorb c (G rho))
  end.
(** [Fs] are the functions of the operations when they are carried out one after another. *)
Definition pipeline_means (m : mgr) (b : bool -> bool -> bool) (prog : list (operand * operand)) (Fs : list bfun) : Prop :=
  length Fs = length prog /\
  forall k x y, nth_error prog k = Some (x, y) -> exists F G H,
    nth_error Fs k = Some H /\ operand_means m (firstn k Fs) x F /\ operand_means m (firstn k Fs) y G /\
    same H (fun rho => b (F rho) (G rho)).
(** The handle returned for the request [(k, c)] stands for the result number [k], complemented if [c]. *)
Definition answers (m : mgr) (Fs : list bfun) (h : ubdd) (kc : nat * bool) : Prop :=
  exists F, nth_error Fs (fst kc) = Some F /\ means m h (fun rho => xorb (snd kc) (F rho)).
