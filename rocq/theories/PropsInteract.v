(** * The interaction matrix (C46). *)
From Coq Require Import ZArith List.
From Verif Require Import Base BFModel InteractModel InteractProof.
Import ListNotations.
Open Scope Z_scope.

(** [small n]: at most 46341 variables; [ok_pair n (x, y)]: [0 <= x < y < n].  The accesses are all inside the array, as
    an access outside would make the result [Undefined]. *)
Theorem C46_recorded_pairs_partial : forall n ps, small n -> (forall p, In p ps -> ok_pair n p) ->
  exists M0 M, new_matrix n = Ok M0 /\ foldo (fun M p => set_interact n M (fst p) (snd p)) ps M0 = Ok M /\
    forall x y, 1 <= x <= n -> 1 <= y <= n -> x <> y ->
      exists r, test_interact n M x y = Ok r /\ (r = 1 \/ r = 0) /\ (r = 1 <-> In (x - 1, y - 1) ps \/ In (y - 1, x - 1) ps).
Proof. exact recorded_pairs. Qed.
Print Assumptions C46_recorded_pairs_partial.
Example C46_example : small 300 /\ forall p, In p [(0, 2); (31, 32); (298, 299)] -> ok_pair 300 p.
Proof. exact pairs_example. Qed.

(** Two variables interact according to the matrix exactly if they are together in the support of some root. *)
Theorem C46_interaction_of_roots_partial : forall n sups, small n ->
  exists M, init_interact n sups = Ok M /\
    forall x y, 1 <= x <= n -> 1 <= y <= n -> x <> y ->
      exists r, test_interact n M x y = Ok r /\ (r = 1 \/ r = 0) /\ (r = 1 <-> exists s, In s sups /\ s (x - 1) = true /\ s (y - 1) = true).
Proof. exact interaction_of_supports. Qed.
Print Assumptions C46_interaction_of_roots_partial.

(** Finding: for more variables, of which there may be 65534, the arithmetic overflows. *)
Theorem C46_refuted : exists n, n < 65535 /\ new_matrix n = Undefined.
Proof. exact overflow_refuted. Qed.
Print Assumptions C46_refuted.
