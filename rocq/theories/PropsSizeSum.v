(** * Sizes of joined arrays: property C64. *)
From Coq Require Import ZArith.
From Verif Require Import Base BFModel MgrModel ApiModel GraphModel SpecApi SpecGraph Client ApiFacts FProfFacts SizeSum.
Open Scope N_scope.

(** C64: the size [Cal_BddSizeMultiple] gives for two arrays together is at least that of either and at most their sum, whatever
    collections and reorganisations ([d1] to [d3]) the calls decide on. *)
Theorem C64_size_of_joined : forall w l Fs l' Fs', reachable w -> args (wh w) l -> each (means (wm w)) l Fs -> args (wh w) l' -> each (means (wm w)) l' Fs' ->
  forall d1 d2 d3 neg, exists n n' k k1 k2 k3 m1 m2 m3,
    cal_size_multiple d1 (wm w) l neg = Ok ((n, k1), m1) /\ cal_size_multiple d2 (wm w) l' neg = Ok ((n', k2), m2) /\
    cal_size_multiple d3 (wm w) (l ++ l') neg = Ok ((k, k3), m3) /\ n <= k /\ n' <= k /\ k <= n + n'.
Proof. exact size_of_joined. Qed.
Print Assumptions C64_size_of_joined.
Example C64_example : reachable demo /\ args (wh demo) [h_ite] /\ each (means (wm demo)) [h_ite] [fnite] /\ args (wh demo) [h_var 3] /\ each (means (wm demo)) [h_var 3] [fn3].
Proof. exact joined_example. Qed.
