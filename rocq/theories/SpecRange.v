(** * C++ operations on ranges: specification. *)
From Verif Require Import Base BFModel MgrModel ApiModel SpecApi CppModel SpecCpp.

(** [l] are the handles of the live objects named [ks]. *)
Definition are_held (os : objects) (ks : list nat) (l : list ubdd) : Prop := each (fun k h => obj_get k os = Some h) ks l.
(** All live objects keep their functions. *)
Definition undisturbed (c : cpp) (m' : mgr) : Prop :=
  forall k g G, obj_get k (snd c) = Some g -> uisnull g = false -> means (fst c) g G -> means m' g G.
(** An operation of the program [c] constructs an object for [F]; nothing else changes for the program, in particular it
    holds the handles of its objects and no others. *)
Definition yields (c : cpp) (r : outcome (ubdd * mgr)) (F : bfun) : Prop :=
  exists h m', r = Ok (h, m') /\ uisnull h = false /\ means m' h F /\ undisturbed c m' /\
    forall n, fresh n (snd c) -> program (m', (n, h) :: snd c).
(** An operation that constructs no object. *)
Definition leaves {A} (c : cpp) (r : outcome (A * mgr)) : Prop :=
  forall x m', r = Ok (x, m') -> undisturbed c m' /\ program (m', snd c).
