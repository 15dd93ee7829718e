(** * The interaction matrix (executable model): /repo/src/calInteract.c.

    [SIZEOF_LONG] is not defined by the build, so the matrix is an array of [long] of which 32 bits each are used
    (/repo/src/calInteract.c:45-51).  The arithmetic on positions is in [int]; overflow is undefined.  [1 << 31] is
    taken to be the smallest [int], as compilers do. *)
From Coq Require Import ZArith List Lia.
From Verif Require Import Base BFModel.
Import ListNotations.
Open Scope Z_scope.

Definition int (z : Z) : outcome Z := if (-2^31 <=? z) && (z <? 2^31) then Ok z else Undefined.
Definition bindo {A B} (x : outcome A) (f : A -> outcome B) : outcome B :=
  match x with Ok a => f a | Fatal => Fatal | Undefined => Undefined end.
Notation "'do' x <- a ;; b" := (bindo a (fun x => b)) (at level 100, x name, right associativity).

(** [posn] (/repo/src/calInteract.c:118, 149): [((((numVars << 1) - x - 3) * x) >> 1) + y - 1]. *)
Definition posn (n x y : Z) : outcome Z :=
  do a <- int (2 * n) ;; do b <- int (a - x) ;; do c <- int (b - 3) ;; do d <- int (c * x) ;; do e <- int (Z.shiftr d 1 + y) ;; int (e - 1).

Definition LOGBPL : Z := 5.
Definition BPL : Z := 32.
Definition matrix := list Z.
Definition mget (M : matrix) (w : Z) : outcome Z :=
  if w <? 0 then Undefined else match nth_error M (Z.to_nat w) with Some x => Ok x | None => Undefined end.
Fixpoint put_nth (M : matrix) (w : nat) (v : Z) : matrix :=
  match M, w with [], _ => [] | _ :: M, O => v :: M | x :: M, S w => x :: put_nth M w v end.
(** [1 << bit], an [int] converted to [long]. *)
Definition one_shl (bit : Z) : Z := if bit =? 31 then - 2^31 else 2^bit.

(** [CalSetInteract] (/repo/src/calInteract.c:109-122). *)
Definition set_interact (n : Z) (M : matrix) (x y : Z) : outcome matrix :=
  do p <- posn n x y ;;
  let word := Z.shiftr p LOGBPL in let bit := Z.land p (BPL - 1) in
  do w <- mget M word ;;
  Ok (put_nth M (Z.to_nat word) (Z.lor w (one_shl bit))).

(** [CalTestInteract] (/repo/src/calInteract.c:133-155); [x], [y] are ids. *)
Definition test_interact (n : Z) (M : matrix) (x y : Z) : outcome Z :=
  let x := x - 1 in let y := y - 1 in
  let '(x, y) := if x >? y then (y, x) else (x, y) in
  do p <- posn n x y ;;
  do w <- mget M (Z.shiftr p LOGBPL) ;;
  Ok (Z.land (Z.shiftr w (Z.land p (BPL - 1))) 1).

(** The allocation in [CalInitInteract] (/repo/src/calInteract.c:176-183). *)
Definition new_matrix (n : Z) : outcome matrix :=
  do a <- int (n * (n - 1)) ;;
  Ok (repeat 0 (Z.to_nat (Z.shiftr a (1 + LOGBPL) + 1))).

Fixpoint foldo {A B} (f : A -> B -> outcome A) (l : list B) (a : A) : outcome A :=
  match l with [] => Ok a | b :: l => do a1 <- f a b ;; foldo f l a1 end.
Definition upto (a b : Z) : list Z := map (fun k => a + Z.of_nat k) (seq 0 (Z.to_nat (b - a))).
(** [ddUpdateInteract] (/repo/src/calInteract.c:296-310); [sup k] is [support[k] == 1]. *)
Definition update_interact (n : Z) (M : matrix) (sup : Z -> bool) : outcome matrix :=
  foldo (fun M i => if sup i then foldo (fun M j => if sup j then set_interact n M i j else Ok M) (upto (i + 1) n) M else Ok M) (upto 0 (n - 1)) M.
(** The loops of [CalInitInteract] (/repo/src/calInteract.c:190-230) given the support of every root. *)
Definition init_interact (n : Z) (sups : list (Z -> bool)) : outcome matrix :=
  do M <- new_matrix n ;; foldo (update_interact n) sups M.
