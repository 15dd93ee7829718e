(** * Specification of the word-level properties, independent of the model's helpers. *)
From Coq Require Import NArith ZArith List Bool.
From Verif Require Import BitsModel.
Local Open Scope N_scope.

(** One counter that sticks at 255. *)
Inductive count_op := Increment | Decrement | AddTo (z : Z).
Definition count (c : N) (op : count_op) : N :=
  if c =? 255 then 255 else
  match op with
  | Increment => c + 1
  | Decrement => c - 1
  | AddTo z => Z.to_N (Z.min 255 (Z.of_N c + z))
  end.

(** An addition that a caller may perform: the sum is not negative and fits 16 bits. *)
Definition sensible (c : N) (op : count_op) : Prop :=
  match op with AddTo z => (0 <= Z.of_N c + z < 65536)%Z | _ => True end.

(** The packed version of the same update. *)
Definition packed (w : words) (op : count_op) : words :=
  match op with Increment => w_icr w | Decrement => w_dcr w | AddTo z => w_addrc w z end.

(** Everything else a node holds: the addresses of its then, else and next pointers, the two
    complement tags, the two mark bits. *)
Definition others (w : words) : (N * N * N) * (bool * bool) * (bool * bool) :=
  ((wt w / 16, we w / 16, wn w / 16), (N.testbit (wt w) 0, N.testbit (we w) 0), (N.testbit (wt w) 2, N.testbit (wt w) 3)).

(** A whole history of updates; [None] if some addition was not sensible. *)
Fixpoint counts (c : N) (ops : list count_op) : N :=
  match ops with nil => c | cons op rest => counts (count c op) rest end.
Fixpoint all_sensible (c : N) (ops : list count_op) : Prop :=
  match ops with nil => True | cons op rest => sensible c op /\ all_sensible (count c op) rest end.

(** Two's complement negation of a 128-bit number given as (high, low) words. *)
Definition number128 (hi lo : N) : N := hi * 2 ^ 64 + lo.
Definition negate128 (x : N) : N := (2 ^ 128 - x) mod 2 ^ 128.
