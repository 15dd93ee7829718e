(** * Vocabulary for printed profiles. *)
From Coq Require Import Ascii String.
From Verif Require Import Base BFModel PrintModel.
Open Scope string_scope.
Open Scope N_scope.

(** The line for [c] nodes under [name]: the name, a colon, the count ending in column [col], a space and a bar with one
    character for every [scale] nodes. *)
Definition shows (col : nat) (scale : N) (name : string) (c : N) (l : string) : Prop :=
  exists pad bar, l = String.append name (String.append ":" (String.append (chars " "%char pad) (String.append (dec_of c) (String.append " " (chars "#"%char bar))))) /\
    (String.length name + 1 + pad + String.length (dec_of c))%nat = col /\ N.of_nat bar = c / scale.
(** The numbers below [n] with a property, in increasing order. *)
Fixpoint select (P : N -> bool) (from : N) (n : nat) : list N :=
  match n with O => [] | S n => (if P from then [from] else []) ++ select P (from + 1) n end.
(** The sum of [g] over the numbers from [0] to [n]. *)
Fixpoint sum_to (g : N -> N) (n : nat) : N := match n with O => g 0 | S k => sum_to g k + g (N.of_nat n) end.
(** What the line of the variable [id] at position [k] of the order (counted from 0) is labelled with: the name its
    naming function gives it, else "var." and the position. *)
Definition label (naming : N -> option string) (id k : N) : string :=
  match naming id with Some s => s | None => String.append "var." (dec_of k) end.
(** The printed profile [lines] of the counts [lc] over the variable order [order], [len] characters wide: one line
    for every level with nodes, in the order, a line for the leaves and the total. *)
Definition profile_text (naming : N -> option string) (len : Z) (order : list N) (lc : N -> N) (lines : list string) : Prop :=
  let n := List.length order in
  exists col scale ls leaf,
    lines = (ls ++ [leaf; String.append "Total: " (dec_of (sum_to lc n))])%list /\
    Forall2 (fun k l => shows col scale (label naming (nth (N.to_nat k) order 0) k) (lc k) l) (select (fun k => negb (lc k =? 0)) 0 n) ls /\
    (lc (N.of_nat n) < 100 -> shows col scale "leaf" (lc (N.of_nat n)) leaf) /\
    0 < scale /\ forall k, k <= N.of_nat n -> (Z.of_N (lc k / scale) <= Z.max 20 (len - Z.of_nat col - 2))%Z.
