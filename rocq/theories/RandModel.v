(** * Pseudo-random generator (executable model).

    Models /repo/src/calUtil.c:45-71 and 441-512.  C [long] is 64 bits; an intermediate result
    outside its range (undefined in C) and an index outside the shuffle table are [None]. *)
From Coq Require Import ZArith List Bool Lia.
Import ListNotations.
Local Open Scope Z_scope.

(** /repo/src/calUtil.c:45-54. *)
Definition MODULUS1 : Z := 2147483563.
Definition LEQA1 : Z := 40014.
Definition LEQQ1 : Z := 53668.
Definition LEQR1 : Z := 12211.
Definition MODULUS2 : Z := 2147483399.
Definition LEQA2 : Z := 40692.
Definition LEQQ2 : Z := 52774.
Definition LEQR2 : Z := 3791.
Definition STAB_SIZE : Z := 64.
Definition STAB_DIV : Z := 1 + (MODULUS1 - 1) / STAB_SIZE.

(** A [long] result, or overflow. *)
Definition long (z : Z) : option Z := if (- 2 ^ 63 <=? z) && (z <? 2 ^ 63) then Some z else None.

(** The file-scope state (/repo/src/calUtil.c:68-72). *)
Record rng := R { ur : Z; ur2 : Z; sel : Z; tab : list Z }.

(** One Schrage step: [w = x / q; x = a * (x - w * q) - w * r; x += (x < 0) * m]
    (/repo/src/calUtil.c:452-454,480-482,487-489).  C division truncates. *)
Definition schrage (a q r m x : Z) : option Z :=
  let w := Z.quot x q in
  match long (w * q) with None => None | Some wq =>
  match long (x - wq) with None => None | Some d =>
  match long (a * d) with None => None | Some ad =>
  match long (w * r) with None => None | Some wr =>
  match long (ad - wr) with None => None | Some y =>
  long (y + (if y <? 0 then m else 0)) end end end end end.

Fixpoint upd (l : list Z) (i : nat) (v : Z) : list Z :=
  match l, i with
  | [], _ => []
  | _ :: t, O => v :: t
  | h :: t, S j => h :: upd t j v
  end.

(** The warm-up loop (/repo/src/calUtil.c:450-456). *)
Fixpoint warm (n i : nat) (x : Z) (t : list Z) : option (Z * list Z) :=
  match n with
  | O => Some (x, t)
  | S k => match schrage LEQA1 LEQQ1 LEQR1 MODULUS1 x with
           | None => None
           | Some y => warm k (S i) y (upd t (Nat.modulo i 64) y)
           end
  end.

(** [CalUtilSRandom] (/repo/src/calUtil.c:441-458). *)
Definition srandom (seed : Z) : option rng :=
  match (if seed <? 0 then long (- seed) else if seed =? 0 then Some 1 else Some seed) with
  | None => None
  | Some s => match warm 75 0 s (repeat 0 64) with
              | None => None
              | Some (x, t) => Some (R x s (nth 1 t 0) t)
              end
  end.

(** [CalUtilRandom] (/repo/src/calUtil.c:469-512). *)
Definition random (g : rng) : option (Z * rng) :=
  match (if ur g =? 0 then srandom 1 else Some g) with
  | None => None
  | Some g =>
    match schrage LEQA1 LEQQ1 LEQR1 MODULUS1 (ur g) with None => None | Some u =>
    match schrage LEQA2 LEQQ2 LEQR2 MODULUS2 (ur2 g) with None => None | Some u2 =>
      let i := Z.quot (sel g) STAB_DIV in
      if (0 <=? i) && (i <? STAB_SIZE) then
        match long (nth (Z.to_nat i) (tab g) 0 - u2) with None => None | Some s =>
        match long (s + (if s <? 1 then MODULUS1 - 1 else 0)) with None => None | Some s' =>
          Some (s' - 1, R u u2 s' (upd (tab g) (Z.to_nat i) u))
        end end
      else None
    end end
  end.

(** Program start: all zero (C static initialisation, /repo/src/calUtil.c:68-72). *)
Definition rng0 : rng := R 0 0 0 (repeat 0 64).

(** [n] draws. *)
Fixpoint draws (n : nat) (g : rng) : option (list Z * rng) :=
  match n with
  | O => Some ([], g)
  | S k => match random g with
           | None => None
           | Some (x, g') => match draws k g' with None => None | Some (l, g'') => Some (x :: l, g'') end
           end
  end.

(** ** Reference specification: L'Ecuyer's two multiplicative generators with a Bays-Durham
    shuffle, with plain modular arithmetic. *)
Record lstate := LS { l1 : Z; l2 : Z; lsel : Z; ltab : list Z }.
Definition lnext (g : lstate) : Z * lstate :=
  let a := (LEQA1 * l1 g) mod MODULUS1 in
  let b := (LEQA2 * l2 g) mod MODULUS2 in
  let i := Z.to_nat (lsel g / STAB_DIV) in
  let d := nth i (ltab g) 0 - b in
  let s := if d <? 1 then d + (MODULUS1 - 1) else d in
  (s - 1, LS a b s (upd (ltab g) i a)).
Fixpoint ldraws (n : nat) (g : lstate) : list Z :=
  match n with O => [] | S k => let (x, g') := lnext g in x :: ldraws k g' end.
