(** * How a reader understands the text that is printed for a BDD. *)
From Coq Require Import String.
From Verif Require Import Base BFModel PrintModel BddPrintModel.
Open Scope string_scope.
Open Scope N_scope.

(** The value of the part of the text that starts at the first line and is indented by [ind], when [env] gives the
    values of the words; [defs] holds the values of the labelled parts read so far.  A branching names the same word in
    its three lines, a label is given once, and a reference is to a part that has been read completely.  The result is
    the value, the labels known then and the lines that follow. *)
Fixpoint defined (defs : list (N * bool)) (n : N) : option bool :=
  match defs with [] => None | (k, b) :: defs => if k =? n then Some b else defined defs n end.
Definition define (label : option N) (b : bool) (defs : list (N * bool)) : option (list (N * bool)) :=
  match label with
  | None => Some defs
  | Some n => match defined defs n with Some _ => None | None => Some ((n, b) :: defs) end
  end.
Fixpoint read (env : string -> bool) (fuel : nat) (ind : nat) (lines : list pline) (defs : list (N * bool))
  : option ((bool * list (N * bool)) * list pline) :=
  match fuel, lines with
  | S fuel, PL i b :: rest =>
      if negb (Nat.eqb i ind) then None
      else match b with
      | Leaf neg w => Some ((xorb neg (env w), defs), rest)
      | Refer neg n => match defined defs n with Some v => Some ((xorb neg v, defs), rest) | None => None end
      | Branch label w =>
          match read env fuel (ind + 2) rest defs with
          | Some ((t, defs1), PL i1 (Otherwise w1) :: rest1) =>
              match read env fuel (ind + 2) rest1 defs1 with
              | Some ((e, defs2), PL i2 (Done w2) :: rest2) =>
                  if (Nat.eqb i1 ind && Nat.eqb i2 ind && String.eqb w1 w && String.eqb w2 w)%bool
                  then
                    let v := if env w then t else e in
                    match define label v defs2 with Some defs3 => Some ((v, defs3), rest2) | None => None end
                  else None
              | _ => None
              end
          | _ => None
          end
      | _ => None
      end
  | _, _ => None
  end.
(** The whole text is one part and its value is [b]. *)
Definition says (env : string -> bool) (lines : list pline) (b : bool) : Prop :=
  exists defs, read env (length lines) 0 lines [] = Some ((b, defs), []).
(** The words have the values that the assignment gives to what they name: [name i k] is the word of the variable [i]
    at position [k] of the order, [term b] that of a constant. *)
Definition suits (env : string -> bool) (name : N -> N -> string) (term : bool -> string) (order : list N) (rho : N -> bool) : Prop :=
  (forall b, env (term b) = b) /\ forall k i, nth_error order k = Some i -> env (name i (N.of_nat k)) = rho i.
(** No word has two meanings. *)
Definition distinct_words (name : N -> N -> string) (term : bool -> string) (order : list N) : Prop :=
  term true <> term false /\
  (forall k i b, nth_error order k = Some i -> name i (N.of_nat k) <> term b) /\
  (forall k i k' i', nth_error order k = Some i -> nth_error order k' = Some i' -> name i (N.of_nat k) = name i' (N.of_nat k') -> i = i').

(** The same for the other text, a sum of products; [env] gives the values of the letters. *)
Fixpoint fread (env : N -> bool) (fuel : nat) (l : list piece) : option (bool * list piece) :=
  match fuel, l with
  | S _, Open :: Bit b :: Close :: rest => Some (b, rest)
  | S fuel, Open :: Pos c :: l =>
      match fread env fuel l with
      | Some (t, Plus :: Neg c' :: l1) =>
          match fread env fuel l1 with
          | Some (e, Close :: rest) => Some ((env c && t) || (negb (env c') && e), rest)%bool
          | _ => None
          end
      | _ => None
      end
  | _, _ => None
  end.
Definition fsays (env : N -> bool) (l : list piece) (b : bool) : Prop := fread env (length l) l = Some (b, []).
(** The words that stand for constants unless the client supplies others, and the byte that stands for a variable in the
    second text. *)
Definition constant (tid : bool -> option string) (b : bool) : string :=
  match tid b with Some s => s | None => if b then "1" else "0" end.
Definition byte_of (i : N) : N := (96 + i) mod 256.
