(** * Byte codec of the dump format (executable model): /repo/src/calDump.c:71,269-281,365-393,512-526. *)
From Verif Require Import Base.

(** [Write]: [bytes] bytes, most significant first (/repo/src/calDump.c:269-281). *)
Fixpoint dwrite (bytes : nat) (n : N) : list N :=
  match bytes with
  | O => []
  | S k => N.land (N.shiftr n (8 * N.of_nat k)) 255 :: dwrite k n
  end.

(** [Read] (/repo/src/calDump.c:365-393); [None] is end of file.  Results fit a 64-bit word
    because at most eight bytes are read. *)
Fixpoint dread_aux (bytes : nat) (acc : N) (s : list N) : option (N * list N) :=
  match bytes with
  | O => Some (acc, s)
  | S k => match s with
           | [] => None
           | c :: s' => dread_aux k (N.shiftl acc 8 + c) s'
           end
  end.
Definition dread (bytes : nat) (s : list N) : option (N * list N) := dread_aux bytes 0 s.

(** [BytesNeeded] (/repo/src/calDump.c:512-526). *)
Definition bytes_needed (n : N) : nat :=
  if n <=? 256 then 1%nat else if n <=? 65536 then 2%nat else if n <=? 16777216 then 3%nat else 4%nat.

(** [indexMask] (/repo/src/calDump.c:71); [None] is an access beyond the array. *)
Definition index_mask (bytes : nat) : option N :=
  match bytes with 1%nat => Some 255 | 2%nat => Some 65535 | 3%nat => Some 16777215 | _ => None end.
