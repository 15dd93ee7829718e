(** * Word-level model: packed reference counts, marks, tags, hash positions (executable).

    Machine words are [N]; pointers to nodes are multiples of 16 (nodes are 32 bytes and
    pages are aligned, /repo/src/calMemoryManagement.c:178-230), so the low four bits of the
    three pointer words of a node are free.  The C masks [~m] on words become [N.ldiff w m]. *)
From Verif Require Import Base.

(** The three pointer words of [CalBddNode_t] (/repo/src/calInt.h:262-300). *)
Record words := W { wt : N; we : N; wn : N }.

(** [CAL_BDD_POINTER], [CAL_TAG0] (/repo/src/calInt.h:616-617). *)
Definition w_ptr (p : N) : N := N.ldiff p 15.
Definition w_tag0 (p : N) : N := N.land p 1.

(** [CalBddGetThenBddNode], [CalBddGetElseBddNode] (/repo/src/calInt.h:658-666), [tag] being
    [CAL_TAG0] of the parent pointer. *)
Definition w_getthen (w : words) (tag : N) : N := N.lxor (N.ldiff (wt w) 14) tag.
Definition w_getelse (w : words) (tag : N) : N := N.lxor (N.ldiff (we w) 14) tag.

(** [CalBddPutThenBdd], [CalBddPutElseBdd] (/repo/src/calInt.h:705-743). *)
Definition w_putthen (w : words) (p : N) : words := W (N.lor (N.land (wt w) 14) (N.ldiff p 14)) (we w) (wn w).
Definition w_putelse (w : words) (p : N) : words := W (wt w) (N.lor (N.land (we w) 14) (N.ldiff p 14)) (wn w).

(** [CalBddGetNextBddNode], [CalBddPutNextBddNode] (/repo/src/calInt.h:696-698,745-752). *)
Definition w_getnext (w : words) : N := N.ldiff (wn w) 15.
Definition w_putnext (w : words) (p : N) : words := W (wt w) (we w) (N.lor (N.land (wn w) 15) (N.ldiff p 15)).

(** [CalBddGetRefCount] (/repo/src/calInt.h:754-763). *)
Definition w_getrc (w : words) : N :=
  N.lor (N.shiftl (N.lor (N.shiftl (N.land (wt w) 2) 3) (N.land (we w) 14)) 3) (N.land (wn w) 15).

(** [CalBddPutRefCount] (/repo/src/calInt.h:765-779). *)
Definition w_putrc (w : words) (count : N) : words :=
  let nextTag := N.land count 15 in
  let thenTag := N.land (N.shiftr count 6) 2 in
  let elseTag := N.land (N.shiftr count 3) 14 in
  W (N.lor (N.ldiff (wt w) 2) thenTag) (N.lor (N.ldiff (we w) 14) elseTag) (N.lor (N.ldiff (wn w) 15) nextTag).

(** [CalBddIcrRefCount] (/repo/src/calInt.h:781-806). *)
Definition w_icr (w : words) : words :=
  if negb (N.land (wn w) 15 =? 15) then W (wt w) (we w) (wn w + 1)
  else if negb (N.land (we w) 14 =? 14) then W (wt w) (we w + 2) (N.ldiff (wn w) 15)
  else if N.land (wt w) 2 =? 0 then W (N.lor (wt w) 2) (N.ldiff (we w) 14) (N.ldiff (wn w) 15)
  else w.

(** [CalBddDcrRefCount] (/repo/src/calInt.h:808-838); the warning at zero prints and changes
    nothing. *)
Definition w_dcr (w : words) : words :=
  if N.land (wn w) 15 =? 0 then
    if N.land (we w) 14 =? 0 then
      if N.land (wt w) 2 =? 0 then w
      else W (N.ldiff (wt w) 2) (N.lor (we w) 14) (N.lor (wn w) 15)
    else W (wt w) (we w - 2) (N.lor (wn w) 15)
  else if (negb (N.land (wn w) 15 =? 15) || negb (N.land (we w) 14 =? 14) || negb (N.land (wt w) 2 =? 2))%bool
       then W (wt w) (we w) (wn w - 1)
       else w.

(** [CalBddAddRefCount] (/repo/src/calInt.h:840-851); [_count] is an [unsigned short]. *)
Definition w_addrc (w : words) (num : Z) : words :=
  let c := w_getrc w in
  if c <? 255 then
    let c1 := Z.to_N ((Z.of_N c + num) mod 65536) in
    w_putrc w (if 255 <? c1 then 255 else c1)
  else w.

(** [CalBddIsRefCountZero], [CalBddIsRefCountMax] (/repo/src/calInt.h:853-863). *)
Definition w_iszero (w : words) : bool :=
  negb (negb (N.land (wt w) 2 =? 0) || negb (N.land (we w) 14 =? 0) || negb (N.land (wn w) 15 =? 0)).
Definition w_ismax (w : words) : bool :=
  (N.land (wt w) 2 =? 2) && (N.land (we w) 14 =? 14) && (N.land (wn w) 15 =? 15).

(** Mark bits (/repo/src/calInt.h:1196-1212). *)
Definition w_ismarked (w : words) : bool := negb (N.shiftr (N.land (wt w) 4) 2 =? 0).
Definition w_mark (w : words) : words := W (N.lor (wt w) 4) (we w) (wn w).
Definition w_unmark (w : words) : words := W (N.ldiff (wt w) 4) (we w) (wn w).
Definition w_getmark (w : words) : N := N.shiftr (N.land (wt w) 12) 2.
Definition w_putmark (w : words) (k : N) : words := W (N.lor (N.ldiff (wt w) 12) (N.shiftl k 2)) (we w) (wn w).

(** [CalDoHash2] with power-of-two tables (/repo/src/calInt.h:1481-1490); the sum wraps modulo
    2^64, [NODE_SIZE] is 32. *)
Definition w_hash (t e numBins : N) : N := N.land (((t + e) mod 2 ^ 64) / 32) (numBins - 1).

(** [BddDefaultTransformFn] (/repo/src/calBddManager.c:612-632); [None] is signed overflow in
    [-(long)value], which is undefined in C. *)
Definition W64 : N := 2 ^ 64.
Definition neg64 (v : N) : option N := if v =? 2 ^ 63 then None else Some ((W64 - v) mod W64).
Definition transform (v1 v2 : N) : option (N * N) :=
  if v2 =? 0 then match neg64 v1 with Some r => Some (r, v2) | None => None end
  else match neg64 v2 with Some r => Some (W64 - 1 - v1, r) | None => None end.
