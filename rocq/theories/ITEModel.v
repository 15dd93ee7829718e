(** * Breadth-first if-then-else (executable model).

    Models [CalOpITE] (/repo/src/calTerminal.c:268-360), the three-operand request table
    (/repo/src/calHashTableThree.c:98-145) and /repo/src/calBddITE.c:187-267.  The reduce and
    clean-up sweeps are those of [BFModel]. *)
From Verif Require Import Base BFModel.

(** First phase of [CalOpITE]: substitutions (/repo/src/calTerminal.c:279-305). *)
Definition ite_subst (f g h : edge) : edge * edge :=
  (if sameptr f g then (if xorb (eneg f) (eneg g) then zero else one) else g,
   if sameptr f h then (if xorb (eneg f) (eneg h) then one else zero) else h).

(** Second phase: complement tags (/repo/src/calTerminal.c:307-334). *)
Definition ite_phase (f g h : edge) : edge * edge * edge * bool :=
  if negb (eneg f) then
    if eneg g then (f, enot g, enot h, true) else (f, g, h, false)
  else if negb (eneg h) then (enot f, h, g, false)
       else (enot f, enot h, enot g, true).

Section ITE.
Variable enum : memory -> list N -> list N.
Variable o : order.

(** [CalBddGetMinId3], [CalBddGetMinIndex3] (/repo/src/calInt.h:890-953). *)
Definition minid3 (f g h : edge) : N :=
  if eidx o f <=? eidx o g
  then if eidx o f <=? eidx o h then eid f else eid h
  else if eidx o g <=? eidx o h then eid g else eid h.
Definition minindex3 (f g h : edge) : N :=
  if eidx o f <=? eidx o g
  then if eidx o f <=? eidx o h then eidx o f else eidx o h
  else if eidx o g <=? eidx o h then eidx o g else eidx o h.

(** [CalHashTableThreeFindOrAdd] (/repo/src/calHashTableThree.c:98-145): a request is a node
    whose else pointer leads to a second node with the other two operands. *)
Definition tfind3 (m : memory) (l : list N) (f g h : edge) : option N :=
  find (fun a => eeq f (ct (m a)) && eeq g (ct (m (eptr (ce (m a)))))
                 && eeq h (ce (m (eptr (ce (m a)))))) l.
Definition request3 (en : eng) (d : nat) (i : N) (f g h : edge) : edge * eng :=
  match tfind3 (mem (st en)) (que en d i) f g h with
  | Some a => (E i a false, en)
  | None =>
      let '(a, s1) := alloc (st en) i in
      let '(p, s2) := alloc s1 i in
      let s3 := put s2 p (C g h 0) in
      let s4 := put s3 a (C f (E 0 p false) 0) in
      (E i a false, set_que (set_st en s4) d i (a :: que en d i))
  end.

(** [CalOpITE] (/repo/src/calTerminal.c:268-360). *)
Definition opite (d : nat) (en : eng) (f g h : edge) : edge * eng :=
  let '(g1, h1) := ite_subst f g h in
  let '(f2, g2, h2, c) := ite_phase f g1 h1 in
  if isconst f2 || eeq g2 h2 then (ephase g2 c, en)
  else if isconst g2 && isconst h2 then (ephase f2 c, en)
  else let '(r, en1) := request3 en d (minid3 f2 g2 h2) f2 g2 h2 in (ephase r c, en1).

(** [CalITERequestNodeGetCofactors] (/repo/src/calInt.h:1397-1474): then and else cofactors of
    the three operands. *)
Definition cofactors3 (m : memory) (f g h : edge)
  : (edge * edge) * (edge * edge) * (edge * edge) :=
  let F := (thenof m f, elseof m f) in
  let G := (thenof m g, elseof m g) in
  let H := (thenof m h, elseof m h) in
  let i1 := eidx o f in let i2 := eidx o g in let i3 := eidx o h in
  if i1 =? i2 then
    if i3 =? i1 then (F, G, H)
    else if i3 <? i1 then ((f, f), (g, g), H)
    else (F, G, (h, h))
  else if i1 <? i2 then
    if i3 =? i1 then (F, (g, g), H)
    else if i3 <? i1 then ((f, f), (g, g), H)
    else (F, (g, g), (h, h))
  else
    if i3 =? i2 then ((f, f), G, H)
    else if i3 <? i2 then ((f, f), (g, g), H)
    else ((f, f), G, (h, h)).

(** One iteration of [CalHashTableITEApply] (/repo/src/calBddITE.c:250-264) on the queue of
    variable [i], whose node manager gets the second node back. *)
Definition ite_apply1 (d : nat) (i : N) (en : eng) (a : N) : eng :=
  let m := mem (st en) in
  let f := ct (m a) in
  let p := eptr (ce (m a)) in
  let '((fx, fxb), (gx, gxb), (hx, hxb)) := cofactors3 m f (ct (m p)) (ce (m p)) in
  let '(r1, en1) := opite d en fx gx hx in
  let s1 := icr (st en1) r1 in
  let s2 := put s1 a (set_ct (mem s1 a) r1) in
  let '(r0, en2) := opite d (set_st en1 s2) fxb gxb hxb in
  let s3 := icr (st en2) r0 in
  let s4 := free_node s3 i (eptr (ce (mem s3 a))) in
  set_st en2 (put s4 a (set_ce (mem s4 a) r0)).

(** [CalHashTableITEApply] (/repo/src/calBddITE.c:238-267) and the apply sweep (203-210). *)
Definition ite_table (en : eng) (d : nat) (i : N) : eng :=
  fold_left (ite_apply1 d i) (enum (mem (st en)) (que en d i)) en.
Definition ite_all (depths : list nat) (ids : list N) (en : eng) : eng :=
  fold_left (fun en i => fold_left (fun en d => ite_table en d i) depths en) ids en.

(** [CalBddOpITEBF] (/repo/src/calBddITE.c:187-234). *)
Definition opITEBF (en : eng) (f g h : edge) : edge * eng :=
  let '(r, en1) := opite 0 en f g h in
  let ids := skipn (N.to_nat (minindex3 f g h)) (ord o) in
  let en2 := ite_all [0%nat] ids en1 in
  let en3 := reduce_all enum [0%nat] ids en2 in
  (fwd (mem (st en3)) r, cleanup_all [0%nat] ids en3).

End ITE.
