(** * Batches of requests processed inside another operation (executable model). *)
From Verif Require Import Base BFModel.

(** Requests made one after the other. *)
Section Batch.
Context {P : Type}.
Variable rq : eng -> P -> edge * eng.
Fixpoint reqs (en : eng) (ps : list P) : list edge * eng :=
  match ps with
  | [] => ([], en)
  | p :: ps => let '(r, en1) := rq en p in let '(rs, en2) := reqs en1 ps in (r :: rs, en2)
  end.
End Batch.

Section Or.
Variable enum : memory -> list N -> list N.
Variable o : order.

(** The OR requests made while a table of reduce requests is expanded, with their own apply, reduce and clean-up
    sweeps (/repo/src/calReduce.c:352-356,385-408,418-422).  Their queue array [reqQue[0]] is empty before and
    after; it is modelled as the first queue of a second engine on the same store. *)
Definition orBatch (ids : list N) (s : store) (ps : list (edge * edge)) : list edge * store :=
  let '(rs, en1) := reqs (fun en p => opreq o op_or 0 en (fst p) (snd p)) (start s) ps in
  let en2 := apply_all enum o op_or [0%nat] ids en1 in
  let en3 := reduce_all enum [0%nat] ids en2 in
  (map (fwd (mem (st en3))) rs, st (cleanup_all [0%nat] ids en3)).
End Or.
