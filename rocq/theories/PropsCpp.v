(** * Properties of the C++ handle class. *)
From Verif Require Import Base BFModel ITEModel MgrModel ApiModel SpecApi CppModel SpecCpp CppProof CppFacts.

(** C29: what [RefCount()] reports is the number of live objects that hold the BDD (255 stands for "at least 255, at
    some time"). *)
Theorem C29_reference_counts : forall c n h, program c -> obj_get n (snd c) = Some h -> uisnull h = false -> cal_isconst (fst c) h = false ->
  exists r, cpp_refcount c n = Some r /\ (r = 255 \/ r = holders (snd c) h).
Proof. exact refcount_exact. Qed.
Print Assumptions C29_reference_counts.
Example C29_example : program cdemo /\ obj_get 2 (snd cdemo) = Some c_and /\ uisnull c_and = false /\ cal_isconst (fst cdemo) c_and = false /\
  cpp_refcount cdemo 2 = Some 3 /\ holders (snd cdemo) c_and = 3.
Proof. exact cdemo_example. Qed.

(** No object dangles: it always stands for a function, and whatever the program does meanwhile, for the same one. *)
Theorem C29_no_dangling : forall c n h, program c -> obj_get n (snd c) = Some h -> uisnull h = false -> exists F, means (fst c) h F.
Proof. exact object_means. Qed.
Print Assumptions C29_no_dangling.
Theorem C29_objects_undisturbed : forall c c' n h F, program c -> cstep c c' -> obj_get n (snd c) = Some h -> uisnull h = false ->
  means (fst c) h F -> means (fst c') h F.
Proof. exact object_kept. Qed.
Print Assumptions C29_objects_undisturbed.
(** A C++ program is a client of the C interface that owns exactly the handles of its live objects, so all properties of
    reachable worlds hold for it. *)
Theorem C29_program_is_client : forall c, program c -> reachable (World (fst c) (held_handles (snd c))).
Proof. exact program_reachable. Qed.
Print Assumptions C29_program_is_client.

(** Nothing leaks. *)
Theorem C29_no_leak : forall c i b, program c -> In b (ut (st (me (gc (fst c)))) i) -> in_use (gc (fst c)) (held_handles (snd c)) b.
Proof. exact no_leak. Qed.
Print Assumptions C29_no_leak.
Theorem C29_no_handle_left : forall c b, program c -> snd c = [] -> In b (ut (st (me (gc (fst c)))) 0) ->
  b = muone (gc (fst c)) \/ cr (mmem (gc (fst c)) b) = 255.
Proof. exact gone_freed. Qed.
Print Assumptions C29_no_handle_left.
Example C29_leak_example : program cgone /\ snd cgone = [] /\ nn (st (me (fst cgone))) = 4 /\ nn (st (me (gc (fst cgone)))) = 3.
Proof. exact cgone_example. Qed.

(** What the assignments do to the objects, self-assignment included. *)
Theorem C29_copy_assignment : forall c n k c' h j, cpp_assign c n k = Some c' -> obj_get k (snd c) = Some h ->
  obj_get j (snd c') = if Nat.eqb j n then Some h else obj_get j (snd c).
Proof. exact assign_effect. Qed.
Print Assumptions C29_copy_assignment.
Theorem C29_move_assignment : forall c n k c' h j, n <> k -> cpp_move_assign c n k = Some c' -> obj_get k (snd c) = Some h ->
  obj_get j (snd c') = if Nat.eqb j k then Some unull else if Nat.eqb j n then Some h else obj_get j (snd c).
Proof. exact move_assign_effect. Qed.
Print Assumptions C29_move_assignment.
(** Finding: moving an object onto itself loses its value. *)
Theorem C29_self_move_loses_value : forall c n h c', obj_get n (snd c) = Some h -> cpp_move_assign c n n = Some c' -> obj_get n (snd c') = Some unull.
Proof. exact self_move. Qed.
Print Assumptions C29_self_move_loses_value.
Example C29_self_move_example : exists c', cpp_move_assign cdemo 2 2 = Some c' /\ program c' /\ obj_get 2 (snd c') = Some unull.
Proof. exact self_move_example. Qed.
