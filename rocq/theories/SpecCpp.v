(** * C++ programs and what they observe. *)
From Verif Require Import Base BFModel MgrModel ApiModel SpecApi CppModel.

(** The handles of the live objects that are not null. *)
Definition held_handles (os : objects) : list ubdd := own (map snd os) [].
(** The number of live objects that hold the node of [h]. *)
Definition holders (os : objects) (h : ubdd) : N :=
  N.of_nat (length (filter (fun k => negb (uisnull k) && (uptr k =? uptr h)) (map snd os))).

Definition fresh (n : nat) (os : objects) : Prop := obj_get n os = None.

(** What a C++ program does: it constructs, copies, assigns, moves and destroys objects and calls the C interface on
    the handles of live objects; a call that returns BDDs constructs objects from them.  Containers of objects passed to
    the wrapper are copied and the copies destroyed afterwards, which are further steps of the same kind. *)
Inductive cstep : cpp -> cpp -> Prop :=
| cs_default c n : fresh n (snd c) -> cstep c (cpp_default c n)
| cs_copy c n k c' : fresh n (snd c) -> cpp_copy c n k = Some c' -> cstep c c'
| cs_assign c n k c' : cpp_assign c n k = Some c' -> cstep c c'
| cs_move c n k c' : fresh n (snd c) -> cpp_move c n k = Some c' -> cstep c c'
| cs_move_assign c n k c' : cpp_move_assign c n k = Some c' -> cstep c c'
| cs_destroy c n c' : cpp_destroy c n = Some c' -> cstep c c'
| cs_regular c n k c' : fresh n (snd c) -> cpp_regular c n k = Some c' -> cstep c c'
| cs_call m os news m' : (forall n, In n (map fst news) -> fresh n os) -> NoDup (map fst news) ->
    step (World m (held_handles os)) (World m' (own (map snd news) (held_handles os))) -> cstep (m, os) (m', news ++ os).
Inductive program : cpp -> Prop :=
| pr_start : program (init, [])
| pr_step c c' : program c -> cstep c c' -> program c'.
