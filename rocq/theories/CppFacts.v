(** * Small C++ programs, for the examples beside the theorems. *)
From Verif Require Import Base BFModel ITEModel MgrModel ApiModel SpecApi Client CppModel SpecCpp CppProof.

Inductive ccmd := PNew (n : nat) | PVar (n : nat) | PAnd (n a b : nat) | PCopy (n k : nat) | PAssign (n k : nat) | PMove (n k : nat)
  | PMoveAssign (n k : nat) | PDestroy (n : nat) | PRegular (n k : nat) | PGc.
Definition nofail (c : cpp) (r : option cpp) : cpp := match r with Some c' => c' | None => c end.
Definition isfresh (n : nat) (c : cpp) : bool := match obj_get n (snd c) with None => true | Some _ => false end.
Definition operand (n : nat) (c : cpp) : ubdd := match obj_get n (snd c) with Some h => h | None => unull end.
Definition built (n : nat) (c : cpp) (r : outcome (ubdd * mgr)) : cpp := match r with Ok (h, m') => (m', [(n, h)] ++ snd c) | _ => c end.
Definition prun1 (c : cpp) (x : ccmd) : cpp :=
  match x with
  | PNew n => if isfresh n c then cpp_default c n else c
  | PVar n => if isfresh n c then built n c (newvar_at (fst c) 0) else c
  | PAnd n a b => if isfresh n c then built n c (binary reversed op_and false dec1 dec1 (fst c) (operand a c) (operand b c)) else c
  | PCopy n k => if isfresh n c then nofail c (cpp_copy c n k) else c
  | PAssign n k => nofail c (cpp_assign c n k)
  | PMove n k => if isfresh n c then nofail c (cpp_move c n k) else c
  | PMoveAssign n k => nofail c (cpp_move_assign c n k)
  | PDestroy n => nofail c (cpp_destroy c n)
  | PRegular n k => if isfresh n c then nofail c (cpp_regular c n k) else c
  | PGc => (gc (fst c), [] ++ snd c)
  end.
Definition prun (l : list ccmd) : cpp := fold_left prun1 l (init, []).

Lemma isfresh_fresh n (c : cpp) : isfresh n c = true -> fresh n (snd c).
Proof. unfold isfresh, fresh. destruct (obj_get n (snd c)); [discriminate|auto]. Qed.
Lemma one_fresh n (c : cpp) : fresh n (snd c) -> forall h : ubdd, (forall k, In k (map fst [(n, h)]) -> fresh k (snd c)) /\ NoDup (map fst [(n, h)]).
Proof.
  intros F h. split; [|constructor; [intros []|constructor]]. intros k [<-|[]]. exact F.
Qed.
Lemma operand_arg n (c : cpp) : arg (held_handles (snd c)) (operand n c).
Proof.
  unfold operand. destruct (obj_get n (snd c)) as [h|] eqn:G; [|left; reflexivity].
  destruct (uisnull h) eqn:N; [left; auto|right; eapply get_held; eauto].
Qed.
Lemma prun1_program c x : program c -> program (prun1 c x).
Proof.
  intros P. destruct x as [n|n|n a b|n k|n k|n k|n k|n|n k|]; cbn [prun1]; unfold nofail.
  - destruct (isfresh n c) eqn:F; auto. apply isfresh_fresh in F. eapply pr_step; [exact P|now constructor].
  - destruct (isfresh n c) eqn:F; auto. apply isfresh_fresh in F. unfold built. destruct (newvar_at (fst c) 0) as [(h, m')| | ] eqn:E; auto.
    destruct c as [m os]. eapply pr_step; [exact P|]. destruct (one_fresh n (m, os) F h) as [F1 F2]. apply cs_call; auto.
    apply st_call. eapply st_newvar. exact E.
  - destruct (isfresh n c) eqn:F; auto. apply isfresh_fresh in F. unfold built.
    destruct (binary reversed op_and false dec1 dec1 (fst c) (operand a c) (operand b c)) as [(h, m')| | ] eqn:E; auto.
    pose proof (operand_arg a c) as Aa. pose proof (operand_arg b c) as Ab.
    destruct c as [m os]. eapply pr_step; [exact P|]. destruct (one_fresh n (m, os) F h) as [F1 F2]. apply cs_call; auto.
    apply st_call. eapply st_binary; [exact reversed_good| |exact Aa|exact Ab|exact E]. now left.
  - destruct (isfresh n c) eqn:F; auto. apply isfresh_fresh in F. destruct (cpp_copy c n k) as [c'|] eqn:E; auto. eapply pr_step; [exact P|eapply cs_copy; eauto].
  - destruct (cpp_assign c n k) as [c'|] eqn:E; auto. eapply pr_step; [exact P|eapply cs_assign; eauto].
  - destruct (isfresh n c) eqn:F; auto. apply isfresh_fresh in F. destruct (cpp_move c n k) as [c'|] eqn:E; auto. eapply pr_step; [exact P|eapply cs_move; eauto].
  - destruct (cpp_move_assign c n k) as [c'|] eqn:E; auto. eapply pr_step; [exact P|eapply cs_move_assign; eauto].
  - destruct (cpp_destroy c n) as [c'|] eqn:E; auto. eapply pr_step; [exact P|eapply cs_destroy; eauto].
  - destruct (isfresh n c) eqn:F; auto. apply isfresh_fresh in F. destruct (cpp_regular c n k) as [c'|] eqn:E; auto. eapply pr_step; [exact P|eapply cs_regular; eauto].
  - destruct c as [m os]. eapply pr_step; [exact P|]. apply cs_call; [intros n []|constructor|]. apply st_call. apply st_gc.
Qed.
Lemma prun_program l : program (prun l).
Proof.
  unfold prun. assert (H : forall c, program c -> program (fold_left prun1 l c)); [|apply H; constructor].
  induction l as [|x l IH]; simpl; intros c P; auto. apply IH. now apply prun1_program.
Qed.

Definition cdemo : cpp := prun [PVar 0; PVar 1; PAnd 2 0 1; PCopy 3 2; PAssign 3 3; PMove 4 3; PNew 5; PMoveAssign 5 4; PCopy 4 5; PRegular 6 5; PGc].
Definition c_and : ubdd := operand 2 cdemo.
Lemma cdemo_example : program cdemo /\ obj_get 2 (snd cdemo) = Some c_and /\ uisnull c_and = false /\ cal_isconst (fst cdemo) c_and = false /\
  cpp_refcount cdemo 2 = Some 3 /\ holders (snd cdemo) c_and = 3.
Proof.
  split; [exact (prun_program _)|]. split; [vm_compute; reflexivity|]. split; [vm_compute; reflexivity|]. split; [vm_compute; reflexivity|].
  split; vm_compute; reflexivity.
Qed.
Definition cgone : cpp := prun [PVar 0; PVar 1; PAnd 2 0 1; PCopy 3 2; PAssign 2 0; PDestroy 0; PDestroy 1; PDestroy 2; PDestroy 3].
Lemma cgone_example : program cgone /\ snd cgone = [] /\ nn (st (me (fst cgone))) = 4 /\ nn (st (me (gc (fst cgone)))) = 3.
Proof. split; [exact (prun_program _)|]. split; [vm_compute; reflexivity|]. split; vm_compute; reflexivity. Qed.
Lemma self_move_gen c n h : program c -> obj_get n (snd c) = Some h ->
  exists c', cpp_move_assign c n n = Some c' /\ program c' /\ obj_get n (snd c') = Some unull.
Proof.
  intros P G. destruct (cpp_move_assign c n n) as [c'|] eqn:E.
  - exists c'. split; auto. split; [eapply pr_step; [exact P|eapply cs_move_assign; eauto]|]. eapply self_move; eauto.
  - unfold cpp_move_assign in E. rewrite G in E. discriminate.
Qed.
Lemma self_move_example : exists c', cpp_move_assign cdemo 2 2 = Some c' /\ program c' /\ obj_get 2 (snd c') = Some unull.
Proof. exact (self_move_gen cdemo 2 c_and (proj1 cdemo_example) (proj1 (proj2 cdemo_example))). Qed.
