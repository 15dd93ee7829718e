(** * Printed profiles, C++ profiles and the collection mode in reachable worlds. *)
From Coq Require Import Ascii String Lia.
From Verif Require Import Base BFModel ITEModel MgrModel MInv ApiModel ApiProof ApiStruct ApiVar ComposeProof GraphModel GraphCall SpecApi SpecGraph
  WorldProof Client ApiLemmas ApiFacts GraphApi PrintModel SpecPrint PrintProof.
Open Scope N_scope.

Section World.
Variable w : world.
Hypothesis Rw : reachable w.
Notation m := (wm w).
Notation hs := (wh w).

Lemma pre_world f F d : In f hs -> means m f F -> exists m1, preproc d m [f] = Ok (true, m1) /\ reachable (World m1 hs) /\ means m1 f F.
Proof.
  intros If Mf. destruct (W_inv w Rw) as [D I]. destruct (pre1 d m hs lk0 D f I If) as (m1 & D1 & P & I1 & X1).
  exists m1. split; [exact P|].
  assert (S : step (World m hs) (World m1 hs)).
  { apply st_call. apply (st_type d m hs f (type_aux (mmem m1) (uint (mmem m1) f)) m1); [now right|]. unfold cal_type, query. rewrite P. reflexivity. }
  assert (R : reachable (World m hs)) by (destruct w; exact Rw).
  split; [exact (re_step _ _ R S)|]. exact (W_keep (World m hs) R (World m1 hs) f F S If If Mf).
Qed.

Lemma W_print_profile f F d1 d2 naming len : In f hs -> means m f F ->
  exists lines lc m', cal_print_profile d1 d2 m f naming len = Ok (Some lines, m') /\
    profile_text naming len (ord (mo m')) lc lines /\
    forall k, number (up_to true) (fun G => subfunction (ord (mo m')) [F] G /\ top_at (ord (mo m')) G k) (lc k).
Proof.
  intros If Mf. destruct (pre_world f F d1 If Mf) as (m1 & P & R1 & M1).
  destruct (W_profile (World m1 hs) R1 f F d2 true If M1) as (lc & mk & m2 & E & _ & H). cbn [wm] in E.
  exists (print_aux (mo m2) naming len lc), lc, m2. split; [|split; [apply print_text|exact H]].
  unfold cal_print_profile. rewrite P. cbn [obind negb]. rewrite E. reflexivity.
Qed.

Lemma W_print_function_profile f F d1 d2 d3 naming len : In f hs -> means m f F ->
  exists m', cal_print_function_profile d1 d2 d3 m f naming len = Ok (None, m').
Proof.
  intros If Mf. destruct (pre_world f F d1 If Mf) as (m1 & P & _ & _). exists m1. unfold cal_print_function_profile. rewrite P. reflexivity.
Qed.
Lemma W_print_function_profile_null f d1 d2 d3 naming len : uisnull f = true -> cal_print_function_profile d1 d2 d3 m f naming len = Undefined.
Proof.
  intros Hn. destruct (W_inv w Rw) as [D I].
  assert (P : forall d, preproc d m [f] = Ok (false, m)).
  { intros d. apply (preproc_null d m hs lk0 D [f] I); [intros j [<-|[]]; now left|exists f; simpl; auto]. }
  unfold cal_print_function_profile. rewrite P. cbn [obind]. unfold cal_function_profile, cal_profile, query. rewrite P. cbn [obind negb]. rewrite P. reflexivity.
Qed.

Lemma query_order {A} d (m0 : mgr) f (x : A) k r m' : query d m0 f x k = Ok (r, m') -> mo m' = mo m0.
Proof.
  unfold query. destruct (preproc d m0 [f]) as [[ok m1]| |] eqn:P; cbn [obind]; try discriminate.
  apply preproc_order in P. destruct (negb ok); [intros H; injection H; intros; congruence|].
  destruct (k m1 _) as [a| |]; cbn [obind]; try discriminate. intros H; injection H; intros; congruence.
Qed.
Lemma profile_order d f neg r m' : cal_profile d m f neg = Ok (r, m') -> mo m' = mo m.
Proof. apply query_order. Qed.
Lemma function_profile_order d1 d2 f r m' : cal_function_profile d1 d2 m f = Ok (r, m') -> mo m' = mo m.
Proof.
  unfold cal_function_profile. destruct (cal_profile d1 m f false) as [[[lc mk] m1]| |] eqn:E; cbn [obind]; try discriminate.
  apply profile_order in E. intros H. apply query_order in H. congruence.
Qed.
Lemma store_ok (n n' : N) g : n' <= n -> exists v, store_counts n' (Some g) (vec_reserve n vec_new) = Ok v /\ vsize v = 0 /\ vcap v = n.
Proof.
  intros L. unfold store_counts, vec_store, vec_reserve, vec_new. cbn [vcap vsize vbuf].
  destruct (N.ltb_spec 0 n).
  - cbn [vcap]. destruct (N.leb_spec n' n); [|lia]. eexists. split; [reflexivity|]. auto.
  - cbn [vcap]. destruct (N.leb_spec n' 0); [|lia]. eexists. split; [reflexivity|]. cbn. split; [auto|lia].
Qed.
Lemma empty_list v : vsize v = 0 -> vec_list v = [].
Proof. intros H. unfold vec_list. rewrite H. reflexivity. Qed.
Lemma W_cpp_profile f F d neg : In f hs -> means m f F -> exists v m', cpp_profile d m f neg = Ok (v, m') /\ vec_list v = [].
Proof.
  intros If Mf. destruct (W_profile w Rw f F d neg If Mf) as (lc & mk & m1 & E & _). pose proof (profile_order _ _ _ _ _ E) as O.
  unfold cpp_profile. rewrite E. cbn [obind option_map]. unfold vars_of. rewrite O.
  destruct (store_ok (N.of_nat (List.length (ord (mo m))) + 1) (N.of_nat (List.length (ord (mo m))) + 1) (fun k => Z.of_N (lc k)) (N.le_refl _)) as (v & Ev & Hv & _).
  rewrite Ev. cbn [obind]. exists v, m1. split; [reflexivity|]. now apply empty_list.
Qed.
Lemma W_cpp_function_profile f F d1 d2 : In f hs -> means m f F -> exists v m', cpp_function_profile d1 d2 m f = Ok (v, m') /\ vec_list v = [].
Proof.
  intros If Mf. destruct (W_function_profile w Rw f F d1 d2 If Mf) as (lc & m1 & E & _). pose proof (function_profile_order _ _ _ _ _ E) as O.
  unfold cpp_function_profile. rewrite E. cbn [obind]. unfold vars_of. rewrite O.
  destruct (store_ok (N.of_nat (List.length (ord (mo m))) + 1) (N.of_nat (List.length (ord (mo m))) + 1) lc (N.le_refl _)) as (v & Ev & Hv & _).
  rewrite Ev. cbn [obind]. exists v, m1. split; [reflexivity|]. now apply empty_list.
Qed.
End World.

(** ** Examples *)
Definition printed_lines (r : outcome (option (list string) * mgr)) : list string := match r with Ok (Some l, _) => l | _ => [] end.
Lemma print_example : printed_lines (cal_print_profile dec1 dec1 (wm demo) h_ite (fun _ => None) 79) =
  ["var.0: 1 #"; "var.1: 2 ##"; "var.2: 2 ##"; "var.3: 1 #"; "leaf:  1 #"; "Total: 7"]%string.
Proof. vm_compute. reflexivity. Qed.
Lemma print_setting : reachable demo /\ In h_ite (wh demo) /\ means (wm demo) h_ite (fun rho => if rho 3 then rho 1 && rho 2 else rho 4).
Proof. split; [apply run_reachable|]. split; [vm_compute; repeat (first [left; reflexivity|right])|exact h_ite_means]. Qed.
Lemma print_function_refuted : exists w f F d1 d2 d3 m', reachable w /\ In f (wh w) /\ means (wm w) f F /\
  cal_print_function_profile d1 d2 d3 (wm w) f (fun _ => None) 79 = Ok (None, m').
Proof.
  destruct (W_print_function_profile demo (run_reachable _) h_and _ dec1 dec1 dec1 (fun _ => None) 79%Z ltac:(vm_compute; repeat (first [left; reflexivity|right])) h_and_means) as (m' & E).
  exists demo, h_and, (fun rho => rho 1 && rho 2)%bool, dec1, dec1, dec1, m'. split; [apply run_reachable|]. split; [vm_compute; repeat (first [left; reflexivity|right])|]. split; [exact h_and_means|exact E].
Qed.

(** ** The collection mode *)
Definition tight15 : world := run (setup ++ [CBin BXor false 0 1; CFree; CNot 0; CLimit 12]).
Definition node_count (m : mgr) : N := nn (st (me m)).
Lemma mode_refuted : exists w f x n x', reachable w /\ In f (wh w) /\ x = set_gc_mode (Moded 1 (wm w)) 0 /\
  moded_size dec1 x f true = Ok (n, x') /\ gcmode x' = 0 /\ node_count (gcmgr x) = 15 /\ node_count (gcmgr x') = 11.
Proof.
  exists tight15, (nth 1 (wh tight15) unull), (set_gc_mode (Moded 1 (wm tight15)) 0).
  assert (B : match moded_size dec1 (set_gc_mode (Moded 1 (wm tight15)) 0) (nth 1 (wh tight15) unull) true with
              | Ok (n, x') => (gcmode x' =? 0) && (node_count (gcmgr x') =? 11) | _ => false end = true) by (vm_compute; reflexivity).
  destruct (moded_size dec1 (set_gc_mode (Moded 1 (wm tight15)) 0) (nth 1 (wh tight15) unull) true) as [[n x']| |]; [|discriminate B|discriminate B].
  apply andb_true_iff in B as [B1 B2]. apply N.eqb_eq in B1, B2. exists n, x'.
  split; [apply run_reachable|]. split; [vm_compute; repeat (first [left; reflexivity|right])|]. split; [reflexivity|]. split; [reflexivity|].
  split; [exact B1|]. split; [vm_compute; reflexivity|exact B2].
Qed.
(** The check that reads the mode would have left the manager alone. *)
Lemma check_respects_mode d x : gc_check d (set_gc_mode x 0) = set_gc_mode x 0.
Proof. reflexivity. Qed.
Lemma check_mode d m k : gcmgr (gc_check d (set_gc_mode (Moded k m) 0)) = m.
Proof. rewrite check_respects_mode. reflexivity. Qed.
Lemma mode_ignored d x f neg k : match moded_size d (set_gc_mode x k) f neg, moded_size d x f neg with
  | Ok (n, y), Ok (n', y') => n = n' /\ gcmgr y = gcmgr y' | Fatal, Fatal | Undefined, Undefined => True | _, _ => False end.
Proof. unfold moded_size, set_gc_mode. cbn [gcmgr gcmode]. destruct (cal_size d (gcmgr x) f neg) as [[[n mk] m1]| |]; cbn [obind]; auto. Qed.
