(** * Examples and counterexamples for associations. *)
From Coq Require Import Permutation.
From Verif Require Import Base BFModel ITEModel MgrModel ApiModel GraphModel AssocModel StoreInv MInv ApiProof SpecApi SpecAssoc WorldProof
  Client ApiLemmas ApiFacts AssocProof AssocWorld.

(** x1 and x4 as a plain association (twice), x2 with image x1 and x2 as a pair. *)
Definition acmds : list cmd := setup ++ [CAssoc [5; 2]%nat false; CAssoc [2; 5]%nat false; CAssoc [4; 1]%nat true; CCurrent (Some 0); CTemp [3; 0]%nat true].
Definition aworld : world := run acmds.
Definition a_h (n : nat) : ubdd := nth n (wh aworld) unull.

Lemma aworld_holds : holding aworld [1; 0; 0].
Proof.
  assert (E : idsof (World init []) [] acmds = [1; 0; 0]) by (vm_compute; reflexivity). rewrite <- E. apply run_holding.
Qed.
Lemma aworld_reachable : reachable aworld.
Proof. exact (holding_reaches _ _ aworld_holds). Qed.

Definition s_plain : substitution := fun i => if (i =? 1) || (i =? 4) then Some (fun _ => true) else None.
Definition s_pair : substitution := fun i => if i =? 2 then Some (fun rho : N -> bool => rho 1 && rho 2) else None.
Definition s_temp : substitution := fun i => if i =? 3 then Some (fun rho : N -> bool => if rho 3 then rho 1 && rho 2 else rho 4) else None.

(** The images of an association as decision trees, for the first variables. *)
Definition trees (m : mgr) (a : assoc) (n : nat) : list (option (option tree)) :=
  map (fun i => match amap a (N.of_nat i) with Some e => Some (unfold_tree 100 (mmem m) e) | None => None end) (seq 0 n).
Definition shows_tree (t : option (option tree)) (F : option bfun) : Prop :=
  match t, F with Some (Some t), Some F => forall rho, teval rho t = F rho | None, None => True | _, _ => False end.
Lemma stands_dec m a S n : (forall i, In a (mtemp m :: massoc m) -> amap a i <> None -> i < N.of_nat n) ->
  In a (mtemp m :: massoc m) -> (forall i, N.of_nat n <= i -> S i = None) ->
  each shows_tree (trees m a n) (map (fun i => S (N.of_nat i)) (seq 0 n)) ->
  stands_for m (amap a) S.
Proof.
  intros Hd Ia Hs H i. unfold trees, each in H. generalize 100%nat as fuel, H. clear H. intros fuel H.
  destruct (N.ltb_spec i (N.of_nat n)) as [L|L].
  - assert (G : forall l, Forall2 shows_tree
      (map (fun i => match amap a (N.of_nat i) with Some e => Some (unfold_tree fuel (mmem m) e) | None => None end) l)
      (map (fun i => S (N.of_nat i)) l) -> forall k, In k l -> both (fun e (F : bfun) => forall rho, ev (mmem m) rho e (F rho)) (amap a (N.of_nat k)) (S (N.of_nat k))).
    { induction l as [|k l IH]; intros F j Ij; [destruct Ij|]. cbn [map] in F. inversion F as [|x y X Y F1 F2]; subst. destruct Ij as [<-|Ij]; [|auto].
      clear - F1. unfold both. unfold shows_tree in F1. destruct (amap a (N.of_nat k)) as [e|], (S (N.of_nat k)) as [g|]; try tauto.
      - destruct (unfold_tree fuel (mmem m) e) as [t|] eqn:E; [|tauto]. intros rho. rewrite <- F1. eapply unfold_tree_ev; eauto.
      - destruct (unfold_tree _ _ e); tauto. }
    specialize (G _ H (N.to_nat i)). rewrite N2Nat.id in G. apply G. apply in_seq. lia.
  - rewrite (Hs i L). destruct (amap a i) eqn:E; simpl; auto. assert (i < N.of_nat n) by (apply Hd; auto; congruence). lia.
Qed.
Lemma reach_dom w a i : reachable w -> In a (mtemp (wm w) :: massoc (wm w)) -> amap a i <> None -> In i (ord (mo (wm w))).
Proof.
  intros R Ia N. destruct (reachable_inv w R) as [D I]. destruct (amap a i) as [e|] eqn:E; [|congruence].
  apply (ao_dom _ _ _ (mi_as _ _ _ _ I a Ia) i e E).
Qed.

Lemma aworld_ids : ord (mo (wm aworld)) = [1; 4; 2; 3]. Proof. vm_compute. reflexivity. Qed.
Lemma aworld_dom a i : In a (mtemp (wm aworld) :: massoc (wm aworld)) -> amap a i <> None -> i < N.of_nat 5.
Proof.
  intros Ia N. pose proof (reach_dom aworld a i aworld_reachable Ia N) as H. rewrite aworld_ids in H.
  destruct H as [<-|[<-|[<-|[<-|[]]]]]; reflexivity.
Qed.
Lemma s_big S n i : S = s_plain \/ S = s_pair \/ S = s_temp -> N.of_nat (5 + n) <= i -> S i = None.
Proof.
  intros H L. assert (forall k, k < 5 -> (i =? k) = false) as E by (intros k Hk; apply N.eqb_neq; lia).
  destruct H as [->|[->| ->]]; cbv [s_plain s_pair s_temp]; rewrite ?(E 1), ?(E 2), ?(E 3), ?(E 4) by (vm_compute; reflexivity); reflexivity.
Qed.
Definition a_of (k : nat) : assoc := nth k (massoc (wm aworld)) (mtemp (wm aworld)).
Lemma nth_default {A} (d : A) l k : In (nth k l d) (d :: l).
Proof.
  destruct (Nat.lt_ge_cases k (length l)) as [L|L]; [right; now apply nth_In|]. rewrite nth_overflow by exact L. now left.
Qed.
Lemma a_of_in k : In (a_of k) (mtemp (wm aworld) :: massoc (wm aworld)).
Proof. exact (nth_default _ _ k). Qed.
Ltac trees4 := match goal with |- each _ ?x ?y =>
   let v := eval vm_compute in x in let E := fresh in assert (E : x = v) by (vm_compute; reflexivity); rewrite E; clear E;
   let u := eval cbv -[andb] in y in change (each shows_tree v u) end;
   repeat constructor; intros rho; cbv [teval]; destruct (rho 1), (rho 2), (rho 3), (rho 4); reflexivity.

Lemma aworld_plain : assoc_means (wm aworld) 0 s_plain.
Proof.
  exists (a_of 0). split; [vm_compute; left; reflexivity|]. split; [vm_compute; reflexivity|].
  apply (stands_dec _ _ _ 5); [intros i Ia N; exact (aworld_dom _ i Ia N)|apply a_of_in|intros i L; apply (s_big _ 0); [tauto|exact L]|]. trees4.
Qed.
Lemma aworld_pair : assoc_means (wm aworld) 1 s_pair.
Proof.
  exists (a_of 1). split; [vm_compute; right; left; reflexivity|]. split; [vm_compute; reflexivity|].
  apply (stands_dec _ _ _ 5); [intros i Ia N; exact (aworld_dom _ i Ia N)|apply a_of_in|intros i L; apply (s_big _ 0); [tauto|exact L]|]. trees4.
Qed.
Lemma aworld_temp_trees : each shows_tree (trees (wm aworld) (mtemp (wm aworld)) 5) (map (fun i => s_temp (N.of_nat i)) (seq 0 5)).
Proof. trees4. Qed.
Lemma temp_dec w S n : (forall i, In (mtemp (wm w)) (mtemp (wm w) :: massoc (wm w)) -> amap (mtemp (wm w)) i <> None -> i < N.of_nat n) ->
  (forall i, N.of_nat n <= i -> S i = None) ->
  each shows_tree (trees (wm w) (mtemp (wm w)) n) (map (fun i => S (N.of_nat i)) (seq 0 n)) -> temp_means (wm w) S.
Proof. intros H1 H2 H3. apply (stands_dec (wm w) _ S n); [exact H1|now left|exact H2|exact H3]. Qed.
Lemma aworld_temp : temp_means (wm aworld) s_temp.
Proof.
  apply (temp_dec aworld s_temp 5). 
  - apply aworld_dom.
  - intros i L. apply (s_big s_temp 0); [tauto|exact L].
  - exact aworld_temp_trees.
Qed.

(** Initialising the plain association once more gives its identifier again. *)
Lemma share_example : args (wh aworld) [a_h 2; a_h 5] /\ no_constants (wm aworld) false [a_h 2; a_h 5] /\
  distinct_variables false [a_h 2; a_h 5] /\ room_for_association (wm aworld) /\
  exists m', cal_assoc_init (fun _ => dec0) (wm aworld) [a_h 2; a_h 5] false = Ok (Some 0, m').
Proof.
  assert (F : fit aworld [2; 5]%nat false = true) by (vm_compute; reflexivity).
  destruct (fit_ok aworld _ _ F) as (H1 & H2 & H3 & H4). split; [exact H1|]. split; [exact H2|]. split; [exact H3|]. split; [exact H4|].
  assert (C : match cal_assoc_init (fun _ => dec0) (wm aworld) [a_h 2; a_h 5] false with Ok (Some 0, _) => true | _ => false end = true) by (vm_compute; reflexivity).
  destruct (cal_assoc_init _ _ _ _) as [[[[|p]|] m']| |]; try discriminate C. exists m'. reflexivity.
Qed.
Lemma reject_example : args (wh aworld) [a_h 1; a_h 5] /\ exists m', cal_assoc_init (fun _ => dec0) (wm aworld) [a_h 1; a_h 5] true = Ok (None, m').
Proof.
  assert (F : fit aworld [1; 5]%nat true = true) by (vm_compute; reflexivity).
  destruct (fit_ok aworld _ _ F) as (H1 & H2 & H3 & H4). split; [exact H1|].
  assert (C : match cal_assoc_init (fun _ => dec0) (wm aworld) [a_h 1; a_h 5] true with Ok (None, _) => true | _ => false end = true) by (vm_compute; reflexivity).
  destruct (cal_assoc_init _ _ _ _) as [[[j|] m']| |]; try discriminate C. exists m'. reflexivity.
Qed.
Lemma last_example : alast (a_of 0) = 1%Z /\ alast (a_of 1) = 2%Z /\ alast (a_of 2) = 3%Z.
Proof. vm_compute. auto. Qed.

(** Giving up one of several holds of the current association makes the temporary association current. *)
Lemma current_refuted : exists w ids j, holding w ids /\ mcur (wm w) = Some j /\ In j (give_up j ids) /\ mcur (cal_assoc_quit (wm w) j) = None.
Proof.
  exists aworld, [1; 0; 0], 0. split; [apply aworld_holds|]. split; [vm_compute; reflexivity|]. split; [vm_compute; auto|]. vm_compute. reflexivity.
Qed.

(** A variable listed twice: the image listed first is never released. *)
Definition dup_before : world := run setup.
Definition dup_h (n : nat) : ubdd := nth n (wh dup_before) unull.
Definition dup_list : list ubdd := [dup_h 4; dup_h 0; dup_h 4; dup_h 5].
Definition freed (m : mgr) (h : ubdd) : mgr := match cal_free m h with Ok m' => gc m' | _ => m end.
Lemma duplicate_refuted : exists w l h, reachable w /\ args (wh w) l /\ room_for_association (wm w) /\ In h (wh w) /\
  exists j m', cal_assoc_init (fun _ => dec0) (wm w) l true = Ok (Some j, m') /\
    massoc (cal_assoc_quit m' j) = massoc (wm w) /\
    nn (st (me (freed (wm w) h))) < nn (st (me (freed (cal_assoc_quit m' j) h))).
Proof.
  exists dup_before, dup_list, (dup_h 0). split; [apply run_reachable|]. split.
  - intros h. vm_compute. intros [<-|[<-|[<-|[<-|[]]]]]; auto 8.
  - split; [apply Nat.ltb_lt; vm_compute; reflexivity|]. split; [vm_compute; auto|].
    assert (C : match cal_assoc_init (fun _ => dec0) (wm dup_before) dup_list true with
                | Ok (Some j, m') => match massoc (cal_assoc_quit m' j), massoc (wm dup_before) with
                    | [], [] => nn (st (me (freed (wm dup_before) (dup_h 0)))) <? nn (st (me (freed (cal_assoc_quit m' j) (dup_h 0))))
                    | _, _ => false end
                | _ => false end = true) by (vm_compute; reflexivity).
    destruct (cal_assoc_init _ _ dup_list _) as [[[j|] m']| |]; try discriminate C. exists j, m'. split; [reflexivity|].
    destruct (massoc (cal_assoc_quit m' j)); [|discriminate C]. destruct (massoc (wm dup_before)); [|discriminate C].
    split; [reflexivity|]. apply N.ltb_lt. exact C.
Qed.

(** A constant in a plain list: the recorded bound is not a position of the order. *)
Lemma constant_refuted : exists w l, reachable w /\ args (wh w) l /\ room_for_association (wm w) /\
  exists j m', cal_assoc_init (fun _ => dec0) (wm w) l false = Ok (Some j, m') /\
    exists a, In a (massoc m') /\ aid a = j /\ ~ last_position (ord (mo m')) (fun i => amap a i <> None) (alast a).
Proof.
  exists (run (setup ++ [CConst true])), [nth 0 (wh (run (setup ++ [CConst true]))) unull]. split; [apply run_reachable|].
  split; [intros h [<-|[]]; vm_compute; auto|]. split; [apply Nat.ltb_lt; vm_compute; reflexivity|].
  set (w := run (setup ++ [CConst true])). set (l := [nth 0 (wh w) unull]).
  assert (C : match cal_assoc_init (fun _ => dec0) (wm w) l false with
              | Ok (Some j, m') => match massoc m' with [a] => (aid a =? j) && (alast a =? 65535)%Z && (length (ord (mo m')) =? 4)%nat | _ => false end
              | _ => false end = true) by (vm_compute; reflexivity).
  destruct (cal_assoc_init _ _ l _) as [[[j|] m']| |]; try discriminate C. exists j, m'. split; [reflexivity|].
  destruct (massoc m') as [|a [|]]; try discriminate C. exists a. apply andb_true_iff in C as [C C3]. apply andb_true_iff in C as [C1 C2].
  split; [now left|]. split; [apply N.eqb_eq; exact C1|]. intros [_ [E|(k & i & E & _ & Ez)]]; apply Z.eqb_eq in C2; [rewrite C2 in E; discriminate E|].
  apply Nat.eqb_eq in C3. rewrite C2 in Ez. assert (K : (k < length (ord (mo m')))%nat) by (apply nth_error_Some; rewrite E; discriminate).
  rewrite C3 in K. clear - Ez K. lia.
Qed.
