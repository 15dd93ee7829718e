(** * Examples for the graph algorithms. *)
From Coq Require Import Permutation QArith Qabs Qround Lqa.
From Verif Require Import SpecRound Base BFModel ITEModel MgrModel ApiModel GraphModel GraphFrac SpecApi SpecGraph WorldProof Client ApiLemmas ApiFacts GraphApi.
Open Scope N_scope.

Definition shows {A B} (r : outcome (A * B)) (P : A -> bool) : bool := match r with Ok (a, _) => P a | _ => false end.
Lemma shows_ex {A B} (r : outcome (A * B)) P : shows r P = true -> exists a b, r = Ok (a, b) /\ P a = true.
Proof. destruct r as [[a b]| |]; try discriminate. intros H. eauto. Qed.

(** Truncation to multiples of 2^-54. *)
Definition trunc54 (q : Q) : Q := (inject_Z (Qfloor (q * p2 54)) / p2 54)%Q.
Lemma trunc54_rounding : rounding trunc54.
Proof.
  assert (P : (0 < p2 54)%Q) by apply p2_pos. assert (Ne : ~ (p2 54 == 0)%Q) by apply p2_ne. constructor.
  - intros a b L. unfold trunc54, Qdiv. apply Qmult_le_compat_r; [|apply Qlt_le_weak, Qinv_lt_0_compat; auto].
    rewrite <- Zle_Qle. apply Qfloor_resp_le. apply Qmult_le_compat_r; auto. now apply Qlt_le_weak.
  - intros q (k & _ & E). unfold trunc54. assert (H : (q * p2 54 == inject_Z (2 * k))%Q).
    { rewrite E. change (p2 54) with (p2 (1 + 53)). rewrite (p2_add 1 53). rewrite inject_Z_mult. change (p2 1) with (inject_Z 2).
      pose proof (p2_ne 53). field. auto. }
    rewrite (Qfloor_comp _ _ H), Qfloor_Z. apply Qmult_inj_r with (p2 54); auto. rewrite H. field. auto.
  - intros q _. unfold trunc54. pose proof (Qfloor_le (q * p2 54)) as L1. pose proof (Qlt_floor (q * p2 54)) as L2.
    rewrite inject_Z_plus in L2. change (inject_Z 1) with 1%Q in L2. set (z := inject_Z (Qfloor (q * p2 54))) in *.
    assert (Eq : (z / p2 54 - q == (z - q * p2 54) * / p2 54)%Q) by (field; auto). rewrite Eq. apply Qabs_Qle_condition.
    assert (Ip : (0 <= / p2 54)%Q) by (apply Qlt_le_weak, Qinv_lt_0_compat; auto). unfold Qdiv.
    assert (E1 : (- (1 * / p2 54) == (-1) * / p2 54)%Q) by (field; auto). rewrite E1.
    split; apply Qmult_le_compat_r; auto; lra.
Qed.
Lemma exact_rounding : rounding (fun q => q).
Proof.
  constructor; auto. - intros; reflexivity. - intros q _. assert (E : (q - q == 0)%Q) by lra. rewrite E. change (Qabs 0) with 0%Q.
  unfold Qdiv. rewrite Qmult_1_l. apply Qlt_le_weak, Qinv_lt_0_compat, p2_pos.
Qed.

Lemma type_example : exists m1 m2, cal_type dec1 (wm demo) h_ite = Ok (TYPE_NONTERMINAL, m1) /\ cal_type dec1 (wm demo) (h_var 2) = Ok (TYPE_POSVAR, m2).
Proof.
  destruct (shows_ex (cal_type dec1 (wm demo) h_ite) (N.eqb TYPE_NONTERMINAL)) as (t & m1 & E & P); [vm_compute; reflexivity|].
  destruct (shows_ex (cal_type dec1 (wm demo) (h_var 2)) (N.eqb TYPE_POSVAR)) as (t' & m2 & E' & P'); [vm_compute; reflexivity|].
  apply N.eqb_eq in P, P'. rewrite <- P in E. rewrite <- P' in E'. exists m1, m2. split; [exact E|exact E'].
Qed.
Lemma cube_example : cal_iscube (wm demo) h_and = Ok true /\ cal_iscube (wm demo) h_ite = Ok false.
Proof. split; vm_compute; reflexivity. Qed.
Lemma iscube_zero : exists w f, reachable w /\ In f (wh w) /\ means (wm w) f (fun _ => false) /\ cal_iscube (wm w) f = Fatal.
Proof.
  exists (run [CNewvar 0; CConst true]), (U 3 true). split; [apply run_reachable|]. split; [vm_compute; auto|].
  split; [eapply tree_means; [vm_compute; reflexivity|intros rho; reflexivity]|vm_compute; reflexivity].
Qed.
Lemma satisfy_example : ~ same (fun rho => if rho 3 then rho 1 && rho 2 else rho 4) (fun _ => false) /\
  exists h m', cal_satisfy dec1 (wm demo) h_ite = Ok (h, m') /\ value m' h (fun i => i <=? 4) = Some true /\ value m' h (fun i => i =? 4) = Some false.
Proof.
  split; [intros H; discriminate (H (fun _ => true))|].
  destruct (isok_ex (cal_satisfy dec1 (wm demo) h_ite) (fun h m' => is_val m' h (fun i => i <=? 4) true && is_val m' h (fun i => i =? 4) false)) as (h & m' & E & P); [vm_compute; reflexivity|].
  apply andb_true_iff in P as [P1 P2]. exists h, m'. split; [exact E|]. split; apply is_val_eq; assumption.
Qed.
Lemma fraction_example : exists q m', cal_fraction trunc54 dec1 (wm demo) h_ite = Ok (q, m') /\ (q == 3 # 8)%Q /\
  sat_count [1; 2; 3; 4] (fun rho => if rho 3 then rho 1 && rho 2 else rho 4) (fun _ => false) = 6.
Proof.
  destruct (shows_ex (cal_fraction trunc54 dec1 (wm demo) h_ite) (fun q => Qeq_bool q (3 # 8))) as (q & m' & E & P); [vm_compute; reflexivity|].
  exists q, m'. split; [exact E|]. split; [apply Qeq_bool_iff; exact P|vm_compute; reflexivity].
Qed.
Lemma size_example : exists n k mk mk' m1 m2, cal_size dec1 (wm demo) h_ite true = Ok ((n, mk), m1) /\ cal_size dec1 (wm demo) h_ite false = Ok ((k, mk'), m2) /\ n = 7 /\ k = 9.
Proof.
  destruct (shows_ex (cal_size dec1 (wm demo) h_ite true) (fun '(n, _) => N.eqb n 7)) as ([n mk] & m1 & E & P); [vm_compute; reflexivity|].
  destruct (shows_ex (cal_size dec1 (wm demo) h_ite false) (fun '(n, _) => N.eqb n 9)) as ([k mk'] & m2 & E' & P'); [vm_compute; reflexivity|].
  apply N.eqb_eq in P, P'. exists n, k, mk, mk', m1, m2. split; [exact E|]. split; [exact E'|]. split; assumption.
Qed.
Definition eqlist (a b : list N) : bool := if list_eq_dec N.eq_dec a b then true else false.
Lemma eqlist_eq a b : eqlist a b = true -> a = b.
Proof. unfold eqlist. destruct (list_eq_dec N.eq_dec a b); auto. discriminate. Qed.
Lemma profile_example : exists lc mk m1, cal_profile dec1 (wm demo) h_ite false = Ok ((Some lc, mk), m1) /\ map lc [0; 1; 2; 3; 4] = [1; 2; 2; 2; 2].
Proof.
  destruct (shows_ex (cal_profile dec1 (wm demo) h_ite false) (fun '(l, _) => match l with Some l => eqlist (map l [0; 1; 2; 3; 4]) [1; 2; 2; 2; 2] | None => false end))
    as ([[lc|] mk] & m1 & E & P); [vm_compute; reflexivity| |discriminate P].
  exists lc, mk, m1. split; [exact E|]. apply eqlist_eq. exact P.
Qed.
Lemma multiple_example : args (wh demo) [h_ite; h_and] /\ exists n mk m1, cal_size_multiple (fun _ => dec1) (wm demo) [h_ite; h_and] false = Ok ((n, mk), m1) /\ n = 11.
Proof.
  split; [intros h [<-|[<-|[]]]; vm_compute; auto 8|].
  destruct (shows_ex (cal_size_multiple (fun _ => dec1) (wm demo) [h_ite; h_and] false) (fun '(n, _) => N.eqb n 11)) as ([n mk] & m1 & E & P); [vm_compute; reflexivity|].
  apply N.eqb_eq in P. exists n, mk, m1. split; [exact E|assumption].
Qed.
Lemma fprofile_example : exists R m1, cal_function_profile dec1 dec1 (wm demo) h_ite = Ok (Some R, m1) /\ map (fun k => Z.to_N (R k)) [0; 1; 2; 3] = [1; 2; 4; 4].
Proof.
  destruct (shows_ex (cal_function_profile dec1 dec1 (wm demo) h_ite) (fun l => match l with Some R => eqlist (map (fun k => Z.to_N (R k)) [0; 1; 2; 3]) [1; 2; 4; 4] | None => false end))
    as ([R|] & m1 & E & P); [vm_compute; reflexivity| |discriminate P].
  exists R, m1. split; [exact E|]. apply eqlist_eq. exact P.
Qed.
Lemma support_example : exists rs mk m', cal_support dec1 (wm demo) h_and = Ok ((rs, mk), m') /\ rs = [h_var 1; h_var 2].
Proof.
  destruct (shows_ex (cal_support dec1 (wm demo) h_and) (fun '(rs, _) => match rs with [a; b] => ueq a (h_var 1) && ueq b (h_var 2) | _ => false end)) as ([rs mk] & m' & E & P); [vm_compute; reflexivity|].
  exists rs, mk, m'. split; [exact E|]. destruct rs as [|a [|b [|]]]; try discriminate P. apply andb_true_iff in P as [P1 P2].
  unfold ueq in P1, P2. apply andb_true_iff in P1 as [P1 Q1], P2 as [P2 Q2]. apply N.eqb_eq in P1, P2. apply eqb_prop in Q1, Q2.
  destruct a as [a1 a2], b as [b1 b2], (h_var 1) as [c1 c2], (h_var 2) as [d1 d2]. cbn [uptr uneg] in *. congruence.
Qed.
Lemma depends_example : means (wm demo) (h_var 2) (fun rho => xorb false (rho 2)) /\
  exists mk m', cal_depends_on dec1 (wm demo) h_and (h_var 2) = Ok ((true, mk), m').
Proof.
  split; [means4|].
  destruct (shows_ex (cal_depends_on dec1 (wm demo) h_and (h_var 2)) (fun '(b, _) => b)) as ([b mk] & m' & E & P); [vm_compute; reflexivity|].
  exists mk, m'. rewrite P in E. exact E.
Qed.
