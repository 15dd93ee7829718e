(** * Arithmetic for the block allocator: aligned intervals, buddies, lowest bits, logarithms. *)
From Verif Require Import Base BFModel ApiModel BuddyModel.
Open Scope N_scope.

Lemma pow_pos k : 0 < 2 ^ k.
Proof. apply N.neq_0_lt_0, N.pow_nonzero. lia. Qed.
Lemma pow_S k : 2 ^ (k + 1) = 2 * 2 ^ k.
Proof. rewrite N.add_1_r. apply N.pow_succ_r'. Qed.
Lemma pow_mono j k : j <= k -> 2 ^ j <= 2 ^ k.
Proof. apply N.pow_le_mono_r. lia. Qed.
Lemma pow_lt j k : 2 ^ j < 2 ^ k -> j < k.
Proof. intros H. apply N.nle_gt. intros L. apply pow_mono in L. lia. Qed.
Lemma pow_inj j k : 2 ^ j = 2 ^ k -> j = k.
Proof. apply N.pow_inj_r. lia. Qed.
Lemma pow_div j k : j <= k -> (2 ^ j | 2 ^ k).
Proof. intros L. exists (2 ^ (k - j)). rewrite <- N.pow_add_r. f_equal. lia. Qed.

(** Aligned intervals that meet are nested. *)
Lemma nested j k s t x : k <= j -> (2 ^ j | s) -> (2 ^ k | t) -> s <= x < s + 2 ^ j -> t <= x < t + 2 ^ k -> s <= t /\ t + 2 ^ k <= s + 2 ^ j.
Proof.
  intros L [a Ea] [q Eq] H1 H2. destruct (pow_div k j L) as [c Ec]. rewrite Ec in *. subst. pose proof (pow_pos k) as P.
  revert P H1 H2. generalize (2 ^ k) as z. intros z P H1 H2.
  assert (A : a * c < q + 1) by (apply (N.mul_lt_mono_pos_r z); lia).
  assert (B : q < a * c + c) by (apply (N.mul_lt_mono_pos_r z); lia). split; nia.
Qed.
Lemma same_start j k s t : j <= k -> (2 ^ j | s) -> (2 ^ k | t) -> s <= t < s + 2 ^ j -> s = t.
Proof.
  intros L A1 A2 H. assert (A3 : (2 ^ j | t)) by (eapply N.divide_trans; [apply pow_div, L|exact A2]).
  pose proof (pow_pos j). destruct (nested j j s t t (N.le_refl _) A1 A3); lia.
Qed.

(** The other half. *)
Lemma lxor_1 q : N.lxor q 1 = if N.even q then q + 1 else q - 1.
Proof. destruct q as [|[p|p|]]; reflexivity. Qed.
Lemma lxor_pow off k : (2 ^ k | off) -> (2 * 2 ^ k | off) /\ N.lxor off (2 ^ k) = off + 2 ^ k \/
  (2 * 2 ^ k | N.lxor off (2 ^ k)) /\ off = N.lxor off (2 ^ k) + 2 ^ k.
Proof.
  intros [q E]. assert (X : N.lxor off (2 ^ k) = N.lxor q 1 * 2 ^ k).
  { rewrite E. replace (2 ^ k) with (1 * 2 ^ k) at 2 by lia. rewrite <- !N.shiftl_mul_pow2. rewrite <- N.shiftl_lxor. reflexivity. }
  rewrite X, lxor_1. destruct (N.even q) eqn:Ev.
  - left. apply N.even_spec in Ev as [c Ec]. split; [exists c; subst; nia|subst; nia].
  - right. assert (O : N.odd q = true) by (rewrite <- N.negb_even, Ev; reflexivity). apply N.odd_spec in O as [c Ec].
    split; [exists c; subst; nia|subst; replace (2 * c + 1 - 1) with (2 * c) by lia; nia].
Qed.

(** The lowest bit. *)
Lemma low_bit p : exists j, N.pos p - N.land (N.pos p) (N.pos p - 1) = 2 ^ j /\ (2 ^ j | N.pos p) /\ ~ (2 ^ (j + 1) | N.pos p).
Proof.
  induction p as [p IH|p IH|].
  - exists 0. split; [|split].
    + change (N.pos p~1 - 1) with (N.pos p~0). change (N.pos p~1) with (2 * N.pos p + 1). change (N.pos p~0) with (2 * N.pos p).
      assert (G : forall a b, N.land (2 * a + 1) (2 * b) = 2 * N.land a b).
      { intros [|a] [|b]; simpl; try reflexivity; destruct (Pos.land a b); reflexivity. }
      assert (E : N.land (2 * N.pos p + 1) (2 * N.pos p) = 2 * N.pos p) by (rewrite G, N.land_diag; reflexivity).
      rewrite E. change (2 ^ 0) with 1. lia.
    + exists (N.pos p~1). lia.
    + intros [c Ec]. change (2 ^ (0 + 1)) with 2 in Ec. lia.
  - destruct IH as (j & E & D1 & D2). exists (j + 1).
    assert (A : N.pos p~0 - 1 = 2 * (N.pos p - 1) + 1) by lia.
    assert (G : forall a b, N.land (2 * a) (2 * b + 1) = 2 * N.land a b).
    { intros [|a] [|b]; simpl; try reflexivity; destruct (Pos.land a b); reflexivity. }
    assert (Q : N.land (N.pos p) (N.pos p - 1) <= N.pos p).
    { assert (Hs := pow_pos j). lia. }
    rewrite A. change (N.pos p~0) with (2 * N.pos p). rewrite G, pow_S. split; [lia|]. split.
    + destruct D1 as [c Ec]. exists c. lia.
    + intros [c Ec]. apply D2. exists c. rewrite !pow_S in Ec. rewrite pow_S. lia.
  - exists 0. split; [reflexivity|]. split; [exists 1; reflexivity|]. intros [c Ec]. change (2 ^ (0 + 1)) with 2 in Ec. lia.
Qed.

(** CeilingLog2 *)
Lemma ceil_ok fuel : forall r i, i <= 2 ^ (r + N.of_nat fuel) -> exists k, ceil_log2 (S fuel) r (2 ^ r) i = Ok k /\ r <= k /\ i <= 2 ^ k /\ (k = r \/ 2 ^ (k - 1) < i).
Proof.
  induction fuel as [|fuel IH]; intros r i L; cbn [ceil_log2].
  - change (N.of_nat 0) with 0 in L. rewrite N.add_0_r in L. destruct (N.ltb_spec (2 ^ r) i); [lia|]. exists r. split; auto. lia.
  - destruct (N.ltb_spec (2 ^ r) i) as [C|C].
    + replace (2 ^ r * 2) with (2 ^ (r + 1)) by (rewrite pow_S; lia).
      destruct (IH (r + 1) i) as (k & E & L1 & L2 & L3). { replace (r + 1 + N.of_nat fuel) with (r + N.of_nat (S fuel)) by lia. exact L. }
      exists k. split; [exact E|]. split; [lia|]. split; [exact L2|]. right. destruct L3 as [->|L3]; [|exact L3]. replace (r + 1 - 1) with r by lia. exact C.
    + exists r. split; auto. lia.
Qed.
Lemma CeilingLog2_ok i : i <= 2 ^ 63 -> exists k, CeilingLog2 i = Ok k /\ i <= 2 ^ k /\ (k = 0 \/ 2 ^ (k - 1) < i).
Proof. intros L. unfold CeilingLog2. change 1 with (2 ^ 0). destruct (ceil_ok 63 0 i) as (k & E & _ & L1 & L2); [exact L|]. exists k. auto. Qed.
Lemma CeilingLog2_pow j : j <= 63 -> CeilingLog2 (2 ^ j) = Ok j.
Proof.
  intros L. destruct (CeilingLog2_ok (2 ^ j)) as (k & E & L1 & L2); [apply pow_mono, L|]. rewrite E. f_equal.
  assert (J : j <= k). { apply N.nlt_ge. intros C. assert (C' : k + 1 <= j) by lia. apply pow_mono in C'. rewrite pow_S in C'. pose proof (pow_pos k). lia. }
  destruct L2 as [->|L2]; [lia|]. apply pow_lt in L2. lia.
Qed.

(** Rounding up to a multiple. *)
Lemma ldiff_round l a : N.ldiff (l + 2 ^ a - 1) (2 ^ a - 1) = (l + 2 ^ a - 1) / 2 ^ a * 2 ^ a.
Proof.
  replace (2 ^ a - 1) with (N.ones a) by (rewrite N.ones_equiv, N.sub_1_r; reflexivity).
  rewrite N.ldiff_ones_r, N.shiftl_mul_pow2, N.shiftr_div_pow2. reflexivity.
Qed.
Lemma round_up l z : 0 < z -> l <= (l + z - 1) / z * z < l + z /\ (z | (l + z - 1) / z * z).
Proof.
  intros Z. split; [|exists ((l + z - 1) / z); reflexivity]. pose proof (N.div_mod (l + z - 1) z ltac:(lia)) as D. pose proof (N.mod_lt (l + z - 1) z ltac:(lia)) as Hm.
  revert D Hm. generalize ((l + z - 1) / z) as q, ((l + z - 1) mod z) as r. intros q r D Hm. rewrite (N.mul_comm q z). generalize dependent (z * q). intros y D. lia.
Qed.
Lemma ROUNDUP_ok n : n <= ROUNDUP n < n + 8 /\ (8 | ROUNDUP n).
Proof. apply (round_up n 8). lia. Qed.
