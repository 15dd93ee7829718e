From Coq Require Import ZArith List Bool Lia Znumtheory.
From Verif Require Import RandModel.
Import ListNotations.
Local Open Scope Z_scope.

Lemma long_in z : - 2 ^ 63 <= z < 2 ^ 63 -> long z = Some z.
Proof.
  intros H. unfold long. rewrite (proj2 (Z.leb_le _ _)), (proj2 (Z.ltb_lt _ _)) by lia. reflexivity.
Qed.

(** Schrage's method computes the modular product without overflow when [m = a*q + r],
    [r < q] and all are small. *)
Lemma schrage_spec a q r m x : m = a * q + r -> 0 <= r < q -> 0 < a < 2 ^ 20 -> 0 < q < 2 ^ 20 -> m < 2 ^ 31 ->
  0 < x < m -> r * (m / q) <= m -> schrage a q r m x = Some ((a * x) mod m).
Proof.
  intros Hm Hr Ha Hq Hm2 Hx Hrq. unfold schrage.
  rewrite (Z.quot_div_nonneg x q) by lia.
  pose proof (Z.div_mod x q ltac:(lia)) as E. pose proof (Z.mod_pos_bound x q ltac:(lia)) as B.
  set (w := x / q) in *. set (d := x mod q) in *.
  assert (Hw : 0 <= w <= m / q) by (split; [apply Z.div_pos; lia|apply Z.div_le_mono; lia]).
  assert (Hmq : m / q < 2 ^ 31) by (apply Z.div_lt_upper_bound; nia).
  rewrite long_in by nia. replace (x - w * q) with d by lia. rewrite long_in by lia.
  rewrite long_in by nia.
  assert (Hwr : 0 <= w * r <= m) by nia.
  rewrite long_in by lia. assert (Had : 0 <= a * d < m) by nia. rewrite long_in by lia.
  assert (EQ : a * x = m * w + (a * d - w * r)) by (rewrite E, Hm; ring).
  destruct (Z.ltb_spec (a * d - w * r) 0).
  - rewrite long_in by lia. f_equal.
    assert (a * d - w * r <> - m).
    { intros C0. assert (w * r = m) by lia. assert (a * d = 0) by lia.
      assert (d = 0) by nia. assert (w = m / q) by nia. subst w. nia. }
    apply Z.mod_unique with (q := w - 1); [left; lia|]. rewrite EQ. ring.
  - rewrite long_in by lia. f_equal. apply Z.mod_unique with (q := w); [left; lia|]. rewrite EQ. ring.
Qed.

Lemma mod_pos a m x : 1 < m -> Z.gcd a m = 1 -> 0 < x < m -> 0 < (a * x) mod m < m.
Proof.
  intros Hm G Hx. pose proof (Z.mod_pos_bound (a * x) m ltac:(lia)) as B.
  assert ((a * x) mod m <> 0); [|lia]. intros C. apply Z.mod_divide in C; [|lia].
  apply Z.gauss in C; [|now rewrite Z.gcd_comm]. apply Z.divide_pos_le in C; lia.
Qed.

Lemma s1_spec x : 0 < x < MODULUS1 -> schrage LEQA1 LEQQ1 LEQR1 MODULUS1 x = Some ((LEQA1 * x) mod MODULUS1).
Proof. intros H. apply schrage_spec; try (unfold LEQA1, LEQQ1, LEQR1, MODULUS1 in *; lia). vm_compute. discriminate. Qed.
Lemma s2_spec x : 0 < x < MODULUS2 -> schrage LEQA2 LEQQ2 LEQR2 MODULUS2 x = Some ((LEQA2 * x) mod MODULUS2).
Proof. intros H. apply schrage_spec; try (unfold LEQA2, LEQQ2, LEQR2, MODULUS2 in *; lia). vm_compute. discriminate. Qed.
Lemma s1_pos x : 0 < x < MODULUS1 -> 0 < (LEQA1 * x) mod MODULUS1 < MODULUS1.
Proof. intros H. apply mod_pos; [reflexivity|vm_compute; reflexivity|auto]. Qed.
Lemma s2_pos x : 0 < x < MODULUS2 -> 0 < (LEQA2 * x) mod MODULUS2 < MODULUS2.
Proof. intros H. apply mod_pos; [reflexivity|vm_compute; reflexivity|auto]. Qed.

Lemma upd_len l : forall i v, length (upd l i v) = length l.
Proof. induction l; destruct i; simpl; auto. Qed.
Lemma upd_nth l : forall i j v, (i < length l)%nat -> nth j (upd l i v) 0 = if Nat.eqb j i then v else nth j l 0.
Proof.
  induction l as [|h l IH]; simpl; intros i j v H; [lia|]. destruct i, j; simpl; auto. apply IH. lia.
Qed.

(** State invariant of a seeded generator. *)
Record ok (g : rng) : Prop := {
  ok1 : 0 < ur g < MODULUS1;
  ok2 : 0 < ur2 g < MODULUS2;
  oks : 0 < sel g < MODULUS1;
  okl : length (tab g) = 64%nat;
  okt : forall i, (i < 64)%nat -> 0 < nth i (tab g) 0 < MODULUS1
}.

Lemma warm_spec n : forall i x t, 0 < x < MODULUS1 -> length t = 64%nat ->
  exists y t', warm n i x t = Some (y, t') /\ 0 < y < MODULUS1 /\ length t' = 64%nat /\
    (forall j, (j < 64)%nat -> (nth j t' 0 = nth j t 0 /\ forall k, (i <= k < i + n)%nat -> Nat.modulo k 64 <> j) \/
        0 < nth j t' 0 < MODULUS1) .
Proof.
  induction n as [|n IH]; intros i x t Hx Hl; cbn [warm].
  - exists x, t. do 3 (split; [auto|]). intros j Hj. left. split; [auto|]. intros k Hk. lia.
  - rewrite s1_spec by auto. pose proof (s1_pos x Hx) as P. set (y := (LEQA1 * x) mod MODULUS1) in *.
    destruct (IH (S i) y (upd t (Nat.modulo i 64) y) P) as (z & t' & E & Hz & Hl' & HT); [now rewrite upd_len|].
    exists z, t'. split; auto. split; auto. split; auto. intros j Hj.
    destruct (HT j Hj) as [[E1 E2]|]; auto.
    assert (Him : (Nat.modulo i 64 < 64)%nat) by (apply Nat.mod_upper_bound; lia).
    rewrite upd_nth in E1 by lia. destruct (Nat.eqb_spec j (Nat.modulo i 64)) as [Ej|Ej].
    + right. now rewrite E1.
    + left. split; auto. intros k Hk. destruct (Nat.eq_dec k i) as [->|]; [congruence|]. apply E2. lia.
Qed.

Lemma srandom_spec seed : 0 < (if seed =? 0 then 1 else Z.abs seed) < MODULUS2 ->
  exists g, srandom seed = Some g /\ ok g /\ ur2 g = (if seed =? 0 then 1 else Z.abs seed).
Proof.
  intros H. unfold srandom.
  assert (Es : (if seed <? 0 then long (- seed) else if seed =? 0 then Some 1 else Some seed) =
               Some (if seed =? 0 then 1 else Z.abs seed)).
  { destruct (Z.ltb_spec seed 0).
    - destruct (Z.eqb_spec seed 0); [lia|]. rewrite long_in; [f_equal; lia|]. unfold MODULUS2 in *. lia.
    - destruct (Z.eqb_spec seed 0); auto. f_equal. lia. }
  rewrite Es. clear Es. set (s := if seed =? 0 then 1 else Z.abs seed) in *.
  destruct (warm_spec 75 0 s (repeat 0 64)) as (x & t & E & Hx & Hl & HT).
  { unfold MODULUS1, MODULUS2 in *. lia. }
  { reflexivity. }
  rewrite E. eexists. split; [reflexivity|]. cbn [ur2]. split; auto.
  assert (T : forall j, (j < 64)%nat -> 0 < nth j t 0 < MODULUS1).
  { intros j Hj. destruct (HT j Hj) as [[_ C]|]; auto. exfalso. apply (C j); [lia|]. apply Nat.mod_small. lia. }
  constructor; cbn [ur ur2 sel tab]; auto. apply T. lia.
Qed.

Definition labs (g : rng) : lstate := LS (ur g) (ur2 g) (sel g) (tab g).

Lemma random_ok g : ok g -> exists x g', random g = Some (x, g') /\ ok g' /\
  0 <= x <= 2147483561 /\ lnext (labs g) = (x, labs g').
Proof.
  intros [H1 H2 Hs Hl Ht]. unfold random. destruct (Z.eqb_spec (ur g) 0); [lia|].
  rewrite s1_spec, s2_spec by auto. pose proof (s1_pos _ H1) as P1. pose proof (s2_pos _ H2) as P2.
  set (u := (LEQA1 * ur g) mod MODULUS1) in *. set (u2 := (LEQA2 * ur2 g) mod MODULUS2) in *.
  assert (HD : STAB_DIV = 33554431) by reflexivity.
  rewrite Z.quot_div_nonneg by lia.
  assert (Hi : 0 <= sel g / STAB_DIV < 64).
  { split; [apply Z.div_pos; lia|]. apply Z.div_lt_upper_bound; [lia|]. unfold MODULUS1 in *. lia. }
  unfold STAB_SIZE. rewrite (proj2 (Z.leb_le _ _)), (proj2 (Z.ltb_lt _ _)) by lia. cbn [andb].
  set (i := Z.to_nat (sel g / STAB_DIV)) in *. assert (Hin : (i < 64)%nat) by (unfold i; lia).
  pose proof (Ht i Hin) as Hti. rewrite long_in by (unfold MODULUS1, MODULUS2 in *; lia).
  set (d := nth i (tab g) 0 - u2) in *. set (s := d + (if d <? 1 then MODULUS1 - 1 else 0)).
  assert (Hs' : 0 < s < MODULUS1).
  { unfold s. destruct (Z.ltb_spec d 1); unfold d, MODULUS1, MODULUS2 in *; lia. }
  rewrite long_in by (unfold MODULUS1 in *; lia).
  exists (s - 1), (R u u2 s (upd (tab g) i u)). split; [reflexivity|]. split.
  { constructor; cbn [ur ur2 sel tab]; auto.
    - now rewrite upd_len.
    - intros j Hj. rewrite upd_nth by lia. destruct (Nat.eqb j i); auto. }
  split; [unfold MODULUS1 in *; lia|].
  unfold lnext, labs; cbn [l1 l2 lsel ltab ur ur2 sel tab]. fold u u2 i d.
  replace (if d <? 1 then d + (MODULUS1 - 1) else d) with s; [reflexivity|].
  unfold s. destruct (d <? 1); lia.
Qed.

Lemma draws_ok n : forall g, ok g -> exists l g', draws n g = Some (l, g') /\ ok g' /\
  length l = n /\ (forall x, In x l -> 0 <= x <= 2147483561) /\ l = ldraws n (labs g).
Proof.
  induction n as [|n IH]; intros g H; cbn [draws ldraws].
  - exists [], g. split; [auto|]. split; [exact H|]. split; [auto|]. split; [intros x []|auto].
  - destruct (random_ok g H) as (x & g' & E & K & Hx & EL). rewrite E.
    destruct (IH g' K) as (l & g'' & E2 & K2 & Hl & HI & EQ). rewrite E2.
    exists (x :: l), g''. split; auto. split; auto. split; [simpl; congruence|]. split.
    + intros y [<-|Y]; auto.
    + now rewrite EL, EQ.
Qed.

Lemma rand_partial seed n : Z.abs seed < MODULUS2 ->
  exists g l g', srandom seed = Some g /\ draws n g = Some (l, g') /\ length l = n /\
    (forall x, In x l -> 0 <= x <= 2147483561) /\ l = ldraws n (labs g).
Proof.
  intros H. destruct (srandom_spec seed) as (g & E & K & _).
  { destruct (Z.eqb_spec seed 0); unfold MODULUS2 in *; lia. }
  destruct (draws_ok n g K) as (l & g' & E2 & _ & Hl & HI & EQ). exists g, l, g'. auto.
Qed.

Lemma rand_unseeded n : exists l g', draws n rng0 = Some (l, g') /\ length l = n /\
    (forall x, In x l -> 0 <= x <= 2147483561) /\
    (forall g l2 g2, srandom 1 = Some g -> draws n g = Some (l2, g2) -> l = l2).
Proof.
  destruct (srandom_spec 1) as (g & E & K & _); [unfold MODULUS2; simpl; lia|].
  destruct (draws_ok n g K) as (l & g' & E2 & K2 & Hl & HI & EQ).
  destruct n as [|n].
  - exists [], rng0. simpl. split; [auto|]. split; [auto|]. split; [intros x []|]. intros ? ? ? _ [= <- _]. auto.
  - exists l, g'. cbn [draws]. assert (ER : random rng0 = random g).
    { unfold random at 1. change (ur rng0 =? 0) with true. cbv iota. rewrite E.
      unfold random at 1. destruct K as [K1 _ _ _ _]. destruct (Z.eqb_spec (ur g) 0); [lia|]. reflexivity. }
    rewrite ER. change (match random g with Some (x, g0) => match draws n g0 with Some (l0, g'') => Some (x :: l0, g'') | None => None end | None => None end) with (draws (S n) g).
    split; [exact E2|]. split; [exact Hl|]. split; [exact HI|]. intros g0 l2 g2 E0 D0.
    rewrite E in E0. injection E0 as <-. cbn [draws] in E2. rewrite E2 in D0. injection D0 as <- _. reflexivity.
Qed.

Lemma rand_refuted : exists seed g, 0 < seed < 2 ^ 63 /\ srandom seed = Some g /\
  exists x g', random g = Some (x, g') /\ ~ (0 <= x <= 2147483561) /\ random g' = None.
Proof.
  exists (2 ^ 62). destruct (srandom (2 ^ 62)) as [g|] eqn:E; [|vm_compute in E; discriminate].
  exists g. split; [lia|]. split; auto.
  destruct (random g) as [[x g']|] eqn:E2.
  - exists x, g'. split; auto.
    assert (H : match srandom (2 ^ 62) with Some g => match random g with Some (x, g') =>
       (x <? 0) || (2147483561 <? x) = true /\ random g' = None | None => False end | None => False end)
      by (vm_compute; auto).
    rewrite E, E2 in H. destruct H as [H1 H2]. split; auto.
    apply orb_true_iff in H1. rewrite !Z.ltb_lt in H1. lia.
  - exfalso. assert (H : match srandom (2 ^ 62) with Some g => match random g with Some _ => True | None => False end | None => False end)
      by (vm_compute; auto).
    rewrite E, E2 in H. exact H.
Qed.

Lemma rand_overflow : srandom (- 2 ^ 63) = None.
Proof. vm_compute. reflexivity. Qed.
