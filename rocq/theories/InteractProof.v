(** * The interaction matrix: proofs. *)
From Coq Require Import ZArith List Lia.
From Verif Require Import Base BFModel InteractModel.
Import ListNotations.
Open Scope Z_scope.

Lemma int_ok z : -2^31 <= z < 2^31 -> int z = Ok z.
Proof. intros H. unfold int. destruct (Z.leb_spec (-2^31) z); [|lia]. destruct (Z.ltb_spec z (2^31)); [reflexivity|lia]. Qed.

(** The number of the pair. *)
Definition pn (n x y : Z) : Z := (2 * n - x - 3) * x / 2 + y - 1.
Lemma even_half n x : exists k, (2 * n - x - 3) * x = 2 * k.
Proof.
  destruct (Z.Even_or_Odd x) as [[k ->]|[k ->]].
  - exists ((2 * n - 2 * k - 3) * k). lia.
  - exists ((n - k - 2) * (2 * k + 1)). lia.
Qed.
Lemma pn_twice n x y : 2 * pn n x y = (2 * n - x - 3) * x + 2 * y - 2.
Proof. unfold pn. destruct (even_half n x) as [k E]. rewrite E, (Z.mul_comm 2 k), Z.div_mul by lia. lia. Qed.
Lemma pn_bounds n x y : 0 <= x < y -> y < n -> 0 <= pn n x y /\ 2 * pn n x y < n * (n - 1).
Proof.
  intros Hx Hy. pose proof (pn_twice n x y) as E. split.
  - assert (0 <= (2 * n - x - 3) * x + 2 * y - 2) by nia. lia.
  - rewrite E. nia.
Qed.
Lemma pn_inj n x y x' y' : 0 <= x < y -> y < n -> 0 <= x' < y' -> y' < n -> pn n x y = pn n x' y' -> x = x' /\ y = y'.
Proof.
  intros Hx Hy Hx' Hy' E.
  pose proof (pn_twice n x y) as E1. pose proof (pn_twice n x' y') as E2.
  assert (L : forall x y x' y', 0 <= x < y -> y < n -> 0 <= x' < y' -> y' < n -> x < x' -> (2 * n - x - 3) * x + 2 * y < (2 * n - x' - 3) * x' + 2 * y').
  { clear. intros x y x' y' Hx Hy Hx' Hy' L. nia. }
  destruct (Z.lt_trichotomy x x') as [C|[C|C]].
  - pose proof (L x y x' y' Hx Hy Hx' Hy' C). lia.
  - subst x'. split; lia.
  - pose proof (L x' y' x y Hx' Hy' Hx Hy C). lia.
Qed.

Definition small (n : Z) : Prop := 0 <= n <= 46341.
Lemma posn_ok n x y : small n -> 0 <= x < y -> y < n -> posn n x y = Ok (pn n x y).
Proof.
  intros Hn Hx Hy. unfold posn, small in *.
  assert (0 <= (2 * n - x - 3) * x < 2^31) by nia.
  pose proof (pn_bounds n x y Hx Hy) as [P1 P2]. assert (pn n x y < 2^31 - 1) by nia.
  rewrite int_ok by lia. cbn [bindo]. rewrite int_ok by lia. cbn [bindo]. rewrite int_ok by lia. cbn [bindo]. rewrite int_ok by lia. cbn [bindo].
  change (Z.shiftr ((2 * n - x - 3) * x) 1) with (Z.shiftr ((2 * n - x - 3) * x) 1). rewrite Z.shiftr_div_pow2 by lia. change (2 ^ 1) with 2.
  unfold pn in *. rewrite int_ok by lia. cbn [bindo]. rewrite int_ok by lia. reflexivity.
Qed.

(** Bit [p] of the matrix. *)
Definition bit (M : matrix) (p : Z) : bool :=
  match nth_error M (Z.to_nat (p / 32)) with Some w => Z.testbit w (p mod 32) | None => false end.
Definition nwords (n : Z) : nat := Z.to_nat (n * (n - 1) / 64 + 1).

Lemma nth_put M : forall w v k, (w < length M)%nat -> nth_error (put_nth M w v) k = if Nat.eqb k w then Some v else nth_error M k.
Proof.
  induction M as [|a M IH]; intros w v k L; simpl in L; [lia|]. destruct w as [|w], k as [|k]; simpl; auto. apply IH. lia.
Qed.
Lemma len_put M : forall w v, length (put_nth M w v) = length M.
Proof. induction M as [|a M IH]; intros [|w] v; simpl; auto. Qed.
Lemma one_shl_bit b k : 0 <= b < 32 -> 0 <= k < 32 -> Z.testbit (one_shl b) k = (k =? b).
Proof.
  intros Hb Hk. unfold one_shl. destruct (Z.eqb_spec b 31) as [->|Nb].
  - assert (C : forallb (fun k => Bool.eqb (Z.testbit (- 2^31) (Z.of_nat k)) (Z.of_nat k =? 31)) (seq 0 32) = true) by reflexivity.
    rewrite forallb_forall in C. specialize (C (Z.to_nat k)). rewrite Z2Nat.id in C by lia. apply Bool.eqb_prop. apply C. apply in_seq. lia.
  - rewrite Z.pow2_bits_eqb by lia. apply Z.eqb_sym.
Qed.
Lemma land31 p : Z.land p (BPL - 1) = p mod 32.
Proof. change (BPL - 1) with (Z.ones 5). rewrite Z.land_ones by lia. reflexivity. Qed.
Lemma shr5 p : Z.shiftr p LOGBPL = p / 32.
Proof. unfold LOGBPL. now rewrite Z.shiftr_div_pow2. Qed.
Lemma word_in n p : 0 <= p -> 2 * p < n * (n - 1) -> (Z.to_nat (p / 32) < nwords n)%nat.
Proof. intros H1 H2. unfold nwords. assert (p / 32 <= n * (n - 1) / 64); [|assert (0 <= p / 32) by (apply Z.div_pos; lia); lia]. replace (p / 32) with (2 * p / 64); [apply Z.div_le_mono; lia|]. change 64 with (2 * 32). now rewrite Z.div_mul_cancel_l. Qed.
Lemma mget_ok M p : 0 <= p -> (Z.to_nat (p / 32) < length M)%nat -> exists w, nth_error M (Z.to_nat (p / 32)) = Some w /\ mget M (p / 32) = Ok w.
Proof.
  intros Hp L. destruct (nth_error M (Z.to_nat (p / 32))) as [w|] eqn:E.
  - exists w. split; auto. unfold mget. destruct (Z.ltb_spec (p / 32) 0); [assert (0 <= p / 32) by (apply Z.div_pos; lia); lia|]. now rewrite E.
  - apply nth_error_None in E. lia.
Qed.

Lemma set_ok n M x y : small n -> length M = nwords n -> 0 <= x < y -> y < n ->
  exists M', set_interact n M x y = Ok M' /\ length M' = nwords n /\
    forall p, 0 <= p -> bit M' p = bit M p || (p =? pn n x y).
Proof.
  intros Hn HL Hx Hy. unfold set_interact. rewrite posn_ok by auto. cbn [bindo]. rewrite shr5, land31.
  set (q := pn n x y). pose proof (pn_bounds n x y Hx Hy) as [P1 P2]. fold q in P1, P2.
  pose proof (word_in n q P1 P2) as Lw. rewrite <- HL in Lw. destruct (mget_ok M q P1 Lw) as (w & Ew & ->). cbn [bindo].
  eexists. split; [reflexivity|]. split; [now rewrite len_put|]. intros p Hp. unfold bit. rewrite nth_put by auto.
  assert (0 <= p mod 32 < 32 /\ 0 <= q mod 32 < 32) as [Bp Bq] by (split; apply Z.mod_pos_bound; lia).
  destruct (Nat.eqb_spec (Z.to_nat (p / 32)) (Z.to_nat (q / 32))) as [E|E].
  - assert (E' : p / 32 = q / 32) by (apply Z2Nat.inj; auto; apply Z.div_pos; lia).
    rewrite E, Ew. rewrite Z.lor_spec, one_shl_bit by auto. f_equal.
    pose proof (Z.div_mod p 32 ltac:(lia)). pose proof (Z.div_mod q 32 ltac:(lia)). destruct (Z.eqb_spec (p mod 32) (q mod 32)), (Z.eqb_spec p q); auto; lia.
  - destruct (Z.eqb_spec p q) as [->|]; [congruence|]. now rewrite orb_false_r.
Qed.

Lemma test_ok n M x y : small n -> length M = nwords n -> 1 <= x <= n -> 1 <= y <= n -> x <> y ->
  test_interact n M x y = Ok (if bit M (pn n (Z.min x y - 1) (Z.max x y - 1)) then 1 else 0).
Proof.
  intros Hn HL Hx Hy Nxy. unfold test_interact.
  replace (if x - 1 >? y - 1 then (y - 1, x - 1) else (x - 1, y - 1)) with (Z.min x y - 1, Z.max x y - 1).
  2:{ destruct (Z.gtb_spec (x - 1) (y - 1)); f_equal; lia. }
  set (a := Z.min x y - 1). set (b := Z.max x y - 1). assert (H : 0 <= a < b /\ b < n) by lia. clearbody a b. destruct H as [Ha Hb].
  rewrite posn_ok by auto. cbn [bindo]. rewrite shr5, land31. pose proof (pn_bounds n a b Ha Hb) as [P1 P2].
  pose proof (word_in n _ P1 P2) as Lw. rewrite <- HL in Lw. destruct (mget_ok M _ P1 Lw) as (w & Ew & ->). cbn [bindo]. unfold bit. rewrite Ew. f_equal.
  change 1 with (Z.ones 1) at 1. rewrite Z.land_ones by lia. change (2 ^ 1) with 2. rewrite <- Z.bit0_mod, Z.shiftr_spec by lia.
  rewrite Z.add_0_l. now destruct (Z.testbit w (pn n a b mod 32)).
Qed.

Lemma new_ok n : small n -> exists M, new_matrix n = Ok M /\ length M = nwords n /\ forall p, bit M p = false.
Proof.
  intros Hn. unfold new_matrix, small in *. rewrite int_ok by nia. cbn [bindo]. eexists. split; [reflexivity|].
  rewrite Z.shiftr_div_pow2 by (unfold LOGBPL; lia). change (2 ^ (1 + LOGBPL)) with 64. split; [apply repeat_length|].
  intros p. unfold bit. destruct (nth_error _ _) as [w|] eqn:E; auto. apply nth_error_In, repeat_spec in E. subst. apply Z.bits_0.
Qed.

(** A fold of recordings. *)
Definition ok_pair (n : Z) (p : Z * Z) : Prop := 0 <= fst p < snd p /\ snd p < n.
Definition MI (n : Z) (M : matrix) (ps : Z * Z -> Prop) : Prop :=
  length M = nwords n /\ forall x y, 0 <= x < y -> y < n -> (bit M (pn n x y) = true <-> ps (x, y)).
Lemma MI_set n M ps x y : small n -> MI n M ps -> 0 <= x < y -> y < n ->
  exists M', set_interact n M x y = Ok M' /\ MI n M' (fun p => p = (x, y) \/ ps p).
Proof.
  intros Hn [L B] Hx Hy. destruct (set_ok n M x y Hn L Hx Hy) as (M' & E & L' & B'). exists M'. split; auto. split; auto.
  intros a b Ha Hb. rewrite B' by (apply pn_bounds; auto). rewrite orb_true_iff, B by auto. rewrite Z.eqb_eq. split.
  - intros [H|H]; auto. left. apply pn_inj in H as [-> ->]; auto.
  - intros [H|H]; auto. right. now injection H as -> ->.
Qed.
Lemma MI_ext n M ps qs : (forall x y, 0 <= x < y -> y < n -> (ps (x, y) <-> qs (x, y))) -> MI n M ps -> MI n M qs.
Proof. intros H [L B]. split; auto. intros x y Hx Hy. rewrite B by auto. auto. Qed.

Lemma in_upto a b k : In k (upto a b) <-> a <= k < b.
Proof.
  unfold upto. rewrite in_map_iff. split.
  - intros (j & <- & Ij). apply in_seq in Ij. lia.
  - intros H. exists (Z.to_nat (k - a)). split; [lia|]. apply in_seq. lia.
Qed.

Lemma inner_ok n (sup : Z -> bool) i : small n -> 0 <= i -> forall l M ps, (forall j, In j l -> i < j < n) -> MI n M ps ->
  exists M', foldo (fun M j => if sup j then set_interact n M i j else Ok M) l M = Ok M' /\
    MI n M' (fun p => ps p \/ (fst p = i /\ In (snd p) l /\ sup (snd p) = true)).
Proof.
  intros Hn Hi. induction l as [|j l IH]; intros M ps Hl I; cbn [foldo].
  - exists M. split; auto. eapply MI_ext; [|exact I]. intros x y _ _. cbn. tauto.
  - assert (Hj : i < j < n) by (apply Hl; now left). destruct (sup j) eqn:Sj.
    + destruct (MI_set n M ps i j Hn I) as (M1 & -> & I1); [lia|lia|]. cbn [bindo].
      destruct (IH M1 _ (fun k (Hk : In k l) => Hl k (or_intror Hk)) I1) as (M' & -> & I'). exists M'. split; auto.
      eapply MI_ext; [|exact I']. intros x y _ _. cbn [fst snd In]. split.
      * intros [[H|H]|H]; auto; [|tauto]. injection H as -> ->. auto.
      * intros [H|(-> & [->|H] & S)]; auto.
    + cbn [bindo]. destruct (IH M ps (fun k (Hk : In k l) => Hl k (or_intror Hk)) I) as (M' & -> & I'). exists M'. split; auto.
      eapply MI_ext; [|exact I']. intros x y _ _. cbn [fst snd In]. split; [tauto|].
      intros [H|(-> & [->|H] & S)]; auto; congruence.
Qed.

Definition both (sup : Z -> bool) (p : Z * Z) : Prop := sup (fst p) = true /\ sup (snd p) = true.
Lemma outer_ok n (sup : Z -> bool) : small n -> forall l M ps, (forall i, In i l -> 0 <= i < n) -> MI n M ps ->
  exists M', foldo (fun M i => if sup i then foldo (fun M j => if sup j then set_interact n M i j else Ok M) (upto (i + 1) n) M else Ok M) l M = Ok M' /\
    MI n M' (fun p => ps p \/ (In (fst p) l /\ both sup p)).
Proof.
  intros Hn. induction l as [|i l IH]; intros M ps Hl I; cbn [foldo].
  - exists M. split; auto. eapply MI_ext; [|exact I]. intros x y _ _. cbn. tauto.
  - assert (Hi : 0 <= i < n) by (apply Hl; now left). destruct (sup i) eqn:Si.
    + destruct (inner_ok n sup i Hn (proj1 Hi) (upto (i + 1) n) M ps) as (M1 & -> & I1); [intros j Hj; apply in_upto in Hj; lia|exact I|]. cbn [bindo].
      destruct (IH M1 _ (fun k (Hk : In k l) => Hl k (or_intror Hk)) I1) as (M' & -> & I'). exists M'. split; auto.
      eapply MI_ext; [|exact I']. intros x y Hx Hy. unfold both. cbn [fst snd In]. rewrite in_upto. split.
      * intros [[H|(-> & H & S)]|(H & S)]; auto.
      * intros [H|([->|H] & S)]; auto. left. right. repeat split; [lia..|tauto].
    + cbn [bindo]. destruct (IH M ps (fun k (Hk : In k l) => Hl k (or_intror Hk)) I) as (M' & -> & I'). exists M'. split; auto.
      eapply MI_ext; [|exact I']. intros x y _ _. unfold both. cbn [fst snd In]. split; [tauto|].
      intros [H|([->|H] & S)]; auto. destruct S. congruence.
Qed.
Lemma update_ok n M ps sup : small n -> MI n M ps ->
  exists M', update_interact n M sup = Ok M' /\ MI n M' (fun p => ps p \/ both sup p).
Proof.
  intros Hn I. destruct (outer_ok n sup Hn (upto 0 (n - 1)) M ps) as (M' & E & I'); [intros i Hi; apply in_upto in Hi; lia|exact I|].
  exists M'. split; auto. eapply MI_ext; [|exact I']. intros x y Hx Hy. cbn [fst]. rewrite in_upto. split; [tauto|]. intros [H|H]; auto. right. split; auto. lia.
Qed.
Lemma fold_update n : small n -> forall sups M ps, MI n M ps ->
  exists M', foldo (update_interact n) sups M = Ok M' /\ MI n M' (fun p => ps p \/ exists s, In s sups /\ both s p).
Proof.
  intros Hn. induction sups as [|s sups IH]; intros M ps I; cbn [foldo].
  - exists M. split; auto. eapply MI_ext; [|exact I]. intros x y _ _. split; auto. intros [H|(s & [] & _)]; auto.
  - destruct (update_ok n M ps s Hn I) as (M1 & -> & I1). cbn [bindo]. destruct (IH M1 _ I1) as (M' & -> & I'). exists M'. split; auto.
    eapply MI_ext; [|exact I']. intros x y _ _. split.
    + intros [[H|H]|(t & It & H)]; auto; right; [exists s|exists t]; simpl; auto.
    + intros [H|(t & [->|It] & H)]; auto. right. eauto.
Qed.
Lemma MI_new n : small n -> exists M, new_matrix n = Ok M /\ MI n M (fun _ => False).
Proof. intros Hn. destruct (new_ok n Hn) as (M & E & L & B). exists M. split; auto. split; auto. intros x y _ _. rewrite B. split; [discriminate|tauto]. Qed.

Lemma MI_test n M ps x y : small n -> MI n M ps -> 1 <= x <= n -> 1 <= y <= n -> x <> y ->
  exists r, test_interact n M x y = Ok r /\ (r = 1 \/ r = 0) /\ (r = 1 <-> ps (Z.min x y - 1, Z.max x y - 1)).
Proof.
  intros Hn [L B] Hx Hy Nxy. rewrite test_ok by auto. eexists. split; [reflexivity|].
  rewrite <- B by lia. destruct (bit _ _); split; auto; split; congruence.
Qed.

(** ** Statements *)
Theorem recorded_pairs n ps : small n -> (forall p, In p ps -> ok_pair n p) ->
  exists M0 M, new_matrix n = Ok M0 /\ foldo (fun M p => set_interact n M (fst p) (snd p)) ps M0 = Ok M /\
    forall x y, 1 <= x <= n -> 1 <= y <= n -> x <> y ->
      exists r, test_interact n M x y = Ok r /\ (r = 1 \/ r = 0) /\ (r = 1 <-> In (x - 1, y - 1) ps \/ In (y - 1, x - 1) ps).
Proof.
  intros Hn Hp. destruct (MI_new n Hn) as (M0 & E0 & I0).
  assert (H : forall l M qs, (forall p, In p l -> ok_pair n p) -> MI n M qs ->
    exists M', foldo (fun M p => set_interact n M (fst p) (snd p)) l M = Ok M' /\ MI n M' (fun p => qs p \/ In p l)).
  { induction l as [|(a, b) l IH]; intros M qs Hl I; cbn [foldo].
    - exists M. split; auto. eapply MI_ext; [|exact I]. intros x y _ _. simpl. tauto.
    - destruct (Hl (a, b) (or_introl eq_refl)) as [Ha Hb]. cbn [fst snd] in Ha, Hb |- *.
      destruct (MI_set n M qs a b Hn I Ha Hb) as (M1 & -> & I1). cbn [bindo].
      destruct (IH M1 _ (fun p (Ip : In p l) => Hl p (or_intror Ip)) I1) as (M' & -> & I'). exists M'. split; auto.
      eapply MI_ext; [|exact I']. intros x y _ _. simpl. intuition congruence. }
  destruct (H ps M0 _ Hp I0) as (M & E & I). exists M0, M. split; auto. split; auto.
  intros x y Hx Hy Nxy. destruct (MI_test n M _ x y Hn I Hx Hy Nxy) as (r & Er & Hr & Hp'). exists r. split; auto. split; auto.
  rewrite Hp'. split.
  - intros [[]|H1]. destruct (Z.lt_ge_cases x y); [left|right].
    + now replace (x - 1, y - 1) with (Z.min x y - 1, Z.max x y - 1) by (f_equal; lia).
    + now replace (y - 1, x - 1) with (Z.min x y - 1, Z.max x y - 1) by (f_equal; lia).
  - intros [H1|H1]; right; destruct (Hp _ H1) as [H2 H3]; cbn [fst snd] in *.
    + now replace (Z.min x y - 1, Z.max x y - 1) with (x - 1, y - 1) by (f_equal; lia).
    + now replace (Z.min x y - 1, Z.max x y - 1) with (y - 1, x - 1) by (f_equal; lia).
Qed.
Theorem interaction_of_supports n sups : small n ->
  exists M, init_interact n sups = Ok M /\
    forall x y, 1 <= x <= n -> 1 <= y <= n -> x <> y ->
      exists r, test_interact n M x y = Ok r /\ (r = 1 \/ r = 0) /\ (r = 1 <-> exists s, In s sups /\ s (x - 1) = true /\ s (y - 1) = true).
Proof.
  intros Hn. unfold init_interact. destruct (MI_new n Hn) as (M0 & -> & I0). cbn [bindo].
  destruct (fold_update n Hn sups M0 _ I0) as (M & E & I). exists M. split; auto.
  intros x y Hx Hy Nxy. destruct (MI_test n M _ x y Hn I Hx Hy Nxy) as (r & Er & Hr & Hp'). exists r. split; auto. split; auto.
  rewrite Hp'. unfold both. cbn [fst snd]. split.
  - intros [[]|(s & Is & H1 & H2)]. exists s. split; auto. destruct (Z.lt_ge_cases x y).
    + rewrite Z.min_l, Z.max_r in * by lia. auto.
    + rewrite Z.min_r, Z.max_l in * by lia. auto.
  - intros (s & Is & H1 & H2). right. exists s. split; auto. destruct (Z.lt_ge_cases x y).
    + rewrite Z.min_l, Z.max_r by lia. auto.
    + rewrite Z.min_r, Z.max_l by lia. auto.
Qed.
Theorem overflow_refuted : exists n, n < 65535 /\ new_matrix n = Undefined.
Proof. exists 46342. split; [lia|reflexivity]. Qed.
Lemma pairs_example : small 300 /\ forall p, In p [(0, 2); (31, 32); (298, 299)] -> ok_pair 300 p.
Proof. unfold small, ok_pair. split; [lia|]. intros p [<-|[<-|[<-|[]]]]; cbn [fst snd]; lia. Qed.
