(** * Properties C28, C38, C47, C50, C51. *)
From Coq Require Import ZArith.
From Verif Require Import Base BFModel StoreInv MultiProof BitsModel BitsProof SpecWords WordsLemmas CodecModel CodecProof.
Require Verif.RandModel Verif.RandProof.

(** C28: any history of updates acts on the packed count as on one counter that sticks at 255,
    and changes nothing else in the node. *)
Theorem C28_packed_count_is_a_counter : forall ops w, all_sensible (w_getrc w) ops ->
  w_getrc (fold_left packed ops w) = counts (w_getrc w) ops /\ others (fold_left packed ops w) = others w.
Proof. exact packed_history. Qed.
Print Assumptions C28_packed_count_is_a_counter.

Example C28_example : let w := W 35 (64 + 14 + 1) (96 + 15) in
  all_sensible (w_getrc w) [Decrement; AddTo (-3); Increment; AddTo 7] /\ w_getrc w = 255 /\
  w_getrc (W 32 (64 + 15) (96 + 15)) = 127 /\ w_getrc (w_icr (W 33 (64 + 15) (96 + 15))) = 128 /\
  w_getrc (w_dcr (w_icr (W 33 (64 + 15) (96 + 15)))) = 127.
Proof. vm_compute. intuition discriminate. Qed.

Theorem C28_saturated_count_is_permanent : forall ops w, w_getrc w = 255 -> w_getrc (fold_left packed ops w) = 255.
Proof. exact packed_saturated. Qed.
Print Assumptions C28_saturated_count_is_permanent.

Theorem C28_tests_read_the_count : forall w,
  w_iszero w = (w_getrc w =? 0) /\ w_ismax w = (w_getrc w =? 255) /\ w_getrc w <= 255.
Proof. exact packed_tests. Qed.
Print Assumptions C28_tests_read_the_count.

Theorem C28_put_get : forall w k, k <= 255 -> w_getrc (w_putrc w k) = k /\ others (w_putrc w k) = others w.
Proof. exact putrc_spec. Qed.
Print Assumptions C28_put_get.

(** Storing a child pointer with its complement tag reads back, and keeps the count. *)
Theorem C28_pointer_updates_keep_count : forall w p,
  (ptag (w_getthen (w_putthen w p) 0) = ptag p /\ w_getrc (w_putthen w p) = w_getrc w /\
   we (w_putthen w p) = we w /\ wn (w_putthen w p) = wn w /\ w_getmark (w_putthen w p) = w_getmark w) /\
  (ptag (w_getelse (w_putelse w p) 0) = ptag p /\ w_getrc (w_putelse w p) = w_getrc w /\
   wt (w_putelse w p) = wt w /\ wn (w_putelse w p) = wn w).
Proof. exact (fun w p => conj (putthen_spec w p) (putelse_spec w p)). Qed.
Print Assumptions C28_pointer_updates_keep_count.

Theorem C28_marks_keep_count : forall w,
  w_getrc (w_mark w) = w_getrc w /\ w_getrc (w_unmark w) = w_getrc w /\
  w_ismarked (w_mark w) = true /\ w_ismarked (w_unmark w) = false /\
  ptag (w_getthen (w_mark w) 0) = ptag (w_getthen w 0) /\ ptag (w_getthen (w_unmark w) 0) = ptag (w_getthen w 0).
Proof. exact mark_spec. Qed.
Print Assumptions C28_marks_keep_count.

Theorem C28_two_bit_marks : forall w k, k <= 3 -> w_getmark (w_putmark w k) = k /\ w_getrc (w_putmark w k) = w_getrc w /\
  ptag (w_getthen (w_putmark w k) 0) = ptag (w_getthen w 0).
Proof. exact putmark_spec. Qed.
Print Assumptions C28_two_bit_marks.
Example C28_two_bit_marks_example : w_getrc (W (32 + 3) (64 + 14) (96 + 15)) = 255 /\ w_putmark (W (32 + 3) (64 + 14) (96 + 15)) 2 = W (32 + 11) (64 + 14) (96 + 15).
Proof. vm_compute. auto. Qed.

Theorem C28_links_keep_count : forall w p, w_getnext (w_putnext w p) / 16 = p / 16 /\ w_getnext (w_putnext w p) mod 16 = 0 /\
  w_getrc (w_putnext w p) = w_getrc w /\ wt (w_putnext w p) = wt w /\ we (w_putnext w p) = we w.
Proof. exact putnext_spec. Qed.
Print Assumptions C28_links_keep_count.
Example C28_links_example : w_putnext (W 32 64 (96 + 5)) 160 = W 32 64 (160 + 5).
Proof. vm_compute. auto. Qed.

(** C38. *)
Theorem C38_read_back : forall b n s, n < 256 ^ N.of_nat b -> dread b (dwrite b n ++ s) = Some (n, s).
Proof. exact read_write. Qed.
Print Assumptions C38_read_back.
Example C38_example : 70000 < 256 ^ N.of_nat 3 /\ dwrite 3 70000 = [1; 17; 112] /\ dread 3 [1; 17; 112; 9] = Some (70000, [9]).
Proof. vm_compute. auto. Qed.

Theorem C38_width_suffices : forall n k, n <= 2 ^ 32 -> k < n -> k < 256 ^ N.of_nat (bytes_needed n).
Proof. exact bytes_suffice. Qed.
Print Assumptions C38_width_suffices.

Theorem C38_width_least : forall n b, 2 <= n <= 2 ^ 32 -> (b < bytes_needed n)%nat -> (1 <= b)%nat ->
  exists k, k < n /\ 256 ^ N.of_nat b <= k.
Proof. exact bytes_least. Qed.
Print Assumptions C38_width_least.

Theorem C38_variables_are_not_codes : forall vars i, vars < 2 ^ 16 -> i < vars ->
  exists m, index_mask (bytes_needed (vars + 1)) = Some m /\ i <> m /\ m < 256 ^ N.of_nat (bytes_needed (vars + 1)).
Proof. exact mask_free. Qed.
Print Assumptions C38_variables_are_not_codes.
Example C38_boundary : bytes_needed (255 + 1) = 1%nat /\ bytes_needed (256 + 1) = 2%nat.
Proof. vm_compute. auto. Qed.

Theorem C38_codes_read_back : forall vars c s, vars < 2 ^ 16 -> c < 8 ->
  exists m s', index_mask (bytes_needed (vars + 1)) = Some m /\
    dread (bytes_needed (vars + 1)) (dwrite (S (bytes_needed (vars + 1))) (4294967040 + c) ++ s) = Some (m, s') /\
    dread 1 s' = Some (c, s).
Proof. exact code_read. Qed.
Print Assumptions C38_codes_read_back.

(** C47. *)
Theorem C47_hash_in_table : forall t e k, w_hash t e (2 ^ k) < 2 ^ k.
Proof. exact hash_range. Qed.
Print Assumptions C47_hash_in_table.

Theorem C47_hash_ignores_tags : forall p q a b k, a <= 1 -> b <= 1 -> 32 * p < 2 ^ 64 -> 32 * q < 2 ^ 64 ->
  w_hash (32 * p + a) (32 * q + b) (2 ^ k) = w_hash (32 * p) (32 * q) (2 ^ k).
Proof. exact hash_tags. Qed.
Print Assumptions C47_hash_ignores_tags.
Example C47_example : w_hash (32 * 1000 + 1) (32 * 77) (2 ^ 8) = 53.
Proof. vm_compute. reflexivity. Qed.

Theorem C47_ceiling_log : forall n, 1 <= n -> n <= 2 ^ ceillog2 n /\ forall k, n <= 2 ^ k -> ceillog2 n <= k.
Proof. exact ceillog2_spec. Qed.
Print Assumptions C47_ceiling_log.
Example C47_log_example : ceillog2 1 = 0 /\ ceillog2 1024 = 10 /\ ceillog2 1025 = 11.
Proof. vm_compute. auto. Qed.

(** C50: for seeds below the second modulus every draw is defined (no overflow, no access
    outside the shuffle table), in the documented range, and equal to the reference generator
    computed with plain modular arithmetic.  Missing from the full claim: the larger seeds, for
    which it is false. *)
Theorem C50_random_partial : forall seed n, (Z.abs seed < 2147483399)%Z ->
  exists g l g', RandModel.srandom seed = Some g /\ RandModel.draws n g = Some (l, g') /\ length l = n /\
    (forall x, In x l -> (0 <= x <= 2147483561)%Z) /\ l = RandModel.ldraws n (RandProof.labs g).
Proof. exact RandProof.rand_partial. Qed.
Print Assumptions C50_random_partial.
Example C50_example : (Z.abs (-12345) < 2147483399)%Z. Proof. reflexivity. Qed.

(** Without seeding, the generator behaves as seeded with 1. *)
Theorem C50_unseeded : forall n, exists l g', RandModel.draws n RandModel.rng0 = Some (l, g') /\ length l = n /\
    (forall x, In x l -> (0 <= x <= 2147483561)%Z) /\
    (forall g l2 g2, RandModel.srandom 1 = Some g -> RandModel.draws n g = Some (l2, g2) -> l = l2).
Proof. exact RandProof.rand_unseeded. Qed.
Print Assumptions C50_unseeded.

(** A seed for which the first draw is outside the documented range and the second draw
    indexes outside the shuffle table; and a seed whose negation overflows. *)
Theorem C50_random_refuted : exists seed g, (0 < seed < 2 ^ 63)%Z /\ RandModel.srandom seed = Some g /\
  exists x g', RandModel.random g = Some (x, g') /\ ~ (0 <= x <= 2147483561)%Z /\ RandModel.random g' = None.
Proof. exact RandProof.rand_refuted. Qed.
Print Assumptions C50_random_refuted.

Theorem C50_seed_overflow_refuted : RandModel.srandom (- 2 ^ 63) = None.
Proof. exact RandProof.rand_overflow. Qed.
Print Assumptions C50_seed_overflow_refuted.

(** C51: wherever the C code is defined, it negates, and twice gives the original. *)
Theorem C51_transform_negates_partial : forall v1 v2 r1 r2, v1 < 2 ^ 64 -> v2 < 2 ^ 64 -> transform v1 v2 = Some (r1, r2) ->
  r1 < 2 ^ 64 /\ r2 < 2 ^ 64 /\ number128 r1 r2 = negate128 (number128 v1 v2) /\ transform r1 r2 = Some (v1, v2).
Proof. exact transform_neg128. Qed.
Print Assumptions C51_transform_negates_partial.

Theorem C51_transform_defined : forall v1 v2, (v2 = 0 -> v1 <> 2 ^ 63) -> v2 <> 2 ^ 63 -> transform v1 v2 <> None.
Proof. exact transform_defined. Qed.
Print Assumptions C51_transform_defined.
Example C51_example : transform 3 5 = Some (2 ^ 64 - 4, 2 ^ 64 - 5).
Proof. vm_compute. reflexivity. Qed.

(** Signed overflow exists. *)
Theorem C51_transform_defined_refuted : exists v1 v2, v1 < 2 ^ 64 /\ v2 < 2 ^ 64 /\ transform v1 v2 = None.
Proof. exact transform_ub. Qed.
Print Assumptions C51_transform_defined_refuted.
