From Verif Require Import Base CodecModel.

Lemma dwrite_len b n : length (dwrite b n) = b.
Proof. induction b; simpl; auto. Qed.

Lemma dwrite_byte b n : Forall (fun c => c < 256) (dwrite b n).
Proof.
  induction b as [|b IH]; constructor; auto.
  change 255 with (N.ones 8). rewrite N.land_ones. apply N.mod_lt. discriminate.
Qed.

Lemma dread_write_aux b : forall n acc s,
  dread_aux b acc (dwrite b n ++ s) = Some (acc * 256 ^ N.of_nat b + n mod 256 ^ N.of_nat b, s).
Proof.
  induction b as [|b IH]; intros n acc s.
  - simpl. rewrite N.mod_1_r. f_equal. f_equal. lia.
  - cbn [dwrite dread_aux app]. rewrite IH. f_equal. f_equal.
    change 255 with (N.ones 8). rewrite N.land_ones, N.shiftl_mul_pow2, N.shiftr_div_pow2. change (2 ^ 8) with 256.
    rewrite Nat2N.inj_succ, N.pow_succ_r'.
    assert (E : 2 ^ (8 * N.of_nat b) = 256 ^ N.of_nat b) by (rewrite N.pow_mul_r; reflexivity).
    rewrite E. set (P := 256 ^ N.of_nat b). assert (HP : P <> 0) by (unfold P; apply N.pow_nonzero; lia).
    rewrite (N.mul_comm 256 P), N.mod_mul_r by lia. lia.
Qed.

Theorem read_write b n s : n < 256 ^ N.of_nat b -> dread b (dwrite b n ++ s) = Some (n, s).
Proof. intros H. unfold dread. rewrite dread_write_aux, N.mul_0_l, N.add_0_l, N.mod_small; auto. Qed.

Theorem bytes_suffice n k : n <= 2 ^ 32 -> k < n -> k < 256 ^ N.of_nat (bytes_needed n).
Proof.
  unfold bytes_needed. intros Hn Hk. change (2 ^ 32) with 4294967296 in Hn.
  destruct (N.leb_spec n 256); [cbn; lia|]. destruct (N.leb_spec n 65536); [cbn; lia|].
  destruct (N.leb_spec n 16777216); cbn; lia.
Qed.

(** Fewer bytes would not do. *)
Theorem bytes_least n b : 2 <= n <= 2 ^ 32 -> (b < bytes_needed n)%nat -> (1 <= b)%nat -> exists k, k < n /\ 256 ^ N.of_nat b <= k.
Proof.
  unfold bytes_needed. intros Hn Hb H1. exists (n - 1). split; [lia|].
  destruct (N.leb_spec n 256); [lia|]. destruct (N.leb_spec n 65536).
  { assert (b = 1%nat) as -> by lia. cbn. lia. }
  destruct (N.leb_spec n 16777216).
  { assert (b = 1%nat \/ b = 2%nat) as [-> | ->] by lia; cbn; lia. }
  assert (b = 1%nat \/ b = 2%nat \/ b = 3%nat) as [-> | [-> | ->]] by lia; cbn; lia.
Qed.

(** Variable numbers never look like the escape code, for every number of variables a
    16-bit index can count. *)
Theorem mask_free vars i : vars < 2 ^ 16 -> i < vars ->
  exists m, index_mask (bytes_needed (vars + 1)) = Some m /\ i <> m /\ m < 256 ^ N.of_nat (bytes_needed (vars + 1)).
Proof.
  unfold bytes_needed. intros Hv Hi. change (2 ^ 16) with 65536 in Hv.
  destruct (N.leb_spec (vars + 1) 256).
  - exists 255. cbn. repeat split; lia.
  - destruct (N.leb_spec (vars + 1) 65536); [|lia]. exists 65535. cbn. repeat split; lia.
Qed.

(** The codes written with one byte more than an index begin with the escape code and end with
    the code number. *)
Theorem code_read vars c s : vars < 2 ^ 16 -> c < 8 ->
  exists m s', index_mask (bytes_needed (vars + 1)) = Some m /\
    dread (bytes_needed (vars + 1)) (dwrite (S (bytes_needed (vars + 1))) (4294967040 + c) ++ s) = Some (m, s') /\
    dread 1 s' = Some (c, s).
Proof.
  intros Hv Hc. change (2 ^ 16) with 65536 in Hv. unfold bytes_needed.
  assert (C : c = 0 \/ c = 1 \/ c = 2 \/ c = 3 \/ c = 4 \/ c = 5 \/ c = 6 \/ c = 7) by lia.
  destruct (N.leb_spec (vars + 1) 256).
  - repeat (destruct C as [-> |C]); try subst c; eexists _, _; repeat split.
  - destruct (N.leb_spec (vars + 1) 65536); [|lia].
    repeat (destruct C as [-> |C]); try subst c; eexists _, _; repeat split.
Qed.
