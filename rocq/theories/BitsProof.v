(** * Packed words behave as separate fields. *)
From Verif Require Import Base StoreInv BitsModel.

(** A word is an aligned pointer and four low bits. *)
Lemma bits_split q t n : t < 16 -> N.testbit (16 * q + t) n = if n <? 4 then N.testbit t n else N.testbit q (n - 4).
Proof.
  intros Ht. destruct (N.ltb_spec n 4).
  - rewrite <- (N.mod_pow2_bits_low (16 * q + t) 4 n) by lia. change (2 ^ 4) with 16.
    rewrite N.add_comm, N.mul_comm, N.mod_add, N.mod_small by lia. auto.
  - replace n with ((n - 4) + 4) at 1 by lia. rewrite <- N.div_pow2_bits. change (2 ^ 4) with 16.
    rewrite N.add_comm, N.mul_comm, N.div_add, N.div_small by lia. now rewrite N.add_0_l.
Qed.

Lemma hi_zero t n : t < 16 -> 4 <= n -> N.testbit t n = false.
Proof.
  intros Ht Hn. pose proof (bits_split 0 t n Ht) as H. rewrite N.mul_0_r, N.add_0_l in H. rewrite H.
  destruct (N.ltb_spec n 4); [lia|apply N.bits_0].
Qed.

Section Nib.
Variables q t m : N.
Hypothesis Ht : t < 16.
Hypothesis Hm : m < 16.

Lemma nib_lt (f : N -> N -> N) (g : bool -> bool -> bool) :
  (forall a b n, N.testbit (f a b) n = g (N.testbit a n) (N.testbit b n)) -> g false false = false -> f t m < 16.
Proof using Ht Hm.
  intros Hf Hg. change 16 with (2 ^ 4). destruct (N.eq_dec (f t m) 0) as [->|Nz]; [reflexivity|].
  apply N.log2_lt_pow2; [lia|]. destruct (N.lt_ge_cases (N.log2 (f t m)) 4) as [L|L]; auto.
  pose proof (N.bit_log2 (f t m) Nz) as B. rewrite Hf, !hi_zero, Hg in B by auto. discriminate.
Qed.

Lemma nib_land_lt : N.land t m < 16. Proof using Ht Hm. apply (nib_lt N.land andb); [apply N.land_spec|auto]. Qed.
Lemma nib_lor_lt : N.lor t m < 16. Proof using Ht Hm. apply (nib_lt N.lor orb); [apply N.lor_spec|auto]. Qed.
Lemma nib_ldiff_lt : N.ldiff t m < 16. Proof using Ht Hm. apply (nib_lt N.ldiff (fun a b => a && negb b)); [apply N.ldiff_spec|auto]. Qed.

Lemma nib_land : N.land (16 * q + t) m = N.land t m.
Proof using Ht Hm.
  apply N.bits_inj. intros n. rewrite !N.land_spec, bits_split by auto.
  destruct (N.ltb_spec n 4); auto. rewrite (hi_zero m) by lia. now rewrite !andb_false_r.
Qed.
Lemma nib_lor : N.lor (16 * q + t) m = 16 * q + N.lor t m.
Proof using Ht Hm.
  apply N.bits_inj. intros n. rewrite N.lor_spec, !bits_split by (auto using nib_lor_lt).
  destruct (N.ltb_spec n 4); [now rewrite N.lor_spec|]. rewrite (hi_zero m) by lia. now rewrite orb_false_r.
Qed.
Lemma nib_ldiff : N.ldiff (16 * q + t) m = 16 * q + N.ldiff t m.
Proof using Ht Hm.
  apply N.bits_inj. intros n. rewrite N.ldiff_spec, !bits_split by (auto using nib_ldiff_lt).
  destruct (N.ltb_spec n 4); [now rewrite N.ldiff_spec|]. rewrite (hi_zero m) by lia. now rewrite andb_true_r.
Qed.
End Nib.

(** ** The word operations act on the low four bits only *)

Definition w16 (a b c t e n : N) : words := W (16 * a + t) (16 * b + e) (16 * c + n).

Lemma w_split w : exists a b c t e n, t < 16 /\ e < 16 /\ n < 16 /\ w = w16 a b c t e n.
Proof.
  destruct w as [x y z]. exists (x / 16), (y / 16), (z / 16), (x mod 16), (y mod 16), (z mod 16).
  pose proof (N.mod_lt x 16). pose proof (N.mod_lt y 16). pose proof (N.mod_lt z 16).
  split; [lia|]. split; [lia|]. split; [lia|]. unfold w16. now rewrite <- !N.div_mod by lia.
Qed.

(** Everything of a node except the count: the three pointers, the two complement tags, the
    two mark bits. *)
Definition frame (w : words) : (N * N * N) * (bool * bool) * (bool * bool) :=
  ((wt w / 16, we w / 16, wn w / 16), (N.testbit (wt w) 0, N.testbit (we w) 0), (N.testbit (wt w) 2, N.testbit (wt w) 3)).

Lemma frame16 a b c t e n : t < 16 -> e < 16 -> n < 16 ->
  frame (w16 a b c t e n) = ((a, b, c), (N.testbit t 0, N.testbit e 0), (N.testbit t 2, N.testbit t 3)).
Proof.
  intros Ht He Hn. unfold frame, w16; cbn [wt we wn]. rewrite !bits_split by auto. cbn [N.ltb].
  assert (D : forall q r, r < 16 -> (16 * q + r) / 16 = q).
  { intros q r Hr. rewrite N.add_comm, N.mul_comm, N.div_add, N.div_small by lia. apply N.add_0_l. }
  rewrite !D by auto. reflexivity.
Qed.

Lemma getrc16 a b c t e n : t < 16 -> e < 16 -> n < 16 -> w_getrc (w16 a b c t e n) = w_getrc (w16 0 0 0 t e n).
Proof. intros. unfold w_getrc, w16; cbn [wt we wn]. now rewrite !nib_land by lia. Qed.

(** Finite sweep over the low bits. *)
Definition nibs : list N := map N.of_nat (seq 0 16).
Lemma in_nibs t : t < 16 -> In t nibs.
Proof. intros H. unfold nibs. apply in_map_iff. exists (N.to_nat t). split; [lia|]. apply in_seq. lia. Qed.

Definition all3 (P : N -> N -> N -> bool) : bool :=
  forallb (fun t => forallb (fun e => forallb (fun n => P t e n) nibs) nibs) nibs.
Lemma all3_spec P : all3 P = true -> forall t e n, t < 16 -> e < 16 -> n < 16 -> P t e n = true.
Proof.
  unfold all3. rewrite forallb_forall. intros H t e n Ht He Hn.
  specialize (H t (in_nibs t Ht)). rewrite forallb_forall in H. specialize (H e (in_nibs e He)).
  rewrite forallb_forall in H. exact (H n (in_nibs n Hn)).
Qed.

(** [act f g]: [f] acts on the low bits as [f (w16 0 0 0 ...)] and keeps the pointers. *)
Definition local (f : words -> words) : Prop := forall a b c t e n, t < 16 -> e < 16 -> n < 16 ->
  exists t' e' n', t' < 16 /\ e' < 16 /\ n' < 16 /\
    f (w16 0 0 0 t e n) = w16 0 0 0 t' e' n' /\ f (w16 a b c t e n) = w16 a b c t' e' n'.

Definition beq3 (x y : (bool * bool) * (bool * bool)) : bool :=
  match x, y with ((a, b), (c, d)), ((a', b'), (c', d')) => Bool.eqb a a' && Bool.eqb b b' && Bool.eqb c c' && Bool.eqb d d' end.
Lemma beq3_eq x y : beq3 x y = true -> x = y.
Proof.
  destruct x as [[a b] [c d]], y as [[a' b'] [c' d']]. unfold beq3. rewrite !andb_true_iff, !eqb_true_iff.
  intros [[[-> ->] ->] ->]. auto.
Qed.
Definition tags (w : words) := ((N.testbit (wt w) 0, N.testbit (we w) 0), (N.testbit (wt w) 2, N.testbit (wt w) 3)).

(** Lifting: a local operation whose effect on low bits is checked exhaustively. *)
Lemma lift (f : words -> words) (g : N -> N) : local f ->
  all3 (fun t e n => let w := w16 0 0 0 t e n in
     (w_getrc (f w) =? g (w_getrc w)) && beq3 (tags (f w)) (tags w)) = true ->
  forall w, w_getrc (f w) = g (w_getrc w) /\ frame (f w) = frame w.
Proof.
  intros L A w. destruct (w_split w) as (a & b & c & t & e & n & Ht & He & Hn & ->).
  destruct (L a b c t e n Ht He Hn) as (t' & e' & n' & Ht' & He' & Hn' & F0 & F1).
  pose proof (all3_spec _ A t e n Ht He Hn) as H. cbv zeta in H. apply andb_true_iff in H as [H1 H2].
  apply N.eqb_eq in H1. apply beq3_eq in H2. rewrite F0 in H1, H2.
  rewrite F1, (getrc16 a b c t' e' n'), (getrc16 a b c t e n) by auto. split; [exact H1|].
  rewrite !frame16 by auto. unfold tags in H2. cbn [wt we wn w16] in H2.
  rewrite !bits_split in H2 by auto. cbn in H2. injection H2 as -> -> -> ->. reflexivity.
Qed.

Ltac nib := rewrite ?nib_land, ?nib_lor, ?nib_ldiff by lia.

Lemma icr_local : local w_icr.
Proof.
  intros a b c t e n Ht He Hn. unfold w_icr. cbn [wt we wn w16]. nib.
  destruct (N.eqb_spec (N.land n 15) 15) as [E1|E1]; cbn [negb].
  - destruct (N.eqb_spec (N.land e 14) 14) as [E2|E2]; cbn [negb].
    + destruct (N.eqb_spec (N.land t 2) 0) as [E3|E3].
      * exists (N.lor t 2), (N.ldiff e 14), (N.ldiff n 15).
        split; [apply nib_lor_lt; lia|]. split; [apply nib_ldiff_lt; lia|]. split; [apply nib_ldiff_lt; lia|]. auto.
      * exists t, e, n. auto.
    + assert (e + 2 < 16).
      { assert (H : (N.land e 14 =? 14) || (e + 2 <? 16) = true).
        { revert He. clear. intros He. pose proof (in_nibs e He) as I. revert e I He.
          assert (A : forallb (fun e => (N.land e 14 =? 14) || (e + 2 <? 16)) nibs = true) by reflexivity.
          rewrite forallb_forall in A. intros e I _. exact (A e I). }
        destruct (N.eqb_spec (N.land e 14) 14); [congruence|]. apply N.ltb_lt in H. exact H. }
      exists t, (e + 2), (N.ldiff n 15). split; [lia|]. split; [lia|]. split; [apply nib_ldiff_lt; lia|].
      unfold w16. rewrite !N.mul_0_r, !N.add_0_l, N.add_assoc. auto.
  - assert (n + 1 < 16).
    { assert (n <> 15) by (intros ->; apply E1; reflexivity). lia. }
    exists t, e, (n + 1). split; [lia|]. split; [lia|]. split; [lia|].
    unfold w16. rewrite !N.mul_0_r, !N.add_0_l, N.add_assoc. auto.
Qed.

Lemma nib14 e : e < 16 -> N.land e 14 <> 0 -> 2 <= e.
Proof.
  intros He H. destruct (N.le_gt_cases 2 e); auto. assert (E : e = 0 \/ e = 1) by lia. destruct E as [-> | ->]; destruct H; reflexivity.
Qed.

Lemma dcr_local : local w_dcr.
Proof.
  intros a b c t e n Ht He Hn. unfold w_dcr. cbn [wt we wn w16]. nib.
  destruct (N.eqb_spec (N.land n 15) 0) as [E1|E1]; cbn [negb].
  - destruct (N.eqb_spec (N.land e 14) 0) as [E2|E2]; cbn [negb].
    + destruct (N.eqb_spec (N.land t 2) 0) as [E3|E3].
      * exists t, e, n. auto.
      * exists (N.ldiff t 2), (N.lor e 14), (N.lor n 15).
        split; [apply nib_ldiff_lt; lia|]. split; [apply nib_lor_lt; lia|]. split; [apply nib_lor_lt; lia|]. auto.
    + pose proof (nib14 e He E2).
      exists t, (e - 2), (N.lor n 15). split; [lia|]. split; [lia|]. split; [apply nib_lor_lt; lia|].
      unfold w16. rewrite !N.mul_0_r, !N.add_0_l, N.add_sub_assoc by lia. auto.
  - assert (1 <= n).
    { assert (n <> 0) by (intros ->; apply E1; reflexivity). lia. }
    destruct (_ || _).
    + exists t, e, (n - 1). split; [lia|]. split; [lia|]. split; [lia|].
      unfold w16. rewrite !N.mul_0_r, !N.add_0_l, N.add_sub_assoc by lia. auto.
    + exists t, e, n. auto.
Qed.

Lemma land_lt a m : m < 16 -> N.land a m < 16.
Proof.
  intros Hm. rewrite (N.div_mod a 16) by lia. pose proof (N.mod_lt a 16). rewrite nib_land by lia. apply nib_land_lt; lia.
Qed.

Lemma putrc_local k : local (fun w => w_putrc w k).
Proof.
  intros a b c t e n Ht He Hn. unfold w_putrc. cbn [wt we wn w16]. nib.
  pose proof (land_lt k 15 ltac:(lia)). pose proof (land_lt (N.shiftr k 6) 2 ltac:(lia)).
  pose proof (land_lt (N.shiftr k 3) 14 ltac:(lia)).
  pose proof (nib_ldiff_lt t 2 Ht ltac:(lia)). pose proof (nib_ldiff_lt e 14 He ltac:(lia)).
  pose proof (nib_ldiff_lt n 15 Hn ltac:(lia)).
  rewrite !nib_lor by auto. eexists _, _, _.
  split; [|split; [|split; [|split; reflexivity]]]; apply nib_lor_lt; auto.
Qed.

Lemma mark_local : local w_mark.
Proof.
  intros a b c t e n Ht He Hn. unfold w_mark. cbn [wt we wn w16]. nib.
  exists (N.lor t 4), e, n. split; [apply nib_lor_lt; lia|]. auto.
Qed.
Lemma unmark_local : local w_unmark.
Proof.
  intros a b c t e n Ht He Hn. unfold w_unmark. cbn [wt we wn w16]. nib.
  exists (N.ldiff t 4), e, n. split; [apply nib_ldiff_lt; lia|]. auto.
Qed.

Lemma getrc_le w : w_getrc w <= 255.
Proof.
  destruct (w_split w) as (a & b & c & t & e & n & Ht & He & Hn & ->). rewrite getrc16 by auto.
  assert (A : all3 (fun t e n => w_getrc (w16 0 0 0 t e n) <=? 255) = true) by (vm_compute; reflexivity).
  apply N.leb_le. exact (all3_spec _ A t e n Ht He Hn).
Qed.

Theorem icr_spec w : w_getrc (w_icr w) = rc_icr (w_getrc w) /\ frame (w_icr w) = frame w.
Proof. apply lift; [exact icr_local|vm_compute; reflexivity]. Qed.

Theorem dcr_spec w : w_getrc (w_dcr w) = rc_dcr (w_getrc w) /\ frame (w_dcr w) = frame w.
Proof. apply lift; [exact dcr_local|vm_compute; reflexivity]. Qed.

Lemma bytes_all (P : N -> bool) : forallb P (map N.of_nat (seq 0 256)) = true -> forall k, k <= 255 -> P k = true.
Proof.
  rewrite forallb_forall. intros H k Hk. apply H. apply in_map_iff. exists (N.to_nat k). split; [lia|]. apply in_seq. lia.
Qed.

Definition beqt (w w' : words) : bool := beq3 (tags w) (tags w').

Theorem putrc_spec w k : k <= 255 -> w_getrc (w_putrc w k) = k /\ frame (w_putrc w k) = frame w.
Proof.
  intros Hk. apply (lift (fun w => w_putrc w k) (fun _ => k)); [apply putrc_local|].
  apply (bytes_all (fun k => all3 (fun t e n => let w := w16 0 0 0 t e n in
     (w_getrc (w_putrc w k) =? k) && beq3 (tags (w_putrc w k)) (tags w)))); [vm_compute; reflexivity|exact Hk].
Qed.

Theorem addrc_spec w z : w_getrc (w_addrc w z) = rc_add (w_getrc w) z /\ frame (w_addrc w z) = frame w.
Proof.
  unfold w_addrc, rc_add, MAXREF. destruct (w_getrc w <? 255); auto.
  apply putrc_spec. destruct (N.ltb_spec 255 (Z.to_N ((Z.of_N (w_getrc w) + z) mod 65536))); lia.
Qed.

Theorem iszero_spec w : w_iszero w = (w_getrc w =? 0).
Proof.
  destruct (w_split w) as (a & b & c & t & e & n & Ht & He & Hn & ->).
  rewrite getrc16 by auto. unfold w_iszero; cbn [wt we wn w16]. nib.
  assert (A : all3 (fun t e n => Bool.eqb (w_iszero (w16 0 0 0 t e n)) (w_getrc (w16 0 0 0 t e n) =? 0)) = true) by (vm_compute; reflexivity).
  pose proof (all3_spec _ A t e n Ht He Hn) as H. apply eqb_prop in H. rewrite <- H.
  unfold w_iszero; cbn [wt we wn w16]. nib. reflexivity.
Qed.

Theorem ismax_spec w : w_ismax w = (w_getrc w =? 255).
Proof.
  destruct (w_split w) as (a & b & c & t & e & n & Ht & He & Hn & ->).
  rewrite getrc16 by auto. unfold w_ismax; cbn [wt we wn w16]. nib.
  assert (A : all3 (fun t e n => Bool.eqb (w_ismax (w16 0 0 0 t e n)) (w_getrc (w16 0 0 0 t e n) =? 255)) = true) by (vm_compute; reflexivity).
  pose proof (all3_spec _ A t e n Ht He Hn) as H. apply eqb_prop in H. rewrite <- H.
  unfold w_ismax; cbn [wt we wn w16]. nib. reflexivity.
Qed.

(** Sequences of updates. *)
Inductive rcop := RIcr | RDcr | RAdd (z : Z).
Definition w_step (w : words) (r : rcop) : words :=
  match r with RIcr => w_icr w | RDcr => w_dcr w | RAdd z => w_addrc w z end.
Definition n_step (n : N) (r : rcop) : N :=
  match r with RIcr => rc_icr n | RDcr => rc_dcr n | RAdd z => rc_add n z end.

Theorem seq_spec ops : forall w, w_getrc (fold_left w_step ops w) = fold_left n_step ops (w_getrc w) /\
  frame (fold_left w_step ops w) = frame w.
Proof.
  induction ops as [|r ops IH]; intros w; simpl; auto.
  assert (H : w_getrc (w_step w r) = n_step (w_getrc w) r /\ frame (w_step w r) = frame w).
  { destruct r; [apply icr_spec|apply dcr_spec|apply addrc_spec]. }
  destruct H as [H1 H2]. destruct (IH (w_step w r)) as [H3 H4]. rewrite H3, H4, H1. auto.
Qed.

(** Pointer updates do not disturb the count. *)
Lemma lor_land_ldiff x p : N.lor (N.land x 14) (N.ldiff p 14) =
  16 * (p / 16) + N.lor (N.land (x mod 16) 14) (N.ldiff (p mod 16) 14).
Proof.
  pose proof (N.mod_lt x 16 ltac:(lia)). pose proof (N.mod_lt p 16 ltac:(lia)).
  rewrite (N.div_mod x 16) at 1 by lia. rewrite (N.div_mod p 16) at 1 by lia.
  rewrite nib_land, nib_ldiff by lia. rewrite N.lor_comm, nib_lor.
  - now rewrite N.lor_comm.
  - apply nib_ldiff_lt; lia.
  - apply nib_land_lt; lia.
Qed.

Definition nib2 (P : N -> N -> bool) : bool := forallb (fun a => forallb (P a) nibs) nibs.
Lemma nib2_spec P : nib2 P = true -> forall a b, a < 16 -> b < 16 -> P a b = true.
Proof.
  unfold nib2. rewrite forallb_forall. intros H a b Ha Hb. specialize (H a (in_nibs a Ha)).
  rewrite forallb_forall in H. exact (H b (in_nibs b Hb)).
Qed.

(** The words of a stored pointer: address, complement tag; bits 1-3 are ignored. *)
Definition ptag (p : N) : N * bool := (p / 16, N.testbit p 0).

Lemma ptag16 q t : t < 16 -> ptag (16 * q + t) = (q, N.testbit t 0).
Proof.
  intros Ht. unfold ptag. rewrite bits_split by auto. cbn.
  rewrite N.add_comm, N.mul_comm, N.div_add, N.div_small by lia. reflexivity.
Qed.

Lemma getrc_words w w' : N.land (wt w') 2 = N.land (wt w) 2 -> N.land (we w') 14 = N.land (we w) 14 ->
  N.land (wn w') 15 = N.land (wn w) 15 -> w_getrc w' = w_getrc w.
Proof. intros A B D. unfold w_getrc. now rewrite A, B, D. Qed.

Lemma mod16_split x : x = 16 * (x / 16) + x mod 16 /\ x mod 16 < 16.
Proof. split; [apply N.div_mod; lia|apply N.mod_lt; lia]. Qed.

Theorem putthen_spec w p : ptag (w_getthen (w_putthen w p) 0) = ptag p /\
  w_getrc (w_putthen w p) = w_getrc w /\ we (w_putthen w p) = we w /\ wn (w_putthen w p) = wn w /\
  w_getmark (w_putthen w p) = w_getmark w.
Proof.
  unfold w_putthen, w_getthen, w_getmark; cbn [wt we wn]. rewrite N.lxor_0_r, lor_land_ldiff.
  destruct (mod16_split (wt w)) as [Ew Lw]. destruct (mod16_split p) as [Ep Lp].
  set (a := wt w mod 16) in *. set (b := p mod 16) in *.
  assert (L : N.lor (N.land a 14) (N.ldiff b 14) < 16) by (apply nib_lor_lt; [apply nib_land_lt|apply nib_ldiff_lt]; lia).
  split; [|split; [|split; [|split]]]; auto.
  - rewrite nib_ldiff by lia. rewrite Ep at 2. rewrite !ptag16 by (auto; apply nib_ldiff_lt; lia). f_equal.
    assert (A : nib2 (fun a b => Bool.eqb (N.testbit (N.ldiff (N.lor (N.land a 14) (N.ldiff b 14)) 14) 0) (N.testbit b 0)) = true) by reflexivity.
    apply eqb_prop. exact (nib2_spec _ A a b Lw Lp).
  - apply getrc_words; cbn [wt we wn]; auto. rewrite Ew, !nib_land by lia.
    assert (A : nib2 (fun a b => N.land (N.lor (N.land a 14) (N.ldiff b 14)) 2 =? N.land a 2) = true) by reflexivity.
    apply N.eqb_eq. exact (nib2_spec _ A a b Lw Lp).
  - rewrite Ew at 1. rewrite !nib_land by lia. f_equal.
    assert (A : nib2 (fun a b => N.land (N.lor (N.land a 14) (N.ldiff b 14)) 12 =? N.land a 12) = true) by reflexivity.
    apply N.eqb_eq. exact (nib2_spec _ A a b Lw Lp).
Qed.

Theorem putelse_spec w p : ptag (w_getelse (w_putelse w p) 0) = ptag p /\
  w_getrc (w_putelse w p) = w_getrc w /\ wt (w_putelse w p) = wt w /\ wn (w_putelse w p) = wn w.
Proof.
  unfold w_putelse, w_getelse; cbn [wt we wn]. rewrite N.lxor_0_r, lor_land_ldiff.
  destruct (mod16_split (we w)) as [Ew Lw]. destruct (mod16_split p) as [Ep Lp].
  set (a := we w mod 16) in *. set (b := p mod 16) in *.
  assert (L : N.lor (N.land a 14) (N.ldiff b 14) < 16) by (apply nib_lor_lt; [apply nib_land_lt|apply nib_ldiff_lt]; lia).
  split; [|split; [|split]]; auto.
  - rewrite nib_ldiff by lia. rewrite Ep at 2. rewrite !ptag16 by (auto; apply nib_ldiff_lt; lia). f_equal.
    assert (A : nib2 (fun a b => Bool.eqb (N.testbit (N.ldiff (N.lor (N.land a 14) (N.ldiff b 14)) 14) 0) (N.testbit b 0)) = true) by reflexivity.
    apply eqb_prop. exact (nib2_spec _ A a b Lw Lp).
  - apply getrc_words; cbn [wt we wn]; auto. rewrite Ew, !nib_land by lia.
    assert (A : nib2 (fun a b => N.land (N.lor (N.land a 14) (N.ldiff b 14)) 14 =? N.land a 14) = true) by reflexivity.
    apply N.eqb_eq. exact (nib2_spec _ A a b Lw Lp).
Qed.

Theorem mark_spec w : w_getrc (w_mark w) = w_getrc w /\ w_getrc (w_unmark w) = w_getrc w /\
  w_ismarked (w_mark w) = true /\ w_ismarked (w_unmark w) = false /\
  ptag (w_getthen (w_mark w) 0) = ptag (w_getthen w 0) /\ ptag (w_getthen (w_unmark w) 0) = ptag (w_getthen w 0).
Proof.
  destruct (w_split w) as (a & b & c & t & e & n & Ht & He & Hn & ->).
  unfold w_mark, w_unmark, w_ismarked, w_getthen. cbn [wt we wn w16]. rewrite !N.lxor_0_r. nib.
  pose proof (nib_lor_lt t 4 Ht ltac:(lia)). pose proof (nib_ldiff_lt t 4 Ht ltac:(lia)). nib.
  rewrite !ptag16 by (apply nib_ldiff_lt; lia).
  assert (A : forallb (fun t => (N.land (N.lor t 4) 2 =? N.land t 2) && (N.land (N.ldiff t 4) 2 =? N.land t 2) &&
     (N.shiftr (N.land (N.lor t 4) 4) 2 =? 1) && (N.shiftr (N.land (N.ldiff t 4) 4) 2 =? 0) &&
     Bool.eqb (N.testbit (N.ldiff (N.lor t 4) 14) 0) (N.testbit (N.ldiff t 14) 0) &&
     Bool.eqb (N.testbit (N.ldiff (N.ldiff t 4) 14) 0) (N.testbit (N.ldiff t 14) 0)) nibs = true) by reflexivity.
  rewrite forallb_forall in A. specialize (A t (in_nibs t Ht)). rewrite !andb_true_iff, !N.eqb_eq, !eqb_true_iff in A.
  destruct A as (((((A1 & A2) & A3) & A4) & A5) & A6). rewrite A3, A4, A5, A6.
  split; [|split; [|auto]].
  - apply getrc_words; cbn [wt we wn w16]; auto. rewrite !nib_land by lia. exact A1.
  - apply getrc_words; cbn [wt we wn w16]; auto. rewrite !nib_land by lia. exact A2.
Qed.

(** ** Hash positions *)
Theorem hash_range t e k : w_hash t e (2 ^ k) < 2 ^ k.
Proof.
  unfold w_hash. replace (2 ^ k - 1) with (N.ones k) by (rewrite N.ones_equiv; lia).
  rewrite N.land_ones. apply N.mod_lt. apply N.pow_nonzero. lia.
Qed.

(** Complement tags of 32-aligned node pointers do not influence the position. *)
Theorem hash_tags p q a b k : a <= 1 -> b <= 1 -> 32 * p < 2 ^ 64 -> 32 * q < 2 ^ 64 ->
  w_hash (32 * p + a) (32 * q + b) (2 ^ k) = w_hash (32 * p) (32 * q) (2 ^ k).
Proof.
  intros Ha Hb Hp Hq. unfold w_hash. f_equal.
  assert (D : forall z c, c <= 2 -> ((32 * z + c) mod 2 ^ 64) / 32 = z mod 2 ^ 59).
  { intros z c Hc. change (2 ^ 64) with (32 * 2 ^ 59). rewrite N.mod_mul_r by (try lia; apply N.pow_nonzero; lia).
    replace (32 * z + c) with (c + z * 32) by lia.
    rewrite N.mod_add, N.div_add, (N.mod_small c), (N.div_small c) by lia. rewrite N.add_0_l, N.mul_comm.
    rewrite N.div_add, N.div_small by lia. apply N.add_0_l. }
  replace (32 * p + a + (32 * q + b)) with (32 * (p + q) + (a + b)) by lia.
  replace (32 * p + 32 * q) with (32 * (p + q) + 0) by lia. rewrite !D by lia. reflexivity.
Qed.

(** ** Transform *)
Definition val128 (v1 v2 : N) : N := v1 * W64 + v2.

Theorem transform_neg v1 v2 r1 r2 : v1 < W64 -> v2 < W64 -> transform v1 v2 = Some (r1, r2) ->
  r1 < W64 /\ r2 < W64 /\ val128 r1 r2 = (W64 * W64 - val128 v1 v2) mod (W64 * W64).
Proof.
  unfold transform, neg64, val128. intros H1 H2. assert (HW : W64 = 18446744073709551616) by reflexivity.
  destruct (N.eqb_spec v2 0) as [->|N2].
  - destruct (v1 =? 2 ^ 63); [discriminate|]. intros [= <- <-].
    pose proof (N.mod_lt (W64 - v1) W64 ltac:(lia)). split; auto. split; [lia|].
    rewrite !N.add_0_r. rewrite <- N.mul_sub_distr_r. rewrite N.mul_mod_distr_r by lia. reflexivity.
  - destruct (v2 =? 2 ^ 63); [discriminate|]. intros [= <- <-].
    rewrite (N.mod_small (W64 - v2)) by lia. split; [lia|]. split; [lia|].
    rewrite N.mod_small by nia. nia.
Qed.

Theorem transform_invol v1 v2 r1 r2 : v1 < W64 -> v2 < W64 -> transform v1 v2 = Some (r1, r2) ->
  transform r1 r2 = Some (v1, v2).
Proof.
  unfold transform, neg64. intros H1 H2. assert (HW : W64 = 18446744073709551616) by reflexivity.
  assert (H63 : 2 ^ 63 = 9223372036854775808) by reflexivity. rewrite H63.
  destruct (N.eqb_spec v2 0) as [->|N2].
  - destruct (N.eqb_spec v1 9223372036854775808); [discriminate|]. intros [= <- <-]. rewrite N.eqb_refl.
    destruct (N.eq_dec v1 0) as [->|N1].
    + rewrite N.sub_0_r, N.mod_same by lia. reflexivity.
    + rewrite (N.mod_small (W64 - v1)) by lia.
      destruct (N.eqb_spec (W64 - v1) 9223372036854775808); [lia|]. rewrite N.mod_small by lia. repeat f_equal; lia.
  - destruct (N.eqb_spec v2 9223372036854775808); [discriminate|]. intros [= <- <-].
    rewrite (N.mod_small (W64 - v2)) by lia. destruct (N.eqb_spec (W64 - v2) 0); [lia|].
    destruct (N.eqb_spec (W64 - v2) 9223372036854775808); [lia|]. rewrite N.mod_small by lia. repeat f_equal; lia.
Qed.
