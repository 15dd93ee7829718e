(** * Bridges from the word-level lemmas to the specification. *)
From Verif Require Import Base StoreInv MultiProof BitsModel BitsProof SpecWords.

Lemma packed_step w op : sensible (w_getrc w) op ->
  w_getrc (packed w op) = count (w_getrc w) op /\ others (packed w op) = others w.
Proof.
  intros S. pose proof (getrc_le w) as L. destruct op; unfold packed, count, sensible in *.
  - destruct (icr_spec w) as [A B]. split; [|exact B]. rewrite A. unfold rc_icr, MAXREF.
    destruct (N.eqb_spec (w_getrc w) 255); destruct (N.ltb_spec (w_getrc w) 255); lia.
  - destruct (dcr_spec w) as [A B]. split; [|exact B]. rewrite A. unfold rc_dcr, MAXREF.
    destruct (N.eqb_spec (w_getrc w) 255); destruct (N.eqb_spec (w_getrc w) 0); cbn; lia.
  - destruct (addrc_spec w z) as [A B]. split; [|exact B]. rewrite A. unfold rc_add, MAXREF.
    rewrite Z.mod_small by lia.
    destruct (N.eqb_spec (w_getrc w) 255); destruct (N.ltb_spec (w_getrc w) 255); try lia.
    destruct (N.ltb_spec 255 (Z.to_N (Z.of_N (w_getrc w) + z))); lia.
Qed.

Lemma packed_history ops : forall w, all_sensible (w_getrc w) ops ->
  w_getrc (fold_left packed ops w) = counts (w_getrc w) ops /\ others (fold_left packed ops w) = others w.
Proof.
  induction ops as [|op ops IH]; intros w S; cbn [fold_left counts all_sensible] in *; auto.
  destruct S as [S1 S2]. destruct (packed_step w op S1) as [A B]. rewrite <- A in S2.
  destruct (IH _ S2) as [C D]. rewrite C, D, A, B. auto.
Qed.

Lemma packed_saturated ops : forall w, w_getrc w = 255 -> w_getrc (fold_left packed ops w) = 255.
Proof.
  induction ops as [|op ops IH]; intros w H; cbn [fold_left]; auto. apply IH.
  destruct op; cbn [packed].
  - destruct (icr_spec w) as [-> _]. rewrite H. reflexivity.
  - destruct (dcr_spec w) as [-> _]. rewrite H. reflexivity.
  - destruct (addrc_spec w z) as [-> _]. rewrite H. reflexivity.
Qed.

Lemma packed_tests w : w_iszero w = (w_getrc w =? 0) /\ w_ismax w = (w_getrc w =? 255) /\ w_getrc w <= 255.
Proof. split; [apply iszero_spec|]. split; [apply ismax_spec|apply getrc_le]. Qed.

Lemma transform_neg128 v1 v2 r1 r2 : v1 < 2 ^ 64 -> v2 < 2 ^ 64 -> transform v1 v2 = Some (r1, r2) ->
  r1 < 2 ^ 64 /\ r2 < 2 ^ 64 /\ number128 r1 r2 = negate128 (number128 v1 v2) /\ transform r1 r2 = Some (v1, v2).
Proof.
  intros H1 H2 T. destruct (transform_neg v1 v2 r1 r2 H1 H2 T) as (A & B & C).
  split; [exact A|]. split; [exact B|]. split; [exact C|]. exact (transform_invol v1 v2 r1 r2 H1 H2 T).
Qed.

Lemma transform_defined v1 v2 : (v2 = 0 -> v1 <> 2 ^ 63) -> v2 <> 2 ^ 63 -> transform v1 v2 <> None.
Proof.
  intros A B. unfold transform, neg64. destruct (N.eqb_spec v2 0) as [->|].
  - destruct (N.eqb_spec v1 (2 ^ 63)); [intuition|discriminate].
  - destruct (N.eqb_spec v2 (2 ^ 63)); [contradiction|discriminate].
Qed.

Lemma transform_ub : exists v1 v2, v1 < 2 ^ 64 /\ v2 < 2 ^ 64 /\ transform v1 v2 = None.
Proof. exists 0, (2 ^ 63). vm_compute. auto. Qed.

Lemma putmark_spec w k : k <= 3 -> w_getmark (w_putmark w k) = k /\ w_getrc (w_putmark w k) = w_getrc w /\
  ptag (w_getthen (w_putmark w k) 0) = ptag (w_getthen w 0).
Proof.
  intros Hk. destruct (w_split w) as (a & b & c & t & e & n & Ht & He & Hn & ->).
  assert (Ks : N.shiftl k 2 < 16). { rewrite N.shiftl_mul_pow2. change (2 ^ 2) with 4. lia. }
  assert (L1 : N.ldiff t 12 < 16) by (apply nib_ldiff_lt; lia).
  assert (L2 : N.lor (N.ldiff t 12) (N.shiftl k 2) < 16) by (apply nib_lor_lt; lia).
  unfold w_getmark, w_getthen, w_putmark. cbn [wt we wn w16]. rewrite !N.lxor_0_r.
  rewrite (nib_ldiff a t 12), (nib_lor a (N.ldiff t 12) (N.shiftl k 2)), nib_land, !nib_ldiff by lia.
  rewrite !ptag16 by (apply nib_ldiff_lt; lia).
  assert (A : nib2 (fun t k => (4 <=? k) || ((N.shiftr (N.land (N.lor (N.ldiff t 12) (N.shiftl k 2)) 12) 2 =? k) &&
     (N.land (N.lor (N.ldiff t 12) (N.shiftl k 2)) 2 =? N.land t 2) &&
     Bool.eqb (N.testbit (N.ldiff (N.lor (N.ldiff t 12) (N.shiftl k 2)) 14) 0) (N.testbit (N.ldiff t 14) 0))) = true) by (vm_compute; reflexivity).
  pose proof (nib2_spec _ A t k Ht ltac:(lia)) as B. cbv beta in B. apply orb_true_iff in B as [B|B]; [apply N.leb_le in B; lia|].
  rewrite !andb_true_iff, !N.eqb_eq, eqb_true_iff in B. destruct B as ((B1 & B2) & B3). rewrite B3. split; auto. split; auto.
  apply getrc_words; cbn [wt we wn w16]; auto. rewrite !nib_land by lia. exact B2.
Qed.

Lemma putnext_spec w p : w_getnext (w_putnext w p) / 16 = p / 16 /\ w_getnext (w_putnext w p) mod 16 = 0 /\ w_getrc (w_putnext w p) = w_getrc w /\
  wt (w_putnext w p) = wt w /\ we (w_putnext w p) = we w.
Proof.
  unfold w_getnext, w_putnext. cbn [wt we wn].
  destruct (mod16_split (wn w)) as [Ew Lw]. destruct (mod16_split p) as [Ep Lp].
  set (a := wn w mod 16) in *. set (b := p mod 16) in *.
  assert (E0 : N.ldiff b 15 = 0).
  { assert (A : nib2 (fun b _ => N.ldiff b 15 =? 0) = true) by (vm_compute; reflexivity). apply N.eqb_eq. exact (nib2_spec _ A b b Lp Lp). }
  assert (E1 : N.ldiff p 15 = 16 * (p / 16)) by (rewrite Ep at 1; rewrite nib_ldiff by lia; rewrite E0; lia).
  assert (E2 : N.land (wn w) 15 = a).
  { rewrite Ew, nib_land by lia. assert (A : nib2 (fun a _ => N.land a 15 =? a) = true) by (vm_compute; reflexivity).
    apply N.eqb_eq. exact (nib2_spec _ A a a Lw Lw). }
  rewrite E1, E2. replace (16 * (p / 16)) with (16 * (p / 16) + 0) by lia. rewrite N.lor_comm, nib_lor by lia. rewrite N.lor_0_l.
  rewrite nib_ldiff by lia. assert (E3 : N.ldiff a 15 = 0).
  { assert (A : nib2 (fun b _ => N.ldiff b 15 =? 0) = true) by (vm_compute; reflexivity). apply N.eqb_eq. exact (nib2_spec _ A a a Lw Lw). }
  rewrite E3, N.add_0_r. split; [rewrite N.mul_comm; apply N.div_mul; lia|]. split; [rewrite N.mul_comm; apply N.mod_mul; lia|].
  split; [|auto]. apply getrc_words; cbn [wt we wn]; auto. rewrite E2, nib_land by lia.
  assert (A : nib2 (fun a _ => N.land a 15 =? a) = true) by (vm_compute; reflexivity). apply N.eqb_eq. exact (nib2_spec _ A a a Lw Lw).
Qed.
