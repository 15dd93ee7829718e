(** * The layout of printed profiles. *)
From Coq Require Import Ascii String Lia.
From Verif Require Import Base BFModel PrintModel SpecPrint.
Open Scope string_scope.
Open Scope N_scope.

Lemma dec_small c : c < 100 -> (slen (dec_of c) <= 2)%Z.
Proof.
  intros H. assert (A : forallb (fun k => (slen (dec_of (N.of_nat k)) <=? 2)%Z) (seq 0 100) = true) by (vm_compute; reflexivity).
  rewrite forallb_forall in A. specialize (A (N.to_nat c)). rewrite N2Nat.id in A. apply Z.leb_le. apply A. apply in_seq. lia.
Qed.

Lemma levels_select naming lc o : forall ids i, (forall j, nth_error ids j = nth_error o (N.to_nat i + j)%nat) ->
  levels naming lc ids i = map (fun k => (var_name naming (nth (N.to_nat k) o 0) k, lc k)) (select (fun k => negb (lc k =? 0)) i (List.length ids)).
Proof.
  induction ids as [|a ids IH]; intros i H; [reflexivity|]. cbn [levels select List.length].
  rewrite map_app. f_equal.
  - destruct (lc i =? 0); cbn [negb]; [reflexivity|]. cbn. f_equal. f_equal. pose proof (H 0%nat) as H0. cbn in H0. rewrite Nat.add_0_r in H0.
    symmetry in H0. apply nth_error_nth with (d := 0) in H0. now rewrite H0.
  - apply IH. intros j. specialize (H (S j)). cbn in H. rewrite H. f_equal. lia.
Qed.

Lemma widths_spec ls : forall mp mw tot, exists mp' mw', widths ls ((mp, mw), tot) = ((mp', mw'), fold_left (fun a l => a + snd l) ls tot) /\
  (mp <= mp')%Z /\ mw <= mw' /\ Forall (fun l => (slen (fst l) + slen (dec_of (snd l)) <= mp')%Z /\ snd l <= mw') ls.
Proof.
  induction ls as [|[nm c] ls IH]; intros mp mw tot; cbn [widths fold_left].
  - exists mp, mw. split; [reflexivity|]. split; [lia|]. split; [lia|constructor].
  - destruct (IH (if (mp <? slen nm + slen (dec_of c))%Z then (slen nm + slen (dec_of c))%Z else mp) (if mw <? c then c else mw) (tot + c))
      as (mp' & mw' & E & A & B & F).
    exists mp', mw'. cbn zeta. rewrite E. cbn [fst snd].
    destruct (Z.ltb_spec mp (slen nm + slen (dec_of c))), (N.ltb_spec mw c); (split; [reflexivity|]; split; [lia|]; split; [lia|]; constructor; [cbn [fst snd]; lia|exact F]).
Qed.

Lemma sum_select (nm : N -> string) lc : forall n i acc, fold_left (fun a (l : string * N) => a + snd l) (map (fun k => (nm k, lc k)) (select (fun k => negb (lc k =? 0)) i n)) acc =
  acc + fold_left (fun a k => a + lc (i + N.of_nat k)) (seq 0 n) 0.
Proof.
  assert (Q : forall l (g : nat -> N) a, fold_left (fun a k => a + g k) l a = a + fold_left (fun a k => a + g k) l 0).
  { induction l as [|x l IH]; intros g a; cbn [fold_left]; [lia|]. rewrite IH, (IH g (0 + g x)). lia. }
  induction n as [|n IH]; intros i acc; cbn [select seq]; [cbn; lia|].
  rewrite map_app, fold_left_app. rewrite IH. cbn [fold_left].
  rewrite (Q (seq 1 n) (fun k => lc (i + N.of_nat k))).
  assert (E : fold_left (fun a k => a + lc (i + N.of_nat k)) (seq 1 n) 0 = fold_left (fun a k => a + lc (i + 1 + N.of_nat k)) (seq 0 n) 0).
  { rewrite <- seq_shift. assert (T : forall l z, fold_left (fun a k => a + lc (i + N.of_nat k)) (map S l) z = fold_left (fun a k => a + lc (i + 1 + N.of_nat k)) l z).
    { clear. induction l as [|x l IH]; intros z; cbn [map fold_left]; [reflexivity|].
      replace (i + N.of_nat (S x)) with (i + 1 + N.of_nat x) by lia. apply IH. }
    apply T. }
  rewrite E. replace (i + N.of_nat 0) with i by lia. destruct (N.eqb_spec (lc i) 0) as [Z|Z]; cbn [negb map fold_left snd]; [rewrite Z|]; lia.
Qed.
Lemma sum_to_fold lc : forall n, sum_to lc n = lc (N.of_nat n) + fold_left (fun a k => a + lc (0 + N.of_nat k)) (seq 0 n) 0.
Proof.
  induction n as [|n IH]; [cbn; lia|]. cbn [sum_to]. rewrite IH, seq_S, fold_left_app. cbn [fold_left]. replace (0 + N.of_nat (0 + n)) with (N.of_nat n) by lia. lia.
Qed.

Lemma select_in P : forall n i k, In k (select P i n) <-> P k = true /\ i <= k < i + N.of_nat n.
Proof.
  induction n as [|n IH]; intros i k; cbn [select].
  - split; [intros []|lia].
  - rewrite in_app_iff, IH. destruct (P i) eqn:Pi; cbn [In].
    + split; [intros [[<-|[]]|[A B]]; [split; [auto|lia]|split; [auto|lia]]|intros [A B]].
      destruct (N.eq_dec i k); [auto|right; split; [auto|lia]].
    + split; [intros [[]|[A B]]; split; [auto|lia]|intros [A B]]. right. split; [auto|]. assert (i <> k) by congruence. lia.
Qed.

Lemma line_shows mp nm c sc : (slen nm + slen (dec_of c) <= mp + 1)%Z -> shows (Z.to_nat (mp + 2)) sc nm c (line nm (mp - slen nm - slen (dec_of c) + 1) c sc).
Proof.
  intros H. unfold shows, line, charsZ. eexists. eexists. split; [reflexivity|]. unfold slen in *. split; [lia|]. rewrite <- (N2Z.id (c / sc)) at 2. lia.
Qed.

Theorem print_text naming len o lc : profile_text naming len (ord o) lc (print_aux o naming len lc).
Proof.
  unfold profile_text, print_aux. change label with var_name. set (n := List.length (ord o)). cbn zeta.
  rewrite (levels_select naming lc (ord o)) by (intros j; reflexivity). fold n.
  set (ks := select _ 0 n). set (ls := map _ ks).
  destruct (widths_spec ls 5%Z (lc (N.of_nat n)) (lc (N.of_nat n))) as (mp & mw & E & A & B & F). rewrite E.
  set (w := if (len - (mp + 3) - 1 <? 20)%Z then 20%Z else (len - (mp + 3) - 1)%Z).
  assert (W : w = Z.max 20 (len - (mp + 2) - 2)) by (unfold w; destruct (Z.ltb_spec (len - (mp + 3) - 1) 20); lia).
  set (sc := if (Z.of_N mw <=? w)%Z then 1 else Z.to_N ((Z.of_N mw + w - 1) / w)%Z).
  assert (Wp : (20 <= w)%Z) by lia. clearbody w.
  assert (SC : 0 < sc /\ (Z.of_N mw <= w * Z.of_N sc)%Z).
  { unfold sc. destruct (Z.leb_spec (Z.of_N mw) w); [lia|].
    pose proof (Z.div_mod (Z.of_N mw + w - 1) w ltac:(lia)) as Q. pose proof (Z.mod_pos_bound (Z.of_N mw + w - 1) w ltac:(lia)) as Q2.
    set (q := ((Z.of_N mw + w - 1) / w)%Z) in *. assert (0 < q)%Z by nia. split; [lia|]. rewrite Z2N.id by lia. nia. }
  clearbody sc. destruct SC as [SC1 SC2].
  exists (Z.to_nat (mp + 2)), sc, (map (fun '(nm, c) => line nm (mp - slen nm - slen (dec_of c) + 1)%Z c sc) ls),
    (line "leaf" (mp - 4 - slen (dec_of (lc (N.of_nat n))) + 1)%Z (lc (N.of_nat n)) sc).
  split; [|split; [|split; [|split]]].
  - f_equal. f_equal. f_equal. f_equal. f_equal. unfold ls, ks. rewrite sum_select, sum_to_fold. reflexivity.
  - unfold ls in F |- *. clearbody ks. clear E ls. induction ks as [|k ks IH]; cbn [map] in *; [constructor|]. inversion F as [|? ? Hk F']; subst. constructor.
    + apply line_shows. cbn [fst snd] in Hk. lia.
    + apply IH; auto.
  - intros L. apply dec_small in L. apply (line_shows mp "leaf"). change (slen "leaf") with 4%Z. lia.
  - exact SC1.
  - intros k Hk. assert (M : lc k <= mw).
    { destruct (N.eq_dec k (N.of_nat n)) as [->|Nk]; [lia|]. destruct (N.eq_dec (lc k) 0); [lia|].
      rewrite Forall_forall in F. specialize (F (var_name naming (nth (N.to_nat k) (ord o) 0) k, lc k)). apply F.
      unfold ls. apply (in_map (fun k => (var_name naming (nth (N.to_nat k) (ord o) 0) k, lc k))). apply select_in. split; [destruct (N.eqb_spec (lc k) 0); [lia|reflexivity]|lia]. }
    rewrite N2Z.inj_div. rewrite Z2Nat.id by lia. rewrite <- W.
    apply Z.le_trans with (Z.of_N mw / Z.of_N sc)%Z; [apply Z.div_le_mono; lia|]. apply Z.div_le_upper_bound; lia.
Qed.
