(** * The profile adds up to the size: proofs. *)
From Coq Require Import ZArith Lia.
From Verif Require Import Base BFModel ITEModel MgrModel MInv ApiModel ApiProof ApiOps GraphModel GraphFacts SpecApi SpecGraph SpecPrint WorldProof Client ApiLemmas ApiFacts GraphApi
  OpProof FProfFacts RangeQProof RangePProof SizeSum.
Open Scope N_scope.

Lemma depends_upto neg F G i : up_to neg F G -> depends F i -> depends G i.
Proof.
  intros E (r & D). exists r. intros Q. apply D. destruct neg; cbn [up_to] in E.
  - destruct E as [E|E]; rewrite (E (assign r i true)), (E (assign r i false)), Q; reflexivity.
  - rewrite (E (assign r i true)), (E (assign r i false)). exact Q.
Qed.
Lemma top_upto neg o F G k : up_to neg F G -> top_at o F k -> top_at o G k.
Proof.
  intros E [A B]. split.
  - intros j i H Lj D. apply (A j i H Lj). apply (depends_upto neg G F i); [|exact D]. apply (proj1 (up_to_equiv neg)). exact E.
  - destruct (nth_error o (N.to_nat k)) as [i|]; [exact (depends_upto neg F G i E B)|exact B].
Qed.
Lemma top_lt o F k k' : top_at o F k -> top_at o F k' -> ~ k < k'.
Proof.
  intros [A B] [A' B'] L. destruct (nth_error o (N.to_nat k)) as [i|] eqn:E.
  - apply (A' _ i E); [lia|exact B].
  - subst k. destruct (nth_error o (N.to_nat k')) as [i|] eqn:E'; [|lia].
    assert (N.to_nat k' < length o)%nat by (apply nth_error_Some; rewrite E'; discriminate). lia.
Qed.
(** Every function has a top position (up to double negation; the claims below are decidable). *)
Lemma top_search o F : forall d k, (N.to_nat k + d = length o)%nat -> (forall j i, nth_error o j = Some i -> (j < N.to_nat k)%nat -> ~ depends F i) ->
  ~ ~ exists k', k' <= N.of_nat (length o) /\ top_at o F k'.
Proof.
  induction d as [|d IH]; intros k Ek A C.
  - apply C. exists k. split; [lia|]. split; [exact A|]. rewrite (proj2 (nth_error_None o (N.to_nat k))) by lia. lia.
  - destruct (nth_error o (N.to_nat k)) as [i|] eqn:E; [|apply nth_error_None in E; lia].
    assert (Nd : ~ depends F i).
    { intros D. apply C. exists k. split; [lia|]. split; [exact A|]. rewrite E. exact D. }
    apply (IH (k + 1)); [lia| |exact C]. intros j i' Ej Lj. destruct (Nat.eq_dec j (N.to_nat k)) as [->|Nj]; [|apply (A j i' Ej); lia].
    rewrite E in Ej. injection Ej as <-. exact Nd.
Qed.
Lemma tops o L : ~ ~ forall F : bfun, In F L -> exists k, k <= N.of_nat (length o) /\ top_at o F k.
Proof.
  induction L as [|F L IH]; intros C; [apply C; intros F []|]. apply IH. intros H.
  apply (top_search o F (length o) 0); [cbn; lia|intros j i _ Lj; cbn in Lj; lia|]. intros T. apply C. intros G [<-|I]; [exact T|exact (H G I)].
Qed.
(** The lists of the levels, one after the other. *)
Lemma levels_joined neg o (P : bfun -> Prop) lc : (forall k, number (up_to neg) (fun G => P G /\ top_at o G k) (lc k)) -> forall n, exists L,
  N.of_nat (length L) = sum_to lc n /\ (forall G, In G L -> P G /\ exists k, k <= N.of_nat n /\ top_at o G k) /\
  (forall G k, P G -> top_at o G k -> k <= N.of_nat n -> exists H, In H L /\ up_to neg G H) /\ ForallOrdPairs (fun G H => ~ up_to neg G H) L.
Proof.
  intros Nu. induction n as [|n (L & EL & A & B & C)].
  - destruct (Nu 0) as (L & EL & A & B & C). exists L. cbn [sum_to]. split; [exact EL|]. split.
    + intros G I. destruct (A G I) as [p T]. split; [exact p|]. exists 0. split; [lia|exact T].
    + split; [|exact C]. intros G k p T Lk. assert (k = 0) by lia. subst k. exact (B G (conj p T)).
  - destruct (Nu (N.of_nat (S n))) as (L' & EL' & A' & B' & C'). exists (L ++ L'). cbn [sum_to]. split; [rewrite app_length; lia|]. split; [|split].
    + intros G I. apply in_app_or in I as [I|I].
      * destruct (A G I) as (p & k & Lk & T). split; [exact p|]. exists k. split; [lia|exact T].
      * destruct (A' G I) as [p T]. split; [exact p|]. exists (N.of_nat (S n)). split; [lia|exact T].
    + intros G k p T Lk. destruct (N.eq_dec k (N.of_nat (S n))) as [->|Nk].
      * destruct (B' G (conj p T)) as (H & I & E). exists H. split; [apply in_or_app; right; exact I|exact E].
      * destruct (B G k p T) as (H & I & E); [lia|]. exists H. split; [apply in_or_app; left; exact I|exact E].
    + assert (X : forall G H, In G L -> In H L' -> ~ up_to neg G H).
      { intros G H I I' E. destruct (A G I) as (_ & k & Lk & T). destruct (A' H I') as [_ T']. apply (top_lt o H k (N.of_nat (S n))); [|exact T'|lia].
        exact (top_upto neg o G H k E T). }
      clear - C C' X. induction C as [|G L Fa C IH]; [exact C'|]. cbn [app]. constructor.
      * apply Forall_forall. intros H I. apply in_app_or in I as [I|I]; [rewrite Forall_forall in Fa; exact (Fa H I)|apply X; [left; reflexivity|exact I]].
      * apply IH. intros G' H I I'. apply X; [right; exact I|exact I'].
Qed.
Lemma number_levels neg o (P : bfun -> Prop) lc n : (forall k, number (up_to neg) (fun G => P G /\ top_at o G k) (lc k)) -> number (up_to neg) P n -> n = sum_to lc (length o).
Proof.
  intros Nu (L & EL & A & B & C). destruct (levels_joined neg o P lc Nu (length o)) as (L' & EL' & A' & B' & C').
  destruct (N.eq_dec n (sum_to lc (length o))) as [E|Ne]; [exact E|exfalso].
  apply (tops o L). intros T. apply Ne. rewrite <- EL, <- EL'.
  enough (length L <= length L' /\ length L' <= length L)%nat by lia. split.
  - apply (fop_le _ (up_to_equiv neg) L L' C). intros G I. destruct (T G I) as (k & Lk & Tk). exact (B' G k (A G I) Tk Lk).
  - apply (fop_le _ (up_to_equiv neg) L' L C'). intros G I. exact (B G (proj1 (A' G I))).
Qed.
Lemma profile_total w l Fs : reachable w -> args (wh w) l -> each (means (wm w)) l Fs ->
  forall d1 d2 neg, exists n lc k1 k2 m1 m2,
    cal_size_multiple d1 (wm w) l neg = Ok ((n, k1), m1) /\ cal_profile_multiple d2 (wm w) l neg = Ok ((lc, k2), m2) /\ n = sum_to lc (length (ord (mo (wm w)))).
Proof.
  intros R A M d1 d2 neg. destruct (size_counts w l Fs d1 neg R A M) as (n & k1 & m1 & E1 & N1).
  destruct (W_profile_multiple w R l Fs d2 neg A M) as (lc & k2 & m2 & E2 & _ & H).
  pose proof (profile_mo _ _ _ _ _ _ E2) as P2. apply preproc_each_mo in P2. rewrite P2 in H.
  exists n, lc, k1, k2, m1, m2. split; [exact E1|]. split; [exact E2|]. exact (number_levels neg _ _ lc n H N1).
Qed.
From Coq Require Import String.
From Verif Require Import PrintModel PrintProof FProfPrint ProfSame.
Lemma printed_total w l Fs : reachable w -> args (wh w) l -> each (means (wm w)) l Fs ->
  forall d1 d2 d3 naming len, exists n k1 m1 lines m2,
    cal_size_multiple d1 (wm w) l true = Ok ((n, k1), m1) /\ cal_print_profile_multiple d2 d3 (wm w) l naming len = Ok (Some lines, m2) /\
    last lines EmptyString = String.append "Total: " (dec_of n).
Proof.
  intros R A M d1 d2 d3 naming len. destruct (size_counts w l Fs d1 true R A M) as (n & k1 & m1 & E1 & N1).
  destruct (print_counts w l Fs d2 d3 naming len R A M) as (lc & m2 & E2 & N2).
  exists n, k1, m1, (print_aux (mo (wm w)) naming len lc), m2. split; [exact E1|]. split; [exact E2|].
  destruct (print_text naming len (mo (wm w)) lc) as (col & scale & ls & leaf & -> & _).
  rewrite (number_levels true _ _ lc n N2 N1). change [leaf; String.append "Total: " (dec_of (sum_to lc (List.length (ord (mo (wm w))))))] with ([leaf] ++ [String.append "Total: " (dec_of (sum_to lc (List.length (ord (mo (wm w))))))])%list.
  rewrite app_assoc. apply last_last.
Qed.
