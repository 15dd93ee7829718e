(** * The last entry of the function profile of one function. *)
From Coq Require Import Permutation Sorted.
From Verif Require Import Base BFModel ITEModel MgrModel ApiModel StoreInv Own EngInv ApplyProof BinopProof ReduceProof
  EngineProof OpProof MultiProof QProof GCProof VarProof MInv ApiProof ApiOps ApiStruct ApiVar GraphModel GraphProof GraphCube
  GraphFrac GraphMarks GraphSupp GraphFProf GraphSem GraphCall SpecApi SpecGraph WorldProof ApiLemmas GraphApi Client ApiFacts GraphFacts.
Open Scope N_scope.

Lemma function_profile_last o s (Wo : wfo o) (W : SWF o s) F lc E R : vedge (nodeR s) F -> lists_edges s [F] E ->
  (forall k, lc k = N.of_nat (length (at_lvl o k E))) -> function_profile_of o (mem s) lc F = Some R ->
  R (N.of_nat (length (ord o))) = Z.of_N (lc (N.of_nat (length (ord o)))).
Proof.
  intros VF [NE HE] Hlc. unfold function_profile_of.
  assert (SE : forall x, In x E <-> sub (mem s) F x).
  { intros x. rewrite HE. split; [intros (f & [<-|[]] & S); auto|intros S; exists F; split; [now left|auto]]. }
  destruct (highest_result o s Wo W F VF) as (h & -> & Kh & Hh).
  set (n := length (ord o)) in *.
  destruct (dominated_result o s Wo W F (encode (N.of_nat n) lc) h VF Kh) as (fc & h' & L & -> & NL & HL & Bf).
  { intros x S. destruct (Hh x S) as (v & Hv & R1 & R2). exists v. split; auto. destruct (eeq x F); [lia|].
    destruct R2 as (p & _ & _ & ->). pose proof (lvl_nonneg o p). lia. }
  intros [= <-].
  assert (Rest : forall k fc acc i, (k <= N.to_nat i)%nat -> sum_up k fc acc i = fc i).
  { clear. induction k as [|k IH]; intros fc acc i Hi; [reflexivity|]. cbn [sum_up].
    assert (Nk : (i =? N.of_nat k) = false) by (apply N.eqb_neq; lia).
    destruct (negb _); rewrite IH by lia; unfold upd; rewrite Nk; reflexivity. }
  rewrite Rest by lia. rewrite Bf. unfold encode. rewrite N.ltb_irrefl.
  assert (Z0 : bumps h L (N.of_nat n) = 0%Z); [|lia].
  unfold bumps. rewrite (countb_ext _ (fun _ => false)).
  - unfold countb. replace (filter (fun _ : edge => false) L) with (@nil edge) by (clear; induction L; auto). reflexivity.
  - intros x Ix. apply HL in Ix. destruct (Hh x Ix) as (v & Hv & R1 & R2). rewrite Hv. apply Z.eqb_neq.
    destruct (eeq x F); [lia|]. destruct R2 as (p & Sp & [Cp _] & ->). unfold lvl.
    pose proof (level_lt o s Wo W p (sub_V o s Wo W F p VF Sp) Cp) as Lp. unfold level in Lp. rewrite Cp in Lp. fold n in Lp. lia.
Qed.

Lemma W_function_profile_last w f F d1 d2 R m' : reachable w -> In f (wh w) -> means (wm w) f F -> cal_function_profile d1 d2 (wm w) f = Ok (Some R, m') ->
  exists c, R (N.of_nat (length (ord (mo m')))) = Z.of_N c /\
    number same (fun G => subfunction (ord (mo m')) [F] G /\ top_at (ord (mo m')) G (N.of_nat (length (ord (mo m'))))) c.
Proof.
  intros Rw If Mf EC. destruct (W_inv w Rw) as [D I]. destruct (profile_call w D f F d1 false I If Mf) as (lc & mk & m1 & D1 & E & [I1 X1] & _ & Hk).
  destruct (pre1 d2 m1 (wh w) lk0 D1 f I1 If) as (m2 & D2 & P2 & I2 & X2).
  pose proof (preproc_mo _ _ _ _ _ P2) as Eo.
  assert (K2 : kept (wm w) (wh w) lk0 D m2 D2) by (split; [auto|eapply mext_trans; eauto]).
  destruct (kept_facts (wm w) (wh w) lk0 D m2 D2 f K2 If) as (Wo & W & K & V & H).
  pose proof (roots w D [f] [F] m2 D2 I K2 (args1 w f If) (Forall2_cons _ _ Mf (Forall2_nil _))) as EF. cbn [map] in EF.
  destruct (size_profile w D _ [F] m2 D2 false K2 EF) as (n2 & lc2 & mk2 & _ & _ & _ & _ & Hk2 & Hl2). destruct (Hl2 eq_refl) as (E2 & HE & Hlc).
  assert (El : forall k, lc k = N.of_nat (length (at_lvl (mo m2) k E2))).
  { intros k. rewrite <- Hlc. specialize (Hk k). rewrite <- Eo in Hk. exact (number_unique same _ _ _ same_equiv Hk (Hk2 k)). }
  unfold cal_function_profile in EC. rewrite E in EC. cbn [obind] in EC. unfold query in EC. rewrite P2 in EC. cbn [obind negb] in EC.
  destruct (function_profile_of (mo m2) (mmem m2) lc (uint (mmem m2) f)) as [R'|] eqn:ER; cbn [fueled obind] in EC; [|discriminate EC].
  injection EC as <- <-. exists (lc (N.of_nat (length (ord (mo m2))))). split.
  - exact (function_profile_last (mo m2) (st (me m2)) Wo W (uint (mmem m2) f) lc E2 R' V HE El ER).
  - specialize (Hk (N.of_nat (length (ord (mo m2))))). rewrite <- Eo in Hk. exact Hk.
Qed.
Lemma fprofile_last_example : exists R m', cal_function_profile dec1 dec1 (wm demo) h_ite = Ok (Some R, m') /\ R 4 = 2%Z.
Proof.
  destruct (shows_ex (cal_function_profile dec1 dec1 (wm demo) h_ite) (fun l => match l with Some R => Z.eqb (R 4) 2 | None => false end))
    as ([R|] & m1 & E & P); [vm_compute; exact eq_refl| |discriminate P].
  exists R, m1. split; [exact E|]. apply Z.eqb_eq. exact P.
Qed.
