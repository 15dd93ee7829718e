(** * The generalized cofactor takes the value at the projection. *)
From Verif Require Import Base SpecApi StoreInv CofSem SpecCofactor.

Section Near.
Variable vs : list N.

Lemma only_mono l l' F : incl l l' -> only l F -> only l' F.
Proof. intros H O r1 r2 E. apply O. intros j Ij. auto. Qed.
Lemma only_cons i l F b : only (i :: l) F -> only l (co F i b).
Proof.
  intros O r1 r2 E. unfold co. apply O. intros j [<-|Ij].
  - now rewrite !flip_same.
  - unfold flip. destruct (j =? i); auto.
Qed.
Lemma far_ext l rho r s s' : (forall j, In j l -> s j = s' j) -> not_farther l rho r s -> not_farther l rho r s'.
Proof.
  induction l as [|i l IH]; simpl; auto. intros E. rewrite (E i) by auto. destruct (Bool.eqb (r i) (s' i)); auto.
Qed.
Lemma co_same l F i r b : only l F -> r i = b -> co F i b r = F r.
Proof. intros O E. unfold co. apply O. intros j _. unfold flip. destruct (N.eqb_spec j i); congruence. Qed.
Lemma flip_ne rho i b j : j <> i -> flip rho i b j = rho j.
Proof. unfold flip. destruct (N.eqb_spec j i); congruence. Qed.

Lemma proj_step i l C rho r b : ~ In i l -> only (i :: l) C -> r i = b -> projection (i :: l) C rho r -> projection l (co C i b) rho r.
Proof.
  intros Ni O E [H1 H2]. split; [now rewrite (co_same (i :: l) C i r b O E)|]. intros s Hs. specialize (H2 _ Hs). simpl in H2.
  rewrite flip_same, E, Bool.eqb_reflx in H2. eapply far_ext; [|exact H2]. intros j Ij. apply flip_ne. congruence.
Qed.

Lemma gc_proj : forall l F C rho r, NoDup l -> incl l vs -> only l F -> only l C -> projection l C rho r ->
  gc vs false l F C rho = F r.
Proof.
  induction l as [|i l IH]; intros F C rho r Nd Il OF OC [P1 P2].
  - simpl. apply OF. now intros j [].
  - inversion Nd; subst. assert (Il' : incl l vs) by (intros j Hj; apply Il; now right).
    assert (Oc : forall b, only vs (co C i b)) by (intros b; eapply only_mono; [exact Il'|now apply only_cons]).
    assert (Go : forall b, r i = b -> gc vs false l (co F i b) (co C i b) rho = F r).
    { intros b E. rewrite (IH (co F i b) (co C i b) rho r); auto using only_cons.
      - now apply (co_same (i :: l)).
      - eapply proj_step; eauto. now split. }
    assert (Cr : co C i (r i) r = true) by now rewrite (co_same (i :: l) C i r _ OC eq_refl).
    cbn [gc andb].
    destruct (sat vs (co C i true)) eqn:S1; cbn [negb].
    + destruct (sat vs (co C i false)) eqn:S2; cbn [negb].
      * assert (E : r i = rho i).
        { apply (sat_iff vs _ (Oc true)) in S1 as [s1 S1]. apply (sat_iff vs _ (Oc false)) in S2 as [s2 S2]. unfold co in S1, S2.
          apply P2 in S1. apply P2 in S2. simpl in S1, S2. rewrite flip_same in S1, S2. destruct (r i), (rho i); auto. }
        destruct (rho i); apply Go; auto.
      * apply Go. destruct (r i); auto. rewrite (sat_false vs _ (Oc false) S2) in Cr. discriminate.
    + apply Go. destruct (r i); auto. rewrite (sat_false vs _ (Oc true) S1) in Cr. discriminate.
Qed.

Lemma proj_ex : forall l C rho, NoDup l -> incl l vs -> only l C -> (exists s, C s = true) -> exists r, projection l C rho r.
Proof.
  induction l as [|i l IH]; intros C rho Nd Il OC [s Hs].
  - exists rho. split; [|simpl; auto]. rewrite <- Hs. apply OC. now intros j [].
  - inversion Nd; subst. assert (Il' : incl l vs) by (intros j Hj; apply Il; now right).
    assert (Oc : forall b, only vs (co C i b)) by (intros b; eapply only_mono; [exact Il'|now apply only_cons]).
    assert (B : exists b, (exists s, co C i b s = true) /\ (forall s, C s = true -> s i <> b -> b = rho i)).
    { destruct (sat vs (co C i (rho i))) eqn:S1.
      - exists (rho i). split; auto. now apply (sat_iff vs _ (Oc (rho i))).
      - exists (negb (rho i)).
        assert (K : forall s, C s = true -> s i = negb (rho i)).
        { intros s' Hs'. destruct (Bool.bool_dec (s' i) (rho i)) as [E|E]; [|now destruct (s' i), (rho i)].
          pose proof (sat_false vs _ (Oc (rho i)) S1 s') as Q. rewrite (co_same (i :: l) C i s' _ OC E) in Q. congruence. }
        split; [|intros s' Hs' N0; now elim N0; apply K]. exists s. now rewrite (co_same (i :: l) C i s _ OC (K s Hs)). }
    destruct B as (b & Sb & Hb). destruct (IH (co C i b) rho) as [r [R1 R2]]; auto using only_cons.
    exists (flip r i b). split; [exact R1|]. intros s' Hs'. simpl. rewrite flip_same.
    destruct (Bool.eqb b (s' i)) eqn:E.
    + apply Bool.eqb_prop in E. assert (Q : co C i b s' = true) by now rewrite (co_same (i :: l) C i s' b OC (eq_sym E)).
      apply R2 in Q. clear - Q H1. revert Q H1. generalize l. intros l0. induction l0 as [|j l0 IH0]; simpl; auto.
      intros Q N0. rewrite flip_ne by (intros ->; auto). destruct (Bool.eqb (r j) (s' j)); auto.
    + apply (Hb s' Hs'). intros E'. rewrite E', Bool.eqb_reflx in E. discriminate.
Qed.
End Near.
