(** * Generalized cofactors of Boolean functions. *)
From Verif Require Import Base BFModel StoreInv.

Section Sem.
Local Notation bf := ((N -> bool) -> bool).
(** The variables. *)
Variable vs : list N.

(** The value depends on the variables only. *)
Definition only (F : bf) : Prop := forall r1 r2, (forall j, In j vs -> r1 j = r2 j) -> F r1 = F r2.
Fixpoint satl (l : list N) (F : bf) (rho : N -> bool) : bool :=
  match l with [] => F rho | i :: l => satl l F (flip rho i true) || satl l F (flip rho i false) end.
Definition sat (F : bf) : bool := satl vs F (fun _ => false).
Definition co (F : bf) (i : N) (b : bool) : bf := fun rho => F (flip rho i b).
Definition dep (F : bf) (i : N) : bool := sat (fun rho => xorb (co F i true rho) (co F i false rho)).

(** The generalized cofactor ([red = false]), and the variant that quantifies variables of the
    care set on which the function does not depend ([red = true]). *)
Fixpoint gc (red : bool) (l : list N) (F C : bf) (rho : N -> bool) : bool :=
  match l with
  | [] => F rho
  | i :: l =>
    if red && negb (dep F i) then gc red l F (fun r => co C i true r || co C i false r) rho
    else if negb (sat (co C i true)) then gc red l (co F i false) (co C i false) rho
    else if negb (sat (co C i false)) then gc red l (co F i true) (co C i true) rho
    else if rho i then gc red l (co F i true) (co C i true) rho
    else gc red l (co F i false) (co C i false) rho
  end.

Lemma satl_true l : forall F rho, satl l F rho = true -> exists r, F r = true.
Proof.
  induction l as [|i l IH]; simpl; intros F rho H; [eauto|]. apply orb_true_iff in H as [H|H]; eauto.
Qed.
Lemma satl_false l : forall F rho, satl l F rho = false ->
  (forall r1 r2, (forall j, r1 j = r2 j) -> F r1 = F r2) ->
  forall r, (forall j, ~ In j l -> r j = rho j) -> F r = false.
Proof.
  induction l as [|i l IH]; simpl; intros F rho H E r Hr.
  - rewrite (E r rho); auto.
  - apply orb_false_iff in H as [H1 H2]. destruct (r i) eqn:Ri.
    + apply (IH F _ H1 E). intros j Nj. unfold flip. destruct (N.eqb_spec j i) as [->|Ne]; auto. apply Hr. intros [?|?]; congruence.
    + apply (IH F _ H2 E). intros j Nj. unfold flip. destruct (N.eqb_spec j i) as [->|Ne]; auto. apply Hr. intros [?|?]; congruence.
Qed.
Lemma only_bext F : only F -> forall r1 r2, (forall j, r1 j = r2 j) -> F r1 = F r2.
Proof. intros O r1 r2 E. apply O. auto. Qed.
Lemma sat_false F : only F -> sat F = false -> forall r, F r = false.
Proof.
  intros O H r. pose (r' := fun j => if existsb (N.eqb j) vs then r j else false).
  assert (K : forall j, existsb (N.eqb j) vs = true <-> In j vs).
  { intros j. rewrite existsb_exists. split; [intros (x & Ix & Ex); apply N.eqb_eq in Ex; congruence|intros Ij; exists j; split; auto; apply N.eqb_refl]. }
  rewrite (O r r'). { apply (satl_false vs F _ H (only_bext F O)). intros j Nj. unfold r'. destruct (existsb (N.eqb j) vs) eqn:E; auto. apply K in E. tauto. }
  intros j Ij. unfold r'. apply K in Ij. now rewrite Ij.
Qed.
Lemma sat_iff F : only F -> sat F = true <-> exists r, F r = true.
Proof.
  intros O. split; [apply satl_true|]. intros [r H]. destruct (sat F) eqn:S; auto. rewrite (sat_false F O S r) in H. discriminate.
Qed.
Lemma only_co F i b : only F -> only (co F i b).
Proof. intros O r1 r2 H. apply O. intros j Ij. unfold flip. destruct (j =? i); auto. Qed.
Lemma only_or F G : only F -> only G -> only (fun r => F r || G r).
Proof. intros O1 O2 r1 r2 H. now rewrite (O1 r1 r2 H), (O2 r1 r2 H). Qed.
Lemma only_dep F i : only F -> only (fun rho => xorb (co F i true rho) (co F i false rho)).
Proof. intros O r1 r2 H. now rewrite (only_co F i true O r1 r2 H), (only_co F i false O r1 r2 H). Qed.
Lemma dep_false F i : only F -> dep F i = false <-> forall rho b, F (flip rho i b) = F rho.
Proof.
  intros O. split.
  - intros H rho b. pose proof (sat_false _ (only_dep F i O) H) as K.
    assert (K' : forall r, F (flip r i true) = F (flip r i false)).
    { intros r. specialize (K r). unfold co in K. now apply xorb_eq in K. }
    assert (E : F rho = F (flip rho i (rho i))).
    { apply O. intros j _. unfold flip. now destruct (N.eqb_spec j i) as [->|]. }
    rewrite E. destruct b, (rho i); auto.
  - intros H. destruct (dep F i) eqn:Dp; auto. apply satl_true in Dp as [r Hr]. unfold co in Hr. now rewrite !H, xorb_nilpotent in Hr.
Qed.
Lemma satl_ext l : forall F G rho, (forall r, F r = G r) -> satl l F rho = satl l G rho.
Proof. induction l as [|i l IH]; simpl; intros F G rho H; auto. now rewrite !(IH F G). Qed.
Lemma sat_ext F G : (forall r, F r = G r) -> sat F = sat G.
Proof. apply satl_ext. Qed.
Lemma dep_ext F G i : (forall r, F r = G r) -> dep F i = dep G i.
Proof. intros H. apply sat_ext. intros r. unfold co. now rewrite !H. Qed.
Lemma gc_ext red l : forall F C G H rho, (forall r, F r = G r) -> (forall r, C r = H r) -> gc red l F C rho = gc red l G H rho.
Proof.
  induction l as [|i l IH]; simpl; intros F C G H rho E1 E2; auto.
  assert (K1 : forall b r, co F i b r = co G i b r) by (intros; apply E1).
  assert (K2 : forall b r, co C i b r = co H i b r) by (intros; apply E2).
  rewrite (dep_ext F G i E1), !(sat_ext _ _ (K2 _)).
  assert (K3 : forall r, co C i true r || co C i false r = co H i true r || co H i false r) by (intros r; now rewrite !K2).
  rewrite (IH F _ G _ rho E1 K3). now rewrite !(IH _ _ _ _ rho (K1 _) (K2 _)).
Qed.

(** Variables on which neither operand depends do not matter. *)
Lemma gc_skip red i l F C rho : only F -> only C -> sat C = true ->
  (forall r b, F (flip r i b) = F r) -> (forall r b, C (flip r i b) = C r) -> gc red (i :: l) F C rho = gc red l F C rho.
Proof.
  intros O1 O2 S HF HC. simpl.
  assert (E1 : forall b r, co F i b r = F r) by (intros; apply HF). assert (E2 : forall b r, co C i b r = C r) by (intros; apply HC).
  rewrite (proj2 (dep_false F i O1) HF). rewrite !(sat_ext _ _ (E2 _)), S. simpl. rewrite andb_true_r.
  rewrite !(gc_ext red l _ _ F C rho (E1 _) (E2 _)). destruct red; [|now destruct (rho i)].
  apply gc_ext; auto. intros r. rewrite !E2. apply orb_diag.
Qed.
Lemma gc_skips red l1 : forall l F C rho, only F -> only C -> sat C = true ->
  (forall i r b, In i l1 -> F (flip r i b) = F r) -> (forall i r b, In i l1 -> C (flip r i b) = C r) ->
  gc red (l1 ++ l) F C rho = gc red l F C rho.
Proof.
  induction l1 as [|i l1 IH]; intros l F C rho O1 O2 S HF HC; auto.
  change ((i :: l1) ++ l) with (i :: (l1 ++ l)). rewrite gc_skip; auto.
  - apply IH; auto; intros; [apply HF|apply HC]; now right.
  - intros; apply HF; now left.
  - intros; apply HC; now left.
Qed.

(** On the care set nothing changes. *)
Lemma gc_care red l : forall F C rho, only F -> only C -> C rho = true -> gc red l F C rho = F rho.
Proof.
  induction l as [|i l IH]; simpl; intros F C rho O1 O2 H; auto.
  assert (E : forall G b, only G -> rho i = b -> co G i b rho = G rho).
  { intros G b O <-. apply O. intros j _. unfold flip. now destruct (N.eqb_spec j i) as [->|]. }
  assert (St : forall b, rho i = b -> sat (co C i b) = true).
  { intros b Hb. apply sat_iff; [now apply only_co|]. exists rho. now rewrite E. }
  destruct (red && negb (dep F i)).
  { rewrite IH; auto; [apply only_or; now apply only_co|]. destruct (rho i) eqn:Ri; rewrite (E C _ O2 eq_refl), H; auto. apply orb_true_r. }
  destruct (rho i) eqn:Ri.
  - rewrite (St true eq_refl). cbn [negb]. destruct (negb (sat (co C i false))); (rewrite IH; [now apply E|now apply only_co|now apply only_co|now rewrite E]).
  - rewrite (St false eq_refl). cbn [negb]. destruct (negb (sat (co C i true))); (rewrite IH; [now apply E|now apply only_co|now apply only_co|now rewrite E]).
Qed.
Lemma gc_one red l F C rho : only F -> (forall r, C r = true) -> gc red l F C rho = F rho.
Proof. intros O H. apply gc_care; auto. intros r1 r2 _. now rewrite !H. Qed.
Lemma gc_const red l b : forall F C rho, (forall r, F r = b) -> gc red l F C rho = b.
Proof.
  induction l as [|i l IH]; simpl; intros F C rho H; auto.
  repeat match goal with |- context [if ?t then _ else _] => destruct t end; apply IH; intros; auto; apply H.
Qed.
End Sem.
