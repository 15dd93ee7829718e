(** * Support and dependence: the marking walks. *)
From Coq Require Import Permutation Sorted.
From Verif Require Import Base BFModel ITEModel MgrModel ApiModel StoreInv Own EngInv ApplyProof BinopProof ReduceProof
  EngineProof OpProof MultiProof QProof GCProof VarProof MInv ApiProof ApiOps ApiStruct GraphModel GraphProof.
Open Scope N_scope.

Section Supp.
Variables (o : order) (s : store).
Hypothesis Wo : wfo o.
Hypothesis W : SWF o s.
Let m := mem s.
Notation V := (vedge (nodeR s)).
Variable vb : N -> edge.
Hypothesis Hvb : forall i, In i (ord o) ->
  V (vb i) /\ isconst (vb i) = false /\ eid (vb i) = i /\ isconst (thenof m (vb i)) = true /\ isconst (elseof m (vb i)) = true.
Notation vp i := (eptr (vb i)).

Definition cm (mk : marked) (y : edge) : Prop := isconst y = true \/ mk (eptr y) = true.

Lemma isconst_ptr x y : V x -> V y -> eptr x = eptr y -> isconst x = isconst y /\
  isconst (thenof m x) = isconst (thenof m y) /\ isconst (elseof m x) = isconst (elseof m y).
Proof.
  intros Vx Vy E. unfold isconst. rewrite (same_ptr o s W x y Vx Vy E). unfold thenof, elseof. simpl. now rewrite E.
Qed.
Lemma vp_eid x i : V x -> In i (ord o) -> eptr x = vp i -> eid x = i /\ isconst (thenof m x) = true /\ isconst (elseof m x) = true.
Proof.
  intros Vx Ii E. destruct (Hvb i Ii) as (Vi & _ & Ei & T & F). split; [now rewrite (same_ptr o s W x (vb i))|].
  destruct (isconst_ptr x (vb i) Vx Vi E) as (_ & -> & ->). auto.
Qed.

Lemma cm_ptr mk x y : eptr x = eptr y -> (cm mk (thenof m x) <-> cm mk (thenof m y)) /\ (cm mk (elseof m x) <-> cm mk (elseof m y)).
Proof. intros E. unfold cm, isconst, thenof, elseof. simpl. rewrite E. split; reflexivity. Qed.

Record supp (mk : marked) (f : edge) (sup : list N) (sup' : list N) (mk' : marked) : Prop := {
  su_mono : forall p, mk p = true -> mk' p = true;
  su_nd : NoDup sup';
  su_incl : forall i, In i sup -> In i sup';
  su_new : forall i, In i sup' -> In i sup \/ exists x, sub m f x /\ isconst x = false /\ eid x = i;
  su_var : forall i, In i sup' -> In i (ord o) /\ mk' (vp i) = true;
  su_id : forall x, V x -> isconst x = false -> mk' (eptr x) = true -> In (eid x) sup';
  su_f : cm mk' f;
  su_cl : forall x, V x -> isconst x = false -> mk' (eptr x) = true ->
     mk (eptr x) = true \/ (cm mk' (thenof m x) /\ cm mk' (elseof m x));
  su_from : forall p, mk' p = true -> mk p = true \/ (exists x, sub m f x /\ isconst x = false /\ eptr x = p) \/ exists i, In i sup' /\ p = vp i
}.

Lemma support_spec fuel : forall mk f sup, V f -> (rank o f < fuel)%nat -> NoDup sup ->
  (forall i, In i sup -> In i (ord o) /\ mk (vp i) = true) ->
  (forall x, V x -> isconst x = false -> mk (eptr x) = true -> In (eid x) sup) ->
  exists sup' mk', support_step vb fuel m mk f sup = Some (sup', mk') /\ supp mk f sup sup' mk'.
Proof.
  induction fuel as [|fuel IH]; intros mk f sup Vf Rf ND Hv Hi; [lia|]. cbn [support_step].
  destruct (mk (eptr f) || isconst f) eqn:E.
  { exists sup, mk. split; auto. split; auto.
    apply orb_true_iff in E as [E|E]; [now right|now left]. }
  apply orb_false_iff in E as [Mf C].
  destruct (node_split o s Wo W f Vf C) as (N0 & I1 & I2 & V1 & V2 & G1 & G2 & R1 & R2). fold m in V1, V2, R1, R2.
  set (v := vp (eid f)).
  destruct (Hvb (eid f) I1) as (Vv & Cv & Ev & _).
  set (sup1 := if mk v then sup else sup ++ [eid f]). set (mk1 := if mk v then mk else upd mk v true).
  match goal with |- context [if mk v then ?a else ?b] => replace (if mk v then a else b) with (sup1, mk1) by (unfold sup1, mk1; now destruct (mk v)) end.
  assert (If1 : In (eid f) sup1).
  { unfold sup1. destruct (mk v) eqn:Mv; [|apply in_app_iff; right; now left].
    rewrite <- Ev. apply Hi; auto. }
  assert (Mk1 : forall p, mk1 p = mk p || (p =? v)).
  { intros p. unfold mk1. destruct (mk v) eqn:Mv.
    - destruct (N.eqb_spec p v) as [->|]; [now rewrite Mv|now rewrite orb_false_r].
    - unfold upd. destruct (p =? v); [now rewrite orb_true_r|now rewrite orb_false_r]. }
  set (mk2 := upd mk1 (eptr f) true).
  assert (Mk2 : forall p, mk2 p = mk p || (p =? v) || (p =? eptr f)).
  { intros p. unfold mk2, upd. destruct (p =? eptr f); [now rewrite orb_true_r|]. rewrite orb_false_r. apply Mk1. }
  assert (S1 : forall i, In i sup1 -> In i sup \/ i = eid f).
  { intros i. unfold sup1. destruct (mk v); auto. rewrite in_app_iff. intros [|[|[]]]; auto. }
  assert (S0 : forall i, In i sup -> In i sup1).
  { intros i. unfold sup1. destruct (mk v); auto. rewrite in_app_iff. auto. }
  assert (ND1 : NoDup sup1).
  { unfold sup1. destruct (mk v) eqn:Mv; auto. apply NoDup_app_iff'; auto.
    - constructor; [intros []|constructor].
    - intros i Ii [<-|[]]. destruct (Hv _ Ii) as [_ A]. unfold v in Mv. congruence. }
  assert (Hv1 : forall i, In i sup1 -> In i (ord o) /\ mk2 (vp i) = true).
  { intros i Ii. destruct (S1 i Ii) as [A| ->].
    - destruct (Hv i A) as [B1 B2]. split; auto. rewrite Mk2, B2. auto.
    - split; auto. rewrite Mk2. fold v. rewrite N.eqb_refl, orb_true_r. auto. }
  assert (Hi1 : forall x, V x -> isconst x = false -> mk2 (eptr x) = true -> In (eid x) sup1).
  { intros x Vx Cx Mx. rewrite Mk2 in Mx. apply orb_true_iff in Mx as [Mx|Mx]; [apply orb_true_iff in Mx as [Mx|Mx]|].
    - apply S0. auto.
    - apply N.eqb_eq in Mx. destruct (vp_eid x (eid f) Vx I1 Mx) as [-> _]. auto.
    - apply N.eqb_eq in Mx. rewrite (same_ptr o s W x f Vx Vf Mx). auto. }
  destruct (IH mk2 (thenof m f) sup1) as (sup2 & mk3 & -> & A); auto; [lia|].
  destruct (IH mk3 (elseof m f) sup2) as (sup3 & mk4 & -> & B); auto; [lia|apply A|apply A|apply A|].
  assert (Mf4 : mk4 (eptr f) = true) by (apply (su_mono _ _ _ _ _ B), (su_mono _ _ _ _ _ A); rewrite Mk2, N.eqb_refl; apply orb_true_r).
  assert (Mcm : forall y, cm mk3 y -> cm mk4 y) by (intros y [|]; [now left|right; now apply (su_mono _ _ _ _ _ B)]).
  exists sup3, mk4. split; auto. split.
  - intros p Mp. apply (su_mono _ _ _ _ _ B), (su_mono _ _ _ _ _ A). now rewrite Mk2, Mp.
  - apply B.
  - intros i Ii. apply B, A, S0, Ii.
  - intros i Ii. destruct (su_new _ _ _ _ _ B i Ii) as [Ia|(x & S & X)].
    + destruct (su_new _ _ _ _ _ A i Ia) as [Ib|(x & S & X)].
      * destruct (S1 i Ib) as [|Ei]; auto. right. exists f. split; [constructor|auto].
      * right. exists x. split; auto. eapply sub_trans; [|exact S]. apply sub_then; [constructor|auto].
    + right. exists x. split; auto. eapply sub_trans; [|exact S]. apply sub_else; [constructor|auto].
  - apply B.
  - apply B.
  - now right.
  - intros x Vx Cx Mx. destruct (su_cl _ _ _ _ _ B x Vx Cx Mx) as [M3|]; auto.
    destruct (su_cl _ _ _ _ _ A x Vx Cx M3) as [M2|[X1 X2]]; [|right; split; auto].
    rewrite Mk2 in M2. apply orb_true_iff in M2 as [M2|M2]; [apply orb_true_iff in M2 as [M2|M2]; auto|].
    + apply N.eqb_eq in M2. destruct (vp_eid x (eid f) Vx I1 M2) as (_ & T & F). right. split; left; auto.
    + apply N.eqb_eq in M2. right. destruct (cm_ptr mk4 x f M2) as [-> ->]. split; [apply Mcm, A|apply B].
  - intros p Mp. destruct (su_from _ _ _ _ _ B p Mp) as [M3|[(x & S & X)|X]]; auto.
    + destruct (su_from _ _ _ _ _ A p M3) as [M2|[(x & S & X)|(i & Ii & X)]].
      * rewrite Mk2 in M2. apply orb_true_iff in M2 as [M2|M2]; [apply orb_true_iff in M2 as [M2|M2]; auto|].
        -- apply N.eqb_eq in M2. right. right. exists (eid f). split; auto. apply B, A, If1.
        -- apply N.eqb_eq in M2. right. left. exists f. split; [constructor|auto].
      * right. left. exists x. split; auto. eapply sub_trans; [|exact S]. apply sub_then; [constructor|auto].
      * right. right. exists i. split; auto. now apply B.
    + right. left. exists x. split; auto. eapply sub_trans; [|exact S]. apply sub_else; [constructor|auto].
Qed.

(** ** Unmarking *)

Definition cu (mk : marked) (y : edge) : Prop := isconst y = true \/ mk (eptr y) = false.

Lemma cu_ptr mk x y : eptr x = eptr y -> (cu mk (thenof m x) <-> cu mk (thenof m y)) /\ (cu mk (elseof m x) <-> cu mk (elseof m y)).
Proof. intros E. unfold cu, isconst, thenof, elseof. simpl. rewrite E. split; reflexivity. Qed.

Lemma unmark_spec fuel : forall mk f, V f -> (rank o f < fuel)%nat ->
  exists mk', unmark_nodes vb fuel m mk f = Some mk' /\
    (forall p, mk' p = true -> mk p = true) /\ cu mk' f /\
    (forall x, V x -> isconst x = false -> mk (eptr x) = true -> mk' (eptr x) = false ->
       mk' (vp (eid x)) = false /\ cu mk' (thenof m x) /\ cu mk' (elseof m x)).
Proof.
  induction fuel as [|fuel IH]; intros mk f Vf Rf; [lia|]. cbn [unmark_nodes].
  destruct (negb (mk (eptr f)) || isconst f) eqn:E.
  { exists mk. split; auto. split; auto. split; [|intros; congruence].
    apply orb_true_iff in E as [E|E]; [right|left; auto]. now apply negb_true_iff in E. }
  apply orb_false_iff in E as [Mf C]. apply negb_false_iff in Mf.
  destruct (node_split o s Wo W f Vf C) as (N0 & I1 & I2 & V1 & V2 & G1 & G2 & R1 & R2). fold m in V1, V2, R1, R2.
  set (mk1 := upd (upd mk (eptr f) false) (vp (eid f)) false).
  assert (Mk1 : forall p, mk1 p = mk p && negb (p =? eptr f) && negb (p =? vp (eid f))).
  { intros p. unfold mk1, upd. destruct (p =? vp (eid f)), (p =? eptr f); simpl; now rewrite ?andb_true_r, ?andb_false_r. }
  destruct (IH mk1 (thenof m f)) as (mk2 & -> & A1 & A2 & A3); auto; [lia|].
  destruct (IH mk2 (elseof m f)) as (mk3 & -> & B1 & B2 & B3); auto; [lia|].
  assert (Mono : forall p, mk1 p = false -> mk3 p = false).
  { intros p H. destruct (mk3 p) eqn:E3; auto. apply B1, A1 in E3. congruence. }
  assert (Mono2 : forall p, mk2 p = false -> mk3 p = false).
  { intros p H. destruct (mk3 p) eqn:E3; auto. apply B1 in E3. congruence. }
  assert (Mcu : forall y, cu mk2 y -> cu mk3 y) by (intros y [|]; [now left|right; auto]).
  exists mk3. split; auto. split; [|split].
  - intros p H. apply B1, A1 in H. rewrite Mk1 in H. apply andb_true_iff in H as [H _]. now apply andb_true_iff in H.
  - right. apply Mono. rewrite Mk1, N.eqb_refl. now rewrite andb_false_r.
  - intros x Vx Cx Mx M3. destruct (mk1 (eptr x)) eqn:E1.
    + destruct (mk2 (eptr x)) eqn:E2.
      * now apply B3.
      * destruct (A3 x Vx Cx E1 E2) as (X0 & X1 & X2). auto.
    + rewrite Mk1, Mx in E1. simpl in E1. apply andb_false_iff in E1 as [E1|E1]; apply negb_false_iff, N.eqb_eq in E1.
      * pose proof (same_ptr o s W x f Vx Vf E1) as Ei. rewrite Ei. split; [apply Mono; rewrite Mk1, N.eqb_refl; apply andb_false_r|].
        destruct (cu_ptr mk3 x f E1) as [-> ->]. split; [apply Mcu, A2|apply B2].
      * destruct (vp_eid x (eid f) Vx I1 E1) as (Ei & T & F). rewrite Ei. split; [apply Mono; rewrite Mk1, N.eqb_refl; apply andb_false_r|].
        split; now left.
Qed.

(** Both walks together. *)
Lemma support_result f : V f ->
  exists sup mk mk', support_step vb (depth o) m nomark f [] = Some (sup, mk) /\
    unmark_nodes vb (depth o) m mk f = Some mk' /\
    NoDup sup /\ (forall i, In i sup <-> exists x, sub m f x /\ isconst x = false /\ eid x = i) /\ (forall p, mk' p = false).
Proof.
  intros Vf. assert (R : (rank o f < depth o)%nat) by (eapply rank_depth; eauto).
  destruct (support_spec (depth o) nomark f [] Vf R) as (sup & mk & E & A).
  { constructor. } { intros i []. } { intros x _ _ H. discriminate H. }
  destruct (unmark_spec (depth o) mk f Vf R) as (mk' & E' & B1 & B2 & B3).
  assert (All : forall x, sub m f x -> cm mk x).
  { induction 1 as [|x S IH C|x S IH C]; [apply A| |]; (destruct IH as [|Mx]; [congruence|]);
      destruct (su_cl _ _ _ _ _ A x (sub_V o s Wo W f x Vf S) C Mx) as [H|[X Y]]; auto; discriminate H. }
  assert (Non : forall x, sub m f x -> cu mk' x).
  { induction 1 as [|x S IH C|x S IH C]; [auto| |]; (destruct IH as [|Mx]; [congruence|]);
      (destruct (All x S) as [|My]; [congruence|]);
      destruct (B3 x (sub_V o s Wo W f x Vf S) C My Mx) as (_ & X & Y); auto. }
  assert (Ids : forall i, In i sup <-> exists x, sub m f x /\ isconst x = false /\ eid x = i).
  { intros i. split.
    - intros Ii. destruct (su_new _ _ _ _ _ A i Ii) as [[]|X]; auto.
    - intros (x & S & C & <-). destruct (All x S) as [|Mx]; [congruence|].
      apply (su_id _ _ _ _ _ A); auto. exact (sub_V o s Wo W f x Vf S). }
  exists sup, mk, mk'. split; auto. split; auto. split; [apply A|]. split; auto.
  intros p. destruct (mk' p) eqn:Mp; auto. exfalso. pose proof (B1 p Mp) as M1.
  destruct (su_from _ _ _ _ _ A p M1) as [H|[(x & S & C & <-)|(i & Ii & ->)]].
  - discriminate H.
  - destruct (Non x S); congruence.
  - apply Ids in Ii as (x & S & C & <-). destruct (Non x S) as [|Mx]; [congruence|].
    destruct (All x S) as [|My]; [congruence|].
    destruct (B3 x (sub_V o s Wo W f x Vf S) C My Mx) as (X & _). congruence.
Qed.

(** ** Dependence *)

Section Depends.
Variable vi : N.
Definition good (mk : marked) (y : edge) : Prop := vi < idx o (eid y) \/ mk (eptr y) = true.

Lemma idx_ptr x y : V x -> V y -> eptr x = eptr y -> idx o (eid x) = idx o (eid y).
Proof. intros Vx Vy E. now rewrite (same_ptr o s W x y Vx Vy E). Qed.
Lemma good_ptr mk x y : V x -> V y -> eptr x = eptr y -> good mk (thenof m x) /\ good mk (elseof m x) <-> good mk (thenof m y) /\ good mk (elseof m y).
Proof. intros Vx Vy E. unfold good, thenof, elseof. simpl. rewrite E. reflexivity. Qed.

Hypothesis Lvi : vi < CONST_INDEX.

Lemma depends_pass fuel : forall mk f, V f -> (rank o f < fuel)%nat ->
  exists b mk', depends_step o vi true fuel m mk f = Some (b, mk') /\
    (forall p, mk p = true -> mk' p = true) /\
    (b = true -> exists x, sub m f x /\ idx o (eid x) = vi) /\
    (b = false -> good mk' f /\ forall x, V x -> mk' (eptr x) = true -> mk (eptr x) = true \/
        (isconst x = false /\ idx o (eid x) < vi /\ good mk' (thenof m x) /\ good mk' (elseof m x))) /\
    forall n, (forall q, mk' q = true -> n q = negb (mk q)) ->
      exists n', depends_step o vi false fuel m n f = Some (b, n') /\
        forall q, n' q = if mk' q && negb (mk q) then false else n q.
Proof.
  induction fuel as [|fuel IH]; intros mk f Vf Rf; [lia|]. cbn [depends_step].
  assert (Same : forall n : marked, forall q, n q = if mk q && negb (mk q) then false else n q) by (intros n q; now destruct (mk q)).
  destruct (N.ltb_spec vi (idx o (eid f))) as [L|L].
  { exists false, mk. split; auto. split; auto. split; [discriminate|]. split.
    - intros _. split; [now left|auto].
    - intros n _. exists n. split; auto. }
  destruct (N.eqb_spec (idx o (eid f)) vi) as [E|E].
  { exists true, mk. split; auto. split; auto. split; [intros _; exists f; split; [constructor|auto]|]. split; [discriminate|].
    intros n _. exists n. split; auto. }
  assert (C : isconst f = false).
  { destruct (isconst f) eqn:C; auto. exfalso. destruct (const_cases _ f Vf C) as [-> | ->]; cbn [eid one zero] in L; rewrite (wfo_const o Wo) in L; lia. }
  cbn [andb orb negb]. rewrite orb_false_r.
  destruct (mk (eptr f)) eqn:Mf.
  { exists false, mk. split; auto. split; auto. split; [discriminate|]. split.
    - intros _. split; [now right|auto].
    - intros n Hn. exists n. split; auto. rewrite (Hn _ Mf), Mf. reflexivity. }
  destruct (node_split o s Wo W f Vf C) as (N0 & I1 & I2 & V1 & V2 & G1 & G2 & R1 & R2). fold m in V1, V2, R1, R2.
  set (mk1 := upd mk (eptr f) true).
  assert (M1 : forall p, mk1 p = mk p || (p =? eptr f)).
  { intros p. unfold mk1, upd. destruct (p =? eptr f); [now rewrite orb_true_r|now rewrite orb_false_r]. }
  destruct (IH mk1 (thenof m f)) as (b1 & mk2 & E1 & A1 & A2 & A3 & A4); auto; [lia|]. rewrite E1.
  assert (Mono1 : forall p, mk p = true -> mk2 p = true) by (intros p H; apply A1; rewrite M1, H; auto).
  assert (Mf2 : mk2 (eptr f) = true) by (apply A1; rewrite M1, N.eqb_refl; apply orb_true_r).
  assert (P2 : forall n, (forall q, mk2 q = true -> n q = negb (mk q)) -> n (eptr f) = true /\
      exists n2, depends_step o vi false fuel m (upd n (eptr f) false) (thenof m f) = Some (b1, n2) /\
        forall q, n2 q = if mk2 q && negb (mk q) then false else n q).
  { intros n Hn. pose proof (Hn _ Mf2) as Nf. rewrite Mf in Nf. simpl in Nf. split; auto.
    destruct (A4 (upd n (eptr f) false)) as (n2 & En & Hn2).
    { intros q Mq. rewrite M1. unfold upd. destruct (N.eqb_spec q (eptr f)) as [->|]; [now rewrite orb_true_r|]. rewrite orb_false_r. auto. }
    exists n2. split; auto. intros q. rewrite Hn2, M1. unfold upd. destruct (N.eqb_spec q (eptr f)) as [->|].
    - rewrite orb_true_r, andb_false_r, Mf2, Mf. reflexivity.
    - now rewrite orb_false_r. }
  destruct b1.
  { exists true, mk2. split; auto. split; auto. split; [|split; [discriminate|]].
    - intros _. destruct (A2 eq_refl) as (x & S & Ex). exists x. split; auto. eapply sub_trans; [|exact S]. apply sub_then; [constructor|auto].
    - intros n Hn. destruct (P2 n Hn) as (Nf & n2 & En & Hn2). rewrite Nf, En. cbn [negb]. exists n2. split; auto. }
  destruct (A3 eq_refl) as [Gt A3'].
  destruct (IH mk2 (elseof m f)) as (b2 & mk3 & E2 & B1 & B2 & B3 & B4); auto; [lia|]. rewrite E2.
  exists b2, mk3. split; auto. split; auto. split; [|split].
  - intros Eb. destruct (B2 Eb) as (x & S & Ex). exists x. split; auto. eapply sub_trans; [|exact S]. apply sub_else; [constructor|auto].
  - intros Eb. destruct (B3 Eb) as [Ge B3']. split; [right; auto|].
    assert (Mg : forall y, good mk2 y -> good mk3 y) by (intros y [|]; [now left|right; auto]).
    intros x Vx Mx. destruct (B3' x Vx Mx) as [M2|]; auto.
    destruct (A3' x Vx M2) as [M3|(X0 & X1 & X2 & X3)]; [|right; auto].
    rewrite M1 in M3. apply orb_true_iff in M3 as [|M3]; auto. apply N.eqb_eq in M3. right.
    destruct (isconst_ptr x f Vx Vf M3) as (-> & _). rewrite (idx_ptr x f Vx Vf M3). split; auto. split; [lia|].
    apply (good_ptr mk3 x f Vx Vf M3). split; auto.
  - intros n Hn. destruct (P2 n) as (Nf & n2 & En & Hn2); [auto|]. rewrite Nf, En. cbn [negb].
    destruct (B4 n2) as (n3 & En3 & Hn3).
    { intros q Mq. rewrite Hn2. destruct (mk2 q) eqn:M2q; simpl.
      - destruct (mk q) eqn:Mkq; simpl; auto. rewrite Hn, Mkq; auto.
      - rewrite Hn by auto. destruct (mk q) eqn:Mkq; auto. apply Mono1 in Mkq. congruence. }
    exists n3. split; auto. intros q. rewrite Hn3, Hn2.
    destruct (mk3 q) eqn:M3q, (mk2 q) eqn:M2q, (mk q) eqn:Mkq; simpl; auto.
    + apply Mono1 in Mkq. congruence.
    + apply B1 in M2q. congruence.
Qed.

Lemma depends_result f : V f ->
  exists b mk n, depends_step o vi true (depth o) m nomark f = Some (b, mk) /\
    depends_step o vi false (depth o) m mk f = Some (b, n) /\ (forall q, n q = false) /\
    (b = true <-> exists x, sub m f x /\ idx o (eid x) = vi).
Proof.
  intros Vf. destruct (depends_pass (depth o) nomark f Vf) as (b & mk & E & _ & A & B & P); [eapply rank_depth; eauto|].
  destruct (P mk) as (n & En & Hn); [intros q ->; reflexivity|].
  exists b, mk, n. split; auto. split; auto. split.
  - intros q. rewrite Hn. unfold nomark. simpl. rewrite andb_true_r. now destruct (mk q).
  - split; auto. intros (x & S & Ex). destruct b; auto. exfalso. destruct (B eq_refl) as [G H].
    assert (Gd : vi < idx o (eid x) \/ (mk (eptr x) = true /\ idx o (eid x) < vi)).
    { assert (All : forall x, sub m f x -> good mk x -> vi < idx o (eid x) \/ (mk (eptr x) = true /\ idx o (eid x) < vi)).
      { intros y Sy [|My]; auto. right. split; auto.
        destruct (H y (sub_V o s Wo W f y Vf Sy) My) as [X|(_ & X & _)]; [discriminate X|auto]. }
      clear Ex. induction S as [|x S IH C|x S IH C].
      - apply All; [constructor|auto].
      - destruct (node_split o s Wo W x (sub_V o s Wo W f x Vf S) C) as (_ & _ & _ & _ & _ & G1 & G2 & _).
        destruct IH as [|[Mx Lx]]; [left; fold m in G1; lia|].
        destruct (H x (sub_V o s Wo W f x Vf S) Mx) as [X|(_ & _ & X & _)]; [discriminate X|].
        apply All; [now constructor|auto].
      - destruct (node_split o s Wo W x (sub_V o s Wo W f x Vf S) C) as (_ & _ & _ & _ & _ & G1 & G2 & _).
        destruct IH as [|[Mx Lx]]; [left; fold m in G2; lia|].
        destruct (H x (sub_V o s Wo W f x Vf S) Mx) as [X|(_ & _ & _ & X)]; [discriminate X|].
        apply All; [now constructor|auto]. }
    lia.
Qed.
End Depends.
End Supp.
