(** * Edges of the graph and subfunctions. *)
From Coq Require Import Permutation Sorted.
From Verif Require Import Base BFModel ITEModel MgrModel ApiModel StoreInv Own EngInv ApplyProof BinopProof ReduceProof
  EngineProof OpProof MultiProof QProof GCProof VarProof MInv ApiProof ApiOps ApiStruct GraphModel GraphProof GraphMarks GraphFProf.
Open Scope N_scope.

(** [rho] on the variables in the first [k] positions, [r] elsewhere. *)
Definition mix (o : order) (k : nat) (rho r : N -> bool) : N -> bool :=
  fun v => if existsb (N.eqb v) (firstn k (ord o)) then rho v else r v.

Lemma nth_error_firstn' {A} (l : list A) : forall k i, (i < k)%nat -> nth_error (firstn k l) i = nth_error l i.
Proof. induction l as [|a l IH]; intros [|k] [|i] L; simpl; auto; try lia. apply IH. lia. Qed.

Section Sem.
Variables (o : order) (D : den) (s : store).
Hypothesis Wo : wfo o.
Hypothesis W : SWF o s.
Hypothesis K : Dok D s.
Let m := mem s.
Notation V := (vedge (nodeR s)).

Lemma early_idx k v : In v (ord o) -> existsb (N.eqb v) (firstn k (ord o)) = (idx o v <? N.of_nat k).
Proof.
  intros Iv. apply In_nth_error in Iv as [j Hj]. destruct (wfo_idx o Wo j v Hj) as [_ Ej]. rewrite Ej.
  destruct (N.ltb_spec (N.of_nat j) (N.of_nat k)) as [L|L].
  - apply existsb_exists. exists v. split; [|apply N.eqb_refl]. apply nth_error_In with j. rewrite nth_error_firstn'; auto. lia.
  - apply not_true_iff_false. intros H. apply existsb_exists in H as (u & Iu & E). apply N.eqb_eq in E. subst u.
    apply In_nth_error in Iu as [i Hi]. assert (Li : (i < k)%nat).
    { assert (i < length (firstn k (ord o)))%nat by (apply nth_error_Some; congruence). rewrite firstn_length in *. lia. }
    rewrite nth_error_firstn' in Hi by auto. destruct (wfo_idx o Wo i v Hi) as [_ Ei]. lia.
Qed.
Lemma mix_idx k rho r v : In v (ord o) -> mix o k rho r v = if idx o v <? N.of_nat k then rho v else r v.
Proof. intros Iv. unfold mix. now rewrite early_idx. Qed.

Lemma lev_agree x r1 r2 : V x -> (forall i, In i (ord o) -> level o x <= idx o i -> r1 i = r2 i) -> dv D x r1 = dv D x r2.
Proof.
  intros Vx H. apply (dv_agree o D s Wo W K x Vx). intros i Ii L. apply H; auto. unfold level.
  destruct (isconst x) eqn:C; auto. exfalso. destruct (wfo_in o i Wo Ii) as [_ Li].
  destruct (const_cases _ x Vx C) as [-> | ->]; cbn [eid one zero] in L; rewrite (wfo_const o Wo) in L; pose proof (wfo_len o Wo); lia.
Qed.

Lemma child_dv p c (rho : N -> bool) : V p -> child s p c -> exists b, (forall r, r (eid p) = b -> dv D p r = dv D c r) /\ (c = thenof m p /\ b = true \/ c = elseof m p /\ b = false).
Proof.
  intros Vp [C [-> | ->]]; [exists true|exists false]; (split; [|auto]); intros r E;
    rewrite (dv_split o D s Wo W K p r Vp C); rewrite E; reflexivity.
Qed.

(** Every edge of a cut is a restriction of the function. *)
Lemma sub_fix F x : V F -> sub m F x -> exists rho, forall r,
  dv D x r = dv D F (fun v => if idx o v <? level o x then rho v else r v).
Proof.
  intros VF S.
  assert (Top : forall y i, V y -> i <= level o y -> forall rho r, dv D y r = dv D y (fun v => if idx o v <? i then rho v else r v)).
  { intros y i Vy L rho r. apply lev_agree; auto. intros j Ij Lj. destruct (N.ltb_spec (idx o j) i); auto. lia. }
  assert (Step : forall p c rho, sub m F p -> child s p c ->
     (forall r, dv D p r = dv D F (fun v => if idx o v <? level o p then rho v else r v)) ->
     exists rho', forall r, dv D c r = dv D F (fun v => if idx o v <? level o c then rho' v else r v)).
  { intros p c rho Sp Ch H. pose proof (sub_V o s Wo W F p VF Sp) as Vp. pose proof (child_V o s Wo W p c Vp Ch) as Vc.
    destruct (child_dv p c rho Vp Ch) as (b & Hb & _).
    pose proof (child_level o s Wo W p c Vp Ch) as L.
    assert (Lp : level o p = idx o (eid p)) by (unfold level; destruct Ch as [-> _]; auto).
    exists (fun v => if idx o v <? idx o (eid p) then rho v else b). intros r.
    set (r' := fun v => if idx o v <? level o c then b else r v).
    transitivity (dv D c r'); [apply Top; [auto|lia]|]. rewrite <- (Hb r').
    - rewrite (H r'). apply lev_agree; [auto|]. intros v _ _. unfold r'. rewrite Lp.
      destruct (N.ltb_spec (idx o v) (idx o (eid p))), (N.ltb_spec (idx o v) (level o c)); auto; lia.
    - unfold r'. destruct (N.ltb_spec (idx o (eid p)) (level o c)); auto. lia. }
  induction S as [|x S [rho IH] C|x S [rho IH] C].
  - exists (fun _ => false). intros r. apply Top; auto. lia.
  - apply (Step x (thenof m x) rho); auto. split; auto.
  - apply (Step x (elseof m x) rho); auto. split; auto.
Qed.
Lemma cut_fix F i x : V F -> sub m F x -> cut o s F i x -> exists rho, forall r, dv D x r = dv D F (mix o (N.to_nat i) rho r).
Proof.
  intros VF S [L P].
  assert (G : exists rho, forall r, dv D x r = dv D F (fun v => if idx o v <? i then rho v else r v)).
  { destruct P as [-> |(p & Sp & Ch & Lp)].
    - exists (fun _ => false). intros r. apply lev_agree; auto. intros j Ij Lj. destruct (N.ltb_spec (idx o j) i); auto. lia.
    - destruct (sub_fix F p VF Sp) as [rho H]. pose proof (sub_V o s Wo W F p VF Sp) as Vp. pose proof (child_V o s Wo W p x Vp Ch) as Vx.
      destruct (child_dv p x rho Vp Ch) as (b & Hb & _).
      assert (El : level o p = idx o (eid p)) by (unfold level; destruct Ch as [-> _]; auto).
      exists (fun v => if idx o v <? idx o (eid p) then rho v else b). intros r.
      set (r' := fun v => if idx o v <? i then b else r v).
      transitivity (dv D x r').
      { apply lev_agree; auto. intros j Ij Lj. unfold r'. destruct (N.ltb_spec (idx o j) i); auto. lia. }
      rewrite <- (Hb r') by (unfold r'; destruct (N.ltb_spec (idx o (eid p)) i); [auto|lia]).
      rewrite H. apply lev_agree; [auto|]. intros v _ _. rewrite El. unfold r'.
      destruct (N.ltb_spec (idx o v) (idx o (eid p))), (N.ltb_spec (idx o v) i); auto; lia. }
  destruct G as [rho G]. exists rho. intros r. rewrite G. apply lev_agree; auto. intros j Ij _. rewrite mix_idx by auto. now rewrite N2Nat.id.
Qed.

(** Every restriction is an edge of the cut. *)
Lemma fix_cut F i rho : V F -> i <= N.of_nat (length (ord o)) ->
  exists x, sub m F x /\ cut o s F i x /\ forall r, dv D x r = dv D F (mix o (N.to_nat i) rho r).
Proof.
  intros VF Hi. set (mx := fun r => mix o (N.to_nat i) rho r).
  assert (G : forall n e, (rank o e < n)%nat -> sub m F e -> (e = F \/ exists p, sub m F p /\ child s p e /\ idx o (eid p) < i) ->
     (forall r, dv D e (mx r) = dv D F (mx r)) -> exists x, sub m F x /\ cut o s F i x /\ forall r, dv D x r = dv D F (mx r)).
  { induction n as [|n IH]; intros e Rk Se Pe He; [lia|]. pose proof (sub_V o s Wo W F e VF Se) as Ve.
    destruct (N.leb_spec i (level o e)) as [L|L].
    - exists e. split; auto. split; [split; auto|]. intros r. rewrite <- He. apply lev_agree; auto.
      intros j Ij Lj. unfold mx. rewrite mix_idx by auto. rewrite N2Nat.id. destruct (N.ltb_spec (idx o j) i); auto. lia.
    - assert (C : isconst e = false) by (destruct (isconst e) eqn:C; auto; unfold level in L; rewrite C in L; lia).
      destruct (node_split o s Wo W e Ve C) as (N0 & I1 & _ & V1 & V2 & _ & _ & R1 & R2). fold m in V1, V2, R1, R2.
      assert (Li : idx o (eid e) < i) by (unfold level in L; now rewrite C in L).
      assert (Mi : forall r, mx r (eid e) = rho (eid e)).
      { intros r. unfold mx. rewrite mix_idx, N2Nat.id by auto. destruct (N.ltb_spec (idx o (eid e)) i); auto. lia. }
      assert (Ex : forall r, dv D (if rho (eid e) then thenof m e else elseof m e) (mx r) = dv D e (mx r)).
      { intros r. rewrite (dv_split o D s Wo W K e (mx r)) by auto. rewrite Mi.
        destruct (rho (eid e)); reflexivity. }
      destruct (rho (eid e)).
      + apply (IH (thenof m e)); [lia|now constructor|right; exists e; split; [auto|split; [split; auto|auto]]|]. intros r. now rewrite Ex.
      + apply (IH (elseof m e)); [lia|now constructor|right; exists e; split; [auto|split; [split; auto|auto]]|]. intros r. now rewrite Ex. }
  apply (G (S (rank o F)) F); [lia|constructor|now left|auto].
Qed.

(** Every edge below [F] belongs to the cut at its own level. *)
Lemma sub_cut F x : V F -> sub m F x -> cut o s F (level o x) x /\ level o x <= N.of_nat (length (ord o)).
Proof.
  intros VF S. pose proof (sub_V o s Wo W F x VF S) as Vx. split.
  - split; [lia|]. destruct S as [|p S C|p S C]; [now left| |];
      (right; exists p; split; [auto|]; assert (Ch : child s p (thenof m p) /\ child s p (elseof m p)) by (split; split; auto);
       split; [apply Ch|]; apply (child_level o s Wo W); [exact (sub_V o s Wo W F p VF S)|apply Ch]).
  - destruct (isconst x) eqn:C; [unfold level; rewrite C; lia|]. pose proof (level_lt o s Wo W x Vx C). lia.
Qed.
End Sem.
