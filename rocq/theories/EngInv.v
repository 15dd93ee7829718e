(** * Invariants of the breadth-first engine: frames, apply-phase state, reference counts. *)
From Coq Require Import Permutation.
From Verif Require Import Base BFModel StoreInv Own.

Definition soft (t : tag) : Prop := match t with OQue _ _ | OInd _ => True | _ => False end.

(** Nodes, and requests of pipeline depth below [k]. *)
Definition lvl (own : N -> tag) (k : nat) : N -> N -> Prop :=
  fun i a => own a = ONode i \/ exists d, (d < k)%nat /\ own a = OQue d i.

Definition sameTE (m m' : memory) (a : N) : Prop := ct (m' a) = ct (m a) /\ ce (m' a) = ce (m a).

(** What a step leaves alone.  [H] are request cells the step may overwrite. *)
Record ext (H : N -> Prop) (own : N -> tag) (D : den) (en : eng)
           (own' : N -> tag) (D' : den) (en' : eng) : Prop := {
  x_own : forall a, ~ freeish (own a) -> (forall r, own a = OInd r -> ~ H a) -> own' a = own a;
  x_D : forall a rho, kept own a -> (forall r, own a <> OInd r) -> D' a rho = D a rho;
  x_mem : forall a, kept own a -> (soft (own a) -> ~ H a) -> sameTE (mem (st en)) (mem (st en')) a;
  x_memX : forall a, own a = OX -> mem (st en') a = mem (st en) a;
  x_one : cr (mem (st en) ONE) = MAXREF -> cr (mem (st en') ONE) = MAXREF;
  x_ut : ut (st en') 0 = ut (st en) 0;
  x_don : forall d i, don en' d i = don en d i;
  x_ind : forall p a d i, own a = OQue d i -> own' p = OInd a -> own p = OInd a
}.

Lemma kept_not own a : ~ freeish (own a) -> kept own a.
Proof. right; auto. Qed.

Lemma nf_node i : ~ freeish (ONode i).
Proof. intros [H|[? H]]; discriminate. Qed.
Lemma nf_que d i : ~ freeish (OQue d i).
Proof. intros [H|[? H]]; discriminate. Qed.
Lemma nf_don d i : ~ freeish (ODon d i).
Proof. intros [H|[? H]]; discriminate. Qed.
Lemma nf_ox : ~ freeish OX.
Proof. intros [H|[? H]]; discriminate. Qed.
Lemma nf_ind a : ~ freeish (OInd a).
Proof. intros [H|[? H]]; discriminate. Qed.
#[export] Hint Resolve nf_node nf_que nf_don nf_ox nf_ind : core.

Lemma lvl_nf own k i a : lvl own k i a -> ~ freeish (own a).
Proof. intros [->|(d & _ & ->)]; auto. Qed.

Lemma lvl_nind own k i a : lvl own k i a -> forall r, own a <> OInd r.
Proof. intros [->|(d & _ & ->)]; discriminate. Qed.

Lemma ext_lvl H own D en own' D' en' k i a :
  ext H own D en own' D' en' -> lvl own k i a -> lvl own' k i a.
Proof.
  intros X L. pose proof (lvl_nf _ _ _ _ L) as NF. pose proof (lvl_nind _ _ _ _ L) as NI.
  unfold lvl in *. rewrite (x_own _ _ _ _ _ _ _ X); auto. intros r Hr. destruct (NI r Hr).
Qed.

Lemma ext_vedge H own D en own' D' en' k e :
  ext H own D en own' D' en' -> vedge (lvl own k) e -> vedge (lvl own' k) e.
Proof. intros X. apply vedge_mono. intros i a _. eapply ext_lvl; eauto. Qed.

Lemma ext_dv H own D en own' D' en' k e rho :
  ext H own D en own' D' en' -> Acc own (kont (st en) (que en) (don en)) (nx (st en)) ->
  vedge (lvl own k) e -> dv D' e rho = dv D e rho.
Proof.
  intros X A V. unfold dv. f_equal. destruct V as [[_ P]|[_ L]].
  - rewrite P. apply (x_D _ _ _ _ _ _ _ X).
    + left. unfold ONE. lia.
    + intros r Hr. assert (own ONE <> ONone) as Hn by congruence.
      apply (acc_rng _ _ _ A) in Hn. unfold ONE in Hn. lia.
  - apply (x_D _ _ _ _ _ _ _ X).
    + right. eapply lvl_nf; eauto.
    + eapply lvl_nind; eauto.
Qed.

Lemma ext_refl own D en : ext (fun _ => False) own D en own D en.
Proof. constructor; auto. intros; split; auto. Qed.

Lemma ext_weaken (H H' : N -> Prop) own D en own' D' en' :
  (forall a, H a -> H' a) -> ext H own D en own' D' en' -> ext H' own D en own' D' en'.
Proof.
  intros I [A1 A2 A3 A4 A5 A6 A7 A8]. constructor; auto.
  - intros a Ha Hi. apply A1; auto. intros r Hr. intros Hh. apply (Hi r Hr). auto.
  - intros a Ha Hs. apply A3; auto. intros Hso Hh. apply (Hs Hso). auto.
Qed.

Lemma ext_trans H1 H2 own D en own1 D1 en1 own2 D2 en2 :
  EAcc own en -> EAcc own1 en1 ->
  ext H1 own D en own1 D1 en1 -> ext H2 own1 D1 en1 own2 D2 en2 ->
  ext (fun a => H1 a \/ H2 a) own D en own2 D2 en2.
Proof.
  intros AC AC1 X Y.
  assert (Low : forall a, a <= 2 -> own a = ONone).
  { intros a La. destruct (own a) eqn:Eo; auto; exfalso;
    assert (own a <> ONone) as Hn by congruence; apply (acc_rng _ _ _ AC) in Hn; lia. }
  assert (Low1 : forall a, a <= 2 -> own1 a = ONone).
  { intros a La. destruct (own1 a) eqn:Eo; auto; exfalso;
    assert (own1 a <> ONone) as Hn by congruence; apply (acc_rng _ _ _ AC1) in Hn; lia. }
  constructor.
  - intros a Ha Hi. pose proof (x_own _ _ _ _ _ _ _ X a Ha) as E1.
    rewrite <- E1 by (intros r Hr Hh; apply (Hi r Hr); auto).
    apply (x_own _ _ _ _ _ _ _ Y).
    + rewrite E1; auto. intros r Hr Hh; apply (Hi r Hr); auto.
    + intros r Hr Hh. rewrite E1 in Hr; [apply (Hi r Hr); auto|].
      intros r' Hr' Hh'. apply (Hi r' Hr'); auto.
  - intros a rho Ha Hi. rewrite <- (x_D _ _ _ _ _ _ _ X); auto.
    destruct Ha as [La|Ha].
    + apply (x_D _ _ _ _ _ _ _ Y); [left; auto|]. rewrite Low1; auto; discriminate.
    + assert (E1 : own1 a = own a) by (apply (x_own _ _ _ _ _ _ _ X); auto; intros r Hr; destruct (Hi r Hr)).
      apply (x_D _ _ _ _ _ _ _ Y); rewrite ?E1; auto. right. now rewrite E1.
  - intros a Ha Hs.
    assert (S1 : sameTE (mem (st en)) (mem (st en1)) a).
    { apply (x_mem _ _ _ _ _ _ _ X); auto. intros Hso Hh. apply (Hs Hso); auto. }
    assert (S2 : sameTE (mem (st en1)) (mem (st en2)) a).
    { destruct Ha as [La|Ha].
      - apply (x_mem _ _ _ _ _ _ _ Y); [left; auto|]. rewrite Low1; simpl; tauto.
      - assert (E1 : own1 a = own a).
        { apply (x_own _ _ _ _ _ _ _ X); auto. intros r Hr Hh. apply Hs; [rewrite Hr; simpl; auto|auto]. }
        apply (x_mem _ _ _ _ _ _ _ Y); [right; now rewrite E1|]. rewrite E1. intros Hso Hh. apply (Hs Hso); auto. }
    unfold sameTE in *. intuition congruence.
  - intros a Ha. rewrite <- (x_memX _ _ _ _ _ _ _ X) by auto. apply (x_memX _ _ _ _ _ _ _ Y).
    rewrite <- Ha. apply (x_own _ _ _ _ _ _ _ X); rewrite Ha; auto. discriminate.
  - intros Ho. apply (x_one _ _ _ _ _ _ _ Y). now apply (x_one _ _ _ _ _ _ _ X).
  - rewrite (x_ut _ _ _ _ _ _ _ Y). apply (x_ut _ _ _ _ _ _ _ X).
  - intros d i. rewrite (x_don _ _ _ _ _ _ _ Y). apply (x_don _ _ _ _ _ _ _ X).
  - intros p a d i Oa Op. eapply (x_ind _ _ _ _ _ _ _ X); eauto. eapply (x_ind _ _ _ _ _ _ _ Y); eauto.
    rewrite <- Oa. apply (x_own _ _ _ _ _ _ _ X); rewrite Oa; auto. discriminate.
Qed.

(** Nodes keep their children and value. *)
Lemma acc_low own K lim a : Acc own K lim -> a <= 2 -> own a = ONone.
Proof.
  intros A La. destruct (own a) eqn:Eo; auto; exfalso;
  assert (own a <> ONone) as Hn by congruence; apply (acc_rng _ _ _ A) in Hn; lia.
Qed.

Lemma acc_node own en i a : EAcc own en -> (In a (ut (st en) i) <-> own a = ONode i).
Proof. intros A. apply (acc_in _ _ _ A (ONode i) a). reflexivity. Qed.
Lemma acc_que own en d i a : EAcc own en -> (In a (que en d i) <-> own a = OQue d i).
Proof. intros A. apply (acc_in _ _ _ A (OQue d i) a). reflexivity. Qed.
Lemma acc_don own en d i a : EAcc own en -> (In a (don en d i) <-> own a = ODon d i).
Proof. intros A. apply (acc_in _ _ _ A (ODon d i) a). reflexivity. Qed.

Lemma acc_one_none own en : EAcc own en -> own ONE = ONone.
Proof. intros A. eapply acc_low; eauto. unfold ONE; lia. Qed.

(** Store facts survive any change that keeps tables and node children. *)
Lemma SWF_frame o s s' :
  (forall i, ut s' i = ut s i) ->
  (forall i a, In a (ut s i) -> sameTE (mem s) (mem s') a) ->
  sameTE (mem s) (mem s') ONE -> (cr (mem s ONE) = MAXREF -> cr (mem s' ONE) = MAXREF) ->
  SWF o s -> SWF o s'.
Proof.
  intros U T T1 R W.
  assert (V : forall e, vedge (nodeR s) e -> vedge (nodeR s') e).
  { intros e. apply vedge_mono. intros i a _. unfold nodeR. now rewrite U. }
  constructor.
  - intros i a N0 I. rewrite U in I. destruct (T _ _ I) as [Et Ee].
    destruct (swf_node o s W i a N0 I) as [B1 B2 B3 B4 B5 B6 B7].
    constructor; rewrite ?Et, ?Ee; auto.
  - intros a I. rewrite U in I. destruct (T _ _ I) as [Et Ee]. rewrite Et, Ee.
    destruct (swf_user o s W a I) as (V1 & V2 & V3). auto.
  - intros i a b I J. rewrite U in I, J. destruct (T _ _ I) as [Et Ee]. destruct (T _ _ J) as [Et' Ee'].
    rewrite Et, Ee, Et', Ee'. apply (swf_uniq o s W i); auto.
  - intros i j a. rewrite !U. apply (swf_disj o s W).
  - intros i a. rewrite U. apply (swf_addr o s W).
  - destruct T1 as [_ ->]. apply (swf_one o s W).
  - apply R, (swf_onerc o s W).
Qed.

Lemma Dok_frame o D D' s s' :
  SWF o s ->
  (forall i, ut s' i = ut s i) ->
  (forall i a, In a (ut s i) -> sameTE (mem s) (mem s') a) ->
  (forall a rho, (a = ONE \/ exists i, In a (ut s i)) -> D' a rho = D a rho) ->
  Dok D s -> Dok D' s'.
Proof.
  intros W U T HD K.
  assert (V : forall e rho, vedge (nodeR s) e -> dv D' e rho = dv D e rho).
  { intros e rho V. unfold dv. f_equal. apply HD. destruct V as [[_ P]|[_ R]]; eauto. }
  constructor.
  - intros rho. rewrite HD by auto. apply (dok_one D s K).
  - intros i a rho N0 I. rewrite U in I. rewrite HD by eauto.
    rewrite (dok_node D s K i a rho N0 I). destruct (T _ _ I) as [-> ->].
    pose proof (swf_node o s W _ _ N0 I) as NO.
    destruct (rho i); symmetry; apply V; apply NO.
Qed.

Lemma ext_SWF o H own D en own' D' en' :
  EAcc own en -> ext H own D en own' D' en' -> (forall i, ut (st en') i = ut (st en) i) ->
  SWF o (st en) -> SWF o (st en').
Proof.
  intros A X U. apply SWF_frame.
  - exact U.
  - intros i a I. apply (acc_node _ _ _ _ A) in I. apply (x_mem _ _ _ _ _ _ _ X).
    + right. rewrite I; auto.
    + rewrite I; simpl; tauto.
  - apply (x_mem _ _ _ _ _ _ _ X); [left; unfold ONE; lia|]. rewrite (acc_one_none _ _ A). simpl; tauto.
  - apply (x_one _ _ _ _ _ _ _ X).
Qed.

Lemma ext_Dok o H own D en own' D' en' :
  EAcc own en -> ext H own D en own' D' en' -> (forall i, ut (st en') i = ut (st en) i) ->
  SWF o (st en) -> Dok D (st en) -> Dok D' (st en').
Proof.
  intros A X U W. apply (Dok_frame o); auto.
  - intros i a I. apply (acc_node _ _ _ _ A) in I. apply (x_mem _ _ _ _ _ _ _ X).
    + right. rewrite I; auto.
    + rewrite I; simpl; tauto.
  - intros a rho [->|[i I]]; apply (x_D _ _ _ _ _ _ _ X).
    + left; unfold ONE; lia.
    + rewrite (acc_one_none _ _ A). discriminate.
    + apply (acc_node _ _ _ _ A) in I. right. rewrite I; auto.
    + apply (acc_node _ _ _ _ A) in I. rewrite I. discriminate.
Qed.

Lemma vedge_lvl0 own en k e : EAcc own en -> vedge (nodeR (st en)) e -> vedge (lvl own k) e.
Proof. intros A. apply vedge_mono. intros i a _ I. left. now apply (acc_node _ _ _ _ A). Qed.

Lemma vedge_lvl_mono own j k e : (j <= k)%nat -> vedge (lvl own j) e -> vedge (lvl own k) e.
Proof. intros L. apply vedge_mono. intros i a _ [H|(d & Hd & H)]; [left|right; exists d]; auto. split; auto. lia. Qed.

(** The kind of an engine: whether a child of an expanded request may be the null edge, in which
    case the request has the value of the other child (address 2 is the node of [bddNull]);
    whether results never lie above the level of their request; which queues the children of a
    request of a given queue may be in; how its value is made from those of its children; at which
    variables the expanded requests hold their children without counting them; and which functions the else
    slot of such a request stands for. *)
Definition bfn : Type := (N -> bool) -> bool.
Definition wext (own : N -> tag) (D : den) (m : memory) (own' : N -> tag) (D' : den) (m' : memory) : Prop :=
  (forall i a, own a = ONode i -> own' a = ONode i /\ sameTE m m' a /\ forall rho, D' a rho = D a rho) /\
  (forall a, own a = OX -> own' a = OX /\ m' a = m a) /\ (forall rho, D' ONE rho = D ONE rho).
Record kind := K { knl : bool; kix : bool; klv : nat -> nat; kcb : nat -> N -> (N -> bool) -> bfn -> bfn -> bool;
  kcb_ext : forall d i rho f f' g g', (forall r, f' r = f r) -> (forall r, g' r = g r) -> kcb d i rho f' g' = kcb d i rho f g;
  kun : nat -> N -> bool;
  kel : (N -> tag) -> den -> memory -> N -> edge -> bfn -> Prop;
  kel_ext : forall own D m own' D' m' i e v, wext own D m own' D' m' -> kel own D m i e v -> kel own' D' m' i e v }.
Definition kite : nat -> N -> (N -> bool) -> bfn -> bfn -> bool := fun _ i rho t e => if rho i then t rho else e rho.
Lemma kite_ext : forall d i rho (f f' g g' : bfn), (forall r, f' r = f r) -> (forall r, g' r = g r) -> kite d i rho f' g' = kite d i rho f g.
Proof. intros d i rho f f' g g' E1 E2. unfold kite. now rewrite E1, E2. Qed.
Definition nowhere : nat -> N -> bool := fun _ _ => false.
Definition noel : (N -> tag) -> den -> memory -> N -> edge -> bfn -> Prop := fun _ _ _ _ _ _ => False.
Lemma noel_ext : forall own D m own' D' m' i e v, wext own D m own' D' m' -> noel own D m i e v -> noel own' D' m' i e v.
Proof. auto. Qed.
Definition kstd : kind := K false true S kite kite_ext nowhere noel noel_ext.
Lemma ext_wext H own D en own' D' en' : EAcc own en -> ext H own D en own' D' en' -> wext own D (mem (st en)) own' D' (mem (st en')).
Proof.
  intros A X. split; [|split].
  - intros i a Oa. assert (N0 : ~ freeish (own a)) by (rewrite Oa; auto). split; [|split].
    + rewrite <- Oa. apply (x_own _ _ _ _ _ _ _ X); auto. rewrite Oa. discriminate.
    + apply (x_mem _ _ _ _ _ _ _ X); [right; auto|]. rewrite Oa; simpl; tauto.
    + intros rho. apply (x_D _ _ _ _ _ _ _ X); [right; auto|]. rewrite Oa. discriminate.
  - intros a Oa. split; [|now apply (x_memX _ _ _ _ _ _ _ X)].
    rewrite <- Oa. apply (x_own _ _ _ _ _ _ _ X); rewrite Oa; auto. discriminate.
  - intros rho. apply (x_D _ _ _ _ _ _ _ X); [left; unfold ONE; lia|].
    assert (N1 : own ONE = ONone). { destruct (own ONE) eqn:Eo; auto; exfalso; assert (own ONE <> ONone) as Hn by congruence;
      apply (acc_rng _ _ _ A) in Hn; unfold ONE in Hn; lia. }
    rewrite N1. discriminate.
Qed.
Definition NUL : N := 2.
Definition isnul (e : edge) : bool := eptr e =? NUL.
Definition comb (k : kind) (D : den) (d : nat) (i : N) (rho : N -> bool) (t e : edge) : bool :=
  if isnul t then dv D e rho else if isnul e then dv D t rho else kcb k d i rho (dv D t) (dv D e).

(** A request that has been expanded: a node in the making. *)
Record AppliedC (o : order) (k : kind) (own : N -> tag) (D : den) (m : memory) (d : nat) (i a : N) : Prop := {
  ap_t : isnul (ct (m a)) = false -> vedge (lvl own (klv k d)) (ct (m a)) /\ gt_idx o i (ct (m a));
  ap_e : isnul (ce (m a)) = false -> vedge (lvl own (klv k d)) (ce (m a)) /\ gt_idx o i (ce (m a));
  ap_n : isnul (ct (m a)) = false \/ (knl k = true /\ isnul (ce (m a)) = false);
  ap_n' : isnul (ce (m a)) = false \/ (knl k = true /\ isnul (ct (m a)) = false);
  ap_D : forall rho, D a rho = comb k D d i rho (ct (m a)) (ce (m a))
}.
(** One with uncounted children. *)
Record AppliedU (o : order) (k : kind) (own : N -> tag) (D : den) (m : memory) (d : nat) (i a : N) : Prop := {
  au_t : vedge (lvl own (klv k d)) (ct (m a));
  au_i : gt_idx o i (ct (m a));
  au_D : exists v, kel k own D m i (ce (m a)) v /\ forall rho, D a rho = kcb k d i rho (dv D (ct (m a))) v
}.
Definition Applied (o : order) (k : kind) (own : N -> tag) (D : den) (m : memory) (d : nat) (i a : N) : Prop :=
  if kun k d i then AppliedU o k own D m d i a else AppliedC o k own D m d i a.

Lemma nul_lvl own en k e : EAcc own en -> vedge (lvl own k) e -> isnul e = false.
Proof.
  intros A V. unfold isnul. apply N.eqb_neq. destruct V as [[_ P]|[_ P]].
  - rewrite P. unfold ONE, NUL. lia.
  - assert (own (eptr e) <> ONone) as H by (destruct P as [->|(d & _ & ->)]; discriminate).
    apply (acc_rng _ _ _ A) in H. unfold NUL. lia.
Qed.

Lemma Applied_two o k own D en d i a : kun k d i = false -> EAcc own en ->
  vedge (lvl own (klv k d)) (ct (mem (st en) a)) -> vedge (lvl own (klv k d)) (ce (mem (st en) a)) ->
  gt_idx o i (ct (mem (st en) a)) -> gt_idx o i (ce (mem (st en) a)) ->
  (forall rho, D a rho = kcb k d i rho (dv D (ct (mem (st en) a))) (dv D (ce (mem (st en) a)))) ->
  Applied o k own D (mem (st en)) d i a.
Proof.
  intros Ku A V1 V2 G1 G2 HD. pose proof (nul_lvl _ _ _ _ A V1) as N1. pose proof (nul_lvl _ _ _ _ A V2) as N2.
  unfold Applied. rewrite Ku. constructor; auto. intros rho. unfold comb. rewrite N1, N2. apply HD.
Qed.

Lemma Applied_std o own D m d i a : Applied o kstd own D m d i a ->
  vedge (lvl own (S d)) (ct (m a)) /\ vedge (lvl own (S d)) (ce (m a)) /\
  gt_idx o i (ct (m a)) /\ gt_idx o i (ce (m a)) /\
  forall rho, D a rho = if rho i then dv D (ct (m a)) rho else dv D (ce (m a)) rho.
Proof.
  intros [B1 B2 B3 B4 B5].
  destruct B3 as [N1|[? _]]; [|discriminate]. destruct B4 as [N2|[? _]]; [|discriminate].
  destruct (B1 N1), (B2 N2). do 4 (split; auto). intros rho. rewrite B5. unfold comb. now rewrite N1, N2.
Qed.

Lemma comb_eq k D D' d i rho t e :
  (isnul t = false -> forall r, dv D' t r = dv D t r) -> (isnul e = false -> forall r, dv D' e r = dv D e r) ->
  (isnul t = false \/ isnul e = false) -> comb k D' d i rho t e = comb k D d i rho t e.
Proof.
  intros H1 H2 H3. unfold comb. destruct (isnul t), (isnul e); auto; [destruct H3; discriminate|]. now apply kcb_ext; auto.
Qed.

Lemma Applied_ext o k H own D en own' D' en' d i a :
  EAcc own en -> ext H own D en own' D' en' -> own a = OQue d i -> ~ H a ->
  Applied o k own D (mem (st en)) d i a -> Applied o k own' D' (mem (st en')) d i a.
Proof.
  intros A X Oa Ha Ap. unfold Applied in *.
  destruct (x_mem _ _ _ _ _ _ _ X a) as [Et Ee]; [right; rewrite Oa; auto|auto|].
  assert (Da : forall rho, D' a rho = D a rho).
  { intros rho. apply (x_D _ _ _ _ _ _ _ X); rewrite ?Oa; try discriminate; right; rewrite Oa; auto. }
  destruct (kun k d i).
  { destruct Ap as [B1 B2 (v & B3 & B4)]. constructor; rewrite ?Et, ?Ee; auto; [eapply ext_vedge; eauto|].
    exists v. split; [eapply kel_ext; [eapply ext_wext; eauto|exact B3]|]. intros rho. rewrite Da, B4. symmetry. apply kcb_ext; auto.
    intros r. exact (ext_dv _ _ _ _ _ _ _ _ _ _ X A B1). }
  destruct Ap as [B1 B2 B3 B4 B5].
  constructor; rewrite ?Et, ?Ee; auto.
  - intros Nt. destruct (B1 Nt). split; auto. eapply ext_vedge; eauto.
  - intros Nt. destruct (B2 Nt). split; auto. eapply ext_vedge; eauto.
  - intros rho. rewrite Da, B5. symmetry. apply comb_eq.
    + intros Nt r. destruct (B1 Nt) as [V _]. exact (ext_dv _ _ _ _ _ _ _ _ _ _ X A V).
    + intros Nt r. destruct (B2 Nt) as [V _]. exact (ext_dv _ _ _ _ _ _ _ _ _ _ X A V).
    + tauto.
Qed.

(** ** Apply-phase invariant, for any notion of pending request *)
Section Apply.
Variable o : order.
Variable k : kind.
Variable Pend : (N -> tag) -> den -> eng -> nat -> N -> N -> Prop.

Record AInv (h : N) (own : N -> tag) (D : den) (S : list N) (en : eng) : Prop := {
  ai_acc : EAcc own en;
  ai_swf : SWF o (st en);
  ai_dok : Dok D (st en);
  ai_don : forall d i, don en d i = [];
  ai_que : forall d i a, own a = OQue d i -> In i (ord o) /\
     (a <> h -> (In a S /\ Applied o k own D (mem (st en)) d i a) \/
                (~ In a S /\ Pend own D en d i a));
  ai_S : forall a, In a S -> exists d i, own a = OQue d i;
  ai_ind : forall p a, own p = OInd a -> ~ In a S /\ exists d i, own a = OQue d i
}.
End Apply.

(** ** Reference counts *)

Definition counted (own : N -> tag) (b : N) : Prop :=
  (exists i, own b = ONode i) \/ exists d i, own b = OQue d i.
Definition tgt (own : N -> tag) (b : N) : Prop :=
  b <= NUL \/ counted own b \/ exists d i, own b = ODon d i.

Definition b2n (b : bool) : N := if b then 1 else 0.

(** Edges from the owners [L] to [b], forwarded targets being looked up in [rs]. *)
Definition wt (rs : N -> N) (m : memory) (b a : N) : N :=
  b2n (rs (eptr (ct (m a))) =? b) + b2n (rs (eptr (ce (m a))) =? b).
Fixpoint occ (rs : N -> N) (m : memory) (L : list N) (b : N) : N :=
  match L with [] => 0 | a :: L => wt rs m b a + occ rs m L b end.

(** The requests at the variables [q] do not count. *)
Record RCq (q : nat -> N -> bool) (own : N -> tag) (S : list N) (rs : N -> N) (m : memory) (L : list N) (x : N -> N) : Prop := {
  rc_nd : NoDup L;
  rc_L : forall a, In a L <-> (exists i, own a = ONode i) \/ (exists d i, own a = OQue d i /\ In a S /\ q d i = false);
  rc_tgt : forall a, In a L -> tgt own (eptr (ct (m a))) /\ tgt own (eptr (ce (m a)));
  rc_cnt : forall b, counted own b -> cr (m b) = MAXREF \/ cr (m b) = occ rs m L b + x b;
  rc_max : forall b, counted own b -> cr (m b) <= MAXREF;
  rc_x : forall b, 2 < b -> freeish (own b) -> x b = 0
}.

Arguments rc_nd {q}. Arguments rc_L {q}. Arguments rc_tgt {q}. Arguments rc_cnt {q}. Arguments rc_max {q}. Arguments rc_x {q}.
Notation RC := (RCq nowhere).

(** Without expanded requests the variables do not matter. *)
Lemma RC_rest q q' own rs m L x : RCq q own [] rs m L x -> RCq q' own [] rs m L x.
Proof.
  intros [B1 B2 B3 B4 B5 B6]. constructor; auto. intros a. rewrite B2. simpl.
  split; (intros [H|(d & i & _ & [] & _)]; now left).
Qed.

Lemma occ_perm rs m L L' b : Permutation L L' -> occ rs m L b = occ rs m L' b.
Proof. induction 1; simpl; lia. Qed.

Lemma occ_frame rs m m' L b : (forall a, In a L -> sameTE m m' a) -> occ rs m' L b = occ rs m L b.
Proof.
  induction L as [|a L IH]; simpl; intros H; auto.
  rewrite IH by auto. unfold wt. destruct (H a (or_introl eq_refl)) as [-> ->]. auto.
Qed.

Lemma occ_zero rs m L b :
  (forall a, In a L -> rs (eptr (ct (m a))) <> b /\ rs (eptr (ce (m a))) <> b) -> occ rs m L b = 0.
Proof.
  induction L as [|a L IH]; simpl; intros H; auto.
  rewrite IH by auto. unfold wt. destruct (H a (or_introl eq_refl)) as [H1 H2].
  destruct (N.eqb_spec (rs (eptr (ct (m a)))) b), (N.eqb_spec (rs (eptr (ce (m a)))) b); try congruence.
  reflexivity.
Qed.
