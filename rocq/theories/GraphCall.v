(** * Graph algorithms as interface calls on the manager invariant. *)
From Coq Require Import Permutation Sorted QArith.
From Verif Require Import SpecRound Base BFModel ITEModel MgrModel ApiModel StoreInv Own EngInv ApplyProof BinopProof ReduceProof
  EngineProof OpProof MultiProof QProof GCProof VarProof MInv ApiProof ApiOps ApiStruct ApiVar GraphModel GraphProof GraphCube
  GraphFrac GraphMarks GraphSupp GraphFProf GraphSem.
Open Scope N_scope.

Definition kept (m : mgr) (hs : list ubdd) (lk : N -> N) (D : den) (m' : mgr) (D' : den) : Prop :=
  MInv m' hs lk D' /\ mext hs m D m' D'.

Section Call.
Context {A : Type}.
Variables (d : dec) (m : mgr) (hs : list ubdd) (lk : N -> N) (D : den) (f : ubdd) (dflt : A) (k : mgr -> edge -> outcome A).
Hypothesis I : MInv m hs lk D.

Lemma query_live : In f hs -> exists m1 D1, kept m hs lk D m1 D1 /\
  query d m f dflt k = obind (k m1 (uint (mmem m1) f)) (fun r => Ok (r, m1)).
Proof.
  intros If. destruct (pre1 d m hs lk D f I If) as (m1 & D1 & P & I1 & X1). exists m1, D1. split; [split; auto|].
  unfold query. rewrite P. reflexivity.
Qed.
Lemma query_null : uisnull f = true -> query d m f dflt k = Ok (dflt, m).
Proof.
  intros Hn. unfold query. rewrite (preproc_null d m hs lk D [f] I); [reflexivity|intros j [<-|[]]; now left|exists f; simpl; auto].
Qed.
Lemma query_inv r m' : uisnull f = true \/ In f hs -> query d m f dflt k = Ok (r, m') -> exists D', kept m hs lk D m' D'.
Proof.
  intros [Hn|Hi] H.
  - rewrite (query_null Hn) in H. injection H as <- <-. exists D. split; [auto|apply mext_refl].
  - destruct (query_live Hi) as (m1 & D1 & K1 & E). rewrite E in H. destruct (k m1 (uint (mmem m1) f)); try discriminate.
    injection H as <- <-. exists D1. auto.
Qed.
End Call.

(** The facts about a pre-processed operand that all algorithms use. *)
Lemma kept_facts m hs lk D m' D' f : kept m hs lk D m' D' -> In f hs ->
  wfo (mo m') /\ SWF (mo m') (st (me m')) /\ Dok D' (st (me m')) /\ vedge (nodeR (st (me m'))) (uint (mmem m') f) /\
  forall rho, dv D' (uint (mmem m') f) rho = hv m D f rho.
Proof.
  intros [I' X] If. split; [apply I'|]. split; [eapply MI_swf; eauto|]. split; [eapply MI_dok; eauto|].
  split; [eapply MI_int; eauto|]. intros rho. now apply (mx_h _ _ _ _ _ X).
Qed.

Section Live.
Variables (d : dec) (m : mgr) (hs : list ubdd) (lk : N -> N) (D : den) (f : ubdd).
Hypothesis I : MInv m hs lk D.
Hypothesis If : In f hs.

Lemma type_spec : exists t m' D', cal_type d m f = Ok (t, m') /\ kept m hs lk D m' D' /\
  In t [TYPE_NONTERMINAL; TYPE_ZERO; TYPE_ONE; TYPE_POSVAR; TYPE_NEGVAR] /\
  (t = TYPE_ZERO <-> forall rho, hv m D f rho = false) /\ (t = TYPE_ONE <-> forall rho, hv m D f rho = true) /\
  (t = TYPE_POSVAR <-> exists i, forall rho, hv m D f rho = rho i) /\
  (t = TYPE_NEGVAR <-> exists i, forall rho, hv m D f rho = negb (rho i)).
Proof.
  destruct (query_live d m hs lk D f TYPE_OVERFLOW (fun m1 F => Ok (type_aux (mmem m1) F)) I If) as (m1 & D1 & K1 & E).
  destruct (kept_facts m hs lk D m1 D1 f K1 If) as (Wo & W & K & V & H).
  exists (type_aux (mmem m1) (uint (mmem m1) f)), m1, D1. split; [exact E|]. split; auto. split; [apply type_range|].
  rewrite (type_zero (mo m1) D1 (st (me m1)) Wo W K _ V), (type_one (mo m1) D1 (st (me m1)) Wo W K _ V).
  pose proof (type_lit (mo m1) D1 (st (me m1)) Wo W K _ true V) as L1. pose proof (type_lit (mo m1) D1 (st (me m1)) Wo W K _ false V) as L2.
  cbv iota in L1, L2. split; [split; intros Z rho; specialize (Z rho); congruence|]. split; [split; intros Z rho; specialize (Z rho); congruence|].
  split; [transitivity (exists i, forall rho, dv D1 (uint (mmem m1) f) rho = Bool.eqb (rho i) true); [exact L1|]
         |transitivity (exists i, forall rho, dv D1 (uint (mmem m1) f) rho = Bool.eqb (rho i) false); [exact L2|]];
  split; intros [i Z]; exists i; intros rho; specialize (Z rho).
  - rewrite H in Z. rewrite Z. now destruct (rho i).
  - rewrite H, Z. now destruct (rho i).
  - rewrite H in Z. rewrite Z. now destruct (rho i).
  - rewrite H, Z. now destruct (rho i).
Qed.

Lemma iscube_call : (forall rho, hv m D f rho = false) /\ cal_iscube m f = Fatal \/
  exists b, cal_iscube m f = Ok b /\ (b = true <-> exists L : lits, forall rho, hv m D f rho = cube L rho).
Proof.
  assert (Wo : wfo (mo m)) by apply I. pose proof (MI_swf _ _ _ _ I) as W. pose proof (MI_dok _ _ _ _ I) as K.
  pose proof (MI_int _ _ _ _ _ I If) as V. unfold cal_iscube. rewrite (uok_notnull m hs lk D f I If).
  destruct (edge_eq_dec (uint (mmem m) f) zero) as [Z|Z].
  - left. split; [intros rho; rewrite Z; eapply dv_zero; eauto|]. rewrite Z. reflexivity.
  - right. destruct (iscube_spec (mo m) D (st (me m)) Wo W K (depth (mo m)) (uint (mmem m) f) V) as (b & E & Hb); auto.
    + eapply rank_depth; eauto.
    + exists b. rewrite E. auto.
Qed.

Lemma fraction_call rnd vs : rounding rnd -> NoDup vs -> exists q m' D', cal_fraction rnd d m f = Ok (q, m') /\ kept m hs lk D m' D' /\
  ((forall i, In i (ord (mo m')) -> In i vs) -> forall rho,
    ((length (ord (mo m')) <= 53)%nat -> (q == dens vs (hv m D f) rho)%Q) /\
    (Qabs.Qabs (q - dens vs (hv m D f) rho) <= inject_Z (3 * Z.of_nat (length (ord (mo m')))) / p2 54)%Q).
Proof.
  intros Rd ND. destruct (query_live d m hs lk D f 0%Q (fun m1 F =>
    obind (fueled (fraction_step rnd (depth (mo m1)) (mmem m1) [] F)) (fun '(q, _) => Ok q)) I If) as (m1 & D1 & K1 & E).
  destruct (kept_facts m hs lk D m1 D1 f K1 If) as (Wo & W & K & V & H).
  assert (G : exists q h, fraction_step rnd (depth (mo m1)) (mmem m1) [] (uint (mmem m1) f) = Some (q, h)).
  { destruct (fraction_error (mo m1) D1 (st (me m1)) rnd (ord (mo m1)) (fun _ => false) Wo W K Rd (wfo_nodup _ Wo) (fun i Ii => Ii) _ V) as (q & h & Eq & _). eauto. }
  destruct G as (q & h & Eq). exists q, m1, D1. split; [|split; auto].
  { unfold cal_fraction. rewrite E, Eq. reflexivity. }
  intros Vs rho.
  assert (Ed : (dens vs (dv D1 (uint (mmem m1) f)) rho == dens vs (hv m D f) rho)%Q).
  { apply dens_ext; auto. intros r1 r2 Er. rewrite <- !H. apply (dv_bext (mo m1) D1 (st (me m1))); auto. }
  split.
  - intros L. destruct (fraction_exact (mo m1) D1 (st (me m1)) rnd vs rho Wo W K Rd ND Vs _ V L) as (q' & h' & E' & Hq).
    rewrite E' in Eq. injection Eq as <- <-. rewrite <- Ed. exact Hq.
  - destruct (fraction_error (mo m1) D1 (st (me m1)) rnd vs rho Wo W K Rd ND Vs _ V) as (q' & h' & E' & Hq).
    rewrite E' in Eq. injection Eq as <- <-. rewrite <- Ed. exact Hq.
Qed.

Lemma dep_depends m' D' i : kept m hs lk D m' D' -> In i (ord (mo m')) ->
  ((exists rho, hv m D f (flip rho i true) <> hv m D f (flip rho i false)) <->
   exists x, sub (mmem m') (uint (mmem m') f) x /\ isconst x = false /\ eid x = i).
Proof.
  intros K1 Ii. destruct (kept_facts m hs lk D m' D' f K1 If) as (Wo & W & K & V & H).
  rewrite <- (dep_iff (mo m') D' (st (me m')) Wo W K _ i V Ii). unfold dep. split; intros [rho N]; exists rho; rewrite ?H in *; auto.
Qed.

Lemma vb_ok m' D' : MInv m' hs lk D' -> forall i, In i (ord (mo m')) ->
 vedge (nodeR (st (me m'))) (mvb m' i) /\ isconst (mvb m' i) = false /\ eid (mvb m' i) = i /\
 isconst (thenof (mem (st (me m'))) (mvb m' i)) = true /\ isconst (elseof (mem (st (me m'))) (mvb m' i)) = true.
Proof.
  intros I' i Ii. destruct (var_dv m' hs lk D' i (fun _ => false) I' Ii) as [V _]. split; auto.
  destruct (mi_var _ _ _ _ I' i Ii) as (E & _ & T & L). fold (mmem m'). unfold thenof, elseof.
  assert (E2 : eid (mvb m' i) = i) by now rewrite E. assert (E3 : eneg (mvb m' i) = false) by now rewrite E.
  destruct (wfo_in _ i (mi_wfo _ _ _ _ I') Ii) as [N0 _].
  split; [unfold isconst; rewrite E2; now apply N.eqb_neq|]. split; auto. rewrite T, L, E3. split; reflexivity.
Qed.

Lemma support_spec : exists ids rs mk m' D', cal_support d m f = Ok ((rs, mk), m') /\ mext hs m D m' D' /\ MInv m' (rs ++ hs) lk D' /\
  (forall p, mk p = false) /\ NoDup ids /\
  (forall i, In i ids <-> exists rho, hv m D f (flip rho i true) <> hv m D f (flip rho i false)) /\
  Forall2 (fun h i => forall rho, hv m' D' h rho = rho i) rs ids.
Proof.
  destruct (pre1 d m hs lk D f I If) as (m1 & D1 & P & I1 & X1). pose proof (conj I1 X1 : kept m hs lk D m1 D1) as K1.
  destruct (kept_facts m hs lk D m1 D1 f K1 If) as (Wo & W & K & V & H).
  destruct (support_result (mo m1) (st (me m1)) Wo W (mvb m1) (vb_ok m1 D1 I1) _ V) as (ids & mk & mk' & E1 & E2 & ND & Hi & Hm).
  destruct (rets m1 (map (mvb m1) ids)) as [rs m2] eqn:R.
  assert (Io : forall i, In i ids -> In i (ord (mo m1))).
  { intros i Ii. apply Hi in Ii as (x & S & C & <-). apply (node_split (mo m1) (st (me m1)) Wo W x); auto. exact (sub_V _ _ Wo W _ x V S). }
  destruct (rets_spec lk (map (fun i (rho : N -> bool) => rho i) ids) (map (mvb m1) ids) m1 hs D1 rs m2 I1) as (D2 & X2 & I2 & _ & F2); auto.
  { clear - Io I1. induction ids as [|i ids IH]; simpl; constructor.
    - destruct (var_dv m1 hs lk D1 i (fun _ => false) I1) as [V _]; [apply Io; now left|]. split; auto. intros rho.
      now destruct (var_dv m1 hs lk D1 i rho I1 (Io i (or_introl eq_refl))).
    - apply IH. intros j Ij. apply Io. now right. }
  exists ids, rs, mk', m2, D2. split.
  { unfold cal_support. rewrite P. cbn [obind negb]. rewrite E1. cbn [fueled obind].
    rewrite E2. cbn [fueled obind]. rewrite R. reflexivity. }
  split; [eapply mext_trans; eauto|]. split; auto. split; auto. split; auto. split.
  - intros i. rewrite Hi. destruct (in_dec N.eq_dec i (ord (mo m1))) as [Ii|Ni].
    + symmetry. apply (dep_depends m1 D1 i K1 Ii).
    + split.
      * intros (x & S & C & <-). elim Ni. apply (node_split (mo m1) (st (me m1)) Wo W x); auto. exact (sub_V _ _ Wo W _ x V S).
      * intros [rho Nq]. elim Nq. rewrite <- !H. apply (dv_agree (mo m1) D1 (st (me m1))); auto. intros j Ij _. unfold flip.
        destruct (N.eqb_spec j i); auto. congruence.
  - clear - F2. remember (map (fun i (rho : N -> bool) => rho i) ids) as fs eqn:Ef. revert ids Ef.
    induction F2; intros [|i ids] Ef; try discriminate; constructor; injection Ef as -> ->; auto.
Qed.

Lemma depends_call v i : In v hs -> (exists b, forall rho, hv m D v rho = xorb b (rho i)) ->
  exists b mk m' D', cal_depends_on d m f v = Ok ((b, mk), m') /\ kept m hs lk D m' D' /\ (forall p, mk p = false) /\
  (b = true <-> exists rho, hv m D f (flip rho i true) <> hv m D f (flip rho i false)).
Proof.
  intros Iv [c Hc]. destruct (preproc_live d m hs lk D [f; v] I) as (m1 & D1 & P & I1 & X1); [intros h [<-|[<-|[]]]; auto|].
  pose proof (conj I1 X1 : kept m hs lk D m1 D1) as K1.
  destruct (kept_facts m hs lk D m1 D1 f K1 If) as (Wo & W & K & V & H).
  destruct (kept_facts m hs lk D m1 D1 v K1 Iv) as (_ & _ & _ & Vv & Hv).
  assert (Dv : dep D1 (uint (mmem m1) v) i).
  { exists (fun _ => false). rewrite !Hv, !Hc, !flip_same. now destruct c. }
  assert (Io : In i (ord (mo m1))).
  { destruct (in_dec N.eq_dec i (ord (mo m1))) as [Ii|Ni]; auto. destruct Dv as [rho Nq]. elim Nq.
    apply (dv_agree (mo m1) D1 (st (me m1))); auto. intros j Ij _. unfold flip. destruct (N.eqb_spec j i); auto. congruence. }
  assert (Ev : isconst (uint (mmem m1) v) = false /\ eid (uint (mmem m1) v) = i).
  { destruct (isconst (uint (mmem m1) v)) eqn:C.
    { destruct Dv as [rho Nq]. elim Nq. destruct (const_cases _ _ Vv C) as [-> | ->]; [rewrite !(dv_one D1 (st (me m1)) _ K)|rewrite !(dv_zero D1 (st (me m1)) _ K)]; reflexivity. }
    split; auto. set (e := uint (mmem m1) v) in *.
    assert (De : dep D1 e (eid e)). { apply (dep_iff (mo m1) D1 (st (me m1)) Wo W K); auto. - apply (node_split (mo m1) (st (me m1)) Wo W e); auto. - exists e. split; [constructor|auto]. }
    destruct De as [rho Nq]. rewrite !Hv, !Hc in Nq. unfold flip in Nq. destruct (N.eqb_spec i (eid e)); auto. now elim Nq. }
  destruct Ev as [Cv Ev].
  assert (Li : idx (mo m1) i < CONST_INDEX) by (apply wfo_lt_const; auto).
  destruct (depends_result (mo m1) (st (me m1)) Wo W (idx (mo m1) i) Li _ V) as (b & mk & n & E1 & E2 & Hm & Hb).
  exists b, n, m1, D1. split.
  { unfold cal_depends_on. rewrite P. cbn [obind negb]. rewrite Cv, Ev. cbv zeta. rewrite E1. cbn [fueled obind]. rewrite E2. reflexivity. }
  split; auto. split; auto. rewrite Hb, (dep_depends m1 D1 i K1 Io). split; intros (x & S & Hx); exists x; (split; [exact S|]).
  - pose proof (sub_V _ _ Wo W _ x V S) as Vx. destruct (isconst x) eqn:C.
    + exfalso. destruct (const_cases _ _ Vx C) as [-> | ->]; cbn [eid one zero] in Hx; rewrite (wfo_const _ Wo) in Hx; lia.
    + split; auto. apply (wfo_inj (mo m1)); auto. apply (node_split (mo m1) (st (me m1)) Wo W x); auto.
  - now destruct Hx as [_ ->].
Qed.
Lemma depends_const v b : In v hs -> (forall rho, hv m D v rho = b) ->
  exists m' D', cal_depends_on d m f v = Ok ((true, nomark), m') /\ kept m hs lk D m' D'.
Proof.
  intros Iv Hc. destruct (preproc_live d m hs lk D [f; v] I) as (m1 & D1 & P & I1 & X1); [intros h [<-|[<-|[]]]; auto|].
  pose proof (conj I1 X1 : kept m hs lk D m1 D1) as K1.
  destruct (kept_facts m hs lk D m1 D1 v K1 Iv) as (Wo & W & K & Vv & Hv).
  assert (C : isconst (uint (mmem m1) v) = true).
  { destruct b; [rewrite (is_one_fun (mo m1) D1 (st (me m1)) Wo W K (uint (mmem m1) v))|rewrite (is_zero_fun (mo m1) D1 (st (me m1)) Wo W K (uint (mmem m1) v))]; auto;
      intros rho; now rewrite Hv. }
  exists m1, D1. split; auto. unfold cal_depends_on. rewrite P. cbn [obind negb]. rewrite C. reflexivity.
Qed.
End Live.

(** ** Every outcome keeps the invariant *)
Lemma zero_dec m hs lk D f : MInv m hs lk D -> In f hs -> {forall rho, hv m D f rho = false} + {~ forall rho, hv m D f rho = false}.
Proof.
  intros I If. destruct (edge_eq_dec (uint (mmem m) f) zero) as [Z|Z].
  - left. intros rho. rewrite Z. eapply dv_zero, MI_dok; eauto.
  - right. intros H. apply Z. apply (is_zero_fun (mo m) D (st (me m))); [apply I|eapply MI_swf; eauto|eapply MI_dok; eauto|eapply MI_int; eauto|auto].
Qed.
Lemma multi_inv {A} ds m hs lk D l (k : mgr -> option A) r m' : MInv m hs lk D -> (forall h, In h l -> In h hs) ->
  obind (preproc_each ds m (upto_null l)) (fun m1 => obind (fueled (k m1)) (fun r => Ok (r, m1))) = Ok (r, m') ->
  exists D', kept m hs lk D m' D'.
Proof.
  intros I Al H. rewrite (upto_null_live m hs lk D l I Al) in H. destruct (preproc_each_spec hs lk l D ds m I Al) as (m1 & D1 & P & I1 & X1).
  rewrite P in H. cbn [obind] in H. destruct (k m1); [|discriminate]. injection H as _ <-. exists D1. split; auto.
Qed.
Lemma function_profile_inv d1 d2 m hs lk D f p m' : MInv m hs lk D -> uisnull f = true \/ In f hs ->
  cal_function_profile d1 d2 m f = Ok (p, m') -> exists D', kept m hs lk D m' D'.
Proof.
  intros I A. unfold cal_function_profile. destruct (cal_profile d1 m f false) as [[[lc mk] m1]| |] eqn:P; try discriminate.
  unfold cal_profile in P. destruct (query_inv d1 m hs lk D f _ _ I _ _ A P) as (D1 & I1 & X1). cbn [obind]. intros H.
  destruct (query_inv d2 m1 hs lk D1 f _ _ I1 _ _ A H) as (D2 & I2 & X2). exists D2. split; auto. eapply mext_trans; eauto.
Qed.
Lemma depends_inv d m hs lk D f v r m' : MInv m hs lk D -> uisnull f = true \/ In f hs -> uisnull v = true \/ In v hs ->
  cal_depends_on d m f v = Ok (r, m') -> exists D', kept m hs lk D m' D'.
Proof.
  intros I A1 A2 H. unfold cal_depends_on in H.
  assert (G : (In f hs /\ In v hs) \/ exists h, In h [f; v] /\ uisnull h = true) by (destruct A1, A2; [right; exists f|right; exists f|right; exists v|left]; simpl; auto).
  destruct G as [[Hf Hv]|N].
  - destruct (preproc_live d m hs lk D [f; v] I) as (m1 & D1 & P & I1 & X1); [intros h [<-|[<-|[]]]; auto|]. rewrite P in H. cbn [obind negb] in H.
    assert (E : m' = m1); [|subst; exists D1; split; auto].
    destruct (isconst _); [now injection H as _ <-|].
    destruct (depends_step _ _ true _ _ _ _) as [[b1 mk1]|]; [|discriminate]. cbn [fueled obind] in H.
    destruct (depends_step _ _ false _ _ _ _) as [[b2 mk2]|]; [|discriminate]. now injection H as _ <-.
  - rewrite (preproc_null d m hs lk D [f; v] I) in H; [|intros j [<-|[<-|[]]]; auto|auto]. injection H as _ <-. exists D. split; auto. apply mext_refl.
Qed.
