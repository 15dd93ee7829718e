(** * The properties of the graph algorithms in terms of reachable worlds. *)
From Coq Require Import Permutation Sorted QArith Qabs Lqa.
From Verif Require Import SpecRound Base BFModel ITEModel MgrModel ApiModel StoreInv Own EngInv ApplyProof BinopProof ReduceProof
  EngineProof OpProof MultiProof QProof GCProof VarProof MInv ApiProof ApiOps ApiStruct ApiVar GraphModel GraphProof GraphCube
  GraphFrac GraphMarks GraphSupp GraphFProf GraphSem GraphCall SpecApi SpecGraph WorldProof ApiLemmas.
Open Scope N_scope.

(** ** Counting functions *)
Definition equiv_rel (eqv : bfun -> bfun -> Prop) : Prop :=
  (forall F G, eqv F G -> eqv G F) /\ (forall F G H, eqv F G -> eqv G H -> eqv F H).
Lemma same_equiv : equiv_rel same.
Proof. split; unfold same; intros; congruence. Qed.
Lemma opp_equiv : equiv_rel same_or_opposite.
Proof.
  split; unfold same_or_opposite, same, opposite.
  - intros F G [H|H]; [left|right]; intros rho; rewrite H; auto. now rewrite negb_involutive.
  - intros F G K [H1|H1] [H2|H2]; [left|right|right|left]; intros rho; rewrite H1, H2; auto. apply negb_involutive.
Qed.
Lemma up_to_equiv neg : equiv_rel (up_to neg).
Proof. destruct neg; [apply opp_equiv|apply same_equiv]. Qed.

Lemma fop_le eqv : equiv_rel eqv -> forall L1 L2, ForallOrdPairs (fun G H => ~ eqv G H) L1 ->
  (forall G, In G L1 -> exists H, In H L2 /\ eqv G H) -> (length L1 <= length L2)%nat.
Proof.
  intros [Sy Tr]. induction L1 as [|G L1 IH]; intros L2 P C; simpl; [lia|]. inversion P as [|? ? Fa P']; subst.
  destruct (C G) as (H & IH2 & E); [now left|]. apply in_split in IH2 as (a & b & ->).
  rewrite app_length. simpl. specialize (IH (a ++ b) P'). rewrite app_length in IH. enough (length L1 <= length a + length b)%nat by lia. apply IH.
  intros G' IG. destruct (C G') as (H' & IH' & E'); [now right|]. exists H'. split; auto.
  apply in_app_or in IH'. apply in_or_app. destruct IH' as [Ia|[<-|Ib]]; auto. exfalso.
  rewrite Forall_forall in Fa. apply (Fa G' IG). eauto.
Qed.
Lemma number_unique eqv P n1 n2 : equiv_rel eqv -> number eqv P n1 -> number eqv P n2 -> n1 = n2.
Proof.
  intros Q (L1 & <- & A1 & B1 & C1) (L2 & <- & A2 & B2 & C2).
  pose proof (fop_le eqv Q L1 L2 C1 (fun G IG => B2 G (A1 G IG))). pose proof (fop_le eqv Q L2 L1 C2 (fun G IG => B1 G (A2 G IG))). lia.
Qed.
Lemma number_iff eqv (P P' : bfun -> Prop) n : (forall G, P G <-> P' G) -> number eqv P n -> number eqv P' n.
Proof.
  intros E (L & En & A & B & C). exists L. split; auto. split; [|split; auto]; intros G HG; [apply E|apply E in HG]; auto.
Qed.

Lemma depends_same F G i : same F G -> depends F i -> depends G i.
Proof. intros S [rho N0]. exists rho. now rewrite <- !S. Qed.
Lemma depends_opp F G i : opposite F G -> depends F i -> depends G i.
Proof. intros S [rho N0]. exists rho. rewrite !S in N0. congruence. Qed.
Lemma same_sym F G : same F G -> same G F.
Proof. intros H rho. auto. Qed.
Lemma opp_sym F G : opposite F G -> opposite G F.
Proof. intros H rho. now rewrite H, negb_involutive. Qed.
Lemma top_at_up_to neg ord F G k : up_to neg F G -> top_at ord F k -> top_at ord G k.
Proof.
  intros U [H1 H2]. assert (D1 : forall i, depends F i -> depends G i).
  { intros i. destruct neg; simpl in U; [destruct U as [U|U]|]; [now apply depends_same|now apply depends_opp|now apply depends_same]. }
  assert (D2 : forall i, depends G i -> depends F i).
  { intros i. destruct neg; simpl in U; [destruct U as [U|U]|]; [now apply depends_same, same_sym|now apply depends_opp, opp_sym|now apply depends_same, same_sym]. }
  split.
  - intros j i E L Dg. apply (H1 j i E L); auto.
  - destruct (nth_error ord (N.to_nat k)); auto.
Qed.
Lemma top_le ord F k : top_at ord F k -> (N.to_nat k <= length ord)%nat.
Proof.
  intros [_ H]. destruct (nth_error ord (N.to_nat k)) eqn:E; [|lia].
  assert (N.to_nat k < length ord)%nat by (apply nth_error_Some; congruence). lia.
Qed.
Lemma top_unique ord F k k' : top_at ord F k -> top_at ord F k' -> k = k'.
Proof.
  assert (G : forall k k', top_at ord F k -> top_at ord F k' -> ~ k < k').
  { intros a b Ha Hb L. pose proof (top_le _ _ _ Hb). destruct Ha as [_ Ha]. destruct Hb as [Hb _].
    destruct (nth_error ord (N.to_nat a)) as [i|] eqn:E; [apply (Hb (N.to_nat a) i E); [lia|auto]|]. apply nth_error_None in E. lia. }
  intros Ha Hb. pose proof (G k k' Ha Hb). pose proof (G k' k Hb Ha). lia.
Qed.

Section Edges.
Variables (o : order) (D : den) (s : store).
Hypothesis Wo : wfo o.
Hypothesis W : SWF o s.
Hypothesis K : Dok D s.
Notation V := (vedge (nodeR s)).
Variables (es : list edge) (Fs : list bfun).
Hypothesis EF : Forall2 (fun e F => V e /\ forall rho, dv D e rho = F rho) es Fs.

Lemma es_V e : In e es -> V e.
Proof. clear - EF. induction EF as [|e' F l l' [Ve H] R IH]; [intros []|]. intros [->|Ie]; auto. Qed.
Lemma es_F e : In e es -> exists F, In F Fs /\ forall rho, dv D e rho = F rho.
Proof. clear - EF. induction EF as [|e' F l l' [Ve H] R IH]; [intros []|]. intros [->|Ie]; simpl; eauto. destruct (IH R Ie) as (G & IG & HG); eauto. Qed.
Lemma Fs_e F : In F Fs -> exists e, In e es /\ V e /\ forall rho, dv D e rho = F rho.
Proof. clear - EF. induction EF as [|e' F' l l' [Ve H] R IH]; [intros []|]. intros [->|Ie]; simpl; eauto. destruct (IH R Ie) as (G & IG & HG); eauto. Qed.

Lemma below_V' x : below s es x -> V x.
Proof. intros (f & If & S). exact (sub_V o s Wo W f x (es_V f If) S). Qed.
Lemma below_sub x : below s es x -> subfunction (ord o) Fs (dv D x).
Proof.
  intros (f & If & S). destruct (es_F f If) as (F & IF & H). destruct (sub_cut o s Wo W f x (es_V f If) S) as [C _].
  destruct (cut_fix o D s Wo W K f (level o x) x (es_V f If) S C) as [rho E].
  exists F, (level o x). split; auto. exists rho. intros r. rewrite E. apply H.
Qed.
Lemma restr_cut F e k G : V e -> (forall rho, dv D e rho = F rho) -> k <= N.of_nat (length (ord o)) -> restriction (ord o) k F G ->
  exists x, sub (mem s) e x /\ cut o s e k x /\ same G (dv D x).
Proof.
  intros Ve H L [rho E]. destruct (fix_cut o D s Wo W K e k rho Ve L) as (x & S & C & Ex). exists x. split; auto. split; auto.
  intros r. rewrite E, Ex, H. reflexivity.
Qed.
Lemma sub_below G : subfunction (ord o) Fs G -> exists x, below s es x /\ same G (dv D x).
Proof.
  intros (F & k & IF & R). destruct (Fs_e F IF) as (e & Ie & Ve & H).
  assert (R' : restriction (ord o) (N.min k (N.of_nat (length (ord o)))) F G).
  { destruct R as [rho E]. exists rho. intros r. rewrite E. unfold fixed.
    replace (firstn (N.to_nat k) (ord o)) with (firstn (N.to_nat (N.min k (N.of_nat (length (ord o))))) (ord o)); auto.
    destruct (N.leb_spec k (N.of_nat (length (ord o)))); [f_equal; lia|].
    rewrite !firstn_all2 by lia. reflexivity. }
  destruct (restr_cut F e (N.min k (N.of_nat (length (ord o)))) G Ve H (N.le_min_r _ _) R') as (x & S & _ & E). exists x. split; auto. exists e. auto.
Qed.

Lemma level_top x : V x -> top_at (ord o) (dv D x) (level o x).
Proof.
  intros Vx. split.
  - intros j i E L [rho Nq]. apply Nq. apply (lev_agree o D s Wo W K x _ _ Vx). intros v Iv Lv. unfold assign.
    destruct (N.eqb_spec v i); auto. subst v. destruct (wfo_idx o Wo j i E) as [_ Ei]. lia.
  - unfold level. destruct (isconst x) eqn:C.
    + rewrite Nat2N.id. destruct (nth_error (ord o) (length (ord o))) eqn:E; auto. exfalso.
      assert (length (ord o) < length (ord o))%nat by (apply nth_error_Some; congruence). lia.
    + destruct (node_split o s Wo W x Vx C) as (_ & Ii & _). rewrite (wfo_nth o _ Wo Ii).
      apply (dep_iff o D s Wo W K x (eid x) Vx Ii). exists x. split; [constructor|auto].
Qed.

Lemma number_edges eqv (P : bfun -> Prop) (E : list edge) :
  (forall x, In x E -> P (dv D x)) -> (forall G, P G -> exists x, In x E /\ eqv G (dv D x)) ->
  ForallOrdPairs (fun x y => ~ eqv (dv D x) (dv D y)) E -> number eqv P (N.of_nat (length E)).
Proof.
  intros A B C. exists (map (dv D) E). rewrite map_length. split; auto. split; [|split].
  - intros G IG. apply in_map_iff in IG as (x & <- & Ix). auto.
  - intros G PG. destruct (B G PG) as (x & Ix & Ex). exists (dv D x). split; auto. now apply in_map.
  - clear A B. induction C as [|x l Fa C IH]; simpl; constructor; auto. apply Forall_forall. intros G IG. apply in_map_iff in IG as (y & <- & Iy).
    rewrite Forall_forall in Fa. auto.
Qed.
Lemma nodup_fop {A} (R : A -> A -> Prop) l : NoDup l -> (forall x y, In x l -> In y l -> R x y -> x = y) -> ForallOrdPairs (fun x y => ~ R x y) l.
Proof.
  induction l as [|x l IH]; intros ND H; constructor; inversion ND; subst.
  - apply Forall_forall. intros y Iy Rxy. assert (x = y) by (apply H; simpl; auto). congruence.
  - apply IH; auto. intros a b Ia Ib. apply H; simpl; auto.
Qed.
Lemma nodup_ptr (L : list edge) x y : NoDup (map eptr L) -> In x L -> In y L -> eptr x = eptr y -> x = y.
Proof.
  induction L as [|a L IH]; simpl; intros ND Ix Iy E; [tauto|]. inversion ND as [|? ? N0 ND']; subst.
  destruct Ix as [->|Ix], Iy as [->|Iy]; auto.
  - elim N0. rewrite E. now apply in_map.
  - elim N0. rewrite <- E. now apply in_map.
Qed.
Lemma enot_dv e rho : dv D (enot e) rho = negb (dv D e rho).
Proof. unfold dv, enot. simpl. destruct (eneg e), (D (eptr e) rho); auto. Qed.

Lemma edge_number (E : list edge) (Q : N -> bool) : lists_edges s es E ->
  number same (fun G => subfunction (ord o) Fs G /\ exists k, Q k = true /\ top_at (ord o) G k) (N.of_nat (length (filter (fun x => Q (level o x)) E))).
Proof.
  intros [ND HE]. apply number_edges.
  - intros x Ix. apply filter_In in Ix as [Ix Qx]. apply HE in Ix. split; [now apply below_sub|]. exists (level o x). split; auto. apply level_top, below_V'; auto.
  - intros G (Sg & k & Qk & Tk). destruct (sub_below G Sg) as (x & Bx & Ex). exists x. split; auto. apply filter_In. split; [now apply HE|].
    rewrite (top_unique (ord o) (dv D x) (level o x) k (level_top x (below_V' x Bx)) (top_at_up_to false _ G (dv D x) k Ex Tk)). exact Qk.
  - apply nodup_fop; [now apply NoDup_filter|]. intros x y Ix Iy S. apply filter_In in Ix as [Ix _], Iy as [Iy _]. apply HE in Ix, Iy.
    apply (canon o D s Wo W K); auto using below_V'.
Qed.
Lemma node_number (L : list edge) (Q : N -> bool) : lists_nodes s es L ->
  number same_or_opposite (fun G => subfunction (ord o) Fs G /\ exists k, Q k = true /\ top_at (ord o) G k) (N.of_nat (length (filter (fun x => Q (level o x)) L))).
Proof.
  intros (ND & HL1 & HL2).
  assert (ND' : NoDup L) by (eapply NoDup_map_inv; eauto).
  apply number_edges.
  - intros x Ix. apply filter_In in Ix as [Ix Qx]. apply HL1 in Ix. split; [now apply below_sub|]. exists (level o x). split; auto. apply level_top, below_V'; auto.
  - intros G (Sg & k & Qk & Tk). destruct (sub_below G Sg) as (x & Bx & Ex). pose proof (HL2 x Bx) as Ip. apply in_map_iff in Ip as (y & Ey & Iy).
    assert (Sxy : same_or_opposite G (dv D y)).
    { assert (C : y = x \/ y = enot x).
      { pose proof (same_ptr o s W y x (below_V' y (HL1 y Iy)) (below_V' x Bx) Ey) as Ei. destruct x as [i p b], y as [i' p' b']. simpl in *. subst.
        destruct b, b'; auto; right; reflexivity. }
      destruct C as [-> | ->]; [left; auto|right]. intros rho. now rewrite enot_dv, negb_involutive. }
    exists y. split; auto. apply filter_In. split; auto.
    rewrite (top_unique (ord o) (dv D y) (level o y) k (level_top y (below_V' y (HL1 y Iy))) (top_at_up_to true _ G (dv D y) k Sxy Tk)). exact Qk.
  - apply nodup_fop; [now apply NoDup_filter|]. intros x y Ix Iy S. apply filter_In in Ix as [Ix _], Iy as [Iy _].
    apply (nodup_ptr L); auto. pose proof (below_V' x (HL1 x Ix)) as Vx. pose proof (below_V' y (HL1 y Iy)) as Vy.
    destruct S as [S|S].
    + f_equal. apply (canon o D s Wo W K); auto.
    + assert (x = enot y) as ->; [|reflexivity]. apply (canon o D s Wo W K); [exact Vx|now apply vedge_enot|]. intros rho. now rewrite enot_dv.
Qed.
End Edges.

Lemma preproc_mo d m l ok m' : preproc d m l = Ok (ok, m') -> mo m' = mo m.
Proof.
  unfold preproc. destruct (existsb (zero_ref m) l); [discriminate|]. destruct (existsb uisnull l); intros [= <- <-]; auto.
  unfold postproc. destruct (d_chk d); auto. destruct (mlim m <? nn (st (me m))); auto.
  destruct (gc_frame m) as (F1 & _). destruct (_ && _); simpl; auto.
Qed.

Lemma Forall2_in {A B} (R S : A -> B -> Prop) l k : (forall x y, In x l -> R x y -> S x y) -> Forall2 R l k -> Forall2 S l k.
Proof. intros H F2. induction F2; constructor; [apply H; [now left|auto]|apply IHF2; intros; apply H; [now right|auto]]. Qed.

Section World.
Variable w : world.
Hypothesis Rw : reachable w.
Notation m := (wm w).
Notation hs := (wh w).

Lemma W_type f F d : In f hs -> means m f F -> exists t m', cal_type d m f = Ok (t, m') /\
  In t [TYPE_NONTERMINAL; TYPE_ZERO; TYPE_ONE; TYPE_POSVAR; TYPE_NEGVAR] /\
  (t = TYPE_ZERO <-> same F (fun _ => false)) /\ (t = TYPE_ONE <-> same F (fun _ => true)) /\
  (t = TYPE_POSVAR <-> exists i, same F (fun rho => rho i)) /\ (t = TYPE_NEGVAR <-> exists i, same F (fun rho => negb (rho i))).
Proof.
  intros If Mf. destruct (W_inv w Rw) as [D I]. rewrite (means_hv m hs lk0 D) in Mf by auto.
  destruct (type_spec d m hs lk0 D f I If) as (t & m' & D' & E & _ & R & Z & O & P & N0). exists t, m'. split; auto. split; auto.
  unfold same. split; [rewrite Z|split; [rewrite O|split; [rewrite P|rewrite N0]]];
    first [split; intros H rho; specialize (H rho); congruence|split; intros [i H]; exists i; intros rho; specialize (H rho); congruence].
Qed.
Lemma W_type_null f d : uisnull f = true -> cal_type d m f = Ok (TYPE_OVERFLOW, m).
Proof. intros Hn. destruct (W_inv w Rw) as [D I]. exact (query_null d m hs lk0 D f _ _ I Hn). Qed.

Lemma W_iscube f F : In f hs -> means m f F ->
  (same F (fun _ => false) -> cal_iscube m f = Fatal) /\
  (~ same F (fun _ => false) -> exists b, cal_iscube m f = Ok b /\ (b = true <-> exists L, same F (cube_of L))).
Proof.
  intros If Mf. destruct (W_inv w Rw) as [D I]. rewrite (means_hv m hs lk0 D) in Mf by auto.
  destruct (zero_dec m hs lk0 D f I If) as [Z|Z].
  - split; [intros _|intros N0; elim N0; intros rho; now rewrite <- Mf]. destruct (iscube_call m hs lk0 D f I If) as [[_ H]|(b & E & Hb)]; auto. exfalso.
    unfold cal_iscube in E. rewrite (uok_notnull m hs lk0 D f I If) in E.
    rewrite (is_zero_fun (mo m) D (st (me m)) (mi_wfo _ _ _ _ I) (MI_swf _ _ _ _ I) (MI_dok _ _ _ _ I) _ (MI_int _ _ _ _ _ I If) Z) in E. discriminate.
  - split; [intros H; elim Z; intros rho; now rewrite Mf|]. intros _. destruct (iscube_call m hs lk0 D f I If) as [[H _]|(b & E & Hb)]; [now elim Z|].
    exists b. split; auto. rewrite Hb. split; intros [L H]; exists L; intros rho; specialize (H rho); [rewrite <- Mf|rewrite Mf]; exact H.
Qed.

Lemma W_satisfy f F d : In f hs -> means m f F ->
  (same F (fun _ => false) -> returns (cal_satisfy d m f) (fun _ => false)) /\
  (~ same F (fun _ => false) -> exists L, NoDup (map fst L) /\ implies (cube_of L) F /\ (exists rho, cube_of L rho = true) /\
     returns (cal_satisfy d m f) (cube_of L)).
Proof.
  intros If Mf. destruct (W_inv w Rw) as [D I]. rewrite (means_hv m hs lk0 D) in Mf by auto. split.
  - intros Z. assert (Z' : forall rho, hv m D f rho = false) by (intros rho; rewrite Mf; apply Z).
    destruct (satisfy_zero (fun m s F => satisfy_step (depth (mo m)) s F) d m hs lk0 D f I If Z') as (m1 & D1 & E & X1 & I1 & Ef).
    exists f, m1. split; auto. split; [eapply uok_notnull; eauto|]. apply (means_hv m1 hs lk0 D1); auto. intros rho.
    rewrite (mx_h _ _ _ _ _ X1 f If). apply Z'.
  - intros Z. assert (Z' : ~ forall rho, hv m D f rho = false) by (intros H; apply Z; intros rho; now rewrite <- Mf).
    destruct (satisfy_spec d m hs lk0 D f I If Z') as (h & m1 & D1 & L & E & X1 & I1 & ND & Er & Im). exists L. split; auto.
    split; [intros rho Hc; rewrite <- Mf; auto|]. split; [now apply cube_sat|]. exists h, m1. split; auto.
    split; [eapply uok_notnull; [exact I1|now left]|]. apply (means_hv m1 (h :: hs) lk0 D1); auto. now left.
Qed.
Lemma W_satisfy_support f F d : In f hs -> means m f F ->
  (same F (fun _ => false) -> returns (cal_satisfy_support d m f) (fun _ => false)) /\
  (~ same F (fun _ => false) -> exists L, NoDup (map fst L) /\ implies (cube_of L) F /\ (exists rho, cube_of L rho = true) /\
     (forall i, amap (current m) i <> None -> In i (map fst L)) /\
     returns (cal_satisfy_support d m f) (cube_of L)).
Proof.
  intros If Mf. destruct (W_inv w Rw) as [D I]. rewrite (means_hv m hs lk0 D) in Mf by auto. split.
  - intros Z. assert (Z' : forall rho, hv m D f rho = false) by (intros rho; rewrite Mf; apply Z).
    destruct (satisfy_zero (fun m s F => satisfy_support_step (mo m) (depth (mo m) + length (ord (mo m))) s F (support_ids m)) d m hs lk0 D f I If Z') as (m1 & D1 & E & X1 & I1 & Ef).
    exists f, m1. split; auto. split; [eapply uok_notnull; eauto|]. apply (means_hv m1 hs lk0 D1); auto. intros rho.
    rewrite (mx_h _ _ _ _ _ X1 f If). apply Z'.
  - intros Z. assert (Z' : ~ forall rho, hv m D f rho = false) by (intros H; apply Z; intros rho; now rewrite <- Mf).
    destruct (satisfy_support_spec' d m hs lk0 D f I If Z') as (h & m1 & D1 & L & E & X1 & I1 & ND & Er & Im & As). exists L. split; auto.
    split; [intros rho Hc; rewrite <- Mf; auto|]. split; [now apply cube_sat|]. split; auto. exists h, m1. split; auto.
    split; [eapply uok_notnull; [exact I1|now left]|]. apply (means_hv m1 (h :: hs) lk0 D1); auto. now left.
Qed.

Lemma dens_count vs : forall (F : bfun) rho, (dens vs F rho == inject_Z (Z.of_N (sat_count vs F rho)) / p2 (length vs))%Q.
Proof.
  induction vs as [|v vs IH]; intros F rho; simpl.
  - destruct (F rho); reflexivity.
  - rewrite (IH F (flip rho v true)), (IH F (flip rho v false)).
    change (assign rho v true) with (flip rho v true). change (assign rho v false) with (flip rho v false).
    rewrite N2Z.inj_add, inject_Z_plus. change (S (length vs)) with (1 + length vs)%nat. rewrite (p2_add 1 (length vs)). change (p2 1) with (inject_Z 2).
    pose proof (p2_ne (length vs)). unfold half. field. auto.
Qed.
Lemma W_fraction f F rnd vs d : In f hs -> means m f F -> rounding rnd -> NoDup vs ->
  exists q m', cal_fraction rnd d m f = Ok (q, m') /\
  ((forall i, In i (ord (mo m')) -> In i vs) -> forall rho,
    let share := (inject_Z (Z.of_N (sat_count vs F rho)) / p2 (length vs))%Q in
    ((length (ord (mo m')) <= 53)%nat -> (q == share)%Q) /\
    (Qabs (q - share) <= inject_Z (3 * Z.of_nat (length (ord (mo m')))) / p2 54)%Q).
Proof.
  intros If Mf Rd ND. destruct (W_inv w Rw) as [D I]. rewrite (means_hv m hs lk0 D) in Mf by auto.
  destruct (fraction_call d m hs lk0 D f I If rnd vs Rd ND) as (q & m' & D' & E & K & H). exists q, m'. split; auto.
  intros Vs rho share. destruct (H Vs rho) as [H1 H2].
  assert (Es : (dens vs (hv m D f) rho == share)%Q).
  { unfold share. rewrite <- dens_count. apply dens_ext; auto. intros r1 r2 Er. rewrite <- !Mf.
    apply (dv_bext (mo m) D (st (me m))); auto; [apply I|eapply MI_swf; eauto|eapply MI_dok; eauto|eapply MI_int; eauto]. }
  split.
  - intros L. rewrite <- Es. auto.
  - rewrite <- Es. auto.
Qed.

Lemma W_support f F d : In f hs -> means m f F -> exists rs mk m' ids, cal_support d m f = Ok ((rs, mk), m') /\
  (forall p, mk p = false) /\ NoDup ids /\ (forall i, In i ids <-> depends F i) /\
  each (fun h i => cal_isnull h = false /\ means m' h (fun rho => rho i)) rs ids.
Proof.
  intros If Mf. destruct (W_inv w Rw) as [D I]. rewrite (means_hv m hs lk0 D) in Mf by auto.
  destruct (support_spec d m hs lk0 D f I If) as (ids & rs & mk & m' & D' & E & X & I' & Hm & ND & Hi & F2).
  exists rs, mk, m', ids. split; auto. split; auto. split; auto. split.
  - intros i. rewrite Hi. unfold depends. split; intros [rho N0]; exists rho; [rewrite <- !Mf|rewrite !Mf]; exact N0.
  - apply Forall2_in with (2 := F2). intros h i Ih H.
    assert (Ih' : In h (rs ++ hs)) by (apply in_or_app; auto). split; [eapply uok_notnull; eauto|]. now apply (means_hv m' (rs ++ hs) lk0 D').
Qed.

Lemma W_depends f v F i b d : In f hs -> In v hs -> means m f F -> means m v (fun rho => xorb b (rho i)) ->
  exists r mk m', cal_depends_on d m f v = Ok ((r, mk), m') /\ (forall p, mk p = false) /\ (r = true <-> depends F i).
Proof.
  intros If Iv Mf Mv. destruct (W_inv w Rw) as [D I]. rewrite (means_hv m hs lk0 D) in Mf, Mv by auto.
  destruct (depends_call d m hs lk0 D f I If v i Iv) as (r & mk & m' & D' & E & K & Hm & Hr); [exists b; exact Mv|].
  exists r, mk, m'. split; auto. split; auto. rewrite Hr. unfold depends. split; intros [rho N0]; exists rho; [rewrite <- !Mf|rewrite !Mf]; exact N0.
Qed.
Lemma W_depends_const f v b d : In f hs -> In v hs -> means m v (fun _ => b) ->
  exists m', cal_depends_on d m f v = Ok ((true, nomark), m').
Proof.
  intros If Iv Mv. destruct (W_inv w Rw) as [D I]. rewrite (means_hv m hs lk0 D) in Mv by auto.
  destruct (depends_const d m hs lk0 D f I If v b Iv Mv) as (m' & D' & E & _). exists m'; auto.
Qed.

(** Sizes. *)
Lemma roots D l Fs m1 D1 : MInv m hs lk0 D -> kept m hs lk0 D m1 D1 -> args hs l -> each (means m) l Fs ->
  Forall2 (fun e F => vedge (nodeR (st (me m1))) e /\ forall rho, dv D1 e rho = F rho) (map (uint (mmem m1)) l) Fs.
Proof.
  intros I K1 Al M. induction M as [|h F l Fs H M IH]; simpl; constructor.
  - assert (Ih : In h hs) by (apply Al; now left). destruct (kept_facts m hs lk0 D m1 D1 h K1 Ih) as (_ & _ & _ & V & E). split; auto.
    intros rho. rewrite E. exact (proj1 (means_hv m hs lk0 D h F I Ih) H rho).
  - apply IH. intros k Ik. apply Al. now right.
Qed.

Definition subs (order : list N) (Fs : list bfun) (k : N) (G : bfun) : Prop := subfunction order Fs G /\ top_at order G k.
Lemma size_profile D es Fs m1 D1 neg : kept m hs lk0 D m1 D1 ->
  Forall2 (fun e F => vedge (nodeR (st (me m1))) e /\ forall rho, dv D1 e rho = F rho) es Fs ->
  exists n lc mk, size_of neg (mo m1) (mmem m1) unmarked es = Some (n, mk) /\ profile_of neg (mo m1) (mmem m1) unmarked es = Some (lc, mk) /\
    (forall p, mk p = 0) /\ number (up_to neg) (subfunction (ord (mo m1)) Fs) n /\
    (forall k, number (up_to neg) (subs (ord (mo m1)) Fs k) (lc k)) /\
    (neg = false -> exists E, lists_edges (st (me m1)) es E /\ forall k, lc k = N.of_nat (length (at_lvl (mo m1) k E))).
Proof.
  intros [I1 X1] EF. assert (Wo : wfo (mo m1)) by apply I1. pose proof (MI_swf _ _ _ _ I1) as W. pose proof (MI_dok _ _ _ _ I1) as K.
  destruct (size_profile_spec (mo m1) (st (me m1)) Wo W es unmarked neg) as (n & lc & mk & L & E1 & E2 & Hm & HL & Ht & Hf).
  { intros e Ie. apply (es_V D1 (st (me m1)) es Fs EF); auto. }
  { intros; reflexivity. }
  assert (Top : forall G, subfunction (ord (mo m1)) Fs G -> exists k, top_at (ord (mo m1)) G k).
  { intros G S. destruct (sub_below (mo m1) D1 (st (me m1)) Wo W K es Fs EF G S) as (x & Bx & Ex). exists (level (mo m1) x).
    apply (top_at_up_to false _ (dv D1 x)); [apply same_sym; exact Ex|]. apply (level_top (mo m1) D1 (st (me m1)) Wo W K).
    exact (below_V' (mo m1) D1 (st (me m1)) Wo W es Fs EF x Bx). }
  exists n, lc, mk. split; auto. split; auto. split; auto.
  assert (All : forall (l : list edge), filter (fun x => (fun _ => true) (level (mo m1) x)) l = l).
  { intros l. induction l as [|a l IH]; simpl; [reflexivity|]. now rewrite IH. }
  assert (P1 : forall G, (subfunction (ord (mo m1)) Fs G /\ exists k, (fun _ : N => true) k = true /\ top_at (ord (mo m1)) G k) <-> subfunction (ord (mo m1)) Fs G).
  { intros G. split; [tauto|]. intros S. split; auto. destruct (Top G S) as [k T]. exists k. auto. }
  assert (P2 : forall k G, (subfunction (ord (mo m1)) Fs G /\ exists k', (k' =? k) = true /\ top_at (ord (mo m1)) G k') <-> subs (ord (mo m1)) Fs k G).
  { intros k G. unfold subs. split; [|intros [S T]; split; auto; exists k; split; auto; apply N.eqb_refl].
    intros [S (k' & E & T)]. apply N.eqb_eq in E. subst. auto. }
  destruct neg.
  - destruct (Ht eq_refl) as [-> Hk]. split; [|split].
    + apply (number_iff _ _ _ _ P1). pose proof (node_number (mo m1) D1 (st (me m1)) Wo W K es Fs EF L (fun _ => true) HL) as H. rewrite All in H. exact H.
    + intros k. rewrite Hk. apply (number_iff _ _ _ _ (P2 k)). exact (node_number (mo m1) D1 (st (me m1)) Wo W K es Fs EF L (fun k' => k' =? k) HL).
    + discriminate.
  - destruct (Hf eq_refl) as (E & HE & -> & Hk). split; [|split].
    + apply (number_iff _ _ _ _ P1). pose proof (edge_number (mo m1) D1 (st (me m1)) Wo W K es Fs EF E (fun _ => true) HE) as H. rewrite All in H. exact H.
    + intros k. rewrite Hk. apply (number_iff _ _ _ _ (P2 k)). exact (edge_number (mo m1) D1 (st (me m1)) Wo W K es Fs EF E (fun k' => k' =? k) HE).
    + intros _. exists E. auto.
Qed.

Lemma W_size_multiple l Fs ds neg : args hs l -> each (means m) l Fs -> exists n mk m', cal_size_multiple ds m l neg = Ok ((n, mk), m') /\
  (forall p, mk p = 0) /\ number (up_to neg) (subfunction (ord (mo m')) Fs) n.
Proof.
  intros Al M. destruct (W_inv w Rw) as [D I]. destruct (preproc_each_spec hs lk0 l D ds m I Al) as (m1 & D1 & P & I1 & X1).
  pose proof (roots D l Fs m1 D1 I (conj I1 X1) Al M) as EF.
  destruct (size_profile D _ Fs m1 D1 neg (conj I1 X1) EF) as (n & lc & mk & E1 & E2 & Hm & Hn & _). exists n, mk, m1. split; auto.
  unfold cal_size_multiple. rewrite (upto_null_live m hs lk0 D l I Al). rewrite P. cbn [obind]. rewrite E1. reflexivity.
Qed.
Lemma W_profile_multiple l Fs ds neg : args hs l -> each (means m) l Fs -> exists lc mk m', cal_profile_multiple ds m l neg = Ok ((lc, mk), m') /\
  (forall p, mk p = 0) /\ forall k, number (up_to neg) (fun G => subfunction (ord (mo m')) Fs G /\ top_at (ord (mo m')) G k) (lc k).
Proof.
  intros Al M. destruct (W_inv w Rw) as [D I]. destruct (preproc_each_spec hs lk0 l D ds m I Al) as (m1 & D1 & P & I1 & X1).
  pose proof (roots D l Fs m1 D1 I (conj I1 X1) Al M) as EF.
  destruct (size_profile D _ Fs m1 D1 neg (conj I1 X1) EF) as (n & lc & mk & E1 & E2 & Hm & _ & Hn & _). exists lc, mk, m1. split; auto.
  unfold cal_profile_multiple. rewrite (upto_null_live m hs lk0 D l I Al). rewrite P. cbn [obind]. rewrite E2. reflexivity.
Qed.
Lemma args1 f : In f hs -> args hs [f].
Proof. intros If k [<-|[]]. exact If. Qed.
Lemma W_size f F d neg : In f hs -> means m f F -> exists n mk m', cal_size d m f neg = Ok ((n, mk), m') /\
  (forall p, mk p = 0) /\ number (up_to neg) (subfunction (ord (mo m')) [F]) n.
Proof.
  intros If Mf. destruct (W_inv w Rw) as [D I]. unfold cal_size.
  destruct (query_live d m hs lk0 D f (0, unmarked) (fun m1 F => fueled (size_of neg (mo m1) (mmem m1) unmarked [F])) I If) as (m1 & D1 & K1 & E).
  pose proof (roots D [f] [F] m1 D1 I K1 (args1 f If) (Forall2_cons _ _ Mf (Forall2_nil _))) as EF.
  destruct (size_profile D _ [F] m1 D1 neg K1 EF) as (n & lc & mk & E1 & E2 & Hm & Hn & _). exists n, mk, m1. split; auto.
  rewrite E. cbn [map] in E1. rewrite E1. reflexivity.
Qed.
Lemma reaches_sub mm e x : reaches mm e x <-> sub mm e x.
Proof. split; intros H; induction H; constructor; auto. Qed.
Lemma W_size_nodes f d : In f hs -> exists n mk m' L, cal_size d m f true = Ok ((n, mk), m') /\
  n = N.of_nat (length L) /\ NoDup L /\ forall p, In p L <-> exists x, reaches (mmem m') (uint (mmem m') f) x /\ eptr x = p.
Proof.
  intros If. destruct (W_inv w Rw) as [D I]. unfold cal_size.
  destruct (query_live d m hs lk0 D f (0, unmarked) (fun m1 F => fueled (size_of true (mo m1) (mmem m1) unmarked [F])) I If) as (m1 & D1 & K1 & E).
  destruct (kept_facts m hs lk0 D m1 D1 f K1 If) as (Wo & W & K & V & H).
  destruct (size_profile_spec (mo m1) (st (me m1)) Wo W [uint (mmem m1) f] unmarked true) as (n & lc & mk & L & E1 & _ & Hm & (ND & HL1 & HL2) & Ht & _).
  { intros e [<-|[]]. exact V. }
  { intros; reflexivity. }
  destruct (Ht eq_refl) as [-> _]. exists (N.of_nat (length L)), mk, m1, (map eptr L). split; [rewrite E, E1; reflexivity|].
  split; [now rewrite map_length|]. split; auto. intros p. split.
  - intros Ip. apply in_map_iff in Ip as (x & <- & Ix). destruct (HL1 x Ix) as (e & [<-|[]] & S). exists x. split; auto. now apply reaches_sub.
  - intros (x & S & <-). apply HL2. exists (uint (mmem m1) f). split; [now left|now apply reaches_sub].
Qed.
Lemma profile_call D f F d neg : MInv m hs lk0 D -> In f hs -> means m f F -> exists lc mk m1 D1, cal_profile d m f neg = Ok ((Some lc, mk), m1) /\ kept m hs lk0 D m1 D1 /\
  (forall p, mk p = 0) /\ forall k, number (up_to neg) (subs (ord (mo m1)) [F] k) (lc k).
Proof.
  intros I If Mf. unfold cal_profile.
  destruct (query_live d m hs lk0 D f (None, unmarked) (fun m1 F => obind (fueled (profile_of neg (mo m1) (mmem m1) unmarked [F])) (fun '(lc, mk) => Ok (Some lc, mk))) I If) as (m1 & D1 & K1 & E).
  pose proof (roots D [f] [F] m1 D1 I K1 (args1 f If) (Forall2_cons _ _ Mf (Forall2_nil _))) as EF.
  destruct (size_profile D _ [F] m1 D1 neg K1 EF) as (n & lc & mk & E1 & E2 & Hm & _ & Hn & _). exists lc, mk, m1, D1. split; auto.
  rewrite E. cbn [map] in E2. rewrite E2. reflexivity.
Qed.
Lemma W_profile f F d neg : In f hs -> means m f F -> exists lc mk m', cal_profile d m f neg = Ok ((Some lc, mk), m') /\
  (forall p, mk p = 0) /\ forall k, number (up_to neg) (fun G => subfunction (ord (mo m')) [F] G /\ top_at (ord (mo m')) G k) (lc k).
Proof.
  intros If Mf. destruct (W_inv w Rw) as [D I]. destruct (profile_call D f F d neg I If Mf) as (lc & mk & m1 & D1 & E & _ & H). exists lc, mk, m1. auto.
Qed.

Lemma W_function_profile f F d1 d2 : In f hs -> means m f F -> exists R m', cal_function_profile d1 d2 m f = Ok (Some R, m') /\
  forall k i, nth_error (ord (mo m')) (N.to_nat k) = Some i ->
    (depends F i -> exists n, R k = Z.of_N n /\ number same (restriction (ord (mo m')) k F) n) /\
    (~ depends F i -> R k = 0%Z).
Proof.
  intros If Mf. destruct (W_inv w Rw) as [D I]. destruct (profile_call D f F d1 false I If Mf) as (lc & mk & m1 & D1 & E & [I1 X1] & _ & Hk).
  destruct (pre1 d2 m1 hs lk0 D1 f I1 If) as (m2 & D2 & P2 & I2 & X2).
  pose proof (preproc_mo _ _ _ _ _ P2) as Eo.
  assert (K2 : kept m hs lk0 D m2 D2) by (split; [auto|eapply mext_trans; eauto]).
  destruct (kept_facts m hs lk0 D m2 D2 f K2 If) as (Wo & W & K & V & H).
  pose proof (roots D [f] [F] m2 D2 I K2 (args1 f If) (Forall2_cons _ _ Mf (Forall2_nil _))) as EF. cbn [map] in EF.
  destruct (size_profile D _ [F] m2 D2 false K2 EF) as (n2 & lc2 & mk2 & _ & _ & _ & _ & Hk2 & Hl2). destruct (Hl2 eq_refl) as (E2 & HE & Hlc).
  assert (El : forall k, lc k = N.of_nat (length (at_lvl (mo m2) k E2))).
  { intros k. rewrite <- Hlc. specialize (Hk k). rewrite <- Eo in Hk. exact (number_unique same _ _ _ same_equiv Hk (Hk2 k)). }
  destruct (function_profile_graph (mo m2) (st (me m2)) Wo W (uint (mmem m2) f) lc E2 V HE El) as (R & ER & HR).
  exists R, m2. split.
  { unfold cal_function_profile. rewrite E. cbn [obind]. unfold query. rewrite P2. cbn [obind negb]. rewrite ER. reflexivity. }
  intros k i Ek.
  assert (Lk : k < N.of_nat (length (ord (mo m2)))). { assert (N.to_nat k < length (ord (mo m2)))%nat by (apply nth_error_Some; congruence). lia. }
  destruct (wfo_idx _ Wo _ _ Ek) as [_ Ei]. rewrite N2Nat.id in Ei. assert (Ii : In i (ord (mo m2))) by (eapply nth_error_In; eauto).
  assert (Hmv : forall rho, dv D2 (uint (mmem m2) f) rho = F rho).
  { intros rho. rewrite H. exact (proj1 (means_hv m hs lk0 D f F I If) Mf rho). }
  assert (Dep : depends F i <-> lc k <> 0).
  { transitivity (dep D2 (uint (mmem m2) f) i).
    { unfold depends, dep. split; intros [rho N0]; exists rho; [rewrite !Hmv|rewrite !Hmv in N0]; exact N0. }
    rewrite (dep_iff (mo m2) D2 (st (me m2)) Wo W K _ i V Ii), El. split.
    - intros (x & S & C & Ex). assert (Ix : In x (at_lvl (mo m2) k E2)).
      { apply filter_In. split; [apply HE; exists (uint (mmem m2) f); split; [now left|auto]|]. unfold level. rewrite C, Ex, Ei. apply N.eqb_refl. }
      destruct (at_lvl (mo m2) k E2); [elim Ix|simpl; lia].
    - intros N0. destruct (at_lvl (mo m2) k E2) as [|x l] eqn:El2; [now elim N0|].
      assert (Ix : In x (at_lvl (mo m2) k E2)) by (rewrite El2; now left). apply filter_In in Ix as [Ix Lx]. apply N.eqb_eq in Lx.
      apply HE in Ix as (f' & [<-|[]] & S). exists x. split; auto. pose proof (sub_V _ _ Wo W _ x V S) as Vx. unfold level in Lx.
      destruct (isconst x) eqn:C; [lia|]. split; auto. apply (wfo_inj (mo m2)); auto; [|congruence]. apply (node_split (mo m2) (st (me m2)) Wo W x); auto. }
  destruct (HR k Lk) as (L & NDL & HL & Rk). split.
  - intros Df. apply Dep in Df. exists (N.of_nat (length L)). destruct (N.eqb_spec (lc k) 0); [congruence|]. split; [rewrite Rk; lia|].
    apply (number_edges D2).
    + intros x Ix. apply HL in Ix as [S C]. destruct (cut_fix (mo m2) D2 (st (me m2)) Wo W K _ k x V S C) as [rho Ex]. exists rho.
      intros r. rewrite Ex, Hmv. reflexivity.
    + intros G RG. assert (Lk' : k <= N.of_nat (length (ord (mo m2)))) by lia.
      destruct (restr_cut (mo m2) D2 (st (me m2)) Wo W K F _ k G V Hmv Lk' RG) as (x & S & C & Ex). exists x. split; auto. apply HL. auto.
    + apply nodup_fop; auto. intros x y Ix Iy S. apply HL in Ix as [Sx _], Iy as [Sy _].
      apply (canon (mo m2) D2 (st (me m2)) Wo W K); auto; [exact (sub_V _ _ Wo W _ x V Sx)|exact (sub_V _ _ Wo W _ y V Sy)].
  - intros Nd. destruct (N.eqb_spec (lc k) 0) as [Z|Z]; auto. elim Nd. now apply Dep.
Qed.
End World.
