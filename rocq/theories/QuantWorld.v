(** * Quantification in reachable worlds. *)
From Coq Require Import Permutation Sorted.
From Verif Require Import Base BFModel ITEModel MgrModel ApiModel StoreInv Own EngInv ApplyProof BinopProof ReduceProof EngineProof
  OpProof MultiProof QProof GCProof VarProof MInv ApiProof ApiOps ApiStruct ApiVar GraphModel GraphProof GraphCube GraphCall AssocModel
  AssocProof QuantModel QuantBFModel QuantApiModel QuantProof QuantApi SpecApi SpecAssoc SpecQuant WorldProof ApiLemmas AssocWorld.

Lemma quantify_mnl enum slot neg d1 d2 m f h m' : quantify enum slot neg d1 d2 m f = Ok (h, m') -> mnl m' = mnl m.
Proof.
  unfold quantify. destruct (preproc d1 m [f]) as [[ok m1]| |] eqn:P; try discriminate. cbn [obind]. apply preproc_mnl in P.
  destruct ok; cbn [negb]; [|intros [= <- <-]; auto].
  destruct (mcur m1); cbv beta iota zeta; match goal with |- match ?q with _ => _ end = _ -> _ => destruct q as [[[r0 s] c]|] end; try discriminate;
    intros [= E]; change m' with (snd (h, m')); rewrite <- E, finish_mnl; exact P.
Qed.
Lemma relprod_mnl enum slot d1 d2 m f g h m' : cal_relprod enum slot d1 d2 m f g = Ok (h, m') -> mnl m' = mnl m.
Proof.
  unfold cal_relprod. destruct (preproc d1 m [f; g]) as [[ok m1]| |] eqn:P; try discriminate. cbn [obind]. apply preproc_mnl in P.
  destruct ok; cbn [negb]; [|intros [= <- <-]; auto].
  destruct (mcur m1); cbv beta iota zeta; match goal with |- match ?q with _ => _ end = _ -> _ => destruct q as [[[r0 s] c]|] end; try discriminate;
    intros [= E]; change m' with (snd (h, m')); rewrite <- E, finish_mnl; exact P.
Qed.

(** The variables of the current association are those of [S]. *)
Lemma current_dom m hs lk D S : MInv m hs lk D -> current_means m S -> forall i, amap (current m) i = None <-> S i = None.
Proof.
  intros I H i. assert (K : stands_for m (amap (current m)) S).
  { unfold current_means in H. destruct (mcur m) as [j|] eqn:Mc.
    - destruct H as (a & Ia & Ea & Sa). destruct (current_perm m hs lk D j I Mc) as [Ic Ec].
      assert (a = current m) as <-; [|exact Sa].
      pose proof (mi_srt _ _ _ _ I) as Srt. clear - Srt Ia Ic Ea Ec. revert Ia Ic. generalize (current m) Ec. clear Ec. intros b Eb Ia Ib.
      induction (massoc m) as [|c l IH]; [destruct Ia|]. simpl in Srt. inversion Srt as [|x y S1 F1]; subst.
      rewrite Forall_forall in F1. destruct Ia as [->|Ia], Ib as [->|Ib]; auto; exfalso.
      + specialize (F1 (aid b) (in_map aid _ _ Ib)). lia.
      + specialize (F1 (aid a) (in_map aid _ _ Ia)). lia.
    - unfold current. rewrite Mc. exact H. }
  specialize (K i). unfold both in K. destruct (amap (current m) i), (S i); split; intros; try discriminate; auto; contradiction.
Qed.

Definition exfun (m : mgr) (F : bfun) : bfun := ex (amap (current m)) (ord (mo m)) F.
Lemma exfun_exists m hs lk D S F : MInv m hs lk D -> current_means m S -> bext F -> is_exists S F (exfun m F).
Proof.
  intros I Hs B rho. unfold exfun. rewrite (ex_iff _ _ (proj1 (current_facts m hs lk D I))) by exact B.
  pose proof (current_dom m hs lk D S I Hs) as Dm.
  split; intros (r & H1 & H2); exists r; (split; [|exact H2]); intros i Hi; apply H1; now apply Dm.
Qed.
Lemma exists_forall S F E : is_exists S (fun rho => negb (F rho)) E -> is_forall S F (fun rho => negb (E rho)).
Proof.
  intros H rho. split.
  - intros Hn r Hr. destruct (F r) eqn:Fr; auto. exfalso. apply negb_true_iff in Hn. apply not_true_iff_false in Hn. apply Hn.
    apply H. exists r. split; auto. now rewrite Fr.
  - intros Ha. apply negb_true_iff. destruct (E rho) eqn:Er; auto. exfalso. apply H in Er as (r & H1 & H2). rewrite (Ha r H1) in H2. discriminate.
Qed.
Lemma means_bext m hs lk D f F : MInv m hs lk D -> In f hs -> means m f F -> bext F.
Proof.
  intros I If M r1 r2 E. rewrite (means_hv m hs lk D) in M by auto. rewrite <- (M r1), <- (M r2).
  exact (dv_bext _ _ _ _ (mi_wfo _ _ _ _ I) (MI_swf _ _ _ _ I) (MI_dok _ _ _ _ I) (MI_int _ _ _ _ f I If) r1 r2 E).
Qed.

Section World.
Variable w : world.
Hypothesis Rw : reachable w.
Notation m := (wm w).
Notation hs := (wh w).

(** The computed table left as it is, or emptied. *)
Definition either (m0 : mgr) : Prop := m0 = m \/ m0 = forgetful m.
Lemma either_inv m0 : either m0 -> exists D, MInv m hs lk0 D /\ MInv m0 hs lk0 D.
Proof.
  destruct (W_inv w Rw) as [D I]. intros [->| ->]; exists D; [auto|]. split; auto.
  apply (MInv_cache m hs lk0 D (fun _ => None)); auto. intros k e. discriminate.
Qed.

Lemma either_computes D m0 F G h m' : MInv m0 hs lk0 D -> mnl m' = mnl m0 -> (forall rho, F rho = G rho) ->
  result m0 hs lk0 D F h m' -> overflowed m0 h m' \/ means m' h G.
Proof.
  intros I El E (D' & X & [(-> & [O1 O2] & I')|(I' & H)]).
  - left. split; auto. split; auto. congruence.
  - right. apply (means_hv m' (h :: hs) lk0 D'); [auto|now left|]. intros rho. now rewrite H.
Qed.

Lemma W_quantify f F S neg : In f hs -> means m f F -> current_means m S -> room_for_temporary m ->
  exists E, is_exists S (fun rho => xorb neg (F rho)) E /\
    forall m0, either m0 -> forall enum slot d1 d2, good_enum enum -> computes m0 (quantify enum slot neg d1 d2 m0 f) (fun rho => xorb neg (E rho)).
Proof.
  intros If Mf Hs Rm. destruct (W_inv w Rw) as [D0 I0].
  assert (B : bext (fun rho => xorb neg (F rho))).
  { intros r1 r2 E. now rewrite (means_bext m hs lk0 D0 f F I0 If Mf r1 r2 E). }
  exists (exfun m (fun rho => xorb neg (F rho))). split; [eapply exfun_exists; eauto|].
  intros m0 Hm enum slot d1 d2 He. destruct (either_inv m0 Hm) as (D & I & I').
  assert (E0 : forall rho, hv m0 D f rho = F rho).
  { rewrite (means_hv m hs lk0 D) in Mf by auto. destruct Hm as [->| ->]; exact Mf. }
  assert (Rm0 : room m0 /\ current m0 = current m /\ mo m0 = mo m).
  { destruct Hm as [->| ->]; repeat split; auto. }
  destruct Rm0 as (Rm0 & Ec & Eo).
  destruct (quantify_spec enum He slot neg d1 d2 m0 hs lk0 D f I' If Rm0) as (h & m' & E & R).
  exists h, m'. split; [exact E|]. eapply either_computes; [exact I'|eapply quantify_mnl; eauto| |exact R].
  intros rho. cbv beta. f_equal. unfold exfun. rewrite Ec, Eo. apply ex_ext. intros r. now rewrite E0.
Qed.
Lemma W_relprod f g F G S : In f hs -> In g hs -> means m f F -> means m g G -> current_means m S -> room_for_temporary m ->
  exists E, is_exists S (fun rho => F rho && G rho) E /\
    forall m0, either m0 -> forall enum slot d1 d2, good_enum enum -> computes m0 (cal_relprod enum slot d1 d2 m0 f g) E.
Proof.
  intros If Ig Mf Mg Hs Rm. destruct (W_inv w Rw) as [D0 I0].
  assert (B : bext (fun rho => F rho && G rho)).
  { apply (andf_bext F G); [exact (means_bext m hs lk0 D0 f F I0 If Mf)|exact (means_bext m hs lk0 D0 g G I0 Ig Mg)]. }
  exists (exfun m (fun rho => F rho && G rho)). split; [eapply exfun_exists; eauto|].
  intros m0 Hm enum slot d1 d2 He. destruct (either_inv m0 Hm) as (D & I & I').
  assert (E0 : (forall rho, hv m0 D f rho = F rho) /\ (forall rho, hv m0 D g rho = G rho)).
  { rewrite (means_hv m hs lk0 D) in Mf, Mg by auto. destruct Hm as [->| ->]; split; assumption. }
  assert (Rm0 : room m0 /\ current m0 = current m /\ mo m0 = mo m).
  { destruct Hm as [->| ->]; repeat split; auto. }
  destruct Rm0 as (Rm0 & Ec & Eo). destruct E0 as [E0 E1].
  destruct (relprod_spec enum He slot d1 d2 m0 hs lk0 D f g I' If Ig Rm0) as (h & m' & E & R).
  exists h, m'. split; [exact E|]. eapply either_computes; [exact I'|eapply relprod_mnl; eauto| |exact R].
  intros rho. cbv beta. unfold exfun. rewrite Ec, Eo. apply ex_ext. intros r. now rewrite E0, E1.
Qed.

Lemma computes_ext m0 r F G : (forall rho, F rho = G rho) -> computes m0 r F -> computes m0 r G.
Proof.
  intros E (h & m' & Er & [H|H]); exists h, m'; (split; [exact Er|]); [now left|right].
  intros rho. rewrite <- E. apply H.
Qed.
Lemma W_exists f F S : In f hs -> means m f F -> current_means m S -> room_for_temporary m ->
  exists E, is_exists S F E /\ forall enum slot d1 d2, good_enum enum -> computes m (cal_exists enum slot d1 d2 m f) E /\ computes (forgetful m) (cal_exists enum slot d1 d2 (forgetful m) f) E.
Proof.
  intros If Mf Hs Rm. destruct (W_quantify f F S false If Mf Hs Rm) as (E & H & K). exists E.
  split. { intros rho. rewrite (H rho). split; intros (r & H1 & H2); exists r; (split; [exact H1|]); [now destruct (F r)|now destruct (F r)]. }
  intros enum slot d1 d2 He. split; (eapply computes_ext; [|apply K; [|exact He]]; [intros rho; cbv beta; now destruct (E rho)|]); [now left|now right].
Qed.
Lemma W_forall f F S : In f hs -> means m f F -> current_means m S -> room_for_temporary m ->
  exists E, is_forall S F E /\ forall enum slot d1 d2, good_enum enum -> computes m (cal_forall enum slot d1 d2 m f) E /\ computes (forgetful m) (cal_forall enum slot d1 d2 (forgetful m) f) E.
Proof.
  intros If Mf Hs Rm. destruct (W_quantify f F S true If Mf Hs Rm) as (E & H & K). exists (fun rho => negb (E rho)).
  split. { apply exists_forall. intros rho. rewrite (H rho). split; intros (r & H1 & H2); exists r; (split; [exact H1|]); now destruct (F r). }
  intros enum slot d1 d2 He. split; (eapply computes_ext; [|apply K; [|exact He]]; [intros rho; cbv beta; now destruct (E rho)|]); [now left|now right].
Qed.
Lemma W_relprod' f g F G S : In f hs -> In g hs -> means m f F -> means m g G -> current_means m S -> room_for_temporary m ->
  exists E, is_exists S (fun rho => F rho && G rho) E /\
    forall enum slot d1 d2, good_enum enum -> computes m (cal_relprod enum slot d1 d2 m f g) E /\ computes (forgetful m) (cal_relprod enum slot d1 d2 (forgetful m) f g) E.
Proof.
  intros If Ig Mf Mg Hs Rm. destruct (W_relprod f g F G S If Ig Mf Mg Hs Rm) as (E & H & K). exists E. split; [exact H|].
  intros enum slot d1 d2 He. split; (apply K; [|exact He]); [now left|now right].
Qed.
Lemma W_current : exists S, current_means m S.
Proof.
  destruct (W_inv w Rw) as [D I]. destruct (sfor_ex D (amap (current m))) as [S HS].
  exists S. apply (sfor_iff m hs lk0 D (current m) S I (current_in m)) in HS. unfold current_means. unfold current in HS |- *.
  destruct (mcur m) as [j|] eqn:Mc; [|exact HS]. destruct (current_perm m hs lk0 D j I Mc) as [Ic Ec]. unfold current in Ic, Ec. rewrite Mc in Ic, Ec.
  eexists. split; [exact Ic|]. split; [exact Ec|exact HS].
Qed.
End World.

Lemma W_quant_null w enum slot d1 d2 f g : reachable w -> arg (wh w) f -> arg (wh w) g -> cal_isnull f = true ->
  cal_exists enum slot d1 d2 (wm w) f = Ok (unull, wm w) /\ cal_forall enum slot d1 d2 (wm w) f = Ok (unull, wm w) /\
  cal_relprod enum slot d1 d2 (wm w) f g = Ok (unull, wm w) /\ cal_relprod enum slot d1 d2 (wm w) g f = Ok (unull, wm w).
Proof.
  intros R Af Ag Hn. destruct (W_inv w R) as [D I]. unfold cal_exists, cal_forall.
  rewrite !(quantify_null enum slot _ d1 d2 (wm w) (wh w) lk0 D f I Hn). split; auto. split; auto.
  split; apply (relprod_null enum slot d1 d2 (wm w) (wh w) lk0 D); auto.
Qed.

Lemma is_exists_unique S F E E' : is_exists S F E -> is_exists S F E' -> same E E'.
Proof. intros H H' rho. apply bool_iff. rewrite (H rho), (H' rho). tauto. Qed.
Lemma W_history w1 w2 f1 f2 F S : reachable w1 -> reachable w2 -> In f1 (wh w1) -> In f2 (wh w2) -> means (wm w1) f1 F -> means (wm w2) f2 F ->
  current_means (wm w1) S -> current_means (wm w2) S -> room_for_temporary (wm w1) -> room_for_temporary (wm w2) ->
  forall enum1 enum2 slot1 slot2 d1 d2 d3 d4, good_enum enum1 -> good_enum enum2 -> exists E, computes (wm w1) (cal_exists enum1 slot1 d1 d2 (wm w1) f1) E /\ computes (wm w2) (cal_exists enum2 slot2 d3 d4 (wm w2) f2) E.
Proof.
  intros R1 R2 I1 I2 M1 M2 C1 C2 T1 T2 enum1 enum2 slot1 slot2 d1 d2 d3 d4 He1 He2.
  destruct (W_exists w1 R1 f1 F S I1 M1 C1 T1) as (E1 & H1 & K1). destruct (W_exists w2 R2 f2 F S I2 M2 C2 T2) as (E2 & H2 & K2).
  exists E1. split; [now apply K1|]. eapply computes_ext; [|apply K2; assumption]. intros rho. symmetry. exact (is_exists_unique S F E1 E2 H1 H2 rho).
Qed.

Lemma P_exists : forall w f F S, reachable w -> In f (wh w) -> means (wm w) f F -> current_means (wm w) S ->
  room_for_temporary (wm w) ->
  exists E, is_exists S F E /\ forall enum slot d1 d2, good_enum enum -> computes (wm w) (cal_exists enum slot d1 d2 (wm w) f) E.
Proof. intros w f F S R If Mf Cs Rm. destruct (W_exists w R f F S If Mf Cs Rm) as (X & H & K). exists X. split; [exact H|intros; now apply K]. Qed.

Lemma P_forall : forall w f F S, reachable w -> In f (wh w) -> means (wm w) f F -> current_means (wm w) S ->
  room_for_temporary (wm w) ->
  exists E, is_forall S F E /\ forall enum slot d1 d2, good_enum enum -> computes (wm w) (cal_forall enum slot d1 d2 (wm w) f) E.
Proof. intros w f F S R If Mf Cs Rm. destruct (W_forall w R f F S If Mf Cs Rm) as (X & H & K). exists X. split; [exact H|intros; now apply K]. Qed.

Lemma P_relprod : forall w f g F G S, reachable w -> In f (wh w) -> In g (wh w) -> means (wm w) f F -> means (wm w) g G ->
  current_means (wm w) S -> room_for_temporary (wm w) ->
  exists E, is_exists S (fun rho => F rho && G rho) E /\ forall enum slot d1 d2, good_enum enum -> computes (wm w) (cal_relprod enum slot d1 d2 (wm w) f g) E.
Proof. intros w f g F G S R If Ig Mf Mg Cs Rm. destruct (W_relprod' w R f g F G S If Ig Mf Mg Cs Rm) as (X & H & K). exists X. split; [exact H|intros; now apply K]. Qed.

Lemma P_remembered : forall w f g F G S, reachable w -> In f (wh w) -> In g (wh w) -> means (wm w) f F -> means (wm w) g G ->
  current_means (wm w) S -> room_for_temporary (wm w) ->
  (exists E, forall enum slot d1 d2, good_enum enum -> computes (wm w) (cal_exists enum slot d1 d2 (wm w) f) E /\
     computes (forgetful (wm w)) (cal_exists enum slot d1 d2 (forgetful (wm w)) f) E) /\
  (exists E, forall enum slot d1 d2, good_enum enum -> computes (wm w) (cal_forall enum slot d1 d2 (wm w) f) E /\
     computes (forgetful (wm w)) (cal_forall enum slot d1 d2 (forgetful (wm w)) f) E) /\
  (exists E, forall enum slot d1 d2, good_enum enum -> computes (wm w) (cal_relprod enum slot d1 d2 (wm w) f g) E /\
     computes (forgetful (wm w)) (cal_relprod enum slot d1 d2 (forgetful (wm w)) f g) E).
Proof.
  intros w f g F G S R If Ig Mf Mg Cs Rm. split; [|split].
  - destruct (W_exists w R f F S If Mf Cs Rm) as (X & _ & K). exists X. exact K.
  - destruct (W_forall w R f F S If Mf Cs Rm) as (X & _ & K). exists X. exact K.
  - destruct (W_relprod' w R f g F G S If Ig Mf Mg Cs Rm) as (X & _ & K). exists X. exact K.
Qed.
