(** * Writing and reading as interface calls on the manager invariant. *)
From Coq Require Import Permutation Sorted QArith.
From Verif Require Import SpecRound Base BFModel ITEModel MgrModel ApiModel StoreInv Own EngInv ApplyProof BinopProof ReduceProof
  EngineProof OpProof MultiProof QProof GCProof VarProof MInv ApiProof ApiOps ApiStruct ApiVar ComposeProof GraphModel GraphProof GraphCube
  GraphFrac GraphMarks GraphSupp GraphFProf GraphSem GraphCall CodecModel CodecProof DumpModel DumpProof UndumpProof.
Open Scope N_scope.

(** Calls that change neither handles nor order. *)
Definition okept (m : mgr) (hs : list ubdd) (lk : N -> N) (D : den) (m' : mgr) (D' : den) : Prop :=
  kept m hs lk D m' D' /\ mo m' = mo m.
Lemma okept_refl m hs lk D : MInv m hs lk D -> okept m hs lk D m D.
Proof. intros I. split; [split; [auto|apply mext_refl]|auto]. Qed.
Lemma okept_trans m hs lk D m1 D1 m2 D2 : okept m hs lk D m1 D1 -> okept m1 hs lk D1 m2 D2 -> okept m hs lk D m2 D2.
Proof. intros [[I1 X1] O1] [[I2 X2] O2]. split; [split; [auto|eapply mext_trans; eauto]|congruence]. Qed.
Lemma okept_hv m hs lk D m1 D1 h : okept m hs lk D m1 D1 -> In h hs -> forall rho, hv m1 D1 h rho = hv m D h rho.
Proof. intros [[_ X] _] Ih rho. now apply (mx_h _ _ _ _ _ X). Qed.

Definition is_v (m : mgr) (D : den) (v : ubdd) (i : N) : Prop := forall rho, hv m D v rho = rho i.
Lemma is_v_kept m hs lk D m1 D1 v i : okept m hs lk D m1 D1 -> In v hs -> (is_v m1 D1 v i <-> is_v m D v i).
Proof. intros K Iv. unfold is_v. split; intros H rho; [rewrite <- (okept_hv m hs lk D m1 D1 v K Iv)|rewrite (okept_hv m hs lk D m1 D1 v K Iv)]; apply H. Qed.
Lemma is_v_inj m D v i j : is_v m D v i -> is_v m D v j -> i = j.
Proof.
  intros A B. destruct (N.eq_dec i j); auto. specialize (A (fun k => k =? i)). specialize (B (fun k => k =? i)).
  rewrite A in B. rewrite N.eqb_refl in B. destruct (N.eqb_spec j i); congruence.
Qed.
(** The edge behind a variable handle. *)
Lemma is_v_edge m hs lk D v i : MInv m hs lk D -> In v hs -> is_v m D v i -> In i (ord (mo m)) /\ uint (mmem m) v = mvb m i.
Proof.
  intros I Iv H. assert (Wo : wfo (mo m)) by apply I. pose proof (MI_swf _ _ _ _ I) as W. pose proof (MI_dok _ _ _ _ I) as K. pose proof (MI_int _ _ _ _ _ I Iv) as V.
  assert (L : isconst (uint (mmem m) v) = false /\ eid (uint (mmem m) v) = i).
  { destruct (literal_edge (mo m) D (st (me m)) Wo W K (uint (mmem m) v) i true V) as (A & B & _); auto. intros rho. rewrite (H rho). now destruct (rho i). }
  destruct L as [C Ei]. destruct (node_split (mo m) (st (me m)) Wo W _ V C) as (N0 & Io & _).
  assert (Ii : In i (ord (mo m))) by (rewrite <- Ei; auto).
  split; auto. destruct (var_dv m hs lk D i (fun _ => false) I Ii) as [Vi _].
  apply (canon (mo m) D (st (me m)) Wo W K); auto. intros rho. destruct (var_dv m hs lk D i rho I Ii) as [_ ->]. apply H.
Qed.
Lemma is_v_same m hs lk D v v' i : MInv m hs lk D -> In v hs -> In v' hs -> is_v m D v i -> is_v m D v' i -> forall rho, hv m D v rho = hv m D v' rho.
Proof. intros _ _ _ A B rho. rewrite A. symmetry. apply B. Qed.

Lemma type_order d m f t m' : cal_type d m f = Ok (t, m') -> mo m' = mo m.
Proof.
  unfold cal_type, query. destruct (preproc d m [f]) as [[ok m1]| |] eqn:P; try discriminate. apply preproc_order in P. cbn [obind]. destruct ok; cbn; intros [= _ <-]; auto.
Qed.
Lemma ret_order m r : mo (snd (ret m r)) = mo m.
Proof. unfold ret. now destruct (getext (st (me m)) r). Qed.
Lemma rets_order rs : forall m, mo (snd (rets m rs)) = mo m.
Proof.
  induction rs as [|r rs IH]; intros m; auto. cbn [rets]. pose proof (ret_order m r) as A. destruct (ret m r) as [h m1]. cbn in A.
  pose proof (IH m1) as B. destruct (rets m1 rs) as [hs m2]. cbn in *. congruence.
Qed.
Lemma support_order d m f x m' : cal_support d m f = Ok (x, m') -> mo m' = mo m.
Proof.
  unfold cal_support. destruct (preproc d m [f]) as [[ok m1]| |] eqn:P; try discriminate. apply preproc_order in P. cbn [obind]. destruct ok; cbn [negb]; [|intros [= _ <-]; auto].
  destruct (support_step _ _ _ _ _ _) as [[ids mk]|]; [|discriminate]. cbn [fueled obind]. destruct (unmark_nodes _ _ _ _ _) as [mk'|]; [|discriminate]. cbn [fueled obind].
  pose proof (rets_order (map (mvb m1) ids) m1) as B. destruct (rets m1 (map (mvb m1) ids)) as [hs m2]. cbn in B. intros [= _ <-]. congruence.
Qed.

Lemma all_posvar_spec vs : forall ds m hs lk D, MInv m hs lk D -> (forall v, In v vs -> In v hs) ->
  exists b m' D', all_posvar ds m vs = Ok (b, m') /\ okept m hs lk D m' D' /\ (b = true <-> forall v, In v vs -> exists i, is_v m D v i).
Proof.
  induction vs as [|v vs IH]; intros ds m hs lk D I Hv.
  { exists true, m, D. split; auto. split; [now apply okept_refl|]. split; auto. intros _ v []. }
  cbn [all_posvar]. destruct (type_spec (ds 0%nat) m hs lk D v I (Hv v (or_introl eq_refl))) as (t & m1 & D1 & E & K1 & _ & _ & _ & Tp & _).
  rewrite E. cbn [obind]. assert (O1 : okept m hs lk D m1 D1) by (split; auto; eapply type_order; eauto).
  destruct (N.eqb_spec t TYPE_POSVAR) as [Et|Et].
  - destruct (IH (fun k => ds (S k)) m1 hs lk D1 (proj1 K1)) as (b & m2 & D2 & E2 & K2 & Hb); [intros; apply Hv; now right|].
    exists b, m2, D2. split; auto. split; [eapply okept_trans; eauto|]. rewrite Hb. split.
    + intros H u [<-|Iu]; [now apply Tp|]. destruct (H u Iu) as [i Hi]. exists i. apply (is_v_kept m hs lk D m1 D1); auto. apply Hv. now right.
    + intros H u Iu. destruct (H u (or_intror Iu)) as [i Hi]. exists i. apply (is_v_kept m hs lk D m1 D1); auto. apply Hv. now right.
  - exists false, m1, D1. split; auto. split; auto. split; [discriminate|]. intros H. exfalso. apply Et, Tp. apply H. now left.
Qed.

Lemma var_index d m hs lk D v i : MInv m hs lk D -> In v hs -> is_v m D v i ->
  exists m' D', cal_ifindex d m v = Ok (idx (mo m) i, m') /\ okept m hs lk D m' D'.
Proof.
  intros I Iv Hi. destruct (pre1 d m hs lk D v I Iv) as (m1 & D1 & P & I1 & X1). pose proof (preproc_order _ _ _ _ _ P) as Om.
  assert (K1 : okept m hs lk D m1 D1) by (split; [split|]; auto).
  apply (is_v_kept m hs lk D m1 D1 v i K1 Iv) in Hi. destruct (is_v_edge m1 hs lk D1 v i I1 Iv Hi) as [Ii Ev].
  exists m1, D1. split; auto. unfold cal_ifindex. rewrite P. cbn [obind negb]. rewrite Ev.
  destruct (mi_var _ _ _ _ I1 i Ii) as (E & _). destruct (wfo_in _ i (mi_wfo _ _ _ _ I1) Ii) as [N0 _].
  assert (E2 : eid (mvb m1 i) = i) by now rewrite E. unfold isconst. rewrite E2. apply N.eqb_neq in N0. rewrite N0, Om. reflexivity.
Qed.

(** The array of normalized indexes. *)
Fixpoint nrm (o : order) (p : N) (ids : list N) (norm : N -> N) : N -> N :=
  match ids with [] => norm | i :: ids => nrm o (p + 1) ids (upd norm (idx o i) p) end.
Definition vlist (m : mgr) (D : den) (vs : list ubdd) (ids : list N) : Prop := Forall2 (is_v m D) vs ids.
Lemma vlist_kept m hs lk D m1 D1 vs ids : okept m hs lk D m1 D1 -> (forall v, In v vs -> In v hs) -> vlist m D vs ids -> vlist m1 D1 vs ids.
Proof.
  intros K Hv F. induction F; constructor.
  - apply (is_v_kept m hs lk D m1 D1); auto. apply Hv. now left.
  - apply IHF. intros; apply Hv; now right.
Qed.
Lemma vlist_in m hs lk D vs ids : MInv m hs lk D -> (forall v, In v vs -> In v hs) -> vlist m D vs ids -> forall i, In i ids -> In i (ord (mo m)).
Proof.
  intros I Hv F. induction F as [|v i vs ids Hvi F IH]; intros j Ij; [easy|]. destruct Ij as [<-|Ij].
  - apply (is_v_edge m hs lk D v i I); auto. apply Hv. now left.
  - apply IH; auto. intros; apply Hv; now right.
Qed.
Lemma vlist_ex m D vs : (forall v, In v vs -> exists i, is_v m D v i) -> exists ids, vlist m D vs ids.
Proof.
  induction vs as [|v vs IH]; intros H; [exists []; constructor|]. destruct (H v) as [i Hi]; [now left|]. destruct IH as [ids F]; [intros; apply H; now right|].
  exists (i :: ids). now constructor.
Qed.
Lemma vlist_len m D vs ids : vlist m D vs ids -> length vs = length ids.
Proof. induction 1; simpl; auto. Qed.
Lemma nodup_len (l : list N) o : wfo o -> NoDup l -> (forall i, In i l -> In i (ord o)) -> N.of_nat (length l) < 65535.
Proof.
  intros Wo ND H. pose proof (NoDup_incl_length ND H) as L. pose proof (wfo_len _ Wo) as B. unfold CONST_INDEX in B. lia.
Qed.

Lemma normalize_spec vs : forall ds m hs lk D ids pre norm, MInv m hs lk D -> (forall v, In v vs -> In v hs) -> vlist m D vs ids ->
  (forall i, In i pre -> In i (ord (mo m))) -> NoDup pre ->
  (forall x, norm x <> NOINDEX <-> In x (map (idx (mo m)) pre)) ->
  exists r m' D', normalize ds m vs (N.of_nat (length pre)) norm = Ok (r, m') /\ okept m hs lk D m' D' /\
    (NoDup (pre ++ ids) /\ r = Some (nrm (mo m) (N.of_nat (length pre)) ids norm) \/ ~ NoDup (pre ++ ids) /\ r = None).
Proof.
  induction vs as [|v vs IH]; intros ds m hs lk D ids pre norm I Hv F Hp ND Hn; inversion F as [|v' i vs' ids' Hi F']; subst.
  { exists (Some norm), m, D. split; auto. split; [now apply okept_refl|]. left. rewrite app_nil_r. auto. }
  cbn [normalize]. destruct (var_index (ds 0%nat) m hs lk D v i I (Hv v (or_introl eq_refl)) Hi) as (m1 & D1 & E & K1). rewrite E. cbn [obind].
  destruct (is_v_edge m hs lk D v i I (Hv v (or_introl eq_refl)) Hi) as [Ii _].
  assert (Wo : wfo (mo m)) by apply I.
  assert (Inj : In (idx (mo m) i) (map (idx (mo m)) pre) <-> In i pre).
  { rewrite in_map_iff. split; [|eauto]. intros (j & Ej & Ij). apply (wfo_inj (mo m)) in Ej; auto. congruence. }
  destruct (N.eqb_spec (norm (idx (mo m) i)) NOINDEX) as [En|En]; cbn [negb].
  - assert (Np : ~ In i pre). { rewrite <- Inj, <- Hn. tauto. }
    assert (ND' : NoDup (pre ++ [i])) by (apply nodup_app; auto; [constructor; [easy|constructor]|]; intros x Ix [<-|[]]; auto).
    assert (Lp : N.of_nat (length (pre ++ [i])) < 65535).
    { apply (nodup_len _ (mo m)); auto. intros x Ix. apply in_app_iff in Ix as [Ix|[<-|[]]]; auto. }
    rewrite app_length in Lp. cbn [length] in Lp. destruct K1 as [[I1 X1] O1].
    destruct (IH (fun k => ds (S k)) m1 hs lk D1 ids' (pre ++ [i]) (upd norm (idx (mo m) i) (N.of_nat (length pre)))) as (r & m2 & D2 & E2 & K2 & R); auto.
    + intros u Iu. apply Hv. now right.
    + apply (vlist_kept m hs lk D); [split; [split|]; auto|intros u Iu; apply Hv; now right|auto].
    + rewrite O1. intros x Ix. apply in_app_iff in Ix as [Ix|[<-|[]]]; auto.
    + rewrite O1. intros x. rewrite map_app, in_app_iff. cbn [map In]. unfold upd. destruct (N.eqb_spec x (idx (mo m) i)) as [->|Nx].
      * split; [auto|]. intros _. unfold NOINDEX. lia.
      * rewrite Hn. split; [auto|]. intros [H|[H|[]]]; auto. congruence.
    + assert (El : N.of_nat (length (pre ++ [i])) = N.of_nat (length pre) + 1) by (rewrite app_length; cbn [length]; lia).
      rewrite El in E2, R. rewrite O1 in R. exists r, m2, D2. split; [exact E2|]. split; [eapply okept_trans; [split; [split|]|]; eauto|].
      rewrite <- app_assoc in R. exact R.
  - exists None, m1, D1. split; auto. split; auto. right. split; auto. intros Q. apply NoDup_remove_2 in Q. apply Q. apply in_app_iff. left. rewrite <- Inj, <- Hn. exact En.
Qed.
Lemma nrm_other o ids : forall p norm x, ~ In x (map (idx o) ids) -> nrm o p ids norm x = norm x.
Proof.
  induction ids as [|i ids IH]; intros p norm x H; [reflexivity|]. cbn [nrm]. rewrite IH; [|intros Q; apply H; now right]. unfold upd. destruct (N.eqb_spec x (idx o i)) as [->|]; auto.
  exfalso. apply H. now left.
Qed.
Lemma nrm_at o ids : wfo o -> (forall i, In i ids -> In i (ord o)) -> NoDup ids -> forall p norm k i, nth_error ids k = Some i -> nrm o p ids norm (idx o i) = p + N.of_nat k.
Proof.
  intros Wo. induction ids as [|j ids IH]; intros Hi ND p norm k i Hk; [now destruct k|]. inversion ND as [|? ? Nj ND']; subst. cbn [nrm]. destruct k as [|k].
  - injection Hk as ->. rewrite nrm_other; [unfold upd; rewrite N.eqb_refl; lia|]. intros Q. apply in_map_iff in Q as (i' & E & I'). apply (wfo_inj o) in E; [congruence|auto|apply Hi; now right|apply Hi; now left].
  - rewrite (IH (fun x Ix => Hi x (or_intror Ix)) ND' (p + 1) _ k i Hk). lia.
Qed.
Lemma all_listed_spec vs : forall ds m hs lk D ids norm, MInv m hs lk D -> (forall v, In v vs -> In v hs) -> vlist m D vs ids ->
  exists b m' D', all_listed ds m vs norm = Ok (b, m') /\ okept m hs lk D m' D' /\ (b = true <-> forall i, In i ids -> norm (idx (mo m) i) <> NOINDEX).
Proof.
  induction vs as [|v vs IH]; intros ds m hs lk D ids norm I Hv F; inversion F as [|v' i vs' ids' Hi F']; subst.
  { exists true, m, D. split; auto. split; [now apply okept_refl|]. split; [intros _ i []|auto]. }
  cbn [all_listed]. destruct (var_index (ds 0%nat) m hs lk D v i I (Hv v (or_introl eq_refl)) Hi) as (m1 & D1 & E & K1). rewrite E. cbn [obind].
  destruct (N.eqb_spec (norm (idx (mo m) i)) NOINDEX) as [En|En].
  - exists false, m1, D1. split; auto. split; auto. split; [discriminate|]. intros H. exfalso. apply (H i); auto. now left.
  - pose proof K1 as [[I1 X1] O1]. destruct (IH (fun k => ds (S k)) m1 hs lk D1 ids' norm I1) as (b & m2 & D2 & E2 & K2 & Hb).
    + intros u Iu. apply Hv. now right.
    + apply (vlist_kept m hs lk D m1 D1); auto. intros u Iu. apply Hv. now right.
    + exists b, m2, D2. split; auto. split; [eapply okept_trans; eauto|]. rewrite Hb, O1. split; intros H j; [intros [<-|Ij]; auto|intros Ij; apply H; now right].
Qed.

(** ** Writing *)

(** Bytes that describe the function [g] of the numbers of the listed variables. *)
Definition coded (nv : N) (b : list N) (g : nf) : Prop :=
  exists sc g' sh' ns, b = dwrite 8 MAGIC ++ dwrite 2 nv ++ dwrite 8 ns ++ enc (bytes_needed (nv + 1)) (bytes_needed ns) sc /\
    play sc [] = Some (g', sh') /\ length sh' = N.to_nat ns /\ (forall r, g' r = g r) /\ within_bounds nv ns sc.

Definition dependsF (F : (N -> bool) -> bool) (i : N) : Prop := exists rho, F (flip rho i true) <> F (flip rho i false).

Lemma dump_spec d0 d1 ds1 ds2 ds3 m hs lk D f vs : MInv m hs lk D -> In f hs -> (forall v, In v vs -> In v hs) ->
  exists r sup m' D', cal_dump d0 d1 ds1 ds2 ds3 m f vs = Ok ((r, sup), m') /\ mext hs m D m' D' /\ MInv m' (sup ++ hs) lk D' /\ mo m' = mo m /\
    match r with
    | Some b => exists ids, vlist m D vs ids /\ NoDup ids /\ (forall i, dependsF (hv m D f) i -> In i ids) /\
        exists p, (forall k i, nth_error ids k = Some i -> p i = N.of_nat k) /\ N.of_nat (length vs) < 2 ^ 16 /\
          coded (N.of_nat (length vs)) b (fun r => hv m D f (fun i => r (p i)))
    | None => ~ exists ids, vlist m D vs ids /\ NoDup ids /\ forall i, dependsF (hv m D f) i -> In i ids
    end.
Proof.
  intros I If Hv. unfold cal_dump. rewrite (upto_null_live m hs lk D vs I Hv).
  destruct (pre1 d0 m hs lk D f I If) as (m0 & D0 & P & I0 & X0). pose proof (preproc_order _ _ _ _ _ P) as O0. rewrite P. cbn [obind negb].
  assert (K0 : okept m hs lk D m0 D0) by (split; [split|]; auto).
  destruct (all_posvar_spec vs ds1 m0 hs lk D0 I0 Hv) as (ok1 & m1 & D1 & E1 & K1 & Hok1). rewrite E1. cbn [obind].
  assert (K01 : okept m hs lk D m1 D1) by (eapply okept_trans; eauto).
  assert (Vk : forall m' D' ids, okept m hs lk D m' D' -> (vlist m' D' vs ids <-> vlist m D vs ids)).
  { intros m' D' ids K'. split; [|apply (vlist_kept m hs lk D m' D'); auto]. intros Fv. unfold vlist in *. clear - Fv K' Hv.
    induction Fv; constructor; [apply (is_v_kept m hs lk D m' D'); auto; apply Hv; now left|]. apply IHFv. intros; apply Hv; now right. }
  assert (uniq : forall ids ids', vlist m D vs ids -> vlist m D vs ids' -> ids = ids').
  { clear. intros ids ids' A. revert ids'. induction A; intros ids' B; inversion B; subst; auto. f_equal; eauto using is_v_inj. }
  destruct ok1; cbn [negb].
  2:{ exists None, [], m1, D1. destruct K01 as [[I1 X1] O1]. split; auto. split; auto. split; auto. split; auto. intros (ids & Fv & _). assert (false = true); [|discriminate]. apply Hok1.
      intros v Iv. clear - Iv Fv Hv K0. assert (G : exists i, is_v m D v i). { induction Fv; [easy|]. destruct Iv as [<-|Iv]; eauto. apply IHFv; auto. intros; apply Hv; now right. }
      destruct G as [i Hi]. exists i. apply (is_v_kept m hs lk D m0 D0); auto. }
  assert (Ex : exists ids, vlist m D vs ids).
  { apply vlist_ex. intros v Iv. destruct (proj1 Hok1 eq_refl v Iv) as [i Hi]. exists i. apply (is_v_kept m hs lk D m0 D0); auto. }
  destruct Ex as [ids Fv].
  assert (Fv1 : vlist m1 D1 vs ids) by now apply Vk.
  destruct (normalize_spec vs ds2 m1 hs lk D1 ids [] (fun _ => NOINDEX) (proj1 (proj1 K01)) Hv Fv1) as (nm & m2 & D2 & E2 & K2 & Rn).
  { intros i []. } { constructor. } { intros x. cbn. tauto. }
  cbn [length] in E2. change (N.of_nat 0) with 0 in E2. rewrite E2. cbn [obind]. cbn [app length] in Rn. assert (K02 : okept m hs lk D m2 D2) by (eapply okept_trans; eauto).
  destruct Rn as [[ND ->]|[ND ->]].
  2:{ exists None, [], m2, D2. destruct K02 as [[I2 X2] O2]. split; auto. split; auto. split; auto. split; auto. intros (ids' & Fv' & ND' & _). apply ND. now rewrite (uniq ids ids'). }
  set (norm := nrm (mo m1) (N.of_nat 0) ids (fun _ => NOINDEX)).
  assert (Oi : forall i, In i ids -> In i (ord (mo m))) by (eapply vlist_in; eauto).
  assert (Wo : wfo (mo m)) by apply I. assert (Om1 : mo m1 = mo m) by apply K01. assert (Om2 : mo m2 = mo m) by apply K02.
  assert (Nat_ : forall k i, nth_error ids k = Some i -> norm (idx (mo m) i) = N.of_nat k).
  { intros k i Hk. unfold norm. rewrite Om1. rewrite (nrm_at (mo m) ids Wo Oi ND _ _ k i Hk). lia. }
  assert (Nin : forall i, In i (ord (mo m)) -> (norm (idx (mo m) i) <> NOINDEX <-> In i ids)).
  { intros i Ii. split.
    - intros Q. destruct (in_dec N.eq_dec i ids) as [|Ni]; auto. exfalso. apply Q. unfold norm. rewrite Om1. rewrite nrm_other; auto.
      intros Q'. apply in_map_iff in Q' as (j & Ej & Ij). apply (wfo_inj (mo m)) in Ej; auto. congruence.
    - intros Q. apply In_nth_error in Q as [k Hk]. rewrite (Nat_ k i Hk). pose proof (nodup_len ids (mo m) Wo ND Oi). assert (k < length ids)%nat by (apply nth_error_Some; congruence). unfold NOINDEX. lia. }
  destruct (support_spec d1 m2 hs lk D2 f (proj1 (proj1 K02)) If) as (sids & sup & mk & m3 & D3 & E3 & X3 & I3 & _ & NDs & Hs & Fs).
  pose proof (support_order _ _ _ _ _ E3) as Om3. rewrite E3. cbn [obind].
  assert (X03 : mext hs m D m3 D3) by (eapply mext_trans; [apply K02|exact X3]).
  assert (Hin : forall v, In v sup -> In v (sup ++ hs)) by (intros; apply in_app_iff; auto).
  destruct (all_listed_spec sup ds3 m3 (sup ++ hs) lk D3 sids norm I3 Hin Fs) as (ok3 & m4 & D4 & E4 & [[I4 X4] O4] & Hok3).
  rewrite E4. cbn [obind].
  assert (X04 : mext hs m D m4 D4) by (eapply mext_trans; [exact X03|]; eapply mext_sub; [|exact X4]; intros; apply in_app_iff; auto).
  assert (Om4 : mo m4 = mo m) by congruence.
  assert (Hsd : forall i, In i sids <-> dependsF (hv m D f) i).
  { intros i. rewrite Hs. unfold dependsF. split; intros [rho Q]; exists rho.
    - rewrite <- !(okept_hv m hs lk D m2 D2 f K02 If). exact Q. - rewrite !(okept_hv m hs lk D m2 D2 f K02 If). exact Q. }
  assert (Os : forall i, In i sids -> In i (ord (mo m))) by (intros i Ii; rewrite <- Om2, <- Om3; eapply (vlist_in m3 (sup ++ hs) lk D3 sup); eauto).
  destruct ok3; cbn [negb].
  2:{ exists None, sup, m4, D4. split; auto. split; auto. split; auto. split; auto. intros (ids' & Fv' & _ & Cv). assert (false = true); [|discriminate]. apply Hok3.
      intros i Ii. rewrite Om3, Om2. apply Nin; auto. rewrite (uniq ids ids'); auto. apply Cv. now apply Hsd. }
  assert (Cov : forall i, dependsF (hv m D f) i -> In i ids).
  { intros i Hi. apply Hsd in Hi. apply Nin; auto. pose proof (proj1 Hok3 eq_refl i Hi) as Q. now rewrite Om3, Om2 in Q. }
  assert (If4 : In f (sup ++ hs)) by (apply in_app_iff; auto).
  assert (Wo4 : wfo (mo m4)) by apply I4. pose proof (MI_swf _ _ _ _ I4) as W4. pose proof (MI_dok _ _ _ _ I4) as K4. pose proof (MI_int _ _ _ _ _ I4 If4) as V4.
  assert (Hf : forall rho, dv D4 (uint (mmem m4) f) rho = hv m D f rho) by (intros rho; now apply (mx_h _ _ _ _ _ X04)).
  assert (Ln : N.of_nat (length ids) < 65535) by (apply (nodup_len ids (mo m)); auto). pose proof (vlist_len _ _ _ _ Fv) as Lv.
  destruct (dump_bytes_spec (mo m4) D4 (st (me m4)) norm (N.of_nat (length vs)) (uint (mmem m4) f) Wo4 W4 K4 V4) as (sc & g & sh' & ns & Eb & Pl & Ls & Gr & Wb).
  { intros x Sx Cx. assert (Ix : In (eid x) ids).
    { apply Cov. pose proof (sub_V _ _ Wo4 W4 _ x V4 Sx) as Vx. destruct (node_split (mo m4) (st (me m4)) Wo4 W4 x Vx Cx) as (_ & Iox & _).
      destruct (proj2 (dep_iff (mo m4) D4 (st (me m4)) Wo4 W4 K4 (uint (mmem m4) f) (eid x) V4 Iox)) as [rho Q]; [exists x; auto|].
      exists rho. now rewrite <- !Hf. }
    apply In_nth_error in Ix as [k Hk]. rewrite Om4, (Nat_ k _ Hk). assert (k < length ids)%nat by (apply nth_error_Some; congruence). lia. }
  change (mem (st (me m4))) with (mmem m4) in Eb. rewrite Eb. cbn [fueled obind].
  eexists _, sup, m4, D4. split; [reflexivity|]. split; auto. split; auto. split; auto. cbv beta iota.
  exists ids. split; auto. split; auto. split; auto. exists (fun i => norm (idx (mo m) i)). split; [exact Nat_|]. split; [lia|].
  exists sc, g, sh', ns. split; [reflexivity|]. split; auto. split; auto. split; auto. intros r. rewrite Gr. unfold sem. rewrite Om4. apply Hf.
Qed.
Lemma dump_null d0 d1 ds1 ds2 ds3 m hs lk D f vs : MInv m hs lk D -> uisnull f = true -> cal_dump d0 d1 ds1 ds2 ds3 m f vs = Ok ((None, []), m).
Proof.
  intros I Hn. unfold cal_dump. rewrite (preproc_null d0 m hs lk D [f] I); [reflexivity|intros j [<-|[]]; now left|exists f; simpl; auto].
Qed.

(** ** Reading *)
Section Read.
Variable enum : memory -> list N -> list N.
Hypothesis enum_perm : forall m l, Permutation (enum m l) l.
Variables (m : mgr) (hs : list ubdd) (lk : N -> N) (D : den).
Hypothesis I : MInv m hs lk D.
Let x0 := xr m hs lk.

(** What is left to do after the last byte (/repo/src/calDump.c:163-187). *)
Definition undump_tail (ns : N) (r : option edge) (s : ust) : outcome (undumped * mgr) :=
  let en := release (us_en s) (us_sh s) in
  let err := if (us_err s =? 0) && negb (us_n s =? ns) then E_FORMAT else us_err s in
  match r with
  | None => Ok (UD unull err (us_in s), set_eng m en)
  | Some e =>
      let en1 := set_st en (dcr (st en) e) in
      if negb (err =? 0) then Ok (UD unull err (us_in s), set_eng m en1)
      else let '(h, m2) := ret (set_eng m en1) e in Ok (UD h 0 (us_in s), m2)
  end.
Lemma U_start : UInv (mo m) x0 D (me m) [].
Proof. split; [|intros e []]. eapply QS_x_ext; [|apply I]. intros b. cbn. unfold x0. lia. Qed.
Lemma U_end D' en : sext (st (me m)) D (st en) D' -> UInv (mo m) x0 D' en [] -> MInv (set_me m en) hs lk D' /\ mext hs m D (set_me m en) D'.
Proof.
  intros X [Q _]. split.
  - eapply MInv_gen; eauto; [eapply QS_x_ext; [|exact Q]; intros b; cbn; unfold x0; lia|]. intros h Ih. eapply sext_uok; [exact X|]. now apply I.
  - eapply mext_gen; eauto.
Qed.
Lemma tail_spec ns r s D' : sext (st (me m)) D (st (us_en s)) D' -> UInv (mo m) x0 D' (us_en s) (lst r ++ map snd (us_sh s) ++ []) -> good_err s r ->
  exists h err m' D2, undump_tail ns r s = Ok (UD h err (us_in s), m') /\ mext hs m D m' D2 /\ mo m' = mo m /\
    ((err = E_FORMAT \/ err = E_OVERFLOW \/ err = E_EOF) /\ h = unull /\ MInv m' hs lk D2 /\ (r = None \/ us_n s <> ns) \/
     err = 0 /\ MInv m' (h :: hs) lk D2 /\ us_n s = ns /\ exists e, r = Some e /\ forall rho, hv m' D2 h rho = dv D' e rho).
Proof.
  intros X U G. unfold undump_tail, set_eng.
  assert (U1 : UInv (mo m) x0 D' (us_en s) (map snd (us_sh s) ++ lst r)).
  { eapply U_perm; [|exact U]. rewrite app_nil_r. apply Permutation_app_comm. }
  destruct (release_spec _ _ _ _ _ _ U1) as [U2 X2]. set (en := release (us_en s) (us_sh s)) in *.
  assert (X3 : sext (st (me m)) D (st en) D') by (eapply sext_trans; eauto).
  destruct r as [e|]; cbn [lst] in U2; cbn [good_err] in G.
  - assert (Ve : vedge (nodeR (st en)) e) by (apply (U_V _ _ D' en [e] e U2); now left).
    apply U_dcr in U2. set (en1 := set_st en (dcr (st en) e)) in *.
    assert (X4 : sext (st en) D' (st en1) D') by apply sext_dcr.
    assert (X5 : sext (st (me m)) D (st en1) D') by (eapply sext_trans; eauto).
    destruct (U_end D' en1 X5 U2) as [I1 M1]. rewrite G. change (0 =? 0) with true. cbn [andb].
    destruct (N.eqb_spec (us_n s) ns) as [En|En]; cbn [negb].
    + change (0 =? 0) with true. cbn [negb]. destruct (ret (set_me m en1) e) as [h m2] eqn:R.
      assert (Ve1 : vedge (nodeR (st en1)) e) by exact (sext_vedge _ _ _ _ e X4 Ve).
      destruct (ret_spec _ hs lk D' e h m2 I1 Ve1 R) as (D2 & I2 & M2 & _ & _ & E2).
      exists h, 0, m2, D2. split; auto. split; [eapply mext_trans; eauto|]. split.
      * pose proof (ret_order (set_me m en1) e) as Q. rewrite R in Q. exact Q.
      * right. split; auto. split; auto. split; auto. exists e. split; auto.
    + change (E_FORMAT =? 0) with false. cbn [negb]. exists unull, E_FORMAT, (set_me m en1), D'. split; auto. split; auto. split; auto. left. auto.
  - destruct (U_end D' en X3 U2) as [I1 M1].
    assert (N0 : us_err s <> 0) by (destruct G as [G|[G|G]]; rewrite G; discriminate). apply N.eqb_neq in N0. rewrite N0. cbn [andb].
    exists unull, (us_err s), (set_me m en), D'. split; auto. split; auto. split; auto. left. auto.
Qed.
End Read.

Lemma undump_eq enum ds m vs inp : cal_undump enum ds m vs inp =
  obind (all_posvar ds m (upto_null vs)) (fun '(ok, m1) =>
    if negb ok then Ok (UD unull 0 inp, m1)
    else match dread 8 inp with
      | None => Ok (UD unull E_EOF [], m1)
      | Some (magic, i1) =>
          if negb (magic =? MAGIC) then Ok (UD unull E_FORMAT i1, m1)
          else match dread 2 i1 with
          | None => Ok (UD unull E_EOF [], m1)
          | Some (nv, i2) =>
              if negb (nv =? N.of_nat (length (upto_null vs))) then Ok (UD unull E_FORMAT i2, m1)
              else match dread 8 i2 with
              | None => Ok (UD unull E_EOF [], m1)
              | Some (ns, i3) =>
                  if 2 ^ 63 <=? ns then Ok (UD unull E_FORMAT i3, m1)
                  else match undump_step enum (mo m1) (map (uint (mmem m1)) (upto_null vs)) ns (bytes_needed (nv + 1)) (bytes_needed ns) (S (length i3)) (US (me m1) [] 0 i3 0) with
                    | NoFuel | Overrun => Undefined
                    | Res r s => undump_tail m1 ns r s
                    end
              end
          end
      end).
Proof. reflexivity. Qed.

Lemma bytes_pos n : (1 <= bytes_needed n)%nat.
Proof. unfold bytes_needed. destruct (n <=? 256); [lia|]. destruct (n <=? 65536); [lia|]. destruct (n <=? 16777216); lia. Qed.

Lemma vars_ok_of m hs lk D vs ids : MInv m hs lk D -> (forall v, In v vs -> In v hs) -> vlist m D vs ids ->
  vars_ok (xr m hs lk) (map (uint (mmem m)) vs) (st (me m)).
Proof.
  intros I Hv F e Ie. apply in_map_iff in Ie as (v & <- & Iv). split; [eapply MI_int; eauto|].
  assert (G : exists i, is_v m D v i) by (clear - F Iv; induction F; [easy|]; destruct Iv as [<-|Iv]; eauto). destruct G as [i Hi].
  destruct (is_v_edge m hs lk D v i I (Hv v Iv) Hi) as [Ii ->]. unfold xr.
  rewrite (perm_in m (eptr (mvb m i))); [lia|]. right. apply in_map_iff. eauto.
Qed.

Lemma dread_skip b i n r : dread b i = Some (n, r) -> r = skipn b i.
Proof.
  unfold dread. generalize 0. revert i. induction b as [|b IH]; intros i acc H; [now injection H as _ <-|]. destruct i as [|c i]; [discriminate|]. cbn [dread_aux skipn] in *. eapply IH; eauto.
Qed.
Lemma dread_skip_len b i n r : dread b i = Some (n, r) -> (length r <= length i)%nat.
Proof. intros H. unfold dread in H. apply dread_aux_len in H. lia. Qed.

(** What reading can do, whatever the input. *)
Lemma undump_spec enum ds m hs lk D vs inp : (forall m l, Permutation (enum m l) l) -> MInv m hs lk D -> (forall v, In v vs -> In v hs) ->
  match cal_undump enum ds m vs inp with
  | Ok (u, m') => exists D', mext hs m D m' D' /\ mo m' = mo m /\
      ((ud_h u = unull /\ MInv m' hs lk D' /\
         (ud_err u = 0 /\ ~ (forall v, In v vs -> exists i, is_v m D v i) \/ ud_err u = E_FORMAT \/ ud_err u = E_OVERFLOW \/ ud_err u = E_EOF)) \/
       ud_err u = 0 /\ MInv m' (ud_h u :: hs) lk D')
  | Undefined => exists ns i3, dread 8 (skipn 10 inp) = Some (ns, i3) /\ ns < N.of_nat (length i3)
  | Fatal => False
  end.
Proof.
  intros Hp I Hv. rewrite undump_eq. rewrite (upto_null_live m hs lk D vs I Hv).
  destruct (all_posvar_spec vs ds m hs lk D I Hv) as (ok & m1 & D1 & E1 & K1 & Hok). rewrite E1. cbn [obind]. pose proof K1 as [[I1 X1] O1].
  assert (Bad : forall err rest, err = 0 /\ ~ (forall v, In v vs -> exists i, is_v m D v i) \/ err = E_FORMAT \/ err = E_OVERFLOW \/ err = E_EOF ->
    exists D', mext hs m D m1 D' /\ mo m1 = mo m /\ ((ud_h (UD unull err rest) = unull /\ MInv m1 hs lk D' /\
         (ud_err (UD unull err rest) = 0 /\ ~ (forall v, In v vs -> exists i, is_v m D v i) \/ ud_err (UD unull err rest) = E_FORMAT \/ ud_err (UD unull err rest) = E_OVERFLOW \/ ud_err (UD unull err rest) = E_EOF)) \/
       ud_err (UD unull err rest) = 0 /\ MInv m1 (ud_h (UD unull err rest) :: hs) lk D')).
  { intros err rest He. exists D1. split; auto. }
  destruct ok; cbn [negb].
  2:{ apply Bad. left. split; auto. intros Q. apply Hok in Q. discriminate. }
  destruct (dread 8 inp) as [[magic i1]|] eqn:R1; [|apply Bad; auto]. destruct (magic =? MAGIC); cbn [negb]; [|apply Bad; auto].
  destruct (dread 2 i1) as [[nv i2]|] eqn:R2; [|apply Bad; auto]. destruct (N.eqb_spec nv (N.of_nat (length vs))) as [Env|]; cbn [negb]; [|apply Bad; auto].
  destruct (dread 8 i2) as [[ns i3]|] eqn:R3; [|apply Bad; auto]. destruct (2 ^ 63 <=? ns); [apply Bad; auto|].
  destruct (vlist_ex m D vs (proj1 Hok eq_refl)) as [ids Fv]. apply (vlist_kept m hs lk D m1 D1) in Fv; auto.
  pose proof (vars_ok_of m1 hs lk D1 vs ids I1 Hv Fv) as Vo.
  pose proof (undump_gen (mo m1) (xr m1 hs lk) (mi_wfo _ _ _ _ I1) enum Hp (map (uint (mmem m1)) vs) ns (bytes_needed (nv + 1)) (bytes_needed ns) (bytes_pos _) (S (length i3)) (US (me m1) [] 0 i3 0) D1 []) as G.
  cbn [us_in us_en us_sh us_n us_err map app] in G. specialize (G ltac:(lia) (or_introl eq_refl) Vo (U_start m1 hs lk D1 I1)).
  destruct (undump_step _ _ _ _ _ _ _ _) as [r s| |]; [|exists ns, i3|contradiction].
  - destruct G as (D' & X & U & _ & _ & _ & Ge). destruct (tail_spec m1 hs lk D1 I1 ns r s D' X U Ge) as (h & err & m' & D2 & E & M2 & O2 & Cs).
    rewrite E. exists D2. split; [eapply mext_trans; eauto|]. split; [congruence|]. cbn [ud_h ud_err]. destruct Cs as [(He & -> & I2 & _)|(-> & I2 & _)]; auto.
  - split; [|lia]. apply dread_skip in R1. apply dread_skip in R2. rewrite <- R3. f_equal. rewrite R2, R1. clear. do 10 (destruct inp as [|? inp]; [reflexivity|]). reflexivity.
Qed.

(** Reading what was written. *)
Lemma enc_labels isz nsz sc : forall sh g sh', play sc sh = Some (g, sh') -> (length sh' <= length sh + length (enc isz nsz sc))%nat.
Proof.
  induction sc as [b|b k|b j|j0 s IH|k t IHt e IHe]; intros sh g sh'; cbn [play enc].
  - intros [= <- <-]; lia. - intros [= <- <-]; lia.
  - destruct (nth_error sh (N.to_nat j)) as [[g0|]|]; [|discriminate|discriminate]. intros [= <- <-]; lia.
  - destruct (play s (sh ++ [None])) as [[g1 sh1]|] eqn:E; [|discriminate]. intros [= <- <-]. apply IH in E. rewrite app_length in E. cbn in E. rewrite set_at_length.
    unfold code. rewrite app_length, dwrite_len. lia.
  - destruct (play t sh) as [[g1 sh1]|] eqn:E1; [|discriminate]. destruct (play e sh1) as [[g2 sh2]|] eqn:E2; [|discriminate]. intros [= <- <-].
    apply IHt in E1. apply IHe in E2. rewrite !app_length. lia.
Qed.
Lemma undump_coded enum ds m hs lk D vs ids b g rest : (forall m l, Permutation (enum m l) l) -> MInv m hs lk D -> (forall v, In v vs -> In v hs) -> vlist m D vs ids ->
  N.of_nat (length vs) < 2 ^ 16 -> coded (N.of_nat (length vs)) b g -> N.of_nat (length b) <= 2 ^ 32 ->
  exists h m' D', cal_undump enum ds m vs (b ++ rest) = Ok (UD h 0 rest, m') /\ mext hs m D m' D' /\ MInv m' (h :: hs) lk D' /\
    forall rho, hv m' D' h rho = g (fun k => rho (nth (N.to_nat k) ids 0)).
Proof.
  intros Hp I Hv Fv Ln (sc & g' & sh' & ns & Eb & Pl & Ls & Gr & Wb) Lb.
  assert (Ns : N.of_nat (length sh') <= 2 ^ 32).
  { pose proof (enc_labels (bytes_needed (N.of_nat (length vs) + 1)) (bytes_needed ns) _ _ _ _ Pl) as Q. cbn [length] in Q.
    assert (length (enc (bytes_needed (N.of_nat (length vs) + 1)) (bytes_needed ns) sc) <= length b)%nat by (rewrite Eb, !app_length; lia). lia. }
  assert (Ens : N.of_nat (length sh') = ns) by lia. rewrite Ens in Ns.
  rewrite undump_eq. rewrite (upto_null_live m hs lk D vs I Hv).
  destruct (all_posvar_spec vs ds m hs lk D I Hv) as (ok & m1 & D1 & E1 & K1 & Hok). rewrite E1. cbn [obind]. pose proof K1 as [[I1 X1] O1].
  assert (ok = true) as ->.
  { apply Hok. intros v Iv. clear - Fv Iv. induction Fv; [easy|]. destruct Iv as [<-|Iv]; eauto. }
  cbn [negb]. rewrite Eb, <- !app_assoc. rewrite read_write by reflexivity. change (MAGIC =? MAGIC) with true. cbn [negb].
  rewrite read_write by (change (256 ^ N.of_nat 2) with (2 ^ 16); lia). rewrite N.eqb_refl. cbn [negb].
  rewrite read_write by (change (256 ^ N.of_nat 8) with (2 ^ 64); lia). destruct (N.leb_spec (2 ^ 63) ns); [lia|].
  pose proof (vlist_kept m hs lk D m1 D1 vs ids K1 Hv Fv) as Fv1.
  pose proof (vars_ok_of m1 hs lk D1 vs ids I1 Hv Fv1) as Vo.
  set (isz := bytes_needed (N.of_nat (length vs) + 1)). set (nsz := bytes_needed ns). set (inp := enc isz nsz sc ++ rest).
  set (vars := map (uint (mmem m1)) vs). assert (Lv : length vars = length vs) by apply map_length.
  assert (Vsem : vars_sem vars (fun k => nth (N.to_nat k) ids 0) D1).
  { intros k v Nk rho. unfold vars in Nk. rewrite nth_error_map in Nk. destruct (nth_error vs (N.to_nat k)) as [u|] eqn:Nu; [|discriminate]. injection Nk as <-.
    clear - Fv1 Nu. cbv beta. revert Nu. generalize (N.to_nat k). clear k. intros k. revert k.
    induction Fv1; intros [|k] Nu; try discriminate; cbn in *; [injection Nu as ->; apply H|auto]. }
  destruct (undump_sem (mo m1) (xr m1 hs lk) (mi_wfo _ _ _ _ I1) enum Hp vars ns isz nsz (bytes_pos _) (fun k => nth (N.to_nat k) ids 0)) with
    (sc := sc) (fuel := S (length inp)) (s := US (me m1) [] 0 inp 0) (D := D1) (l := @nil edge) (sh := @nil (option nf)) (g := g') (sh' := sh') (rest := rest)
    as (e & s' & D' & St & A1 & A2 & A3 & A4 & A5 & A6 & A7); cbn [us_en us_sh us_n us_in us_err]; auto; try (rewrite Lv; auto); try lia.
  { intros j g0 Nj. destruct j; discriminate. } { apply U_start. exact I1. }
  fold vars. fold isz nsz. rewrite St. cbn [us_en] in A4.
  destruct (tail_spec m1 hs lk D1 I1 ns (Some e) s' D' A4 A5) as (h & err & m' & D2 & E & M2 & O2 & Cs).
  { red. exact A1. }
  destruct Cs as [(_ & _ & _ & [Q|Q])|(-> & I2 & _ & e' & Ee & He)]; [discriminate|lia|]. injection Ee as <-.
  exists h, m', D2. rewrite E, A2. split; auto. split; [eapply mext_trans; eauto|]. split; auto. intros rho. rewrite He, A7, Gr. reflexivity.
Qed.
