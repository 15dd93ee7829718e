(** * C++ operations on ranges: proofs. *)
From Coq Require Import Permutation ZArith.
From Verif Require Import Base BFModel ITEModel MgrModel ApiModel OpProof StoreInv MInv ApiProof ApiOps ApiVar AssocModel SpecApi WorldProof ApiLemmas Client
  CppModel SpecCpp CppProof RangeModel SpecRange.

(** ** Names for temporaries *)
Lemma get_none k (os : objects) : ~ In k (map fst os) -> obj_get k os = None.
Proof. induction os as [|(j, x) os IH]; simpl; auto. intros H. destruct (Nat.eqb_spec j k); [exfalso; auto|]. apply IH. auto. Qed.
Lemma get_some_in k h (os : objects) : obj_get k os = Some h -> In k (map fst os).
Proof. intros H. destruct (in_dec Nat.eq_dec k (map fst os)) as [|N]; auto. rewrite (get_none k os N) in H. discriminate. Qed.
Lemma names_above (l : list nat) : exists b, forall k, In k l -> (k < b)%nat.
Proof.
  induction l as [|x l [b IH]]; [exists 0%nat; intros k []|]. exists (Datatypes.S (Nat.max x b)). intros k [<-|H]; [lia|]. specialize (IH k H). lia.
Qed.

(** ** Copies of the elements *)
Definition gives (c : cpp) (m1 : mgr) (l : list ubdd) (b : nat) : Prop :=
  exists ts, map snd ts = l /\ NoDup (map fst ts) /\ (forall k, In k (map fst ts) -> (b <= k)%nat) /\
    program (m1, rev ts ++ snd c) /\ undisturbed c m1.

Lemma undisturbed_refl c : undisturbed c (fst c).
Proof. intros k g G _ _ H. exact H. Qed.
Lemma undisturbed_graph c m m' : undisturbed c m -> same_graph m m' -> undisturbed c m'.
Proof. intros H S k g G A B C. exact (means_graph _ _ _ _ S (H k g G A B C)). Qed.

Lemma load_bdds_gen l : forall ks m os b, program (m, os) -> are_held os ks l -> (forall k, In k (map fst os) -> (k < b)%nat) ->
  exists ts, map snd ts = l /\ NoDup (map fst ts) /\ (forall k, In k (map fst ts) -> (b <= k)%nat) /\
    program (unfree_all m l, rev ts ++ os) /\ same_graph m (unfree_all m l).
Proof.
  induction l as [|h l IH]; intros ks m os b P H B.
  - exists []. split; auto. split; [constructor|]. split; [intros k []|]. split; [exact P|]. intros a. auto.
  - inversion H as [|k h' ks' l' G F]; subst.
    assert (Nb : obj_get b os = None) by (apply get_none; intros Ib; specialize (B b Ib); lia).
    assert (P1 : program (bdd_unfree m h, (b, h) :: os)).
    { eapply pr_step; [exact P|]. apply cs_copy with (n := b) (k := k); [exact Nb|]. unfold cpp_copy. cbn [fst snd]. now rewrite G. }
    destruct (IH ks' (bdd_unfree m h) ((b, h) :: os) (Datatypes.S b) P1) as (ts & T1 & T2 & T3 & T4 & T5).
    { eapply Forall2_impl_in; [|exact F]. intros j g _ Gj. cbn [obj_get]. destruct (Nat.eqb_spec b j) as [->|]; [|exact Gj]. congruence. }
    { intros j [<-|Ij]; cbn [fst]; [lia|]. specialize (B j Ij). lia. }
    exists ((b, h) :: ts). split; [cbn [map snd]; now rewrite T1|]. split.
    { cbn [map fst]. constructor; auto. intros Ib. specialize (T3 b Ib). lia. }
    split; [intros j [<-|Ij]; cbn [fst]; [lia|]; specialize (T3 j Ij); lia|].
    split; [cbn [rev]; rewrite <- app_assoc; exact T4|].
    eapply graph_trans; [apply graph_unfree|exact T5].
Qed.

Lemma load_ids_gen l : forall m os b, program (m, os) -> (forall k, In k (map fst os) -> (k < b)%nat) ->
  exists ts, map snd ts = snd (variables m l) /\ NoDup (map fst ts) /\ (forall k, In k (map fst ts) -> (b <= k)%nat) /\
    program (fst (variables m l), rev ts ++ os) /\ undisturbed (m, os) (fst (variables m l)) /\
    Forall2 (fun z h => (In (to_id z) (ord (mo m)) -> uisnull h = false /\ means (fst (variables m l)) h (fun rho => rho (to_id z))) /\
                        (~ In (to_id z) (ord (mo m)) -> h = unull)) l (snd (variables m l)).
Proof.
  induction l as [|z l IH]; intros m os b P B.
  - exists []. split; auto. split; [constructor|]. split; [intros k []|]. split; [exact P|]. split; [exact (undisturbed_refl (m, os))|constructor].
  - cbn [variables]. destruct (cal_var_with_id m (to_id z)) as [h m1] eqn:Ev.
    assert (Nb : obj_get b os = None) by (apply get_none; intros Ib; specialize (B b Ib); lia).
    assert (S1 : cstep (m, os) (m1, [(b, h)] ++ os)).
    { apply cs_call; [intros n [<-|[]]; exact Nb|constructor; [intros []|constructor]|]. cbn [map snd]. apply st_call, (st_var_id m _ _ _ _ Ev). }
    assert (P1 : program (m1, (b, h) :: os)) by (eapply pr_step; [exact P|exact S1]).
    destruct (IH m1 ((b, h) :: os) (Datatypes.S b) P1) as (ts & T1 & T2 & T3 & T4 & T5 & T6).
    { intros j [<-|Ij]; cbn [fst]; [lia|]. specialize (B j Ij). lia. }
    assert (Em : mo m1 = mo m).
    { change m1 with (snd (h, m1)). rewrite <- Ev. unfold cal_var_with_id. destruct (_ || _); auto. apply ret_mo. }
    assert (Hh : (In (to_id z) (ord (mo m)) -> uisnull h = false /\ means m1 h (fun rho => rho (to_id z))) /\ (~ In (to_id z) (ord (mo m)) -> h = unull)).
    { destruct (WorldProof.reachable_inv _ (program_reachable _ P)) as [D I]. cbn [wm wh fst snd] in I.
      destruct (var_with_id_spec m _ _ D (to_id z) I) as [V1 V2]. split; intros Hz.
      - destruct (V1 Hz) as (h' & m' & D' & E & I' & X & V). rewrite Ev in E. injection E as <- <-.
        split; [eapply uok_notnull; [exact I'|now left]|]. apply (means_hv _ _ _ _ _ _ I'); [now left|exact V].
      - specialize (V2 Hz). congruence. }
    destruct (variables m1 l) as [m2 hs] eqn:El. cbn [fst snd] in *.
    exists ((b, h) :: ts). split; [cbn [map snd]; now rewrite T1|]. split.
    { cbn [map fst]. constructor; auto. intros Ib. specialize (T3 b Ib). lia. }
    split; [intros j [<-|Ij]; cbn [fst]; [lia|]; specialize (T3 j Ij); lia|].
    split; [cbn [rev]; rewrite <- app_assoc; exact T4|]. split.
    { intros k g G Gk Ng Mg. cbn [fst snd] in Gk, Mg. apply (T5 k g G); auto; cbn [fst snd].
      - cbn [obj_get]. destruct (Nat.eqb_spec b k) as [->|]; [congruence|exact Gk].
      - exact (object_kept (m, os) _ k g G P S1 Gk Ng Mg). }
    constructor.
    { destruct Hh as [H1 H2]. split; [|exact H2]. intros Hz. destruct (H1 Hz) as [A1 A2]. split; auto.
      apply (T5 b h); auto. cbn [fst snd obj_get]. now rewrite Nat.eqb_refl. }
    eapply Forall2_impl_in; [|exact T6]. intros y g _. rewrite Em. auto.
Qed.

(** ** Giving the copies back *)
Lemma get_mid t h (pre post : objects) : ~ In t (map fst pre) -> obj_get t (pre ++ (t, h) :: post) = Some h.
Proof.
  induction pre as [|(j, x) pre IH]; simpl; intros H; [now rewrite Nat.eqb_refl|]. destruct (Nat.eqb_spec j t); [exfalso; auto|]. apply IH. auto.
Qed.
Lemma drop_mid t h (pre post : objects) : ~ In t (map fst pre) -> obj_drop t (pre ++ (t, h) :: post) = pre ++ post.
Proof.
  induction pre as [|(j, x) pre IH]; simpl; intros H; [now rewrite Nat.eqb_refl|]. destruct (Nat.eqb_spec j t); [exfalso; auto|]. rewrite IH; auto.
Qed.
Lemma release_all os ts : forall m news, program (m, news ++ rev ts ++ os) -> NoDup (map fst ts) ->
  (forall k, In k (map fst ts) -> ~ In k (map fst news)) ->
  program (free_all m (map snd ts), news ++ os) /\ same_graph m (free_all m (map snd ts)).
Proof.
  induction ts as [|(t, h) ts IH]; intros m news P ND Fr; [split; [exact P|intros a; auto]|].
  cbn [map fst snd rev] in *. inversion ND as [|? ? N1 ND']; subst.
  assert (Np : ~ In t (map fst (news ++ rev ts))).
  { rewrite map_app, in_app_iff, map_rev, <- in_rev. intros [H|H]; [exact (Fr t (or_introl eq_refl) H)|exact (N1 H)]. }
  assert (El : news ++ (rev ts ++ [(t, h)]) ++ os = (news ++ rev ts) ++ (t, h) :: os) by (now rewrite <- !app_assoc).
  rewrite El in P.
  assert (P1 : program (bdd_free m h, news ++ rev ts ++ os)).
  { eapply pr_step; [exact P|]. apply cs_destroy with (n := t). unfold cpp_destroy. cbn [fst snd]. rewrite (get_mid _ _ _ _ Np), (drop_mid _ _ _ _ Np).
    now rewrite <- app_assoc. }
  destruct (IH (bdd_free m h) news P1 ND') as [P2 S2]; [intros k Ik; apply Fr; now right|].
  split; [exact P2|]. eapply graph_trans; [apply graph_free|exact S2].
Qed.

(** ** One operation on a range *)
Definition usable (os : objects) (r : range) : Prop :=
  match r with OfBdds l => exists ks, are_held os ks l | OfIds _ => True end.
Lemma loaded c r b : program c -> usable (snd c) r -> (forall k, In k (map fst (snd c)) -> (k < b)%nat) ->
  gives c (fst (elements (fst c) r)) (snd (elements (fst c) r)) b.
Proof.
  destruct c as [m os]. intros P U B. destruct r as [l|l]; cbn [elements fst snd] in *.
  - destruct U as [ks U]. destruct (load_bdds_gen l ks m os b P U B) as (ts & T1 & T2 & T3 & T4 & T5).
    exists ts. split; auto. split; auto. split; auto. split; auto. exact (undisturbed_graph (m, os) _ _ (undisturbed_refl (m, os)) T5).
  - destruct (load_ids_gen l m os b P B) as (ts & T1 & T2 & T3 & T4 & T5 & T6). exists ts. auto.
Qed.
Lemma free_end m l : free_all m (l ++ [unull]) = free_all m l.
Proof. unfold free_all. rewrite fold_left_app. reflexivity. Qed.
Lemma held_in ts os h : In h (map snd ts) -> uisnull h = false -> In h (held_handles (rev ts ++ os)).
Proof.
  intros Ih N. rewrite held_app. assert (I2 : In h (map snd (rev ts))) by (rewrite map_rev, <- in_rev; exact Ih).
  induction (map snd (rev ts)) as [|x l IH]; [destruct I2|]. simpl. destruct I2 as [->|I2].
  - rewrite N. now left.
  - destruct (uisnull x); [auto|right; auto].
Qed.

Lemma over_run {A} c r (f : mgr -> list ubdd -> outcome (A * mgr)) (news : objects) :
  program c -> usable (snd c) r -> (forall n, In n (map fst news) -> fresh n (snd c)) -> NoDup (map fst news) ->
  forall x m2, f (fst (elements (fst c) r)) (snd (elements (fst c) r) ++ [unull]) = Ok (x, m2) ->
  (forall hs, reachable (World (fst (elements (fst c) r)) hs) -> (forall h, In h (snd (elements (fst c) r)) -> uisnull h = false -> In h hs) ->
     step (World (fst (elements (fst c) r)) hs) (World m2 (own (map snd news) hs))) ->
  exists m', over (fst c) r f = Ok (x, m') /\ program (m', news ++ snd c) /\ undisturbed c m' /\ same_graph m2 m'.
Proof.
  intros P U Fr ND x m2 E S. destruct (names_above (map fst (snd c) ++ map fst news)) as [b B].
  destruct (loaded c r b P U) as (ts & T1 & T2 & T3 & T4 & T5). { intros k Ik. apply B, in_or_app. now left. }
  unfold over. destruct (elements (fst c) r) as [m1 l] eqn:Ee. cbn [fst snd] in *. rewrite E. cbn [obind]. rewrite free_end.
  exists (free_all m2 l). split; auto.
  assert (S1 : cstep (m1, rev ts ++ snd c) (m2, news ++ rev ts ++ snd c)).
  { apply cs_call; auto.
    - intros n In1. unfold fresh. rewrite get_app, (get_none n (rev ts)); [exact (Fr n In1)|].
      rewrite map_rev, <- in_rev. intros It. specialize (T3 n It). assert (n < b)%nat by (apply B, in_or_app; now right). lia.
    - apply S; [exact (program_reachable _ T4)|]. intros h Ih Nh. rewrite <- T1 in Ih. now apply held_in. }
  assert (P2 : program (m2, news ++ rev ts ++ snd c)) by (eapply pr_step; [exact T4|exact S1]).
  destruct (release_all (snd c) ts m2 news P2 T2) as [P3 G3].
  { intros k Ik In1. specialize (T3 k Ik). assert (k < b)%nat by (apply B, in_or_app; now right). lia. }
  rewrite T1 in P3, G3. split; [exact P3|]. split; [|exact G3]. eapply undisturbed_graph; [|exact G3].
  intros k g G Gk Ng Mg. apply (object_kept _ _ k g G T4 S1); auto; [|exact (T5 k g G Gk Ng Mg)].
  cbn [snd]. rewrite get_app, (get_none k (rev ts)); [exact Gk|]. rewrite map_rev, <- in_rev. intros It. specialize (T3 k It).
  assert (k < b)%nat by (apply B, in_or_app; left; eapply get_some_in; eauto). lia.
Qed.

Lemma upto_end l : upto_null (l ++ [unull]) = upto_null l.
Proof. induction l as [|h l IH]; simpl; auto. destruct (uisnull h); auto. now rewrite IH. Qed.
Lemma upto_twice l : upto_null (upto_null l) = upto_null l.
Proof. induction l as [|h l IH]; simpl; auto. destruct (uisnull h) eqn:N; auto. simpl. now rewrite N, IH. Qed.
Lemma upto_in l h : In h (upto_null l) -> In h l /\ uisnull h = false.
Proof.
  induction l as [|x l IH]; simpl; [tauto|]. destruct (uisnull x) eqn:N; simpl; [tauto|]. intros [->|H]; auto. destruct (IH H); auto.
Qed.
Lemma upto_cut l1 l2 : (forall h, In h l1 -> uisnull h = false) -> upto_null (l1 ++ unull :: l2) = l1.
Proof. induction l1 as [|h l1 IH]; simpl; intros H; auto. rewrite (H h) by now left. rewrite IH; auto. Qed.
Lemma upto_all l : (forall h, In h l -> uisnull h = false) -> upto_null l = l.
Proof. induction l as [|h l IH]; simpl; intros H; auto. rewrite (H h) by now left. rewrite IH; auto. Qed.
Lemma multiway_upto enum op ds m l : multiway enum op ds m (l ++ [unull]) = multiway enum op ds m (upto_null l).
Proof. unfold multiway. now rewrite upto_end, upto_twice. Qed.

(** The elements before the first null are the operands. *)
Lemma range_multiway_gen c r Fs : program c -> usable (snd c) r ->
  let m1 := fst (elements (fst c) r) in let l := upto_null (snd (elements (fst c) r)) in
  l <> [] -> N.of_nat (length l) <= 1024 -> each (means m1) l Fs ->
  forall enum ds, good_enum enum ->
  yields c (range_and enum ds (fst c) r) (fun rho => all_true (map (fun F => F rho) Fs)) /\
  yields c (range_or enum ds (fst c) r) (fun rho => some_true (map (fun F => F rho) Fs)) /\
  yields c (range_xor enum ds (fst c) r) (fun rho => odd_true (map (fun F => F rho) Fs)).
Proof.
  intros P U m1 l Ne Le Mf enum ds He.
  destruct (names_above (map fst (snd c))) as [b B].
  destruct (loaded c r b P U B) as (ts & T1 & T2 & T3 & T4 & T5).
  assert (Al : forall hs, (forall h, In h (snd (elements (fst c) r)) -> uisnull h = false -> In h hs) -> args hs l).
  { intros hs H h Ih. apply upto_in in Ih as [I1 I2]. now apply H. }
  assert (Aw : args (wh (World m1 (held_handles (rev ts ++ snd c)))) l).
  { apply Al. intros h Ih Nh. rewrite <- T1 in Ih. now apply held_in. }
  destruct (W_multiway (World m1 (held_handles (rev ts ++ snd c))) (program_reachable _ T4) l Fs Ne Le Aw Mf enum ds He) as (A1 & A2 & A3).
  assert (K : forall op F, In op [op_and; op_or; op_xor] -> returns (multiway enum op ds m1 l) F -> yields c (range_multiway enum op ds (fst c) r) F).
  { intros op F Ho (h & m2 & E & Nh & Mh). unfold range_multiway.
    assert (E' : multiway enum op ds m1 (snd (elements (fst c) r) ++ [unull]) = Ok (h, m2)) by (rewrite multiway_upto; exact E).
    assert (R : forall n, fresh n (snd c) -> exists m', over (fst c) r (multiway enum op ds) = Ok (h, m') /\ program (m', (n, h) :: snd c) /\ undisturbed c m' /\ same_graph m2 m').
    { intros n Fn. apply (over_run c r (multiway enum op ds) [(n, h)] P U) with (m2 := m2).
      - intros k [<-|[]]. exact Fn.
      - constructor; [intros []|constructor].
      - exact E'.
      - intros hs Rh Hh. apply st_call. apply (st_multiway enum op ds m1 hs l h m2 He Ho (Al hs Hh) E). }
    assert (Fb : fresh b (snd c)). { apply get_none. intros Ib. specialize (B b Ib). lia. }
    destruct (R b Fb) as (m' & E1 & P1 & U1 & G1). exists h, m'. split; auto. split; [exact Nh|].
    split; [exact (means_graph _ _ _ _ G1 Mh)|]. split; auto. intros n Fn. destruct (R n Fn) as (m'' & E2 & P2 & _). rewrite E1 in E2. injection E2 as <-. exact P2. }
  split; [|split]; apply K; auto; simpl; auto.
Qed.

Lemma unfree_one m l : muone (unfree_all m l) = muone m /\ massoc (unfree_all m l) = massoc m.
Proof.
  unfold unfree_all. revert m. induction l as [|h l IH]; intros m; simpl; auto. destruct (IH (bdd_unfree m h)) as [-> ->]. unfold bdd_unfree. now destruct (uisnull h).
Qed.
Lemma unfree_graph m l : same_graph m (unfree_all m l).
Proof.
  unfold unfree_all. revert m. induction l as [|h l IH]; intros m; simpl; [intros a; auto|]. eapply graph_trans; [apply graph_unfree|apply IH].
Qed.

Theorem range_bdds c ks l Fs : program c -> are_held (snd c) ks l -> (forall h, In h l -> uisnull h = false) ->
  l <> [] -> N.of_nat (length l) <= 1024 -> each (means (fst c)) l Fs ->
  forall enum ds, good_enum enum ->
  yields c (range_and enum ds (fst c) (OfBdds l)) (fun rho => all_true (map (fun F => F rho) Fs)) /\
  yields c (range_or enum ds (fst c) (OfBdds l)) (fun rho => some_true (map (fun F => F rho) Fs)) /\
  yields c (range_xor enum ds (fst c) (OfBdds l)) (fun rho => odd_true (map (fun F => F rho) Fs)).
Proof.
  intros P U Nn Ne Le Mf enum ds He. apply range_multiway_gen; auto; cbn [usable elements fst snd]; try (rewrite (upto_all l Nn)); auto.
  - now exists ks.
  - eapply Forall2_impl_in; [|exact Mf]. intros h F _. exact (means_graph _ _ _ _ (unfree_graph (fst c) l)).
Qed.

(** A null among the elements ends the list of operands. *)
Theorem range_cut c ks l1 l2 Fs : program c -> are_held (snd c) ks (l1 ++ unull :: l2) -> (forall h, In h l1 -> uisnull h = false) ->
  l1 <> [] -> N.of_nat (length l1) <= 1024 -> each (means (fst c)) l1 Fs ->
  forall enum ds, good_enum enum ->
  yields c (range_and enum ds (fst c) (OfBdds (l1 ++ unull :: l2))) (fun rho => all_true (map (fun F => F rho) Fs)) /\
  yields c (range_or enum ds (fst c) (OfBdds (l1 ++ unull :: l2))) (fun rho => some_true (map (fun F => F rho) Fs)) /\
  yields c (range_xor enum ds (fst c) (OfBdds (l1 ++ unull :: l2))) (fun rho => odd_true (map (fun F => F rho) Fs)).
Proof.
  intros P U Nn Ne Le Mf enum ds He. apply range_multiway_gen; auto; cbn [usable elements fst snd]; try (rewrite (upto_cut l1 l2 Nn)); auto.
  - now exists ks.
  - eapply Forall2_impl_in; [|exact Mf]. intros h F _. exact (means_graph _ _ _ _ (unfree_graph (fst c) (l1 ++ unull :: l2))).
Qed.

Lemma to_id_small z : (0 <= z < 65536)%Z -> to_id z = Z.to_N z.
Proof. intros H. unfold to_id. now rewrite Z.mod_small. Qed.
Lemma Forall2_split {A B} (R : A -> B -> Prop) l k : Forall2 R l k -> length l = length k.
Proof. induction 1; simpl; auto. Qed.

(** Ranges of identifiers. *)
Lemma ids_means c ids : program c ->
  Forall2 (fun z h => (In (to_id z) (ord (mo (fst c))) -> uisnull h = false /\ means (fst (elements (fst c) (OfIds ids))) h (fun rho => rho (to_id z))) /\
                      (~ In (to_id z) (ord (mo (fst c))) -> h = unull)) ids (snd (elements (fst c) (OfIds ids))).
Proof.
  destruct c as [m os]. intros P. destruct (names_above (map fst os)) as [b B]. destruct (load_ids_gen ids m os b P B) as (ts & _ & _ & _ & _ & _ & H). exact H.
Qed.
Lemma known_ids m o ids k : Forall2 (fun z h => (In (to_id z) (ord o) -> uisnull h = false /\ means m h (fun rho => rho (to_id z))) /\ (~ In (to_id z) (ord o) -> h = unull)) ids k ->
  (forall z, In z ids -> (0 <= z < 65536)%Z /\ In (Z.to_N z) (ord o)) ->
  (forall h, In h k -> uisnull h = false) /\ each (means m) k (map (fun z rho => rho (Z.to_N z)) ids).
Proof.
  induction 1 as [|z h ids k [H _] M1 IH]; intros Hz; [split; [intros h []|constructor]|].
  destruct IH as [I1 I2]; [intros y Iy; apply Hz; now right|].
  destruct (Hz z (or_introl eq_refl)) as [A1 A2]. rewrite <- (to_id_small z A1) in A2. destruct (H A2) as [H1 H2]. rewrite (to_id_small z A1) in H2.
  split; [intros g [<-|Ig]; auto|]. constructor; auto.
Qed.
Theorem range_ids c ids rest : program c -> ids <> [] -> N.of_nat (length ids) <= 1024 ->
  (forall z, In z ids -> (0 <= z < 65536)%Z /\ In (Z.to_N z) (ord (mo (fst c)))) ->
  match rest with [] => True | z :: _ => ~ In (to_id z) (ord (mo (fst c))) end ->
  forall enum ds, good_enum enum ->
  yields c (range_and enum ds (fst c) (OfIds (ids ++ rest))) (fun rho => all_true (map (fun z => rho (Z.to_N z)) ids)) /\
  yields c (range_or enum ds (fst c) (OfIds (ids ++ rest))) (fun rho => some_true (map (fun z => rho (Z.to_N z)) ids)) /\
  yields c (range_xor enum ds (fst c) (OfIds (ids ++ rest))) (fun rho => odd_true (map (fun z => rho (Z.to_N z)) ids)).
Proof.
  intros P Ne Le Hz Hr enum ds He. pose proof (ids_means c (ids ++ rest) P) as M.
  set (r := OfIds (ids ++ rest)) in *. set (m1 := fst (elements (fst c) r)) in *. set (l := snd (elements (fst c) r)) in *.
  apply Forall2_app_inv_l in M as (k1 & k2 & M1 & M2 & El).
  destruct (known_ids m1 _ ids k1 M1 Hz) as [N1 Mf].
  assert (Eu : upto_null l = k1).
  { rewrite El. clear - M2 Hr N1. inversion M2 as [|z h rest' k2' [_ H] M2' E1 E2]; [rewrite app_nil_r; now apply upto_all|].
    rewrite <- E1 in Hr. rewrite (H Hr). now apply upto_cut. }
  assert (L1 : length k1 = length ids) by (symmetry; exact (Forall2_split _ _ _ M1)).
  assert (G := range_multiway_gen c r (map (fun z rho => rho (Z.to_N z)) ids) P Logic.I). cbv zeta in G. fold m1 l in G. rewrite Eu in G.
  destruct (G (fun E => Ne (match ids as i return length k1 = length i -> i = [] with [] => fun _ => eq_refl | _ :: _ => fun H => ltac:(rewrite E in H; discriminate) end L1)) ltac:(now rewrite L1) Mf enum ds He) as (G1 & G2 & G3).
  assert (Em : forall rho : N -> bool, map (fun F : bfun => F rho) (map (fun z rho => rho (Z.to_N z)) ids) = map (fun z => rho (Z.to_N z)) ids) by (intros rho; now rewrite map_map).
  assert (K : forall F G r, (forall rho, F rho = G rho) -> yields c r F -> yields c r G).
  { intros F G0 r0 E (h & m' & Y1 & Y2 & Y3 & Y4). exists h, m'. split; auto. split; auto. split; auto. intros rho. rewrite <- E. apply Y3. }
  split; [|split]; (eapply K; [|eassumption]); intros rho; cbv beta; now rewrite Em.
Qed.

Lemma range_empty (c : cpp) enum op ds : range_multiway enum op ds (fst c) (OfBdds []) = Ok (unull, fst c).
Proof. reflexivity. Qed.

(** ** Pairwise operations *)
Lemma past_the_end hs lk arr : forall ds m D res, MInv m hs lk D -> (forall h, In h arr -> In h hs) -> from_c_array ds m arr res = Undefined.
Proof.
  induction arr as [|h arr IH]; intros ds m D res I H; auto. cbn [from_c_array]. rewrite (uok_notnull m hs lk D h I) by (apply H; now left).
  destruct (preproc_live (ds 0%nat) m hs lk D [h] I) as (m1 & D1 & -> & I1 & _). { intros k [<-|[]]. apply H. now left. }
  cbn [obind]. eapply IH; [exact I1|]. intros k Ik. apply H. now right.
Qed.
Lemma pairwise_upto enum op post ds d m l : pairwise enum op post ds d m (l ++ [unull]) = pairwise enum op post ds d m (upto_null l).
Proof. unfold pairwise. now rewrite upto_end, upto_twice. Qed.

Theorem range_pairwise_undefined c ks l : program c -> are_held (snd c) ks l -> (forall h, In h l -> uisnull h = false) ->
  forall enum op post ds d dv, good_enum enum -> In op [op_and; op_or; op_xor] ->
  (forall m1, preproc_each ds (unfree_all (fst c) l) l = Ok m1 -> last_pending_is_top (mo m1) op (pairs (map (uint (mmem m1)) l))) ->
  range_pairwise enum op post ds d dv (fst c) (OfBdds l) = Undefined \/
  post = true /\ exists m', range_pairwise enum op post ds d dv (fst c) (OfBdds l) = Ok ([], m') /\ mov m' = true.
Proof.
  intros P U Nn enum op post ds d dv He Ho Hl. destruct c as [m os]. cbn [fst snd] in *.
  destruct (names_above (map fst os)) as [b B]. destruct (load_bdds_gen l ks m os b P U B) as (ts & T1 & T2 & T3 & T4 & T5).
  destruct (WorldProof.reachable_inv _ (program_reachable _ T4)) as [D I]. cbn [wm wh fst snd] in I.
  assert (Al : forall h, In h l -> In h (held_handles (rev ts ++ os))) by (intros h Ih; apply held_in; [now rewrite T1|now apply Nn]).
  unfold range_pairwise, over. cbn [elements]. rewrite pairwise_upto, (upto_all l Nn).
  destruct (Nat.eqb (length l) 0 || Nat.odd (length l)) eqn:Od.
  - left. destruct (pairwise_odd enum op post ds d _ _ _ D l I Al) as (m' & D' & -> & _); [|reflexivity].
    apply orb_true_iff in Od as [Od|Od]; auto. left. apply Nat.eqb_eq in Od. now destruct l.
  - apply orb_false_iff in Od as [Od1 Od2].
    destruct (pairwise_spec enum He op post ds d _ _ _ D l (op_ok op (op3 op Ho)) I Al) as (us & m' & -> & D' & X & R).
    { intros ->. discriminate. }
    { rewrite <- Nat.negb_odd, Od2. reflexivity. }
    { intros m1 E. now apply last_top, Hl. }
    cbn [obind]. destruct R as [(-> & [O1 O2] & -> & I')|(I' & F2)].
    + right. split; auto. destruct (pairs l) as [|p ps] eqn:Ep.
      { exfalso. destruct l as [|x [|y l']]; discriminate. }
      cbn [map from_c_array]. change (uisnull unull) with true. cbn [obind]. rewrite free_end. eexists. split; [reflexivity|].
      assert (K : forall k m0, mov (free_all m0 k) = mov m0).
      { clear. induction k as [|h k IH]; intros m0; auto. change (free_all m0 (h :: k)) with (free_all (bdd_free m0 h) k). rewrite IH. unfold bdd_free. now destruct (uisnull h). }
      rewrite K. exact O1.
    + left. rewrite (past_the_end _ _ us dv m' D' [] I'); auto. intros h Ih. apply in_or_app. now left.
Qed.
(** Two operands. *)
Theorem range_pair_undefined c k1 k2 f g : program c -> obj_get k1 (snd c) = Some f -> obj_get k2 (snd c) = Some g ->
  uisnull f = false -> uisnull g = false ->
  forall enum op post ds d dv, good_enum enum -> In op [op_and; op_or; op_xor] ->
  range_pairwise enum op post ds d dv (fst c) (OfBdds [f; g]) = Undefined \/
  post = true /\ exists m', range_pairwise enum op post ds d dv (fst c) (OfBdds [f; g]) = Ok ([], m') /\ mov m' = true.
Proof.
  intros P G1 G2 N1 N2 enum op post ds d dv He Ho. apply (range_pairwise_undefined c [k1; k2] [f; g] P); auto.
  - constructor; [exact G1|]. constructor; [exact G2|constructor].
  - intros h [<-|[<-|[]]]; auto.
  - intros m1 _ p Ip Pp. cbn [map pairs] in *. destruct Ip as [<-|[]]. eexists [], _, []. split; [reflexivity|]. split; [exact Pp|]. split; [intros r []|lia].
Qed.

(** ** Associations *)
Theorem range_associations c ks l pr : program c -> are_held (snd c) ks l -> (forall h, In h l -> uisnull h = false) ->
  no_constants (fst c) pr l ->
  (forall ds, distinct_variables pr l -> room_for_association (fst c) -> leaves c (range_assoc_init ds pr (fst c) (OfBdds l))) /\
  (forall ds, leaves c (range_temp_init ds pr (fst c) (OfBdds l))) /\
  (forall ds, leaves c (range_temp_augment ds pr (fst c) (OfBdds l))).
Proof.
  intros P U Nn Nc. pose proof (unfree_one (fst c) l) as [Eo Ea].
  assert (Uu : usable (snd c) (OfBdds l)) by (now exists ks).
  assert (Nc1 : no_constants (unfree_all (fst c) l) pr l).
  { intros Ep h Ih. specialize (Nc Ep h Ih). unfold cal_isconst, cal_isone, cal_iszero, cal_one, cal_zero in *. now rewrite Eo. }
  assert (K : forall A (f : mgr -> list ubdd -> outcome (A * mgr)),
    (forall hs x m2, args hs l -> f (unfree_all (fst c) l) (l ++ [unull]) = Ok (x, m2) -> step (World (unfree_all (fst c) l) hs) (World m2 hs)) ->
    leaves c (over (fst c) (OfBdds l) f)).
  { intros A f H x m' E. destruct (f (unfree_all (fst c) l) (l ++ [unull])) as [[y m2]| |] eqn:Ef.
    - destruct (over_run c (OfBdds l) f [] P Uu ltac:(intros n []) ltac:(constructor) y m2 Ef) as (m3 & E3 & P3 & U3 & _).
      { intros hs _ Hh. cbn [elements fst snd] in *. apply (H hs y m2); auto. intros h Ih. now apply Hh, Nn. }
      rewrite E in E3. injection E3 as -> ->. split; auto.
    - unfold over in E. cbn [elements] in E. rewrite Ef in E. discriminate.
    - unfold over in E. cbn [elements] in E. rewrite Ef in E. discriminate. }
  split; [|split]; intros ds.
  - intros Dv Rm. apply K. intros hs x m2 Ah E. apply (st_assoc_init ds _ hs l pr x m2); auto.
    + unfold room_for_association. now rewrite Ea.
    + revert E. unfold cal_assoc_init. now rewrite upto_end.
  - apply K. intros hs x m2 Ah E. apply st_call. apply (st_temp_init ds _ hs l pr m2); auto.
    assert (Eq : cal_temp_init ds (unfree_all (fst c) l) (l ++ [unull]) pr = cal_temp_init ds (unfree_all (fst c) l) l pr).
    { unfold cal_temp_init, cal_temp_augment. now rewrite upto_end. }
    rewrite Eq in E. destruct (cal_temp_init ds (unfree_all (fst c) l) l pr) as [m0| |]; [|discriminate|discriminate]. cbn [obind] in E. congruence.
  - apply K. intros hs x m2 Ah E. apply st_call. apply (st_temp_augment ds _ hs l pr m2); auto.
    assert (Eq : cal_temp_augment ds (unfree_all (fst c) l) (l ++ [unull]) pr = cal_temp_augment ds (unfree_all (fst c) l) l pr).
    { unfold cal_temp_augment. now rewrite upto_end. }
    rewrite Eq in E. destruct (cal_temp_augment ds (unfree_all (fst c) l) l pr) as [m0| |]; [|discriminate|discriminate]. cbn [obind] in E. congruence.
Qed.
Lemma Forall2_one {A B} (R : A -> B -> Prop) a l : Forall2 R [a] l -> exists b, l = [b] /\ R a b.
Proof. intros H. inversion H as [|? b ? k Rb N]; subst. inversion N; subst. exists b. auto. Qed.
(** An integer that is not an identifier is taken modulo 65536. *)
Theorem range_wrapped c z : program c -> In (to_id z) (ord (mo (fst c))) ->
  forall enum ds, good_enum enum -> yields c (range_and enum ds (fst c) (OfIds [z])) (fun rho => rho (to_id z)).
Proof.
  intros P Iz enum ds He. pose proof (ids_means c [z] P) as M. set (r := OfIds [z]) in *.
  destruct (Forall2_one _ _ _ M) as (h & El & H & _). clear M.
  destruct (H Iz) as [Nh Mh]. assert (Eu : upto_null (snd (elements (fst c) r)) = [h]) by (rewrite El; cbn [upto_null]; now rewrite Nh).
  assert (G := range_multiway_gen c r [fun rho => rho (to_id z)] P Logic.I). cbv zeta in G. rewrite Eu in G.
  destruct (G ltac:(discriminate) ltac:(cbn; lia) ltac:(constructor; [exact Mh|constructor]) enum ds He) as (G1 & _).
  destruct G1 as (g & m' & Y1 & Y2 & Y3 & Y4). exists g, m'. split; auto. split; auto. split; auto.
  intros rho. specialize (Y3 rho). cbn [map all_true forallb] in Y3. now rewrite andb_true_r in Y3.
Qed.
