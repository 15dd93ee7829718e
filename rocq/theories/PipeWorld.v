(** * Pipelined operations in reachable worlds. *)
From Coq Require Import Permutation.
From Verif Require Import Base BFModel ITEModel MgrModel ApiModel StoreInv Own EngInv ApplyProof BinopProof ReduceProof EngineProof
  OpProof MultiProof QProof GCProof VarProof MInv ApiProof ApiOps ApiStruct ApiVar PipeModel PipeProof SpecApi SpecPipe WorldProof Client
  ApiLemmas ApiFacts.

Lemma pipeline_op op b : pipeline_operation op b -> In op [op_and; op_or; op_xor] /\ forall u v, bsem op u v = b u v.
Proof.
  intros [[-> ->]|[[-> ->]|[-> ->]]]; (split; [simpl; tauto|]); intros [] []; reflexivity.
Qed.

(** ** The functions of the operations *)

Lemma prog_vals_app op m D prog : forall Fs, exists Gs, prog_vals op m D Fs prog = Fs ++ Gs /\ length Gs = length prog.
Proof.
  induction prog as [|[x y] prog IH]; intros Fs; cbn [prog_vals].
  - exists []. now rewrite app_nil_r.
  - destruct (IH (Fs ++ [fun rho => bsem op (opval m D Fs x rho) (opval m D Fs y rho)])) as (Gs & E & L).
    eexists. split; [rewrite E, <- app_assoc; reflexivity|]. cbn [length app]. now rewrite L.
Qed.

Lemma prog_vals_nth op m D prog : forall Fs k x y, nth_error prog k = Some (x, y) ->
  let R := prog_vals op m D Fs prog in let n := (length Fs + k)%nat in
  nth_error R n = Some (fun rho => bsem op (opval m D (firstn n R) x rho) (opval m D (firstn n R) y rho)).
Proof.
  induction prog as [|[u v] prog IH]; intros Fs k x y E R n; [now destruct k|].
  destruct k as [|k].
  - cbn [nth_error] in E. injection E as -> ->. unfold R, n. cbn [prog_vals]. rewrite Nat.add_0_r.
    set (F := fun rho => _). destruct (prog_vals_app op m D prog (Fs ++ [F])) as (Gs & -> & _).
    rewrite <- app_assoc. rewrite firstn_app, Nat.sub_diag, firstn_all. cbn [firstn]. rewrite app_nil_r.
    rewrite nth_error_app2, Nat.sub_diag by lia. reflexivity.
  - cbn [nth_error] in E. unfold R, n. cbn [prog_vals].
    specialize (IH (Fs ++ [fun rho => bsem op (opval m D Fs u rho) (opval m D Fs v rho)]) k x y E). cbv zeta in IH.
    rewrite app_length in IH. cbn [length] in IH. now replace (length Fs + 1 + k)%nat with (length Fs + S k)%nat in IH by lia.
Qed.

(** They are determined by the program. *)
Lemma operand_unique m x : forall Fs Gs F G, operand_means m Fs x F -> operand_means m Gs x G ->
  (forall h A B, means m h A -> means m h B -> same A B) ->
  (forall k A B, nth_error Fs k = Some A -> nth_error Gs k = Some B -> same A B) -> same F G.
Proof.
  intros Fs Gs F G. destruct x as [h|k c]; cbn [operand_means]; intros H1 H2 Hm Hk; [exact (Hm h F G H1 H2)|].
  destruct H1 as (A & EA & SA). destruct H2 as (B & EB & SB). intros rho. rewrite SA, SB. now rewrite (Hk k A B EA EB).
Qed.
Lemma nth_firstn {A} k : forall (l : list A) j a, nth_error (firstn k l) j = Some a -> nth_error l j = Some a /\ (j < k)%nat.
Proof.
  induction k as [|k IH]; intros [|b l] [|j] a; simpl; try discriminate.
  - intros H. split; [exact H|lia].
  - intros H. apply IH in H as [H1 H2]. split; [exact H1|lia].
Qed.
Lemma pipeline_unique m b prog Fs Gs : (forall h A B, means m h A -> means m h B -> same A B) ->
  pipeline_means m b prog Fs -> pipeline_means m b prog Gs ->
  forall k A B, nth_error Fs k = Some A -> nth_error Gs k = Some B -> same A B.
Proof.
  intros Hm [LF HF] [LG HG] k. induction k as [k IH] using (well_founded_induction Wf_nat.lt_wf). intros A B EA EB.
  assert (Hk : (k < length prog)%nat) by (rewrite <- LF; apply nth_error_Some; congruence).
  destruct (nth_error prog k) as [[x y]|] eqn:Ep; [|apply nth_error_None in Ep; lia].
  destruct (HF k x y Ep) as (F1 & G1 & H1 & E1 & X1 & Y1 & S1). destruct (HG k x y Ep) as (F2 & G2 & H2 & E2 & X2 & Y2 & S2).
  rewrite EA in E1. injection E1 as <-. rewrite EB in E2. injection E2 as <-.
  assert (K : forall j A B, nth_error (firstn k Fs) j = Some A -> nth_error (firstn k Gs) j = Some B -> same A B).
  { intros j A' B' Ej1 Ej2. apply nth_firstn in Ej1 as [Ej1 Lj]. apply nth_firstn in Ej2 as [Ej2 _]. exact (IH j Lj A' B' Ej1 Ej2). }
  intros rho. rewrite S1, S2. now rewrite (operand_unique m x _ _ F1 F2 X1 X2 Hm K), (operand_unique m y _ _ G1 G2 Y1 Y2 Hm K).
Qed.

Lemma means_unique m h A B : means m h A -> means m h B -> same A B.
Proof. intros H1 H2 rho. exact (ev_det _ _ _ _ (H1 rho) _ (H2 rho)). Qed.

Section World.
Variable w : world.
Hypothesis Rw : reachable w.
Notation m := (wm w).
Notation hs := (wh w).

Lemma vals_mean D op b prog : MInv m hs lk0 D -> (forall u v, bsem op u v = b u v) -> well_formed hs prog ->
  pipeline_means m b prog (prog_vals op m D [] prog).
Proof.
  intros I Hb W. destruct (prog_vals_app op m D prog []) as (Gs & E & L). cbn [app] in E.
  split; [now rewrite E|]. intros k x y Ep. pose proof (prog_vals_nth op m D prog [] k x y Ep) as N1. cbv zeta in N1. cbn [length Nat.add] in N1.
  set (R := prog_vals op m D [] prog) in *. destruct (W k x y Ep) as [Wx Wy].
  assert (Lk : (k < length prog)%nat) by (apply nth_error_Some; congruence).
  assert (O : forall z, operand_from hs k z -> operand_means m (firstn k R) z (opval m D (firstn k R) z)).
  { intros [h|j c] Hz; cbn [operand_means opval operand_from] in *.
    - apply (proj2 (means_hv m hs lk0 D h _ I Hz)). reflexivity.
    - assert (Lj : (j < length (firstn k R))%nat) by (rewrite firstn_length, E, L; lia).
      exists (nth j (firstn k R) (fun _ => false)). split; [now apply nth_error_nth'|]. intros rho. reflexivity. }
  exists (opval m D (firstn k R) x), (opval m D (firstn k R) y). eexists. split; [exact N1|]. split; [exact (O x Wx)|]. split; [exact (O y Wy)|].
  intros rho. apply Hb.
Qed.

Lemma W_pipeline_functions op b prog : pipeline_operation op b -> well_formed hs prog ->
  exists Fs, pipeline_means m b prog Fs /\
    forall Gs, pipeline_means m b prog Gs -> forall k A B, nth_error Fs k = Some A -> nth_error Gs k = Some B -> same A B.
Proof.
  intros Ho W. destruct (pipeline_op op b Ho) as [_ Hb]. destruct (W_inv w Rw) as [D I].
  exists (prog_vals op m D [] prog). pose proof (vals_mean D op b prog I Hb W) as P. split; [exact P|]. intros Gs Q.
  exact (pipeline_unique m b prog _ _ (means_unique m) P Q).
Qed.

Lemma W_pipeline enum d0 ds p op b prog outs Fs : good_enum enum -> pipeline_operation op b -> pipeline_idle p ->
  well_formed hs prog -> max_levels prog -> within_program prog outs -> pipeline_means m b prog Fs ->
  exists r m' p', run_pipeline enum d0 ds m p op prog outs = Ok (r, m', p') /\
    (forall h F, In h hs -> means m h F -> means m' h F) /\
    match r with
    | Some rs => pipeline_idle p' /\ call w (World m' (rs ++ hs)) /\ Forall2 (answers m' Fs) rs outs
    | None => mov m' = true /\ mnl m <> 0
    end.
Proof.
  intros He Ho Hp W Ml Wi Hf. destruct (pipeline_op op b Ho) as [Io Hb]. destruct (W_inv w Rw) as [D I].
  destruct (run_pipeline_spec enum He op (op_ok op (op3 op Io)) d0 ds m p hs D prog outs I Hp (prog_ok_from hs prog W) (prog_levels_max prog Ml))
    as (r & m' & p' & E & R).
  { intros [k c] Ik. exact (Wi k c Ik). }
  exists r, m', p'. split; [exact E|]. destruct r as [rs|].
  - destruct R as (Id & D' & I' & X & Fa). split.
    { intros h F Ih Mh. apply (proj2 (means_hv m' (rs ++ hs) lk0 D' h F I' (in_or_app _ _ _ (or_intror Ih)))). intros rho.
      rewrite (mx_h _ _ _ _ _ X h Ih). exact (proj1 (means_hv m hs lk0 D h F I Ih) Mh rho). }
    split; [exact Id|]. split.
    { destruct w as [m0 hs0]. cbn [wm wh] in *. exact (st_pipeline enum d0 ds m0 hs0 p op prog outs rs m' p' He Io Hp W Ml Wi E). }
    pose proof (vals_mean D op b prog I Hb W) as P.
    pose proof (pipeline_unique m b prog _ _ (means_unique m) P Hf) as Un.
    assert (G : forall r, In r rs -> In r (rs ++ hs)) by (intros; apply in_or_app; now left).
    assert (Wi' : forall kb, In kb outs -> (fst kb < length prog)%nat) by (intros [k c] Ik; exact (Wi k c Ik)).
    clear - Fa G Wi' I' Un Hf P. revert I' G Wi'. generalize (rs ++ hs) as hh. intros hh I'.
    induction Fa as [|r kb rs' outs' Er Fr IH]; intros G Wi'; constructor.
    + assert (Lk : (fst kb < length prog)%nat) by (apply Wi'; now left).
      destruct (nth_error Fs (fst kb)) as [F|] eqn:EF; [|apply nth_error_None in EF; destruct Hf as [Lf _]; lia].
      exists F. split; [exact EF|].
      apply (proj2 (means_hv m' hh lk0 D' r _ I' (G r (or_introl eq_refl)))). intros rho. rewrite Er. f_equal.
      refine (Un (fst kb) _ F _ EF rho). apply nth_error_nth'. exact (eq_ind_r (fun z => (fst kb < z)%nat) Lk (proj1 P)).
    + apply IH; [intros; apply G; now right|intros; apply Wi'; now right].
  - destruct R as ((O1 & O2) & lk & D' & I' & X). split.
    { intros h F Ih Mh. apply (proj2 (means_hv m' hs lk D' h F I' Ih)). intros rho.
      rewrite (mx_h _ _ _ _ _ X h Ih). exact (proj1 (means_hv m hs lk0 D h F I Ih) Mh rho). }
    split; [exact O1|]. apply lrel_pipeline in E as [<- _]. exact O2.
Qed.
End World.

(** ** Examples *)

(** The exclusive or of some functions, used again by two more operations; the first result is asked for
    complemented. *)
Definition demo_prog : list (operand * operand) :=
  [(Own h_and, Own h_ite); (Prov 0 true, Own (h_var 3)); (Prov 1 false, Prov 0 false); (Own (h_var 1), Own (h_var 4)); (Prov 3 true, Prov 2 true)].
Definition demo_outs : list (nat * bool) := [(4%nat, false); (0%nat, true); (1%nat, false)].

Definition pipe_ok (r : outcome (option (list ubdd) * mgr * pipe)) (P : list ubdd -> mgr -> pipe -> bool) : bool :=
  match r with Ok (Some rs, m', p') => P rs m' p' | _ => false end.
Lemma pipe_ok_ex r P : pipe_ok r P = true -> exists rs m' p', r = Ok (Some rs, m', p') /\ P rs m' p' = true.
Proof. destruct r as [[[[rs|] m'] p']| |]; try discriminate. intros H. exists rs, m', p'. split; [reflexivity|exact H]. Qed.
Definition are_vals (m : mgr) (hs : list ubdd) (rho : N -> bool) (bs : list bool) : bool :=
  Nat.eqb (length hs) (length bs) && forallb (fun hb => is_val m (fst hb) rho (snd hb)) (combine hs bs).
Lemma are_vals_eq m rho : forall hs bs, are_vals m hs rho bs = true -> map (fun h => value m h rho) hs = map Some bs.
Proof.
  induction hs as [|h hs IH]; intros [|b bs]; unfold are_vals; simpl; intros H; try discriminate; auto.
  apply andb_true_iff in H as [H1 H2]. apply andb_true_iff in H2 as [H2 H3]. apply is_val_eq in H2. rewrite H2. f_equal. apply IH.
  unfold are_vals. now rewrite H1, H3.
Qed.

Lemma demo_prog_facts : pipeline_idle pipe0 /\ well_formed (wh demo) demo_prog /\ max_levels demo_prog /\ within_program demo_prog demo_outs.
Proof.
  split; [|split; [|split]].
  - split; [reflexivity|]. split; [intros i; reflexivity|]. split; [reflexivity|]. split; [reflexivity|]. apply le_n.
  - intros k x y E. do 5 (destruct k as [|k]; [cbn [nth_error demo_prog] in E; injection E as <- <-; split;
      first [vm_compute; repeat (first [left; reflexivity|right]); fail 1|cbn [operand_from]; lia|idtac]|]).
    all: try (vm_compute; repeat (first [left; reflexivity|right])).
    destruct k; discriminate E.
  - exists (fun k => nth k [0; 1; 2; 0; 3]%nat O). intros k x y E.
    do 5 (destruct k as [|k]; [cbn [nth_error demo_prog] in E; injection E as <- <-; cbn [nth beneath]; lia|]).
    destruct k; discriminate E.
  - intros k b H. cbn [demo_outs In] in H. destruct H as [H|[H|[H|[]]]]; injection H as <- _; cbn [length demo_prog]; lia.
Qed.

Lemma pipeline_example : forall d, In d [0%nat; 1%nat; 2%nat; 4%nat] ->
  exists rs m' p', run_pipeline reversed dec1 (fun _ => dec1) (wm demo) (cal_pipeline_setdepth pipe0 d) op_xor demo_prog demo_outs = Ok (Some rs, m', p') /\
    map (fun h => value m' h (fun i => i =? 4)) rs = map Some [false; false; false] /\
    map (fun h => value m' h (fun i => 3 <=? i)) rs = map Some [true; true; false].
Proof.
  intros d Hd.
  destruct (pipe_ok_ex (run_pipeline reversed dec1 (fun _ => dec1) (wm demo) (cal_pipeline_setdepth pipe0 d) op_xor demo_prog demo_outs)
    (fun rs m' p' => are_vals m' rs (fun i => i =? 4) [false; false; false] && are_vals m' rs (fun i => 3 <=? i) [true; true; false])) as (rs & m' & p' & E & P).
  - destruct Hd as [<-|[<-|[<-|[<-|[]]]]]; vm_compute; reflexivity.
  - apply andb_true_iff in P as [P1 P2]. exists rs, m', p'. split; [exact E|]. split; apply are_vals_eq; assumption.
Qed.

(** ** What goes wrong *)

(** A chain of operations. *)
Definition chain (f g : ubdd) (n : nat) : list (operand * operand) := (Own f, Own g) :: map (fun k => (Prov k false, Own g)) (seq 0 n).
Lemma chain_nth f g n k x y : nth_error (chain f g n) k = Some (x, y) ->
  (k = O /\ x = Own f /\ y = Own g) \/ (exists j, k = S j /\ (j < n)%nat /\ x = Prov j false /\ y = Own g).
Proof.
  destruct k as [|j]; cbn [chain nth_error]; intros H; [injection H as <- <-; now left|right]. exists j. split; [reflexivity|].
  destruct (nth_error (seq 0 n) j) as [i|] eqn:Ei.
  - rewrite (map_nth_error _ _ _ Ei) in H. injection H as <- <-.
    assert (Lj : (j < n)%nat). { rewrite <- (seq_length n 0). apply nth_error_Some. now rewrite Ei. }
    split; [exact Lj|]. apply (nth_error_nth (seq 0 n) j O) in Ei. rewrite seq_nth in Ei by exact Lj. cbn in Ei. subst i. split; reflexivity.
  - apply nth_error_None in Ei. rewrite seq_length in Ei.
    assert (E : nth_error (map (fun k => (Prov k false, Own g)) (seq 0 n)) j = None) by (apply nth_error_None; rewrite map_length, seq_length; exact Ei).
    rewrite E in H. discriminate.
Qed.
Lemma chain_wf hs f g n : In f hs -> In g hs -> well_formed hs (chain f g n).
Proof.
  intros If Ig k x y E. destruct (chain_nth f g n k x y E) as [(_ & -> & ->)|(j & -> & _ & -> & ->)]; cbn [operand_from]; split; auto.
Qed.
Lemma chain_levels f g n : N.of_nat n < 256 -> max_levels (chain f g n).
Proof.
  intros Hn. exists (fun k => k). intros k x y E.
  destruct (chain_nth f g n k x y E) as [(-> & -> & ->)|(j & -> & Lj & -> & ->)]; cbn [beneath]; (split; [lia|split; [auto|auto]]).
Qed.
Lemma chain_length f g n : length (chain f g n) = S n.
Proof. cbn [chain length]. now rewrite map_length, seq_length. Qed.

(** 256 levels are all right, the next one is not: the array of the lists has no room for it. *)
Definition undefined {A} (r : outcome A) : bool := match r with Undefined => true | _ => false end.
Lemma undefined_eq {A} (r : outcome A) : undefined r = true -> r = Undefined.
Proof. destruct r; now intros. Qed.
Lemma deep_facts : In h_and (wh demo) /\ In h_ite (wh demo).
Proof. destruct demo_facts as (_ & _ & H1 & H2 & _). split; assumption. Qed.
Lemma deep_run :
  undefined (run_pipeline listed dec1 (fun _ => dec1) (wm demo) pipe0 op_and (chain h_and h_ite 256) [(0%nat, false)]) = true /\
  pipe_ok (run_pipeline listed dec1 (fun _ => dec1) (wm demo) pipe0 op_and (chain h_and h_ite 255) [(255%nat, false)])
    (fun rs m' p' => are_vals m' rs (fun i => i <=? 3) [true]) = true.
Proof. split; vm_compute; reflexivity. Qed.
Lemma levels_refuted : exists w enum d0 ds p op b prog outs, reachable w /\ good_enum enum /\ pipeline_operation op b /\ pipeline_idle p /\
  well_formed (wh w) prog /\ within_program prog outs /\ length prog = N.to_nat 257 /\
  run_pipeline enum d0 ds (wm w) p op prog outs = Undefined.
Proof.
  exists demo, listed, dec1, (fun _ => dec1), pipe0, op_and, andb, (chain h_and h_ite 256), [(0%nat, false)].
  split; [exact (run_reachable _)|]. split; [exact listed_good|]. split; [left; split; reflexivity|].
  split; [exact (proj1 demo_prog_facts)|]. split; [exact (chain_wf _ _ _ _ (proj1 deep_facts) (proj2 deep_facts))|].
  split. { intros k c [H|[]]. injection H as <- _. rewrite chain_length. lia. }
  split; [rewrite chain_length; lia|]. exact (undefined_eq _ (proj1 deep_run)).
Qed.
Lemma levels_example : well_formed (wh demo) (chain h_and h_ite 255) /\ max_levels (chain h_and h_ite 255) /\
  exists rs m' p', run_pipeline listed dec1 (fun _ => dec1) (wm demo) pipe0 op_and (chain h_and h_ite 255) [(255%nat, false)] = Ok (Some rs, m', p') /\
    map (fun h => value m' h (fun i => i <=? 3)) rs = map Some [true].
Proof.
  split; [exact (chain_wf _ _ _ _ (proj1 deep_facts) (proj2 deep_facts))|]. split; [apply chain_levels; lia|].
  destruct (pipe_ok_ex _ _ (proj2 deep_run)) as (rs & m' & p' & E & P). exists rs, m', p'. split; [exact E|]. apply are_vals_eq; assumption.
Qed.

(** An operation that is not known is refused, but the pipeline cannot be initialised any more. *)
Lemma unknown_operation d m p : pipeline_idle p ->
  exists m' p', cal_pipeline_init d m p None = (false, m', p') /\ ~ pipeline_idle p' /\
    forall d' m'' op, exists m3, cal_pipeline_init d' m'' p' (Some op) = (false, m3, p').
Proof.
  intros (Hs & _). unfold cal_pipeline_init at 1. rewrite Hs. eexists _, _. split; [reflexivity|].
  split; [intros (H & _); discriminate|]. intros d' m'' op. eexists. reflexivity.
Qed.

(** One shallow pipeline makes the manager execute all later ones level by level. *)
Lemma depth_example : exists rs m' p', run_pipeline listed dec1 (fun _ => dec1) (wm demo) pipe0 op_or [(Own h_and, Own h_ite)] [(0%nat, false)] = Ok (Some rs, m', p') /\
  pman pipe0 = 4%nat /\ pman p' = 1%nat.
Proof.
  destruct (pipe_ok_ex (run_pipeline listed dec1 (fun _ => dec1) (wm demo) pipe0 op_or [(Own h_and, Own h_ite)] [(0%nat, false)])
    (fun rs m' p' => Nat.eqb (pman p') 1)) as (rs & m' & p' & E & P); [vm_compute; reflexivity|].
  exists rs, m', p'. split; [exact E|]. split; [reflexivity|]. apply Nat.eqb_eq. exact P.
Qed.

(** A pipeline that overflows. *)
Definition pipe_none (r : outcome (option (list ubdd) * mgr * pipe)) (P : mgr -> pipe -> bool) : bool :=
  match r with Ok (None, m', p') => P m' p' | _ => false end.
Lemma pipe_none_ex r P : pipe_none r P = true -> exists m' p', r = Ok (None, m', p') /\ P m' p' = true.
Proof. destruct r as [[[[rs|] m'] p']| |]; try discriminate. intros H. exists m', p'. split; [reflexivity|exact H]. Qed.
Definition in_create (p : pipe) : bool := match ps p with CREATE => true | _ => false end.
Lemma in_create_eq p : in_create p = true -> ps p = CREATE.
Proof. unfold in_create. now destruct (ps p). Qed.
Lemma pipeline_overflow_example : reachable tight /\
  exists m' p', run_pipeline listed dec1 (fun _ => dec1) (wm tight) pipe0 op_xor [(Own h_and, Own h_ite)] [(0%nat, false)] = Ok (None, m', p') /\
    ps p' = CREATE /\ mov m' = true /\ value m' h_ite (fun i => i =? 4) = Some true.
Proof.
  split; [exact (run_reachable _)|].
  destruct (pipe_none_ex (run_pipeline listed dec1 (fun _ => dec1) (wm tight) pipe0 op_xor [(Own h_and, Own h_ite)] [(0%nat, false)])
    (fun m' p' => in_create p' && mov m' && is_val m' h_ite (fun i => i =? 4) true)) as (m' & p' & E & P); [vm_compute; reflexivity|].
  apply andb_true_iff in P as [P P3]. apply andb_true_iff in P as [P1 P2]. exists m', p'. split; [exact E|].
  split; [exact (in_create_eq p' P1)|]. split; [exact P2|]. apply is_val_eq; assumption.
Qed.
