(** * Small client programs, for the examples beside the theorems.

    A program is a list of commands on positions in the client's list of handles; commands
    that cannot be carried out are skipped, so every program leads to a reachable world. *)
From Coq Require Import Permutation.
From Verif Require Import Base BFModel ITEModel MgrModel ApiModel GraphModel AssocModel QuantModel QuantBFModel QuantApiModel ComposeModel CofactorModel SpecApi SpecAssoc.

Inductive bop := BAnd | BNand | BOr | BXor.
Definition opof (b : bop) : binop := match b with BAnd => op_and | BNand => op_nand | BOr => op_or | BXor => op_xor end.

Inductive cmd :=
| CConst (b : bool) | CNot (n : nat) | CFree | CBin (b : bop) (neg : bool) (n k : nat) | CIte (a b c : nat)
| CNewvar (k : N) | CGc | CLimit (z : Z) | CTop (n : nat)
| CAssoc (l : list nat) (pr : bool) | CQuit (id : N) | CCurrent (id : option N) | CTemp (l : list nat) (pr : bool)
| CQuant (neg : bool) (n : nat) | CRelProd (n k : nat) | CCompose (a b c : nat) | CCofactor (a b : nat).

Definition listed : memory -> list N -> list N := fun _ l => l.
Definition reversed : memory -> list N -> list N := fun _ l => rev l.
Lemma listed_good : good_enum listed. Proof. intros m l. apply Permutation_refl. Qed.
Lemma reversed_good : good_enum reversed. Proof. intros m l. symmetry. apply Permutation_rev. Qed.

Definition got (w : world) (r : outcome (ubdd * mgr)) : world :=
  match r with Ok (h, m') => World m' (own [h] (wh w)) | _ => w end.
(** Lists a client may pass to association calls. *)
Fixpoint distinct (l : list ubdd) : bool :=
  match l with [] => true | h :: l => negb (existsb (ueq h) l) && distinct l end.
Definition fit (w : world) (l : list nat) (pr : bool) : bool :=
  forallb (fun n => (n <? length (wh w))%nat) l &&
  (if pr then distinct (map fst (pairs (map (fun n => nth n (wh w) unull) l)))
   else forallb (fun h => negb (cal_isconst (wm w) h)) (map (fun n => nth n (wh w) unull) l)) &&
  (length (massoc (wm w)) <? 4096)%nat.
Definition has_room (m : mgr) : bool := match mcur m with None => 36866 <=? mtop m | Some _ => true end.
(** A table with 1024 places. *)
Definition slot0 (op : N) (f g : edge) : N := (op + eptr f + eptr g) mod 1024.
Definition run1 (w : world) (c : cmd) : world :=
  let m := wm w in
  let at_ n := nth n (wh w) unull in
  match c with
  | CConst b => World m (U (muone m) b :: wh w)
  | CNot n => match nth_error (wh w) n with
              | Some h => match cal_not m h with Ok (r, m') => World m' (r :: wh w) | _ => w end
              | None => w end
  | CFree => match wh w with
             | h :: hs => match cal_free m h with Ok m' => World m' hs | _ => w end
             | [] => w end
  | CBin b neg n k => got w (binary reversed (opof b) neg dec1 dec1 m (at_ n) (at_ k))
  | CIte a b c => got w (cal_ite reversed dec1 dec1 m (at_ a) (at_ b) (at_ c))
  | CNewvar k => got w (newvar_at m k)
  | CGc => World (gc m) (wh w)
  | CLimit z => World (snd (cal_nodelimit m z)) (wh w)
  | CTop n => match nth_error (wh w) n with
              | Some h => World m (h :: firstn n (wh w) ++ skipn (S n) (wh w))
              | None => w end
  | CAssoc l pr => if fit w l pr then match cal_assoc_init (fun _ => dec1) m (map at_ l) pr with Ok (_, m') => World m' (wh w) | _ => w end else w
  | CQuit id => World (cal_assoc_quit m id) (wh w)
  | CCurrent id => World (snd (cal_assoc_set_current m id)) (wh w)
  | CTemp l pr => if fit w l pr then match cal_temp_init (fun _ => dec1) m (map at_ l) pr with Ok m' => World m' (wh w) | _ => w end else w
  | CQuant neg n => if has_room m then got w (quantify reversed slot0 neg dec1 dec1 m (at_ n)) else w
  | CRelProd n k => if has_room m then got w (cal_relprod reversed slot0 dec1 dec1 m (at_ n) (at_ k)) else w
  | CCompose a b c => got w (cal_compose reversed dec1 m (at_ a) (at_ b) (at_ c))
  | CCofactor a b => got w (cal_cofactor reversed dec1 dec1 m (at_ a) (at_ b))
  end.
(** The association identifiers the client holds afterwards. *)
Definition ids1 (w : world) (ids : list N) (c : cmd) : list N :=
  match c with
  | CAssoc l pr => if fit w l pr then match cal_assoc_init (fun _ => dec1) (wm w) (map (fun n => nth n (wh w) unull) l) pr with Ok (Some j, _) => j :: ids | _ => ids end else ids
  | CQuit id => give_up id ids
  | _ => ids
  end.
Fixpoint idsof (w : world) (ids : list N) (l : list cmd) : list N :=
  match l with [] => ids | c :: l => idsof (run1 w c) (ids1 w ids c) l end.
Definition run (l : list cmd) : world := fold_left run1 l (World init []).

Lemma at_arg (w : world) n : arg (wh w) (nth n (wh w) unull).
Proof.
  destruct (Nat.lt_ge_cases n (length (wh w))) as [H|H].
  - right. now apply nth_In.
  - left. rewrite nth_overflow; auto.
Qed.

Lemma split_at {A} (l : list A) n x : nth_error l n = Some x -> Permutation l (x :: firstn n l ++ skipn (S n) l).
Proof.
  revert n. induction l as [|y l IH]; intros [|n] H; simpl in *; try discriminate.
  - injection H as ->. apply Permutation_refl.
  - apply IH in H. rewrite H at 1. apply perm_swap.
Qed.

Lemma distinct_nodup l : distinct l = true -> NoDup l.
Proof.
  induction l as [|h l IH]; simpl; [constructor|]. intros H. apply andb_true_iff in H as [H1 H2]. constructor; [|auto].
  intros Ih. apply negb_true_iff in H1. apply not_true_iff_false in H1. apply H1. apply existsb_exists. exists h. split; auto.
  unfold ueq. now rewrite N.eqb_refl, Bool.eqb_reflx.
Qed.
Lemma fit_ok w l pr : fit w l pr = true -> let hs := map (fun n => nth n (wh w) unull) l in
  args (wh w) hs /\ no_constants (wm w) pr hs /\ distinct_variables pr hs /\ room_for_association (wm w).
Proof.
  intros H hs. unfold fit in H. apply andb_true_iff in H as [H H3]. apply andb_true_iff in H as [H1 H2].
  split; [|split; [|split]].
  - intros h Ih. apply in_map_iff in Ih as (n & <- & In_). rewrite forallb_forall in H1. specialize (H1 n In_).
    apply Nat.ltb_lt in H1. now apply nth_In.
  - unfold no_constants. intros -> h Ih. rewrite forallb_forall in H2. specialize (H2 h Ih). now apply negb_true_iff in H2.
  - unfold distinct_variables. intros ->. now apply distinct_nodup.
  - now apply Nat.ltb_lt in H3.
Qed.

Lemma has_room_ok m : has_room m = true -> room_for_temporary m.
Proof. unfold has_room, room_for_temporary. destruct (mcur m); [discriminate|]. intros H _. now apply N.leb_le in H. Qed.
Lemma run1_holding w ids c : holding w ids -> holding (run1 w c) (ids1 w ids c).
Proof.
  intros R. destruct c; simpl.
  - eapply ho_call; [exact R|]. destruct w. apply st_const.
  - destruct (nth_error (wh w) n) as [h|] eqn:E; auto. destruct (cal_not (wm w) h) as [[r m']| |] eqn:E1; auto.
    eapply ho_call; [exact R|]. destruct w. eapply st_not; eauto. simpl in *. eapply nth_error_In; eauto.
  - destruct w as [m [|h hs]]; simpl in *; auto. destruct (cal_free m h) eqn:E1; auto.
    eapply ho_call; [exact R|]. eapply st_free; eauto.
  - destruct (binary _ _ _ _ _ _ _ _) as [[r m']| |] eqn:E1; auto.
    eapply ho_call; [exact R|]. destruct w as [m hs]. simpl in *. eapply (st_binary reversed (opof b) neg); [apply reversed_good| | | |exact E1].
    + destruct b; simpl; auto.
    + apply (at_arg (World m hs)).
    + apply (at_arg (World m hs)).
  - destruct (cal_ite _ _ _ _ _ _ _) as [[r m']| |] eqn:E1; auto.
    eapply ho_call; [exact R|]. destruct w as [m hs]. simpl in *. eapply (st_ite reversed); [apply reversed_good| | | |exact E1]; apply (at_arg (World m hs)).
  - destruct (newvar_at (wm w) k) as [[r m']| |] eqn:E1; auto. eapply ho_call; [exact R|]. destruct w. simpl in *. eapply st_newvar; eauto.
  - eapply ho_call; [exact R|]. destruct w. apply st_gc.
  - eapply ho_call; [exact R|]. destruct w. eapply st_nodelimit with (z := z). apply surjective_pairing.
  - destruct (nth_error (wh w) n) as [h|] eqn:E; auto. eapply ho_call; [exact R|]. destruct w. apply st_perm. now apply split_at.
  - destruct (fit w l pr) eqn:F; auto. destruct (fit_ok w l pr F) as (H1 & H2 & H3 & H4).
    destruct (cal_assoc_init _ _ _ _) as [[r m']| |] eqn:E1; auto. destruct w as [m hs]. simpl in *.
    exact (ho_assoc_init _ m hs _ pr r m' ids R H1 H2 H3 H4 E1).
  - destruct w as [m hs]. simpl in *. now apply ho_assoc_quit.
  - eapply ho_call; [exact R|]. destruct w as [m hs]. eapply st_set_current with (id := id). reflexivity.
  - destruct (fit w l pr) eqn:F; auto. destruct (fit_ok w l pr F) as (H1 & H2 & H3 & H4).
    destruct (cal_temp_init _ _ _ _) as [m'| |] eqn:E1; auto. eapply ho_call; [exact R|]. destruct w as [m hs]. simpl in *.
    exact (st_temp_init _ m hs _ pr m' H1 H2 E1).
  - destruct (has_room (wm w)) eqn:Rm; auto. apply has_room_ok in Rm. destruct (quantify _ _ _ _ _ _ _) as [[r m']| |] eqn:E1; auto.
    eapply ho_call; [exact R|]. destruct w as [m hs]. simpl in *. eapply (st_quantify reversed); [apply reversed_good| |exact Rm|exact E1]. apply (at_arg (World m hs)).
  - destruct (has_room (wm w)) eqn:Rm; auto. apply has_room_ok in Rm. destruct (cal_relprod _ _ _ _ _ _ _) as [[r m']| |] eqn:E1; auto.
    eapply ho_call; [exact R|]. destruct w as [m hs]. simpl in *. eapply (st_relprod reversed); [apply reversed_good| | |exact Rm|exact E1]; apply (at_arg (World m hs)).
  - destruct (cal_compose _ _ _ _ _ _) as [[r m']| |] eqn:E1; auto.
    eapply ho_call; [exact R|]. destruct w as [m hs]. simpl in *. eapply (st_compose reversed); [apply reversed_good| | | |exact E1]; apply (at_arg (World m hs)).
  - destruct (cal_cofactor _ _ _ _ _ _) as [[r m']| |] eqn:E1; auto.
    eapply ho_call; [exact R|]. destruct w as [m hs]. simpl in *. eapply (st_cofactor reversed); [apply reversed_good| | |exact E1]; apply (at_arg (World m hs)).
Qed.
Theorem run_holding l : holding (run l) (idsof (World init []) [] l).
Proof.
  unfold run. assert (R : holding (World init []) []) by constructor. revert R. generalize (World init []) (@nil N).
  induction l as [|c l IH]; simpl; auto. intros w ids R. apply IH. now apply run1_holding.
Qed.
Lemma holding_reaches w ids : holding w ids -> reachable w.
Proof.
  induction 1; [constructor|eapply re_call; eauto|eapply re_step; [eauto|]|eapply re_step; [eauto|]].
  - eapply st_assoc_init; eauto.
  - apply st_assoc_quit.
Qed.
Theorem run_reachable l : reachable (run l).
Proof. exact (holding_reaches _ _ (run_holding l)). Qed.

(** Evaluation of concrete handles. *)
Lemma evalf_ev n mm rho e b : evalf n mm rho e = Some b -> ev mm rho e b.
Proof.
  revert e b. induction n as [|n IH]; simpl; intros e b; [discriminate|].
  destruct (N.eqb_spec (eid e) 0) as [E|E].
  - intros [= <-]. now constructor.
  - destruct (evalf n mm rho _) as [c|] eqn:Ec; [|discriminate]. intros [= <-]. constructor; auto.
Qed.
Definition value (m : mgr) (h : ubdd) (rho : N -> bool) : option bool := evalf 100 (mmem m) rho (uint (mmem m) h).
Lemma value_ev m h rho b : value m h rho = Some b -> ev (mmem m) rho (uint (mmem m) h) b.
Proof. apply evalf_ev. Qed.

(** The decision tree of a handle. *)
Inductive tree := Leaf (b : bool) | Node (i : N) (t e : tree).
Fixpoint unfold_tree (n : nat) (mm : memory) (e : edge) : option tree :=
  match n with
  | O => None
  | S n =>
    if eid e =? 0 then Some (Leaf (negb (eneg e)))
    else match unfold_tree n mm (thenof mm e), unfold_tree n mm (elseof mm e) with
         | Some t, Some f => Some (Node (eid e) t f)
         | _, _ => None
         end
  end.
Fixpoint teval (rho : N -> bool) (t : tree) : bool :=
  match t with Leaf b => b | Node i t e => if rho i then teval rho t else teval rho e end.
Lemma ev_phase mm rho e b p : ev mm rho e b -> ev mm rho (ephase e p) (xorb p b).
Proof.
  intros H. inversion H; subst.
  - replace (xorb p (negb (eneg e))) with (negb (eneg (ephase e p))); [now constructor|]. simpl. now destruct p, (eneg e).
  - replace (xorb p (xorb (eneg e) b0)) with (xorb (eneg (ephase e p)) b0); [now constructor|]. simpl. now destruct p, (eneg e), b0.
Qed.
Lemma unfold_tree_ev n mm e t rho : unfold_tree n mm e = Some t -> ev mm rho e (teval rho t).
Proof.
  revert e t. induction n as [|n IH]; simpl; intros e t; [discriminate|].
  destruct (N.eqb_spec (eid e) 0) as [E|E].
  - intros [= <-]. simpl. now constructor.
  - destruct (unfold_tree n mm (thenof mm e)) as [t1|] eqn:E1; [|discriminate].
    destruct (unfold_tree n mm (elseof mm e)) as [t2|] eqn:E2; [|discriminate]. intros [= <-]. simpl.
    apply IH in E1, E2. unfold thenof, elseof in *.
    set (v := if rho (eid e) then teval rho t1 else teval rho t2).
    assert (Hv : ev mm rho (if rho (eid e) then ct (mm (eptr e)) else ce (mm (eptr e))) (xorb (eneg e) v)).
    { assert (Eb : forall x, ephase (ephase x (eneg e)) (eneg e) = x).
      { intros [a b c]. unfold ephase. simpl. f_equal. now destruct c, (eneg e). }
      subst v. destruct (rho (eid e)); [apply (ev_phase _ _ _ _ (eneg e)) in E1; now rewrite Eb in E1|
        apply (ev_phase _ _ _ _ (eneg e)) in E2; now rewrite Eb in E2]. }
    replace v with (xorb (eneg e) (xorb (eneg e) v)) by (now destruct (eneg e), v). now constructor.
Qed.
Lemma tree_means m h t (F : bfun) : unfold_tree 100 (mmem m) (uint (mmem m) h) = Some t -> (forall rho, teval rho t = F rho) -> means m h F.
Proof. intros H E rho. rewrite <- E. eapply unfold_tree_ev; eauto. Qed.
