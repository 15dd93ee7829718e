(** * Writing: the marking and numbering passes, and what the written bytes say. *)
From Coq Require Import Permutation Sorted QArith.
From Verif Require Import Base BFModel ITEModel MgrModel ApiModel StoreInv Own EngInv ApplyProof BinopProof ReduceProof
  EngineProof OpProof MultiProof QProof GCProof VarProof MInv ApiProof ApiOps ApiStruct GraphModel GraphProof GraphMarks CodecModel CodecProof DumpModel.
Open Scope N_scope.

(** ** Scripts: the structure behind the bytes *)
Inductive scr :=
| SConst (b : bool) | SVar (b : bool) (k : N) | SRef (b : bool) (j : N) | SLabel (j : N) (s : scr) | SNode (k : N) (t e : scr).
Definition nf := (N -> bool) -> bool.
Definition sgn (b : bool) (g : nf) : nf := fun r => if b then g r else negb (g r).
Fixpoint set_at {A} (n : nat) (x : A) (l : list A) : list A :=
  match n, l with O, _ :: l => x :: l | S n, y :: l => y :: set_at n x l | _, [] => [] end.
(** The function a script stands for; the list holds the functions of the labels met so far ([None]: not complete). *)
Fixpoint play (s : scr) (sh : list (option nf)) : option (nf * list (option nf)) :=
  match s with
  | SConst b => Some ((fun _ => b) : nf, sh)
  | SVar b k => Some (sgn b (fun r => r k), sh)
  | SRef b j => match nth_error sh (N.to_nat j) with Some (Some g) => Some (sgn b g, sh) | _ => None end
  | SLabel _ s => match play s (sh ++ [None]) with Some (g, sh') => Some (g, set_at (length sh) (Some g) sh') | None => None end
  | SNode k t e =>
      match play t sh with
      | None => None
      | Some (gt, sh1) => match play e sh1 with None => None | Some (ge, sh2) => Some ((fun r : N -> bool => if r k then gt r else ge r) : nf, sh2) end
      end
  end.
(** Its bytes. *)
Fixpoint enc (isz nsz : nat) (s : scr) : list N :=
  match s with
  | SConst b => code isz (if b then C_TRUE else C_FALSE)
  | SVar b k => code isz (if b then C_POSVAR else C_NEGVAR) ++ dwrite isz k
  | SRef b j => code isz (if b then C_POSNODE else C_NEGNODE) ++ dwrite nsz j
  | SLabel _ s => code isz C_LABEL ++ enc isz nsz s
  | SNode k t e => dwrite isz k ++ enc isz nsz t ++ enc isz nsz e
  end.
(** The variable numbers are below [nv] and the labels below [ns]. *)
Fixpoint within_bounds (nv ns : N) (s : scr) : Prop :=
  match s with
  | SConst _ => True
  | SVar _ k => k < nv
  | SRef _ j => j < ns
  | SLabel _ s => within_bounds nv ns s
  | SNode k t e => k < nv /\ within_bounds nv ns t /\ within_bounds nv ns e
  end.

(** The labels are numbered in the order in which they appear, from [n]; the number after the last. *)
Fixpoint counted (s : scr) (n : nat) : option nat :=
  match s with
  | SConst _ | SVar _ _ | SRef _ _ => Some n
  | SLabel j s => if Nat.eqb (N.to_nat j) n then counted s (S n) else None
  | SNode _ t e => match counted t n with None => None | Some n1 => counted e n1 end
  end.
(** Only a label stands before an inner node that is named. *)
Fixpoint proper (s : scr) : Prop :=
  match s with
  | SConst _ | SVar _ _ | SRef _ _ => True
  | SLabel _ (SNode _ t e) => proper t /\ proper e
  | SLabel _ _ => False
  | SNode _ t e => proper t /\ proper e
  end.
(** The script of an edge: what [dump_step] (/repo/src/calDump.c:285-361) and [print_step] (/repo/src/calPrint.c:222-279) share. *)
Fixpoint script_step (fuel : nat) (o : order) (m : memory) (norm : N -> N) (h : map1 Z) (f : edge) : option (scr * map1 Z) :=
  match fuel with
  | O => None
  | S fuel =>
      let k := norm (idx o (eid f)) in
      let t := type_aux m f in
      if t =? TYPE_ZERO then Some (SConst false, h)
      else if t =? TYPE_ONE then Some (SConst true, h)
      else if t =? TYPE_POSVAR then Some (SVar true k, h)
      else if t =? TYPE_NEGVAR then Some (SVar false k, h)
      else
        let '(negated, g) := match lookup1 h (enot f) with Some _ => (true, enot f) | None => (false, f) end in
        match lookup1 h g with
        | Some z =>
            if (z <? 0)%Z then Some (SRef (negb negated) (Z.to_N (- z - 1)), h)
            else
              match script_step fuel o m norm (update1 h g (- z - 1)%Z) (thenof m g) with
              | None => None
              | Some (b1, h1) =>
                  match script_step fuel o m norm h1 (elseof m g) with
                  | None => None
                  | Some (b2, h2) => Some (SLabel (Z.to_N z) (SNode k b1 b2), h2)
                  end
              end
        | None =>
            match script_step fuel o m norm h (thenof m g) with
            | None => None
            | Some (b1, h1) =>
                match script_step fuel o m norm h1 (elseof m g) with
                | None => None
                | Some (b2, h2) => Some (SNode k b1 b2, h2)
                end
            end
        end
  end.
Lemma dump_script fuel o m norm isz nsz : forall h f, dump_step fuel o m norm isz nsz h f =
  match script_step fuel o m norm h f with Some (sc, h') => Some (enc isz nsz sc, h') | None => None end.
Proof.
  induction fuel as [|fuel IH]; intros h f; [reflexivity|]. cbn [dump_step script_step].
  destruct (type_aux m f =? TYPE_ZERO); [reflexivity|]. destruct (type_aux m f =? TYPE_ONE); [reflexivity|].
  destruct (type_aux m f =? TYPE_POSVAR); [reflexivity|]. destruct (type_aux m f =? TYPE_NEGVAR); [reflexivity|].
  destruct (match lookup1 h (enot f) with Some _ => (true, enot f) | None => (false, f) end) as [ng g].
  destruct (lookup1 h g) as [z|].
  - destruct (z <? 0)%Z; [destruct ng; reflexivity|]. rewrite IH. destruct (script_step fuel o m norm (update1 h g (- z - 1)%Z) (thenof m g)) as [[s1 h1]|]; [|reflexivity].
    rewrite IH. destruct (script_step fuel o m norm h1 (elseof m g)) as [[s2 h2]|]; reflexivity.
  - rewrite IH. destruct (script_step fuel o m norm h (thenof m g)) as [[s1 h1]|]; [|reflexivity].
    rewrite IH. destruct (script_step fuel o m norm h1 (elseof m g)) as [[s2 h2]|]; reflexivity.
Qed.

Lemma set_at_length {A} n (x : A) l : length (set_at n x l) = length l.
Proof. revert n. induction l as [|y l IH]; intros [|n]; simpl; auto. Qed.
Lemma set_at_same {A} n (x : A) l : (n < length l)%nat -> nth_error (set_at n x l) n = Some x.
Proof. revert n. induction l as [|y l IH]; intros [|n]; simpl; intros H; try lia; auto. apply IH. lia. Qed.
Lemma set_at_other {A} n (x : A) l k : k <> n -> nth_error (set_at n x l) k = nth_error l k.
Proof. revert n k. induction l as [|y l IH]; intros [|n] [|k]; simpl; intros H; auto; try lia. Qed.

Section Dump.
Variables (o : order) (D : den) (s : store).
Hypothesis Wo : wfo o.
Hypothesis W : SWF o s.
Hypothesis K : Dok D s.
Let m := mem s.
Notation V := (vedge (nodeR s)).
Notation rank := (rank o).

Definition inner (f : edge) : Prop := isconst f = false /\ is_var m f = false.

Lemma enot_cases f g : V f -> V g -> eptr f = eptr g -> g = f \/ g = enot f.
Proof. apply (ptr_cases o s W). Qed.
Lemma V_enot f : V f -> V (enot f).
Proof. unfold vedge. destruct f as [i p n]. simpl. tauto. Qed.
Lemma is_var_enot f : V f -> is_var m (enot f) = is_var m f.
Proof.
  intros Vf. pose proof (V_enot f Vf) as Vn.
  assert (T : forall (b : bool) e, V e -> type_aux m e = (if b then TYPE_POSVAR else TYPE_NEGVAR) -> type_aux m (enot e) = (if b then TYPE_NEGVAR else TYPE_POSVAR)).
  { intros b e Ve H. apply (type_lit o D s Wo W K e b Ve) in H as [i H].
    replace (if b then TYPE_NEGVAR else TYPE_POSVAR) with (if negb b then TYPE_POSVAR else TYPE_NEGVAR) by (destruct b; auto).
    apply (type_lit o D s Wo W K (enot e) (negb b)); [now apply V_enot|]. exists i. intros rho. rewrite dv_enot, H. destruct (rho i), b; auto. }
  unfold is_var.
  assert (A : forall e, V e -> (type_aux m e =? TYPE_POSVAR) || (type_aux m e =? TYPE_NEGVAR) = true ->
    (type_aux m (enot e) =? TYPE_POSVAR) || (type_aux m (enot e) =? TYPE_NEGVAR) = true).
  { intros e Ve H. apply orb_true_iff in H as [H|H]; apply N.eqb_eq in H.
    - rewrite (T true e Ve H). apply orb_true_r.
    - rewrite (T false e Ve H). reflexivity. }
  destruct ((type_aux m f =? TYPE_POSVAR) || (type_aux m f =? TYPE_NEGVAR)) eqn:E1.
  - apply A; auto.
  - destruct ((type_aux m (enot f) =? TYPE_POSVAR) || (type_aux m (enot f) =? TYPE_NEGVAR)) eqn:E2; auto.
    apply A in E2; auto. rewrite enot_enot in E2. congruence.
Qed.
Lemma inner_ptr f g : V f -> V g -> eptr f = eptr g -> inner f -> inner g.
Proof.
  intros Vf Vg P [A B]. destruct (enot_cases f g Vf Vg P) as [-> | ->]; [split; auto|]. split; [now rewrite isconst_enot|now rewrite is_var_enot].
Qed.
Lemma inner_dec f : {inner f} + {~ inner f}.
Proof. unfold inner. destruct (isconst f), (is_var m f); [right|right|right|left]; intuition discriminate. Qed.
Lemma rank_ptr f g : V f -> V g -> eptr f = eptr g -> rank f = rank g.
Proof. intros Vf Vg P. destruct (enot_cases f g Vf Vg P) as [-> | ->]; auto. Qed.
Lemma child_ptr f g : V f -> V g -> eptr f = eptr g -> eptr (thenof m f) = eptr (thenof m g) /\ eptr (elseof m f) = eptr (elseof m g).
Proof. intros Vf Vg P. destruct (enot_cases f g Vf Vg P) as [-> | ->]; auto. Qed.

(** A set of visited nodes is closed below a rank. *)
Definition closed (R : nat) (P : N -> Prop) : Prop :=
  forall x, V x -> inner x -> (rank x < R)%nat -> P (eptr x) ->
    (inner (thenof m x) -> P (eptr (thenof m x))) /\ (inner (elseof m x) -> P (eptr (elseof m x))).

(** ** Marking *)
Definition on (mk : marks) (p : N) : Prop := mk p <> 0.
Definition pos (f : edge) : edge := if eneg f then enot f else f.
Lemma pos_ptr f : eptr (pos f) = eptr f.
Proof. unfold pos. destruct (eneg f); auto. Qed.
Lemma pos_V f : V f -> V (pos f).
Proof. unfold pos. intros H. destruct (eneg f); auto. Qed.

Lemma mark_shared_spec fuel : forall mk f, V f -> (rank f < fuel)%nat -> exists mk', mark_shared fuel m mk f = Some mk' /\
  (forall p, on mk p -> on mk' p) /\ (inner f -> on mk' (eptr f)) /\
  (forall x, V x -> on mk' (eptr x) -> on mk (eptr x) \/ eptr x = eptr f \/ (rank x < rank f)%nat) /\
  (forall R, (rank f < R)%nat -> closed R (on mk) -> closed R (on mk')).
Proof.
  induction fuel as [|fuel IH]; intros mk f Vf L; [lia|]. cbn [mark_shared]. fold (pos f).
  pose proof (pos_V f Vf) as Vp. pose proof (pos_ptr f) as Pp. pose proof (rank_ptr f (pos f) Vf Vp (eq_sym Pp)) as Rp.
  destruct (isconst (pos f) || (type_aux m (pos f) =? TYPE_POSVAR)) eqn:E1.
  { exists mk. split; auto. split; auto. split; [|split; auto]. intros I0. exfalso.
    apply (inner_ptr f (pos f)) in I0 as [A B]; auto. rewrite A in E1. cbn [orb] in E1. unfold is_var in B. rewrite E1 in B. discriminate. }
  apply orb_false_iff in E1 as [C _]. destruct (N.eqb_spec (mk (eptr (pos f))) 1) as [M1|M1].
  { exists (upd mk (eptr (pos f)) 2). rewrite Pp in *. split; auto.
    assert (S : forall p, on (upd mk (eptr f) 2) p <-> on mk p).
    { intros p. unfold on, upd. destruct (N.eqb_spec p (eptr f)) as [->|]; [rewrite M1; lia|tauto]. }
    split; [intros p; apply S|]. split; [intros _; apply S; unfold on; rewrite M1; lia|]. split; [intros x _ H; left; now apply S|].
    intros R _ Cl x Vx Ix Rx Px. apply S in Px. destruct (Cl x Vx Ix Rx Px) as [A B]. rewrite !S. auto. }
  destruct (node_split o s Wo W (pos f) Vp C) as (_ & _ & _ & Vt & Ve & _ & _ & Rt & Re). fold m in Vt, Ve, Rt, Re.
  destruct (IH (upd mk (eptr (pos f)) 1) (thenof m (pos f)) Vt ltac:(lia)) as (mk2 & E2 & Mo2 & Ft & N2 & Cl2).
  destruct (IH mk2 (elseof m (pos f)) Ve ltac:(lia)) as (mk3 & E3 & Mo3 & Fe & N3 & Cl3).
  rewrite E2, E3. exists mk3. split; auto. rewrite Pp in *.
  assert (Mf : on (upd mk (eptr f) 1) (eptr f)) by (unfold on, upd; rewrite N.eqb_refl; lia).
  assert (Mo1 : forall p, on mk p -> on (upd mk (eptr f) 1) p) by (intros p; unfold on, upd; destruct (p =? eptr f); [lia|auto]).
  assert (Nw : forall x, V x -> on mk3 (eptr x) -> on mk (eptr x) \/ eptr x = eptr f \/ (rank x < rank f)%nat).
  { intros x Vx H. destruct (N3 x Vx H) as [H1|[H1|H1]]; [|right; right; rewrite (rank_ptr x _ Vx Ve H1); lia|right; right; lia].
    destruct (N2 x Vx H1) as [H2|[H2|H2]]; [|right; right; rewrite (rank_ptr x _ Vx Vt H2); lia|right; right; lia].
    unfold on, upd in H2. destruct (N.eqb_spec (eptr x) (eptr f)); [auto|left; exact H2]. }
  split; [auto|]. split; [auto|]. split; [exact Nw|].
  intros R HR Cl.
  assert (C0 : closed (rank f) (on (upd mk (eptr f) 1))).
  { intros x Vx Ix Rx Px. destruct (Cl x Vx Ix ltac:(lia)) as [A B].
    - unfold on, upd in Px. destruct (N.eqb_spec (eptr x) (eptr f)) as [Ep|]; [|exact Px]. rewrite (rank_ptr x f Vx Vf Ep) in Rx. lia.
    - split; intros; apply Mo1; auto. }
  apply (Cl2 (rank f) ltac:(lia)) in C0. apply (Cl3 (rank f) ltac:(lia)) in C0.
  intros x Vx Ix Rx Px. destruct (Nw x Vx Px) as [H|[H|H]].
  - destruct (Cl x Vx Ix Rx H) as [A B]. split; intros; apply Mo3, Mo2, Mo1; auto.
  - assert (Pf : eptr x = eptr (pos f)) by congruence. destruct (child_ptr x (pos f) Vx Vp Pf) as [P1 P2].
    destruct (node_split o s Wo W x Vx (proj1 Ix)) as (_ & _ & _ & Vxt & Vxe & _). rewrite P1, P2.
    split; intros I0; [apply Mo3, Ft|apply Fe]; eapply inner_ptr; [| | |exact I0| | | |exact I0]; auto.
  - apply C0; auto.
Qed.

Lemma marked_all f mk : V f -> mark_shared (depth o) m unmarked f = Some mk -> forall x, sub m f x -> inner x -> on mk (eptr x).
Proof.
  intros Vf E. destruct (mark_shared_spec (depth o) unmarked f Vf (rank_depth o s f Vf)) as (mk' & E' & _ & F & _ & Cl).
  rewrite E in E'. injection E' as <-.
  assert (C : closed (S (rank f)) (on mk)) by (apply Cl; [lia|]; intros x _ _ _ P; exfalso; apply P; reflexivity).
  assert (B : forall y c, sub m f y -> isconst y = false -> c = thenof m y \/ c = elseof m y -> inner c -> inner y).
  { intros y c Sy Cy Hc Ic. split; auto. destruct (is_var m y) eqn:Ty; auto. exfalso. pose proof (sub_V o s Wo W f y Vf Sy) as Vy.
    unfold is_var in Ty. assert (T : exists b : bool, type_aux m y = if b then TYPE_POSVAR else TYPE_NEGVAR).
    { apply orb_true_iff in Ty as [Ty|Ty]; apply N.eqb_eq in Ty; [now exists true|now exists false]. }
    destruct T as [b T]. apply (type_lit o D s Wo W K y b Vy) in T as [i T]. destruct (literal_edge o D s Wo W K y i b Vy T) as (_ & _ & T1 & T2).
    fold m in T1, T2. destruct Ic as [Ic _]. destruct Hc as [-> | ->]; [rewrite T1 in Ic|rewrite T2 in Ic]; destruct b; discriminate. }
  intros x Sx. induction Sx as [|x Sx IH Cx|x Sx IH Cx]; intros Ix; [auto| |].
  - pose proof (B x _ Sx Cx (or_introl eq_refl) Ix) as Iy. destruct (C x (sub_V o s Wo W f x Vf Sx) Iy) as [A _]; auto.
    destruct (sub_rank o s Wo W f x Vf Sx) as [-> |]; lia.
  - pose proof (B x _ Sx Cx (or_intror eq_refl) Ix) as Iy. destruct (C x (sub_V o s Wo W f x Vf Sx) Iy) as [_ A]; auto.
    destruct (sub_rank o s Wo W f x Vf Sx) as [-> |]; lia.
Qed.

(** ** Numbering and writing *)
Variables (norm : N -> N) (nv : N).
Variable dom : edge -> Prop.
Hypothesis dom_t : forall f, dom f -> isconst f = false -> dom (thenof m f).
Hypothesis dom_e : forall f, dom f -> isconst f = false -> dom (elseof m f).
Definition closedF (R : nat) (P : N -> Prop) : Prop :=
  forall x, dom x -> V x -> inner x -> (rank x < R)%nat -> P (eptr x) ->
    (inner (thenof m x) -> P (eptr (thenof m x))) /\ (inner (elseof m x) -> P (eptr (elseof m x))).
Definition off (mk : marks) (p : N) : Prop := mk p = 0.
Definition key (e : edge * Z) : N := eptr (fst e).
Definition neg (l : map1 Z) : map1 Z := map (fun e => (fst e, (- snd e - 1)%Z)) l.
(** The function of an edge over the numbers in the file. *)
Definition sem (f : edge) : nf := fun r => dv D f (fun i => r (norm (idx o i))).
Definition hok (mk : marks) (h : map1 Z) (n : Z) : Prop :=
  Forall (fun e => V (fst e) /\ off mk (key e) /\ (0 <= snd e < n)%Z) h /\ NoDup (map key h).
Definition envok (R : nat) (h : map1 Z) (sh : list (option nf)) : Prop :=
  forall k z, In (k, z) h -> (rank k < R)%nat -> exists g, nth_error sh (Z.to_nat z) = Some (Some g) /\ forall r, g r = sem k r.

Lemma lookup_skip (l l' : map1 Z) f : (forall e, In e l -> key e <> eptr f) -> lookup1 (l ++ l') f = lookup1 l' f.
Proof.
  induction l as [|[k z] l IH]; intros H; [reflexivity|]. cbn [app lookup1]. destruct (eeq f k) eqn:E.
  - apply eeq_true in E as [E _]. exfalso. apply (H (k, z)); [now left|]. symmetry. exact E.
  - apply IH. intros e Ie. apply H. now right.
Qed.
Lemma update_skip (l l' : map1 Z) f v : (forall e, In e l -> key e <> eptr f) -> update1 (l ++ l') f v = l ++ update1 l' f v.
Proof.
  induction l as [|[k z] l IH]; intros H; [reflexivity|]. cbn [app update1]. destruct (eeq f k) eqn:E.
  - apply eeq_true in E as [E _]. exfalso. apply (H (k, z)); [now left|]. symmetry. exact E.
  - f_equal. apply IH. intros e Ie. apply H. now right.
Qed.
Lemma lookup_none (l : map1 Z) f : (forall e, In e l -> key e <> eptr f) -> lookup1 l f = None.
Proof. intros H. rewrite <- (app_nil_r l). now rewrite lookup_skip. Qed.
Lemma lookup_neg (l : map1 Z) f : lookup1 (neg l) f = option_map (fun z => (- z - 1)%Z) (lookup1 l f).
Proof. induction l as [|[k z] l IH]; [reflexivity|]. cbn. destruct (eeq f k); auto. Qed.
Lemma key_neg (l : map1 Z) e : In e (neg l) -> exists e', In e' l /\ key e = key e'.
Proof. unfold neg. intros H. apply in_map_iff in H as (e' & <- & I). exists e'. auto. Qed.
Lemma lookup_some (l : map1 Z) f z : lookup1 l f = Some z -> exists k, In (k, z) l /\ eptr f = eptr k /\ eneg f = eneg k.
Proof.
  induction l as [|[k y] l IH]; [discriminate|]. cbn [lookup1]. destruct (eeq f k) eqn:E.
  - intros [= ->]. exists k. apply eeq_true in E as [A B]. split; [now left|auto].
  - intros H. destruct (IH H) as (k' & I & A). exists k'. split; [now right|auto].
Qed.
Lemma lookup_in (l : map1 Z) f k z : In (k, z) l -> eptr f = eptr k -> eneg f = eneg k -> NoDup (map key l) -> lookup1 l f = Some z.
Proof.
  induction l as [|[k' y] l IH]; intros I A B ND; [easy|]. cbn [lookup1]. inversion ND as [|? ? Nk ND']; subst. destruct I as [[= -> ->]|I].
  - destruct (eeq f k) eqn:E; auto. exfalso. apply not_true_iff_false in E. apply E. now apply eeq_true.
  - destruct (eeq f k') eqn:E; [|now apply IH]. apply eeq_true in E as [E _]. exfalso. apply Nk. unfold key at 1. cbn [fst].
    rewrite <- E, A. change (eptr k) with (key (k, z)). now apply in_map.
Qed.
Lemma eneg_enot f : eneg (enot f) = negb (eneg f).
Proof. now destruct f. Qed.
Lemma eptr_enot f : eptr (enot f) = eptr f.
Proof. now destruct f. Qed.
Lemma Zn_succ n : (0 <= n)%Z -> Z.to_nat (n + 1) = S (Z.to_nat n).
Proof. lia. Qed.

Lemma type_cases f : V f -> (isconst f = true /\ exists b : bool, type_aux m f = (if b then TYPE_ONE else TYPE_ZERO) /\ forall rho, dv D f rho = b) \/
  (isconst f = false /\ is_var m f = true /\ exists b : bool, type_aux m f = (if b then TYPE_POSVAR else TYPE_NEGVAR) /\ forall rho, dv D f rho = Bool.eqb (rho (eid f)) b) \/
  (inner f /\ type_aux m f = TYPE_NONTERMINAL).
Proof.
  intros Vf. destruct (isconst f) eqn:C.
  { left. split; auto. destruct (const_cases _ f Vf C) as [-> | ->]; [exists true|exists false]; (split; [reflexivity|]); intros rho; [eapply dv_one|eapply dv_zero]; eauto. }
  right. pose proof (type_range s f) as TR. fold m in TR.
  assert (Nz : type_aux m f <> TYPE_ZERO /\ type_aux m f <> TYPE_ONE).
  { unfold type_aux. rewrite C. cbn [andb]. split; repeat match goal with |- context [if ?b then _ else _] => destruct b end; vm_compute; discriminate. }
  destruct (is_var m f) eqn:Iv.
  - left. split; auto. split; auto. unfold is_var in Iv. assert (T : exists b : bool, type_aux m f = if b then TYPE_POSVAR else TYPE_NEGVAR).
    { apply orb_true_iff in Iv as [Iv|Iv]; apply N.eqb_eq in Iv; [now exists true|now exists false]. }
    destruct T as [b T]. exists b. split; auto. apply (type_lit o D s Wo W K f b Vf) in T as [i T].
    destruct (literal_edge o D s Wo W K f i b Vf T) as (_ & Ei & _). subst i. exact T.
  - right. split; [split; auto|]. unfold is_var in Iv. apply orb_false_iff in Iv as [I1 I2]. apply N.eqb_neq in I1, I2.
    destruct TR as [T|[T|[T|[T|[T|[]]]]]]; symmetry in T; auto; tauto.
Qed.

Definition numbered (mk : marks) (h : map1 Z) (n : Z) (f : edge) (mk' : marks) (new : map1 Z) (n' : Z) : Prop :=
  (forall p, off mk p -> off mk' p) /\
  Forall (fun e => V (fst e) /\ inner (fst e) /\ on mk (key e) /\ off mk' (key e) /\ (n <= snd e < n')%Z) new /\
  NoDup (map key new) /\ (inner f -> off mk' (eptr f)) /\
  (forall x, V x -> off mk' (eptr x) -> off mk (eptr x) \/ eptr x = eptr f \/ (rank x < rank f)%nat) /\
  (forall R, (rank f < R)%nat -> closedF R (off mk) -> closedF R (off mk')) /\
  n' = (n + Z.of_nat (length new))%Z /\
  (~ inner f \/ off mk (eptr f) -> mk' = mk /\ new = [] /\ n' = n).
Definition written (fuel : nat) (mk : marks) (h : map1 Z) (n : Z) (f : edge) (mk' : marks) (new : map1 Z) (n' : Z) : Prop :=
  forall later sh, Forall (fun e => V (fst e) /\ on mk' (key e)) later ->
    closedF (S (rank f)) (off mk) -> hok mk h n -> length sh = Z.to_nat n -> envok (S (rank f)) h sh ->
    (forall x, sub m f x -> isconst x = false -> norm (idx o (eid x)) < nv) ->
    exists sc g sh', script_step fuel o m norm (later ++ new ++ neg h) f = Some (sc, later ++ neg (new ++ h)) /\
      play sc sh = Some (g, sh') /\ (forall r, g r = sem f r) /\ length sh' = Z.to_nat n' /\
      (forall R, (rank f < R)%nat -> envok R h sh -> envok R (new ++ h) sh') /\
      (forall j, (j < length sh)%nat -> nth_error sh' j = nth_error sh j) /\
      (forall ns, (n' <= Z.of_N ns)%Z -> within_bounds nv ns sc) /\ counted sc (Z.to_nat n) = Some (Z.to_nat n') /\ proper sc.

Lemma number_write fuel : forall mk h n f, dom f -> V f -> (rank f < fuel)%nat -> (0 <= n)%Z ->
  exists mk' new n', number_shared fuel m mk h n f = Some ((mk', new ++ h), n') /\ numbered mk h n f mk' new n' /\ written fuel mk h n f mk' new n'.
Proof.
  induction fuel as [|fuel IH]; intros mk h n f Df Vf L Hn; [lia|]. cbn [number_shared].
  destruct (type_cases f Vf) as [(C & b & T & Df0)|[(C & Iv & b & T & Df0)|[Inn T]]].
  - (* a constant *)
    rewrite C. cbn [orb]. assert (NI : ~ inner f) by (intros [A _]; congruence).
    exists mk, [], n. split; [reflexivity|]. split.
    + split; [auto|]. split; [constructor|]. split; [constructor|]. split; [tauto|]. split; [auto|]. split; [auto|]. split; [cbn; lia|auto].
    + intros later sh _ _ _ Ls _ _. exists (SConst b), (fun _ => b), sh. cbn [script_step]. rewrite T. split.
      * destruct b; reflexivity.
      * split; [reflexivity|]. split; [intros r; symmetry; apply Df0|]. split; [auto|]. split; [auto|]. split; [auto|]. split; [intros; exact Logic.I|]. split; [reflexivity|exact Logic.I].
  - (* a literal *)
    rewrite Iv, orb_true_r. assert (NI : ~ inner f) by (intros [_ A]; congruence).
    exists mk, [], n. split; [reflexivity|]. split.
    + split; [auto|]. split; [constructor|]. split; [constructor|]. split; [tauto|]. split; [auto|]. split; [auto|]. split; [cbn; lia|auto].
    + intros later sh _ _ _ Ls _ Hk. exists (SVar b (norm (idx o (eid f)))), (sgn b (fun r => r (norm (idx o (eid f))))), sh. cbn [script_step]. rewrite T. split.
      * destruct b; reflexivity.
      * split; [reflexivity|]. split; [intros r; unfold sem, sgn; rewrite Df0; destruct b, (r (norm (idx o (eid f)))); reflexivity|].
        split; [auto|]. split; [auto|]. split; [auto|]. split; [intros ns _; apply Hk; [constructor|auto]|]. split; [reflexivity|exact Logic.I].
  - (* an inner node *)
    destruct Inn as [C Iv]. rewrite C, Iv. cbn [orb]. assert (Inn : inner f) by (split; auto).
    destruct (node_split o s Wo W f Vf C) as (_ & _ & _ & Vt & Ve & _ & _ & Rt & Re). fold m in Vt, Ve, Rt, Re.
    assert (SubT : forall x, sub m (thenof m f) x -> sub m f x) by (intros x Sx; eapply sub_trans; [apply sub_then; [constructor|auto]|auto]).
    assert (SubE : forall x, sub m (elseof m f) x -> sub m f x) by (intros x Sx; eapply sub_trans; [apply sub_else; [constructor|auto]|auto]).
    assert (Sem : forall r, sem f r = if r (norm (idx o (eid f))) then sem (thenof m f) r else sem (elseof m f) r).
    { intros r. unfold sem. now rewrite (dv_split o D s Wo W K f _ Vf C). }
    destruct (N.eqb_spec (mk (eptr f)) 0) as [M0|M0].
    + (* met before *)
      exists mk, [], n. split; [reflexivity|]. split.
      { split; [auto|]. split; [constructor|]. split; [constructor|]. split; [auto|]. split; [auto|]. split; [auto|]. split; [cbn; lia|auto]. }
      intros later sh Hl Cl [Hh ND] Ls En Hk. cbn [script_step app]. rewrite T.
      change (TYPE_NONTERMINAL =? TYPE_ZERO) with false. change (TYPE_NONTERMINAL =? TYPE_ONE) with false.
      change (TYPE_NONTERMINAL =? TYPE_POSVAR) with false. change (TYPE_NONTERMINAL =? TYPE_NEGVAR) with false. cbv iota.
      assert (SkL : forall e, In e later -> key e <> eptr f).
      { intros e Ie E. rewrite Forall_forall in Hl. destruct (Hl e Ie) as [_ A]. apply A. rewrite E. exact M0. }
      rewrite (lookup_skip later _ (enot f)) by (intros e Ie; rewrite eptr_enot; auto).
      assert (Hit : forall k z, In (k, z) h -> eptr k = eptr f -> forall b : bool, (if b then k = f else k = enot f) ->
        exists g, nth_error sh (Z.to_nat z) = Some (Some g) /\ forall r, sgn b g r = sem f r).
      { intros k z I P b Hb. rewrite Forall_forall in Hh. destruct (Hh _ I) as (Vk & _ & _). cbn [fst] in Vk.
        destruct (En k z I) as (g & G1 & G2); [rewrite (rank_ptr k f Vk Vf P); lia|]. exists g. split; auto. intros r. unfold sgn. destruct b; subst k.
        - apply G2. - rewrite G2. unfold sem. rewrite dv_enot. now rewrite negb_involutive. }
      assert (NDn : NoDup (map key (neg h))).
      { unfold neg. rewrite map_map. exact ND. }
      rewrite lookup_neg. destruct (lookup1 h (enot f)) as [z|] eqn:E1; cbn [option_map].
      * (* labelled with the other sign *)
        destruct (lookup_some _ _ _ E1) as (k & I & P & Q). rewrite eptr_enot in P. rewrite Forall_forall in Hh. destruct (Hh _ I) as (Vk & _ & Hz). cbn [fst snd] in Vk, Hz.
        assert (Ek : k = enot f). { destruct (enot_cases f k Vf Vk P) as [-> | ->]; auto. rewrite eneg_enot in Q. destruct (eneg f); discriminate. }
        rewrite (lookup_skip later _ (enot f)) by (intros e Ie; rewrite eptr_enot; auto). rewrite lookup_neg, E1. cbn [option_map].
        destruct (Z.ltb_spec (- z - 1) 0); [|lia]. replace (- (- z - 1) - 1)%Z with z by lia.
        destruct (Hit k z I (eq_sym P) false Ek) as (g & G1 & G2).
        exists (SRef false (Z.to_N z)), (sgn false g), sh. split; [reflexivity|]. split; [cbn [play]; rewrite Z_N_nat, G1; reflexivity|].
        split; [exact G2|]. split; [auto|]. split; [auto|]. split; [auto|]. split; [intros ns Hns; cbn; lia|]. split; [reflexivity|exact Logic.I].
      * rewrite (lookup_skip later _ f) by auto. rewrite lookup_neg. destruct (lookup1 h f) as [z|] eqn:E2; cbn [option_map].
        -- destruct (lookup_some _ _ _ E2) as (k & I & P & Q). rewrite Forall_forall in Hh. destruct (Hh _ I) as (Vk & _ & Hz). cbn [fst snd] in Vk, Hz.
           assert (Ek : k = f). { destruct (enot_cases f k Vf Vk P) as [-> | ->]; auto. rewrite eneg_enot in Q. destruct (eneg f); discriminate. }
           destruct (Z.ltb_spec (- z - 1) 0); [|lia]. replace (- (- z - 1) - 1)%Z with z by lia.
           destruct (Hit k z I (eq_sym P) true Ek) as (g & G1 & G2).
           exists (SRef true (Z.to_N z)), (sgn true g), sh. split; [reflexivity|]. split; [cbn [play]; rewrite Z_N_nat, G1; reflexivity|].
           split; [exact G2|]. split; [auto|]. split; [auto|]. split; [auto|]. split; [intros ns Hns; cbn; lia|]. split; [reflexivity|exact Logic.I].
        -- (* not labelled: written again *)
           destruct (Cl f Df Vf Inn ltac:(lia) M0) as [Ct Ce].
           assert (St : ~ inner (thenof m f) \/ off mk (eptr (thenof m f))) by (destruct (inner_dec (thenof m f)); auto).
           assert (Se : ~ inner (elseof m f) \/ off mk (eptr (elseof m f))) by (destruct (inner_dec (elseof m f)); auto).
           destruct (IH mk h n (thenof m f) (dom_t f Df C) Vt ltac:(lia) Hn) as (mk1 & new1 & n1 & _ & (_ & _ & _ & _ & _ & _ & _ & S1) & W1). destruct (S1 St) as (-> & -> & ->).
           destruct (IH mk h n (elseof m f) (dom_e f Df C) Ve ltac:(lia) Hn) as (mk2 & new2 & n2 & _ & (_ & _ & _ & _ & _ & _ & _ & S2) & W2). destruct (S2 Se) as (-> & -> & ->).
           assert (Cl' : forall R, (R <= S (rank f))%nat -> closedF R (off mk)) by (intros R HR x Dx Vx Ix Rx Px; apply Cl; auto; lia).
           assert (En' : forall R, (R <= S (rank f))%nat -> envok R h sh) by (intros R HR k z I Rk; apply En; auto; lia).
           destruct (W1 later sh Hl (Cl' (S (rank (thenof m f))) ltac:(lia)) (conj Hh ND) Ls (En' (S (rank (thenof m f))) ltac:(lia)) (fun x Sx => Hk x (SubT x Sx))) as (s1 & g1 & sh1 & D1 & P1 & G1 & L1 & E1' & O1 & B1 & Q1c & Q1p).
           assert (ES1 : envok (S (rank (elseof m f))) h sh1).
           { pose proof (E1' (S (rank f)) ltac:(lia) En) as Q. intros k z I Rk. apply (Q k z I). lia. }
           destruct (W2 later sh1 Hl (Cl' (S (rank (elseof m f))) ltac:(lia)) (conj Hh ND) L1 ES1 (fun x Sx => Hk x (SubE x Sx))) as (s2 & g2 & sh2 & D2 & P2 & G2 & L2 & E2' & O2 & B2 & Q2c & Q2p).
           cbn [app] in D1, D2, E1', E2'. rewrite D1, D2.
           exists (SNode (norm (idx o (eid f))) s1 s2), (fun r : N -> bool => if r (norm (idx o (eid f))) then g1 r else g2 r), sh2.
           split; [reflexivity|]. split; [cbn [play]; rewrite P1, P2; reflexivity|]. split; [intros r; rewrite Sem, G1, G2; reflexivity|].
           split; [auto|]. split; [intros R HR Q; apply E2'; [lia|]; apply E1'; [lia|exact Q]|].
           split; [intros j Hj; rewrite O2 by lia; auto|]. split.
           { intros ns Hns. cbn [within_bounds]. split; [apply Hk; [constructor|auto]|]. split; [apply B1|apply B2]; auto. }
           split; [cbn [counted]; rewrite Q1c; exact Q2c|cbn [proper]; auto].
    + (* met for the first time *)
      set (lab := mk (eptr f) =? 2). set (h1 := if lab then (f, n) :: h else h). set (n1 := if lab then (n + 1)%Z else n).
      assert (Eh : (if lab then ((f, n) :: h, (n + 1)%Z) else (h, n)) = (h1, n1)) by (unfold h1, n1; destruct lab; auto). rewrite Eh.
      set (mk1 := upd mk (eptr f) 0).
      assert (Hn1 : (0 <= n1)%Z) by (unfold n1; destruct lab; lia).
      destruct (IH mk1 h1 n1 (thenof m f) (dom_t f Df C) Vt ltac:(lia) Hn1) as (mk2 & new2 & n2 & E2 & (A2 & F2 & ND2 & I2 & N2 & C2 & L2 & S2) & W2).
      assert (Hn2 : (0 <= n2)%Z) by lia.
      destruct (IH mk2 (new2 ++ h1) n2 (elseof m f) (dom_e f Df C) Ve ltac:(lia) Hn2) as (mk3 & new3 & n3 & E3 & (A3 & F3 & ND3 & I3 & N3 & C3 & L3 & S3) & W3).
      rewrite E2, E3.
      set (nf0 := if lab then [(f, n)] else [] : map1 Z).
      assert (Eh1 : h1 = nf0 ++ h) by (unfold h1, nf0; destruct lab; auto).
      exists mk3, (new3 ++ new2 ++ nf0), n3. split; [rewrite Eh1, <- !app_assoc; reflexivity|].
      assert (M1 : forall p, off mk p -> off mk1 p) by (intros p; unfold off, mk1, upd; destruct (p =? eptr f); auto).
      assert (M1f : off mk1 (eptr f)) by (unfold off, mk1, upd; now rewrite N.eqb_refl).
      assert (M1o : forall p, on mk1 p -> on mk p /\ p <> eptr f).
      { intros p. unfold on, mk1, upd. destruct (N.eqb_spec p (eptr f)); [lia|auto]. }
      assert (M1n : forall p, off mk1 p -> off mk p \/ p = eptr f).
      { intros p. unfold off, mk1, upd. destruct (N.eqb_spec p (eptr f)); auto. }
      assert (N2n : (n2 = n1 + Z.of_nat (length new2))%Z) by exact L2. assert (N3n : (n3 = n2 + Z.of_nat (length new3))%Z) by exact L3.
      assert (n1 = n + Z.of_nat (length nf0))%Z as Hn1' by (unfold n1, nf0; destruct lab; cbn; lia).
      assert (K2 : forall e, In e new2 -> V (fst e) /\ inner (fst e) /\ on mk (key e) /\ key e <> eptr f /\ off mk2 (key e) /\ (n1 <= snd e < n2)%Z).
      { intros e Ie. rewrite Forall_forall in F2. destruct (F2 e Ie) as (V1 & I1 & O1 & O2 & Z1). destruct (M1o _ O1). auto 8. }
      assert (K3 : forall e, In e new3 -> V (fst e) /\ inner (fst e) /\ on mk2 (key e) /\ on mk (key e) /\ key e <> eptr f /\ off mk3 (key e) /\ (n2 <= snd e < n3)%Z).
      { intros e Ie. rewrite Forall_forall in F3. destruct (F3 e Ie) as (V1 & I1 & O1 & O2 & Z1).
        assert (O0 : on mk1 (key e)) by (intros Q; apply O1; now apply A2). destruct (M1o _ O0). auto 10. }
      assert (Nw : forall x, V x -> off mk3 (eptr x) -> off mk (eptr x) \/ eptr x = eptr f \/ (rank x < rank f)%nat).
      { intros x Vx H. destruct (N3 x Vx H) as [H1|[H1|H1]]; [|right; right; rewrite (rank_ptr x _ Vx Ve H1); lia|right; right; lia].
        destruct (N2 x Vx H1) as [H2|[H2|H2]]; [|right; right; rewrite (rank_ptr x _ Vx Vt H2); lia|right; right; lia].
        destruct (M1n _ H2); auto. }
      assert (C0 : forall R, (R <= rank f)%nat -> closedF (S (rank f)) (off mk) \/ closedF R (off mk) -> closedF R (off mk1)).
      { intros R HR Cl x Dx Vx Ix Rx Px.
        assert (Px' : off mk (eptr x)). { destruct (M1n _ Px) as [|Ep]; auto. rewrite (rank_ptr x f Vx Vf Ep) in Rx. lia. }
        destruct Cl as [Cl|Cl]; (destruct (Cl x Dx Vx Ix ltac:(lia) Px') as [A B]; split; intros; apply M1; auto). }
      split.
      { (* numbered *)
        split; [auto|]. split.
        { apply Forall_forall. intros e Ie. rewrite !in_app_iff in Ie. destruct Ie as [Ie|[Ie|Ie]].
          - destruct (K3 e Ie) as (V1 & I1 & _ & O1 & _ & O2 & Z1). do 4 (split; [auto|]). lia.
          - destruct (K2 e Ie) as (V1 & I1 & O1 & _ & O2 & Z1). do 3 (split; [auto|]). split; [auto|]. lia.
          - unfold nf0 in Ie. destruct lab; [|easy]. destruct Ie as [<-|[]]. cbn [fst snd]. unfold key. cbn [fst]. do 3 (split; [auto|]). split; [auto|]. cbn [length] in Hn1'. unfold nf0 in Hn1'. cbn in Hn1'. lia. }
        split.
        { rewrite !map_app. apply nodup_app; [auto|apply nodup_app; [auto| |]|].
          - unfold nf0. destruct lab; cbn; constructor; [easy|constructor].
          - intros p Ip Iq. unfold nf0 in Iq. destruct lab; [|easy]. destruct Iq as [<-|[]]. apply in_map_iff in Ip as (e & Ee & Ie). destruct (K2 e Ie) as (_ & _ & _ & Q & _). now apply Q.
          - intros p Ip Iq. apply in_map_iff in Ip as (e & <- & Ie). destruct (K3 e Ie) as (_ & _ & Q2 & _ & Q & _).
            apply in_app_iff in Iq as [Iq|Iq]; apply in_map_iff in Iq as (e' & Ee & Ie').
            + destruct (K2 e' Ie') as (_ & _ & _ & _ & Q3 & _). rewrite Ee in Q3. now apply Q2.
            + unfold nf0 in Ie'. destruct lab; [|easy]. destruct Ie' as [<-|[]]. apply Q. symmetry. exact Ee. }
        split; [auto|]. split; [exact Nw|]. split.
        { intros R HR Cl. assert (CC : closedF (rank f) (off mk3)).
          { apply C3; [lia|]. apply C2; [lia|]. apply C0; [lia|]. right. intros x Dx Vx Ix Rx Px. apply Cl; auto. lia. }
          intros x Dx Vx Ix Rx Px. destruct (Nw x Vx Px) as [H|[H|H]].
          - destruct (Cl x Dx Vx Ix Rx H) as [A B]. split; intros; apply A3, A2, M1; auto.
          - destruct (child_ptr x f Vx Vf H) as [P1 P2]. destruct (node_split o s Wo W x Vx (proj1 Ix)) as (_ & _ & _ & Vxt & Vxe & _). fold m in Vxt, Vxe. rewrite P1, P2.
            split; intros I0; [apply A3, I2|apply I3]; eapply inner_ptr; [| | |exact I0| | | |exact I0]; auto.
          - apply CC; auto. }
        split; [rewrite !app_length; lia|]. intros [Q|Q]; [tauto|]. exfalso. apply M0. exact Q. }
      (* written *)
      intros later sh Hl Cl [Hh ND] Ls En Hk.
      assert (Hl2 : Forall (fun e => V (fst e) /\ on mk2 (key e)) (later ++ new3)).
      { apply Forall_app. split.
        - eapply Forall_impl; [|exact Hl]. intros e [V1 O1]. split; auto. intros Q. apply O1. now apply A3.
        - apply Forall_forall. intros e Ie. destruct (K3 e Ie) as (V1 & _ & O1 & _). auto. }
      assert (SkL : forall e, In e (later ++ new3 ++ new2) -> key e <> eptr f).
      { intros e Ie. rewrite !in_app_iff in Ie. destruct Ie as [Ie|[Ie|Ie]].
        - rewrite Forall_forall in Hl. destruct (Hl e Ie) as [_ Q]. intros E. apply Q. rewrite E. exact (A3 _ (A2 _ M1f)).
        - now destruct (K3 e Ie) as (_ & _ & _ & _ & Q & _).
        - now destruct (K2 e Ie) as (_ & _ & _ & Q & _). }
      assert (SkH : forall e, In e (neg h) -> key e <> eptr f).
      { intros e Ie E. destruct (key_neg h e Ie) as (e' & Ie' & Ek). rewrite Forall_forall in Hh. destruct (Hh e' Ie') as (_ & Q & _). unfold off in Q. rewrite <- Ek, E in Q. auto. }
      assert (Hh1 : hok mk1 h1 n1).
      { rewrite Eh1. split.
        - apply Forall_app. split.
          + unfold nf0. destruct lab eqn:El; constructor; [|constructor]. cbn [fst snd]. unfold key. cbn [fst]. split; auto. split; auto. unfold n1. lia.
          + eapply Forall_impl; [|exact Hh]. intros e (V1 & O1 & Z1). split; auto. split; auto. lia.
        - rewrite map_app. apply nodup_app; auto.
          + unfold nf0. destruct lab; cbn; constructor; [easy|constructor].
          + intros p Ip Iq. unfold nf0 in Ip. destruct lab; [|easy]. destruct Ip as [<-|[]]. apply in_map_iff in Iq as (e & Ee & Ie).
            rewrite Forall_forall in Hh. destruct (Hh e Ie) as (_ & Q & _). unfold off in Q. rewrite Ee in Q. apply M0. exact Q. }
      set (sh0 := if lab then sh ++ [None] else sh).
      assert (Ls0 : length sh0 = Z.to_nat n1) by (unfold sh0, n1; destruct lab; [rewrite app_length; cbn; lia|auto]).
      assert (O0 : forall j, (j < length sh)%nat -> nth_error sh0 j = nth_error sh j) by (intros j Hj; unfold sh0; destruct lab; [now rewrite nth_error_app1|auto]).
      assert (En0 : forall R, (R <= rank f)%nat -> envok R h1 sh0).
      { intros R HR k z I Rk. rewrite Eh1 in I. apply in_app_iff in I as [I|I].
        - unfold nf0 in I. destruct lab; [|easy]. destruct I as [[= <- <-]|[]]. lia.
        - destruct (En k z I ltac:(lia)) as (g & G1 & G2). exists g. split; auto. rewrite O0; auto. apply nth_error_Some. now rewrite G1. }
      destruct (W2 (later ++ new3) sh0 Hl2 (C0 (S (rank (thenof m f))) ltac:(lia) (or_introl Cl)) Hh1 Ls0 (En0 (S (rank (thenof m f))) ltac:(lia)) (fun x Sx => Hk x (SubT x Sx)))
        as (s1 & g1 & sh1 & D1 & P1 & G1 & L1 & E1' & O1 & B1 & Q1c & Q1p).
      assert (Hh2 : hok mk2 (new2 ++ h1) n2).
      { destruct Hh1 as [X1 X2]. split.
        - apply Forall_app. split.
          + apply Forall_forall. intros e Ie. destruct (K2 e Ie) as (V1 & _ & _ & _ & Q & Z1). split; auto. split; auto. lia.
          + eapply Forall_impl; [|exact X1]. intros e (V1 & Q & Z1). split; auto. split; auto. lia.
        - rewrite map_app. apply nodup_app; auto. intros p Ip Iq. apply in_map_iff in Ip as (e & <- & Ie). apply in_map_iff in Iq as (e' & Ee & Ie').
          rewrite Forall_forall in F2, X1. destruct (F2 e Ie) as (_ & _ & Q & _). destruct (X1 e' Ie') as (_ & Q' & _). rewrite Ee in Q'. now apply Q. }
      assert (Cl3 : closedF (S (rank (elseof m f))) (off mk2)).
      { assert (CC : closedF (rank f) (off mk2)) by (apply C2; [lia|apply C0; [lia|auto]]). intros x Dx Vx Ix Rx Px. apply CC; auto. lia. }
      assert (En3 : forall R, (R <= rank f)%nat -> envok R (new2 ++ h1) sh1).
      { intros R HR k z I Rk. apply (E1' (rank f) ltac:(lia) (En0 (rank f) ltac:(lia)) k z I). lia. }
      assert (Hl3 : Forall (fun e => V (fst e) /\ on mk3 (key e)) later) by exact Hl.
      destruct (W3 later sh1 Hl3 Cl3 Hh2 L1 (En3 (S (rank (elseof m f))) ltac:(lia)) (fun x Sx => Hk x (SubE x Sx))) as (s2 & g2 & sh2 & D2 & P2 & G2 & L2' & E2' & O2 & B2 & Q2c & Q2p).
      set (kf := norm (idx o (eid f))) in *.
      set (sn := SNode kf s1 s2). set (gn := (fun r : N -> bool => if r kf then g1 r else g2 r) : nf).
      assert (Pn : play sn sh0 = Some (gn, sh2)) by (cbn [play sn]; rewrite P1, P2; reflexivity).
      assert (Gn : forall r, gn r = sem f r) by (intros r; rewrite Sem; unfold gn; rewrite G1, G2; reflexivity).
      assert (En4 : forall R, (R <= rank f)%nat -> envok R (new3 ++ new2 ++ h1) sh2).
      { intros R HR k z I Rk. apply (E2' (rank f) ltac:(lia) (En3 (rank f) ltac:(lia)) k z I). lia. }
      assert (O4 : forall j, (j < length sh)%nat -> nth_error sh2 j = nth_error sh j).
      { intros j Hj. assert (length sh <= length sh0)%nat by (unfold sh0; destruct lab; [rewrite app_length; cbn; lia|lia]). assert (length sh0 <= length sh1)%nat by lia.
        rewrite O2 by lia. rewrite O1 by lia. now apply O0. }
      cbn [script_step]. rewrite T.
      change (TYPE_NONTERMINAL =? TYPE_ZERO) with false. change (TYPE_NONTERMINAL =? TYPE_ONE) with false.
      change (TYPE_NONTERMINAL =? TYPE_POSVAR) with false. change (TYPE_NONTERMINAL =? TYPE_NEGVAR) with false. cbv iota.
      assert (Et : later ++ (new3 ++ new2 ++ nf0) ++ neg h = (later ++ new3 ++ new2) ++ nf0 ++ neg h) by (rewrite <- !app_assoc; reflexivity).
      rewrite Et. rewrite (lookup_skip (later ++ new3 ++ new2) _ (enot f)) by (intros e Ie; rewrite eptr_enot; auto).
      assert (X1 : lookup1 (nf0 ++ neg h) (enot f) = None).
      { unfold nf0. destruct lab; cbn [app lookup1].
        - destruct (eeq (enot f) f) eqn:Ee; [apply eeq_true in Ee as [_ Ee]; rewrite eneg_enot in Ee; destruct (eneg f); discriminate|].
          apply lookup_none. intros e Ie. rewrite eptr_enot. auto.
        - apply lookup_none. intros e Ie. rewrite eptr_enot. auto. }
      rewrite X1. rewrite (lookup_skip (later ++ new3 ++ new2) _ f) by auto.
      destruct lab eqn:El.
      * (* labelled *)
        unfold nf0 in *. cbn [app lookup1]. rewrite eeq_refl. destruct (Z.ltb_spec n 0); [lia|].
        rewrite (update_skip (later ++ new3 ++ new2)) by auto. cbn [update1]. rewrite eeq_refl.
        assert (Tb : (later ++ new3 ++ new2) ++ (f, (- n - 1)%Z) :: neg h = (later ++ new3) ++ new2 ++ neg h1) by (rewrite Eh1; cbn; rewrite <- !app_assoc; reflexivity).
        rewrite Tb, D1. rewrite <- app_assoc, D2.
        exists (SLabel (Z.to_N n) sn), gn, (set_at (length sh) (Some gn) sh2).
        split; [rewrite Eh1, <- !app_assoc; reflexivity|]. split; [cbn [play]; fold sn; unfold sh0 in Pn; rewrite Pn; reflexivity|]. split; [exact Gn|].
        assert (Lsh2 : (length sh < length sh2)%nat) by (rewrite L2'; unfold n1 in *; lia).
        split; [rewrite set_at_length; auto|]. split; [|split; [|split]].
        -- intros R HR Q k z I Rk.
           assert (Cse : (k, z) = (f, n) \/ (z <> n /\ ((In (k, z) h) \/ (In (k, z) (new3 ++ new2))))).
           { rewrite <- !app_assoc in I. rewrite !in_app_iff in I. destruct I as [I|[I|[I|I]]].
             - right. destruct (K3 _ I) as (_ & _ & _ & _ & _ & _ & Z1). cbn [snd] in Z1. split; [unfold n1 in *; lia|]. right. apply in_app_iff. auto.
             - right. destruct (K2 _ I) as (_ & _ & _ & _ & _ & Z1). cbn [snd] in Z1. split; [unfold n1 in *; lia|]. right. apply in_app_iff. auto.
             - destruct I as [[= <- <-]|[]]. now left.
             - right. rewrite Forall_forall in Hh. destruct (Hh _ I) as (_ & _ & Z1). cbn [snd] in Z1. split; [lia|auto]. }
           destruct Cse as [[= -> ->]|[Nz [I'|I']]].
           ++ exists gn. split; [|exact Gn]. rewrite <- Ls. now apply set_at_same.
           ++ destruct (Q k z I' Rk) as (g & X & Y). exists g. split; auto. rewrite Forall_forall in Hh. destruct (Hh _ I') as (_ & _ & Z1). cbn [snd] in Z1.
              rewrite set_at_other by lia. rewrite O4 by lia. exact X.
           ++ destruct (En4 (rank f) ltac:(lia) k z) as (g & X & Y).
              ** rewrite app_assoc. apply in_app_iff. left. exact I'.
              ** (* new nodes lie below *)
                 apply in_app_iff in I' as [I'|I'].
                 --- destruct (K3 _ I') as (Vk & _ & Q2 & _ & Qf & Q3 & _). destruct (N3 k Vk Q3) as [X|[X|X]]; [exfalso; now apply Q2|rewrite (rank_ptr k _ Vk Ve X); lia|lia].
                 --- destruct (K2 _ I') as (Vk & _ & Q1 & Qf & Q2 & _). destruct (N2 k Vk Q2) as [X|[X|X]]; [|rewrite (rank_ptr k _ Vk Vt X); lia|lia].
                     destruct (M1n _ X) as [X'|X']; exfalso; [now apply Q1|now apply Qf].
              ** exists g. split; auto. rewrite set_at_other; auto. rewrite Ls. intros Ez. apply Nz.
                 assert (0 <= z)%Z. { apply in_app_iff in I' as [I'|I']; [destruct (K3 _ I') as (_ & _ & _ & _ & _ & _ & Z1)|destruct (K2 _ I') as (_ & _ & _ & _ & _ & Z1)]; cbn [snd] in Z1; lia. }
                 lia.
        -- intros j Hj. rewrite set_at_other by lia. now apply O4.
        -- intros ns Hns. cbn [within_bounds sn]. split; [apply Hk; [constructor|auto]|]. split; [apply B1; lia|apply B2; lia].
        -- split; [|cbn [proper sn]; auto]. cbn [counted sn]. rewrite Z_N_nat, Nat.eqb_refl. rewrite <- (Zn_succ n Hn). change (n + 1)%Z with n1. rewrite Q1c. exact Q2c.
      * (* not labelled *)
        unfold nf0 in *. cbn [app]. rewrite (lookup_none (neg h) f) by auto.
        assert (Tb : (later ++ new3 ++ new2) ++ neg h = (later ++ new3) ++ new2 ++ neg h1) by (rewrite Eh1; cbn; rewrite <- !app_assoc; reflexivity).
        rewrite Tb, D1. rewrite <- app_assoc, D2.
        exists sn, gn, sh2. split; [rewrite Eh1, app_nil_r; cbn [app]; rewrite <- !app_assoc; reflexivity|]. split; [unfold sh0 in Pn; exact Pn|]. split; [exact Gn|].
        split; [auto|]. split; [|split; [|split]].
        -- intros R HR Q k z I Rk. rewrite app_nil_r, <- app_assoc in I.
           assert (Cse : In (k, z) h \/ In (k, z) (new3 ++ new2)) by (rewrite !in_app_iff in *; tauto). destruct Cse as [I'|I'].
           ++ destruct (Q k z I' Rk) as (g & X & Y). exists g. split; auto. rewrite Forall_forall in Hh. destruct (Hh _ I') as (_ & _ & Z1). cbn [snd] in Z1. rewrite O4 by lia. exact X.
           ++ apply (En4 (rank f) ltac:(lia) k z).
              ** rewrite app_assoc. apply in_app_iff. left. exact I'.
              ** apply in_app_iff in I' as [I'|I'].
                 --- destruct (K3 _ I') as (Vk & _ & Q2 & _ & Qf & Q3 & _). destruct (N3 k Vk Q3) as [X|[X|X]]; [exfalso; now apply Q2|rewrite (rank_ptr k _ Vk Ve X); lia|lia].
                 --- destruct (K2 _ I') as (Vk & _ & Q1 & Qf & Q2 & _). destruct (N2 k Vk Q2) as [X|[X|X]]; [|rewrite (rank_ptr k _ Vk Vt X); lia|lia].
                     destruct (M1n _ X) as [X'|X']; exfalso; [now apply Q1|now apply Qf].
        -- exact O4.
        -- intros ns Hns. cbn [within_bounds sn]. split; [apply Hk; [constructor|auto]|]. split; [apply B1; lia|apply B2; lia].
        -- split; [|cbn [proper sn]; auto]. cbn [counted sn]. change n with n1. rewrite Q1c. exact Q2c.
Qed.
End Dump.

(** ** Everything that is written *)
Lemma script_spec o D s norm nv F : wfo o -> SWF o s -> Dok D s -> vedge (nodeR s) F ->
  (forall x, sub (mem s) F x -> isconst x = false -> norm (idx o (eid x)) < nv) ->
  exists mk mk' h h' sc g sh' ns,
    mark_shared (depth o) (mem s) unmarked F = Some mk /\ number_shared (depth o) (mem s) mk [] 0 F = Some ((mk', h), Z.of_N ns) /\ script_step (depth o) o (mem s) norm h F = Some (sc, h') /\ play sc [] = Some (g, sh') /\ length sh' = N.to_nat ns /\ (forall r, g r = sem o D norm F r) /\ within_bounds nv ns sc /\ counted sc 0 = Some (N.to_nat ns) /\ proper sc.
Proof.
  intros Wo W K VF Hk.
  destruct (mark_shared_spec o D s Wo W K (depth o) unmarked F VF (rank_depth o s F VF)) as (mk & E & _).
  pose proof (marked_all o D s Wo W K F mk VF E) as M.
  assert (Dt : forall f, sub (mem s) F f -> isconst f = false -> sub (mem s) F (thenof (mem s) f)) by (intros; now apply sub_then).
  assert (De : forall f, sub (mem s) F f -> isconst f = false -> sub (mem s) F (elseof (mem s) f)) by (intros; now apply sub_else).
  destruct (number_write o D s Wo W K norm nv (sub (mem s) F) Dt De (depth o) mk [] 0%Z F (sub_top (mem s) F) VF (rank_depth o s F VF) (Z.le_refl 0))
    as (mk' & new & n' & En & Nu & Wr).
  destruct (Wr [] []) as (sc & g & sh' & D1 & P1 & G1 & L1 & _ & _ & B1 & C1 & R1); auto.
  - intros x Sx Vx Ix _ Px. exfalso. apply (M x); auto.
  - split; constructor.
  - intros k z [].
  - cbn [neg map app] in D1. rewrite app_nil_r in D1. rewrite app_nil_r in En.
    destruct Nu as (_ & _ & _ & _ & _ & _ & Ln & _).
    assert (En' : n' = Z.of_N (Z.to_N n')) by lia.
    exists mk, mk', new, (neg new), sc, g, sh', (Z.to_N n'). split; [auto|]. split; [now rewrite <- En'|]. split; [exact D1|]. split; [auto|].
    split; [lia|]. split; [auto|]. split; [apply B1; lia|]. split; [|auto]. rewrite Z_N_nat. exact C1.
Qed.
Lemma dump_bytes_spec o D s norm nv F : wfo o -> SWF o s -> Dok D s -> vedge (nodeR s) F ->
  (forall x, sub (mem s) F x -> isconst x = false -> norm (idx o (eid x)) < nv) ->
  exists sc g sh' ns,
    dump_bytes o (mem s) norm nv F = Some (dwrite 8 MAGIC ++ dwrite 2 nv ++ dwrite 8 ns ++ enc (bytes_needed (nv + 1)) (bytes_needed ns) sc) /\
    play sc [] = Some (g, sh') /\ length sh' = N.to_nat ns /\ (forall r, g r = sem o D norm F r) /\ within_bounds nv ns sc.
Proof.
  intros Wo W K VF Hk. unfold dump_bytes.
  destruct (script_spec o D s norm nv F Wo W K VF Hk) as (mk & mk' & h & h' & sc & g & sh' & ns & E1 & E2 & E3 & P1 & L1 & G1 & B1 & _).
  rewrite E1, E2, dump_script, E3, N2Z.id. exists sc, g, sh', ns. auto.
Qed.
