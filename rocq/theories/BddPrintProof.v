(** * The printed text of a BDD, read again. *)
From Coq Require Import Ascii String.
From Verif Require Import Base BFModel ITEModel MgrModel ApiModel StoreInv GCProof GraphModel GraphProof GraphMarks GraphSem ApiStruct DumpModel DumpProof PrintModel BddPrintModel SpecBddPrint.
Open Scope N_scope.

(** ** The text of a script *)
Section Show.
Variables (nm : N -> string) (tw : bool -> string).
Fixpoint show (lab : option N) (ind : nat) (s : scr) : list pline :=
  match s with
  | SConst b => [PL ind (Leaf false (tw b))]
  | SVar b k => [PL ind (Leaf (negb b) (nm k))]
  | SRef b j => [PL ind (Refer (negb b) j)]
  | SLabel j s => show (Some j) ind s
  | SNode k t e =>
      (PL ind (Branch lab (nm k)) :: show None (ind + 2) t) ++ (PL ind (Otherwise (nm k)) :: show None (ind + 2) e) ++ [PL ind (Done (nm k))]
  end.

Variable env : string -> bool.
Hypothesis tw_ok : forall b, env (tw b) = b.
Variable r : N -> bool.
Variable nv : N.
Hypothesis nm_ok : forall k, k < nv -> env (nm k) = r k.

Definition knows (sh : list (option nf)) (defs : list (N * bool)) : Prop :=
  forall j, defined defs j = match nth_error sh (N.to_nat j) with Some (Some g) => Some (g r) | _ => None end.

Lemma play_keeps sc : forall sh g sh', play sc sh = Some (g, sh') -> (length sh <= length sh')%nat /\ forall j, (j < length sh)%nat -> nth_error sh' j = nth_error sh j.
Proof.
  induction sc as [b|b k|b j|j s IH|k t IHt e IHe]; intros sh g sh'; cbn [play].
  - intros [= <- <-]. auto.
  - intros [= <- <-]. auto.
  - destruct (nth_error sh (N.to_nat j)) as [[g0|]|]; try discriminate. intros [= <- <-]. auto.
  - destruct (play s (sh ++ [None])%list) as [[g1 sh1]|] eqn:E; [|discriminate]. intros [= <- <-]. destruct (IH _ _ _ E) as [L A]. rewrite app_length in L, A. cbn in L, A.
    rewrite set_at_length. split; [lia|]. intros i Hi. rewrite set_at_other by lia. rewrite A by lia. now rewrite nth_error_app1.
  - destruct (play t sh) as [[g1 sh1]|] eqn:E1; [|discriminate]. destruct (play e sh1) as [[g2 sh2]|] eqn:E2; [|discriminate]. intros [= <- <-].
    destruct (IHt _ _ _ E1) as [L1 A1]. destruct (IHe _ _ _ E2) as [L2 A2]. split; [lia|]. intros j Hj. rewrite A2 by lia. auto.
Qed.
Lemma play_counted sc : forall sh g sh' n, play sc sh = Some (g, sh') -> counted sc (length sh) = Some n -> length sh' = n.
Proof.
  induction sc as [b|b k|b j|j s IH|k t IHt e IHe]; intros sh g sh' n; cbn [play counted].
  - intros [= <- <-] [= <-]. auto.
  - intros [= <- <-] [= <-]. auto.
  - destruct (nth_error sh (N.to_nat j)) as [[g0|]|]; try discriminate. intros [= <- <-] [= <-]. auto.
  - destruct (play s (sh ++ [None])%list) as [[g1 sh1]|] eqn:E; [|discriminate]. intros [= <- <-]. rewrite set_at_length.
    destruct (Nat.eqb (N.to_nat j) (length sh)); [|discriminate]. intros H. apply (IH _ _ _ _ E). rewrite app_length. cbn [length]. now rewrite Nat.add_1_r.
  - destruct (play t sh) as [[g1 sh1]|] eqn:E1; [|discriminate]. destruct (play e sh1) as [[g2 sh2]|] eqn:E2; [|discriminate]. intros [= <- <-].
    destruct (counted t (length sh)) as [n1|] eqn:C1; [|discriminate]. intros C2. rewrite <- (IHt _ _ _ _ E1 C1) in C2. apply (IHe _ _ _ _ E2 C2).
Qed.

Definition branching (s : scr) : Prop := match s with SNode _ _ _ => True | _ => False end.
Lemma show_read ns sc : forall lab ind sh g sh' n defs, lab = None \/ branching sc -> proper sc -> within_bounds nv ns sc ->
  play sc sh = Some (g, sh') -> counted sc (length sh) = Some n -> knows sh defs ->
  exists defs1, (lab = None -> knows sh' defs1) /\ (branching sc -> knows sh' defs1) /\ forall fuel rest, (length (show lab ind sc) <= fuel)%nat ->
    read env fuel ind (show lab ind sc ++ rest) defs = match define lab (g r) defs1 with Some d => Some ((g r, d), rest) | None => None end.
Proof.
  induction sc as [b|b k|b j|j s IH|k t IHt e IHe]; intros lab ind sh g sh' n defs Hl Pr Wb Pl Ct Kn.
  - destruct Hl as [-> |[]]. injection Pl as <- <-. exists defs. split; [auto|]. split; [auto|]. intros fuel rest Hf. cbn [show length] in Hf. destruct fuel as [|fuel]; [lia|].
    cbn [show app read define]. rewrite Nat.eqb_refl. cbn [negb]. rewrite tw_ok. destruct b; reflexivity.
  - destruct Hl as [-> |[]]. injection Pl as <- <-. exists defs. split; [auto|]. split; [auto|]. intros fuel rest Hf. cbn [show length] in Hf. destruct fuel as [|fuel]; [lia|].
    cbn [show app read define]. rewrite Nat.eqb_refl. cbn [negb]. rewrite nm_ok by exact Wb. unfold sgn. destruct b; cbn [negb xorb]; [destruct (r k)|]; reflexivity.
  - destruct Hl as [-> |[]]. cbn [play] in Pl. destruct (nth_error sh (N.to_nat j)) as [[g0|]|] eqn:E; try discriminate. injection Pl as <- <-.
    exists defs. split; [auto|]. split; [auto|]. intros fuel rest Hf. cbn [show length] in Hf. destruct fuel as [|fuel]; [lia|].
    cbn [show app read define]. rewrite Nat.eqb_refl. cbn [negb]. rewrite (Kn j), E. unfold sgn. destruct b; cbn [negb xorb]; [destruct (g0 r)|]; reflexivity.
  - (* a label *)
    destruct Hl as [-> |[]]. cbn [play] in Pl. destruct (play s (sh ++ [None])%list) as [[g1 sh1]|] eqn:E; [|discriminate]. injection Pl as <- <-.
    cbn [counted] in Ct. destruct (Nat.eqb_spec (N.to_nat j) (length sh)) as [Ej|]; [|discriminate].
    assert (Br : branching s /\ proper s) by (cbn [proper] in Pr; destruct s; cbn; auto; contradiction). destruct Br as [Br Ps].
    assert (Ls : length (sh ++ [None])%list = S (length sh)) by (rewrite app_length; cbn; lia).
    destruct (IH (Some j) ind (sh ++ [None])%list g1 sh1 n defs (or_intror Br) Ps Wb E) as (d1 & _ & K1 & R1).
    { now rewrite Ls. }
    { intros i. rewrite (Kn i). destruct (Nat.ltb_spec (N.to_nat i) (length sh)).
      - now rewrite nth_error_app1.
      - rewrite nth_error_app2 by auto. rewrite (proj2 (nth_error_None sh (N.to_nat i))) by auto.
        destruct (N.to_nat i - length sh)%nat as [|[|q]]; reflexivity. }
    specialize (K1 Br). destruct (play_keeps _ _ _ _ E) as [L A].
    assert (Hj : nth_error sh1 (N.to_nat j) = Some None).
    { rewrite A by lia. rewrite Ej, nth_error_app2 by lia. now rewrite Nat.sub_diag. }
    assert (Kd : knows (set_at (length sh) (Some g1) sh1) ((j, g1 r) :: d1)).
    { intros i. cbn [defined]. destruct (N.eqb_spec j i) as [<-|Ne].
      - rewrite Ej, set_at_same by lia. reflexivity.
      - rewrite set_at_other by lia. apply K1. }
    exists ((j, g1 r) :: d1). split; [auto|]. split; [auto|]. intros fuel rest Hf. cbn [show] in *. rewrite (R1 fuel rest Hf). cbn [define].
    rewrite (K1 j), Hj. reflexivity.
  - (* a branching *)
    cbn [play] in Pl. destruct (play t sh) as [[g1 sh1]|] eqn:E1; [|discriminate]. destruct (play e sh1) as [[g2 sh2]|] eqn:E2; [|discriminate]. injection Pl as <- <-.
    cbn [counted] in Ct. destruct (counted t (length sh)) as [n1|] eqn:C1; [|discriminate]. pose proof (play_counted _ _ _ _ _ E1 C1) as En1. subst n1.
    destruct Pr as [Pt Pe]. destruct Wb as (Wk & Wt & We).
    destruct (IHt None (ind + 2)%nat sh g1 sh1 _ defs (or_introl eq_refl) Pt Wt E1 C1 Kn) as (d1 & K1 & _ & R1). specialize (K1 eq_refl).
    destruct (IHe None (ind + 2)%nat sh1 g2 sh2 n d1 (or_introl eq_refl) Pe We E2 Ct K1) as (d2 & K2 & _ & R2). specialize (K2 eq_refl).
    exists d2. split; [auto|]. split; [auto|]. intros fuel rest Hf. cbn [show] in *. cbn [app length] in Hf. rewrite !app_length in Hf. cbn [length] in Hf. rewrite app_length in Hf. cbn [length] in Hf.
    destruct fuel as [|fuel]; [lia|]. cbn [app read]. rewrite Nat.eqb_refl. cbn [negb]. rewrite <- !app_assoc.
    rewrite R1 by lia. cbn [define]. cbn [app]. rewrite <- app_assoc. rewrite R2 by lia. cbn [define app]. rewrite !Nat.eqb_refl, !String.eqb_refl. cbn [andb].
    rewrite nm_ok by exact Wk. cbv zeta. reflexivity.
Qed.
End Show.

(** ** The text that is printed *)
Section Print.
Variables (o : order) (D : den) (s : store).
Hypothesis Wo : wfo o.
Hypothesis W : SWF o s.
Hypothesis K : Dok D s.
Let m := mem s.
Notation V := (vedge (nodeR s)).
Notation rank := (rank o).

Section Words.
Variables (naming : N -> option string) (tid : bool -> option string).
Definition word (k : N) : string := var_name naming (nth (N.to_nat k) (ord o) 0) k.
Definition same (k : N) : N := k.
Lemma word_of f : V f -> isconst f = false -> word (idx o (eid f)) = var_name naming (eid f) (idx o (eid f)).
Proof.
  intros Vf C. destruct (node_split o s Wo W f Vf C) as (_ & I & _). unfold word. now rewrite (nth_error_nth _ _ 0 (wfo_nth o _ Wo I)).
Qed.
Lemma print_script fuel : forall ind h f, V f -> print_step fuel o m naming tid ind h f =
  match script_step fuel o m same h f with Some (sc, h') => Some (show word (term_word tid) None ind sc, h') | None => None end.
Proof.
  induction fuel as [|fuel IH]; intros ind h f Vf; [reflexivity|]. cbn [print_step script_step].
  destruct (type_cases o D s Wo W K (fun k => k) 0 f Vf) as [(C & b & T & _)|[(C & Iv & b & T & _)|[Inn T]]]; fold m in T; rewrite T.
  - destruct b; reflexivity.
  - rewrite <- (word_of f Vf C). destruct b; reflexivity.
  - change (TYPE_NONTERMINAL =? TYPE_ZERO) with false. change (TYPE_NONTERMINAL =? TYPE_ONE) with false.
    change (TYPE_NONTERMINAL =? TYPE_POSVAR) with false. change (TYPE_NONTERMINAL =? TYPE_NEGVAR) with false. cbv iota.
    assert (C : isconst f = false) by apply Inn. rewrite <- (word_of f Vf C).
    assert (G : exists ng g, match lookup1 h (enot f) with Some _ => (true, enot f) | None => (false, f) end = (ng, g) /\ V g /\ isconst g = false).
    { destruct (lookup1 h (enot f)); [exists true, (enot f)|exists false, f]; (split; [reflexivity|]; split; [|auto]); auto. }
    destruct G as (ng & g & -> & Vg & Cg). destruct (node_split o s Wo W g Vg Cg) as (_ & _ & _ & Vt & Ve & _). fold m in Vt, Ve.
    destruct (lookup1 h g) as [z|].
    + destruct (z <? 0)%Z; [destruct ng; reflexivity|]. rewrite (IH _ _ _ Vt).
      destruct (script_step fuel o m same (update1 h g (- z - 1)%Z) (thenof m g)) as [[s1 h1]|]; [|reflexivity].
      rewrite (IH _ _ _ Ve). destruct (script_step fuel o m same h1 (elseof m g)) as [[s2 h2]|]; reflexivity.
    + rewrite (IH _ _ _ Vt). destruct (script_step fuel o m same h (thenof m g)) as [[s1 h1]|]; [|reflexivity].
      rewrite (IH _ _ _ Ve). destruct (script_step fuel o m same h1 (elseof m g)) as [[s2 h2]|]; reflexivity.
Qed.
End Words.

(** The marks are all gone after the numbering. *)
Lemma mark_touch fuel : forall mk f mk', V f -> mark_shared fuel m mk f = Some mk' -> forall p, mk' p = mk p \/ exists x, sub m f x /\ inner s x /\ eptr x = p.
Proof.
  induction fuel as [|fuel IH]; intros mk f mk' Vf E p; [discriminate|]. cbn [mark_shared] in E.
  set (g := if eneg f then enot f else f) in E.
  assert (Vg : V g) by (unfold g; destruct (eneg f); auto; now apply vedge_enot).
  assert (Sg : forall x, sub m g x -> exists y, sub m f y /\ eptr y = eptr x /\ (y = x \/ y = enot x)).
  { unfold g. destruct (eneg f); [|eauto 6]. intros x Sx. exists (enot x). split; [|auto].
    apply sub_enot in Sx. now rewrite enot_enot in Sx. }
  assert (Inr : forall x y, sub m g x -> (y = x \/ y = enot x) -> inner s x -> inner s y).
  { intros x y Sx [-> | ->] Ix; auto. apply (inner_ptr o D s Wo W K x); auto; [|apply vedge_enot]; eapply sub_V; eauto. }
  destruct (isconst g || (type_aux m g =? TYPE_POSVAR)) eqn:C; [injection E as <-; auto|]. apply orb_false_iff in C as [C T].
  assert (Ig : inner s g).
  { split; [auto|]. destruct (type_cases o D s Wo W K (fun k => k) 0 g Vg) as [(C' & _)|[(_ & Iv & b & T' & Dv)|[Inn _]]]; [congruence| |apply Inn].
    exfalso. fold m in T'. destruct b; [rewrite T', N.eqb_refl in T; discriminate|].
    assert (Pg : eneg g = false) by (unfold g; destruct (eneg f) eqn:Ng; [cbn; now rewrite Ng|auto]).
    pose proof (type_lit o D s Wo W K g false Vg) as [TL _]. destruct (TL T') as [i Li]. destruct (literal_edge o D s Wo W K g i false Vg Li) as (_ & _ & T1 & _).
    fold m in T1. destruct (node_split o s Wo W g Vg C) as (N0 & _ & I0 & _). pose proof (no_pos _ _ _ _ (swf_node o s W _ _ N0 I0)) as X. fold m in X.
    assert (Y : eneg (thenof m g) = false) by (unfold thenof, ephase; cbn [eneg]; rewrite X, Pg; reflexivity). rewrite T1 in Y. discriminate. }
  assert (Top : exists x, sub m f x /\ inner s x /\ eptr x = eptr g).
  { destruct (Sg g (sub_top m g)) as (y & Sy & Py & Cy). exists y. split; [auto|]. split; [|auto]. apply (Inr g); auto. constructor. }
  destruct (N.eq_dec p (eptr g)) as [-> |Np]; [auto|].
  assert (U : forall v, upd mk (eptr g) v p = mk p) by (intros v; unfold upd; now rewrite (proj2 (N.eqb_neq _ _) Np)).
  destruct (mk (eptr g) =? 1); [injection E as <-; left; apply U|].
  destruct (node_split o s Wo W g Vg C) as (_ & _ & _ & Vt & Ve & _). fold m in Vt, Ve.
  destruct (mark_shared fuel m (upd mk (eptr g) 1) (thenof m g)) as [mk1|] eqn:E1; [|discriminate].
  assert (Lift : forall c, sub m g c -> (exists x, sub m c x /\ inner s x /\ eptr x = p) -> exists x, sub m f x /\ inner s x /\ eptr x = p).
  { intros c Sc (x & Sx & Ix & Px). destruct (Sg x (sub_trans m g c x Sc Sx)) as (y & Sy & Py & Cy). exists y. split; [auto|]. split; [|congruence].
    apply (Inr x); auto. eapply sub_trans; eauto. }
  destruct (IH _ _ _ Ve E p) as [-> |X]; [|right; apply (Lift (elseof m g)); auto; apply sub_else; [constructor|auto]].
  destruct (IH _ _ _ Vt E1 p) as [-> |X]; [|right; apply (Lift (thenof m g)); auto; apply sub_then; [constructor|auto]].
  left. apply U.
Qed.
Lemma cleared F mk mk' h next : V F -> mark_shared (depth o) m unmarked F = Some mk -> number_shared (depth o) m mk [] 0 F = Some ((mk', h), next) ->
  forall p, mk' p = 0.
Proof.
  intros VF E1 E2 p. pose proof (marked_all o D s Wo W K F mk VF E1) as M. fold m in M.
  assert (Dt : forall f, sub m F f -> isconst f = false -> sub m F (thenof m f)) by (intros; now apply sub_then).
  assert (De : forall f, sub m F f -> isconst f = false -> sub m F (elseof m f)) by (intros; now apply sub_else).
  destruct (number_write o D s Wo W K same 0 (sub m F) Dt De (depth o) mk [] 0%Z F (sub_top m F) VF (rank_depth o s F VF) (Z.le_refl 0))
    as (mk2 & new & n2 & En & (A & _ & _ & I & _ & Cl & _) & _).
  fold m in En. rewrite E2 in En. injection En as <- _ _.
  destruct (mark_touch (depth o) unmarked F mk VF E1 p) as [Z|(x & Sx & Ix & <-)]; [apply A; exact Z|].
  assert (C0 : forall R, closedF o s (sub m F) R (off mk)).
  { intros R y Dy Vy Iy _ Py. exfalso. apply (M y); auto. }
  assert (Up : forall y c, sub m F y -> isconst y = false -> (c = thenof m y \/ c = elseof m y) -> inner s c -> inner s y).
  { intros y c Sy Cy Hc Ic. split; auto. destruct (is_var (mem s) y) eqn:Ty; auto. exfalso. pose proof (sub_V o s Wo W F y VF Sy) as Vy.
    destruct (type_cases o D s Wo W K (fun k => k) 0 y Vy) as [(C' & _)|[(_ & _ & b & T & _)|[[_ Iy] _]]]; [congruence| |congruence].
    apply (type_lit o D s Wo W K y b Vy) in T as [i T]. destruct (literal_edge o D s Wo W K y i b Vy T) as (_ & _ & T1 & T2).
    fold m in T1, T2. destruct Ic as [Ic _]. destruct Hc as [-> | ->]; [rewrite T1 in Ic|rewrite T2 in Ic]; destruct b; discriminate. }
  assert (All : forall y, sub m F y -> inner s y -> off mk' (eptr y)).
  { assert (Rk : forall y, sub m F y -> (rank y < S (rank F))%nat).
    { intros y Sy. destruct (sub_rank o s Wo W F y VF Sy) as [Q|Q]; [rewrite Q|]; lia. }
    intros y Sy. induction Sy as [|y Sy IH Cy|y Sy IH Cy]; intros Iy; [auto| |].
    - pose proof (Up y _ Sy Cy (or_introl eq_refl) Iy) as Iu.
      destruct (Cl (S (rank F)) ltac:(lia) (C0 (S (rank F))) y Sy (sub_V o s Wo W F y VF Sy) Iu (Rk y Sy) (IH Iu)) as [P Q]. now apply P.
    - pose proof (Up y _ Sy Cy (or_intror eq_refl) Iy) as Iu.
      destruct (Cl (S (rank F)) ltac:(lia) (C0 (S (rank F))) y Sy (sub_V o s Wo W F y VF Sy) Iu (Rk y Sy) (IH Iu)) as [P Q]. now apply Q. }
  now apply All.
Qed.

Lemma print_spec naming tid F : V F ->
  exists mk mk' h h' lines ns, mark_shared (depth o) m unmarked F = Some mk /\ number_shared (depth o) m mk [] 0 F = Some ((mk', h), ns) /\
    print_step (depth o) o m naming tid 0 h F = Some (lines, h') /\
    forall env rho, suits env (var_name naming) (term_word tid) (ord o) rho -> says env lines (dv D F rho).
Proof.
  intros VF.
  destruct (script_spec o D s same (N.of_nat (length (ord o))) F Wo W K VF) as (mk & mk' & h & h' & sc & g & sh' & ns & E1 & E2 & E3 & P & L & G & B & Ct & Pr).
  { intros x Sx C. apply (wfo_in o); auto. apply (node_split o s Wo W x (sub_V o s Wo W F x VF Sx) C). }
  exists mk, mk', h, h', (show (word naming) (term_word tid) None 0 sc), (Z.of_N ns). fold m in E1, E2, E3. split; [auto|]. split; [auto|].
  split; [rewrite (print_script naming tid _ _ _ _ VF), E3; reflexivity|].
  intros env rho [Ht Hn]. set (r := fun k => rho (nth (N.to_nat k) (ord o) 0)).
  destruct (show_read (word naming) (term_word tid) env Ht r (N.of_nat (length (ord o)))) with (ns := ns) (sc := sc) (lab := @None N) (ind := 0%nat) (sh := @nil (option nf)) (g := g) (sh' := sh') (n := N.to_nat ns) (defs := @nil (N * bool))
    as (d1 & _ & _ & R); auto.
  { intros k Hk. destruct (nth_error (ord o) (N.to_nat k)) as [i|] eqn:Ei.
    - unfold word, r. rewrite (nth_error_nth _ _ 0 Ei). rewrite <- (Hn _ _ Ei). now rewrite N2Nat.id.
    - apply nth_error_None in Ei. lia. }
  { intros j. destruct (N.to_nat j); reflexivity. }
  exists d1. specialize (R _ [] (Nat.le_refl _)). rewrite app_nil_r in R. rewrite R. cbn [define].
  assert (Ev : g r = dv D F rho).
  { rewrite G. unfold sem. apply (lev_agree o D s Wo W K F); auto. intros i Ii _. unfold r, same. now rewrite (nth_error_nth _ _ 0 (wfo_nth o i Wo Ii)). }
  now rewrite Ev.
Qed.

(** ** The other text *)
Lemma fprint_spec fuel : forall f, V f -> (rank f < fuel)%nat -> exists l, fprint fuel m f = Some l /\
  forall env rho, (forall i, In i (ord o) -> env (letter i) = rho i) -> forall fuel' rest, (length l <= fuel')%nat -> fread env fuel' (l ++ rest)%list = Some (dv D f rho, rest).
Proof.
  induction fuel as [|fuel IH]; intros f Vf L; [lia|]. cbn [fprint]. destruct (isconst f) eqn:C.
  - destruct (const_cases _ f Vf C) as [-> | ->].
    + exists [Open; Bit true; Close]. split; [reflexivity|]. intros env rho _ [|fuel'] rest Hl; [cbn in Hl; lia|]. rewrite (dv_one D s rho K). reflexivity.
    + exists [Open; Bit false; Close]. split; [reflexivity|]. intros env rho _ [|fuel'] rest Hl; [cbn in Hl; lia|]. rewrite (dv_zero D s rho K). reflexivity.
  - assert (Z : iszero f = false /\ isone f = false).
    { unfold iszero, isone. split; apply not_true_iff_false; intros E; apply eeq_true in E as [E _]; destruct (node_split o s Wo W f Vf C) as (N0 & _ & I & _);
        pose proof (swf_addr o s W _ _ I) as Q; rewrite E in Q; cbn in Q; unfold ONE in Q; lia. }
    destruct Z as [-> ->]. destruct (node_split o s Wo W f Vf C) as (_ & Io & _ & Vt & Ve & _ & _ & Rt & Re). fold m in Vt, Ve, Rt, Re.
    destruct (IH _ Vt ltac:(lia)) as (lt & -> & Ft). destruct (IH _ Ve ltac:(lia)) as (le & -> & Fe).
    eexists. split; [reflexivity|]. intros env rho H fuel' rest Hl. cbn [app length] in Hl. rewrite !app_length in Hl. cbn [length] in Hl. rewrite app_length in Hl. cbn [length] in Hl.
    destruct fuel' as [|fuel']; [lia|]. cbn [app fread]. rewrite <- !app_assoc. rewrite (Ft env rho H) by lia. cbn [app]. rewrite <- app_assoc. rewrite (Fe env rho H) by lia. cbn [app].
    rewrite (H _ Io). rewrite (dv_split o D s Wo W K f rho Vf C). fold m. destruct (rho (eid f)), (dv D (thenof m f) rho); reflexivity.
Qed.
End Print.
