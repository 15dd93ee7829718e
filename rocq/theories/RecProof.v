(** * Record managers: the invariant and its preservation. *)
From Verif Require Import Base PoolModel SpecPool PoolBase.
From Coq Require Import Permutation.
Open Scope N_scope.

Local Notation proj := (proj Nat.eq_dec).
Local Notation drop := (drop Nat.eq_dec).
Arguments cut : simpl never.
Arguments ALLOC_SIZE : simpl never.

Section Slots.
(** Record size and records per block of each manager. *)
Variable sz : nat -> N * N.
Definition recs (x : nat * N) : list (nat * N) := map (pair (fst x)) (cut (snd x + 8) (fst (sz (fst x))) (N.to_nat (snd (sz (fst x))))).
Definition rext (x : nat * N) : iv := (snd x, fst (sz (fst x))).
Definition hext (x : nat * N) : iv := (snd x, 8).
Definition bext (x : nat * N) : iv := (snd x, ALLOC_SIZE).
Definition fits (i : nat) : Prop := 8 <= fst (sz i) /\ fst (sz i) mod 8 = 0 /\ 1 <= snd (sz i) /\ 8 + snd (sz i) * fst (sz i) <= ALLOC_SIZE.

Lemma recs_tag x y : In y (recs x) -> fst y = fst x.
Proof. unfold recs. intros H. apply in_map_iff in H as (a & <- & _). reflexivity. Qed.

Lemma recs_pieces x : fits (fst x) -> PD (hext x :: map rext (recs x)) /\ forall i, In i (hext x :: map rext (recs x)) -> contained i (bext x).
Proof.
  intros (F1 & F2 & F3 & F4). destruct x as [t b]. unfold recs, rext, hext, bext. cbn [fst snd] in *. rewrite map_map. cbn [fst snd].
  assert (C : forall i, In i (map (fun x => (x, fst (sz t))) (cut (b + 8) (fst (sz t)) (N.to_nat (snd (sz t))))) -> b + 8 <= fst i /\ fst i + snd i <= b + ALLOC_SIZE).
  { intros i H. apply in_map_iff in H as (a & <- & H). apply cut_contained in H as [H1 H2]. cbn [fst snd] in *. rewrite N2Nat.id in H2. lia. }
  split.
  - split; [|apply cut_PD]. intros y Hy w [A1 A2] [B1 B2]. destruct (C y Hy). cbn [fst snd] in *. lia.
  - intros i [<-|Hi]; [split; cbn [fst snd]; [lia|]|destruct (C i Hi); split; cbn [fst snd]; lia]. nia.
Qed.
End Slots.

Record RInv (sz : nat -> N * N) (w : rworld) (B free : list (nat * N)) : Prop := {
  ri_blocks : Permutation (map snd B) (rw_blocks w);
  ri_pd : PD (map bext B);
  ri_al : forall x, In x B -> snd x <> 0 /\ snd x mod 8 = 0;
  ri_sl : Permutation (flat_map (recs sz) B) (rw_live w ++ free);
  ri_sz : forall i r, nth_error (rw_ms w) i = Some (Some r) -> sz i = (rsize r, rper r);
  ri_fit : forall i r, nth_error (rw_ms w) i = Some (Some r) -> fits sz i;
  ri_m : forall i r, nth_error (rw_ms w) i = Some (Some r) -> chain (rw_mem w) (rfree r) (proj i free);
  ri_b : forall i r, nth_error (rw_ms w) i = Some (Some r) -> exists l, chain (rw_mem w) (rblocks r) l /\ Permutation l (proj i B) /\ N.of_nat (length l) = rnum r;
  ri_tag : forall i p, In (i, p) B -> exists r, nth_error (rw_ms w) i = Some (Some r) }.

Lemma perm_heads {A C} (h : A -> C) (g : A -> list C) l : Permutation (flat_map (fun x => h x :: g x) l) (map h l ++ flat_map g l).
Proof.
  induction l as [|x l IH]; [constructor|]. simpl. constructor. eapply Permutation_trans; [apply Permutation_app_head, IH|].
  rewrite !app_assoc. apply Permutation_app_tail, Permutation_app_comm.
Qed.

Section Facts.
Context {sz : nat -> N * N} {w : rworld} {B free : list (nat * N)} (I : RInv sz w B free).

Lemma ri_fitB x : In x B -> fits sz (fst x).
Proof. destruct x as [i b]. intros H. destruct (ri_tag _ _ _ _ I _ _ H) as [r E]. exact (ri_fit _ _ _ _ I _ _ E). Qed.

Lemma ri_ext : PD (map hext B ++ map (rext sz) (rw_live w ++ free)).
Proof.
  eapply PD_perm; [apply Permutation_app_head, Permutation_map, (ri_sl _ _ _ _ I)|].
  replace (map (rext sz) (flat_map (recs sz) B)) with (flat_map (fun x => map (rext sz) (recs sz x)) B).
  - eapply PD_perm; [apply perm_heads|]. eapply PD_pieces; [apply (ri_pd _ _ _ _ I)|]. intros x Hx. apply recs_pieces, ri_fitB, Hx.
  - rewrite !flat_map_concat_map, concat_map, map_map. reflexivity.
Qed.

Lemma ri_block x : In x (rw_live w ++ free) -> exists b, In b B /\ fst x = fst b /\ contained (rext sz x) (bext b) /\ In x (recs sz b).
Proof.
  intros H. apply (Permutation_in _ (Permutation_sym (ri_sl _ _ _ _ I))) in H. apply in_flat_map in H as (b & Hb & Hx).
  exists b. split; [exact Hb|]. split; [exact (recs_tag _ _ _ Hx)|]. split; [|exact Hx]. destruct (recs_pieces sz b (ri_fitB _ Hb)) as [_ Q].
  apply Q. right. apply in_map, Hx.
Qed.

Lemma ri_pos x : In x (rw_live w ++ free) -> 8 <= snd (rext sz x).
Proof. intros H. destruct (ri_block _ H) as (b & Hb & E & _). destruct (ri_fitB _ Hb) as [F _]. unfold rext. cbn [snd]. rewrite E. exact F. Qed.

Lemma ri_al_ext x : In x (rw_live w ++ free) -> snd x <> 0 /\ snd x mod 8 = 0.
Proof.
  intros H. destruct (ri_block _ H) as (b & Hb & Et & _ & Hs). destruct (ri_al _ _ _ _ I _ Hb) as [A1 A2]. destruct (ri_fitB _ Hb) as (_ & F & _).
  unfold recs in Hs. apply in_map_iff in Hs as (a & <- & Ha). cbn [snd]. apply cut_in in Ha as (j & _ & ->). split; [lia|].
  apply N.mod_divide in A2; [|lia]. destruct A2 as [q ->]. apply N.mod_divide in F; [|lia]. destruct F as [q2 ->].
  replace (q * 8 + 8 + N.of_nat j * (q2 * 8)) with ((q + 1 + N.of_nat j * q2) * 8) by lia. apply N.mod_mul. lia.
Qed.

(** Where the lists of the managers run. *)
Definition quiet (m' : mem) : Prop := (forall x, In x free -> m' (snd x) = rw_mem w (snd x)) /\ (forall x, In x B -> m' (snd x) = rw_mem w (snd x)).

Lemma ri_frame m' : quiet m' -> RInv sz (RW (rw_ms w) m' (rw_blocks w) (rw_live w)) B free.
Proof.
  intros [H1 H2]. destruct I as [I1 I2 I3 I4 I5 I6 I7 I8 I9]. constructor; cbn [rw_ms rw_mem rw_blocks rw_live]; try assumption.
  - intros i r E. eapply chain_frame; [|exact (I7 i r E)]. intros x Hx. apply proj_in in Hx. exact (H1 _ Hx).
  - intros i r E. destruct (I8 i r E) as (l & C & P & L). exists l. split; [|split; assumption]. eapply chain_frame; [|exact C].
    intros x Hx. apply (Permutation_in _ P) in Hx. apply proj_in in Hx. exact (H2 _ Hx).
Qed.

Lemma live_quiet a x v : In x (rw_live w) -> within a (rext sz x) -> quiet (poke (rw_mem w) a v).
Proof.
  intros Hx Ha. pose proof ri_ext as P. rewrite map_app in P. split; intros y Hy; apply poke_ne.
  - apply PD_app in P as (_ & P & _). apply (PD_neq _ _ (rext sz x) (rext sz y) P (in_map (rext sz) _ _ Hx) (in_map (rext sz) _ _ Hy)); [|exact Ha].
    pose proof (ri_pos y (in_or_app _ _ _ (or_intror Hy))). lia.
  - assert (P' : PD (map (rext sz) (rw_live w) ++ map hext B)).
    { apply PD_app in P as (P1 & P2 & P3). apply PD_app in P2 as (P4 & _). apply PD_app. split; [exact P4|]. split; [exact P1|].
      intros u v0 Hu Hv. apply apart_sym, P3; [exact Hv|]. apply in_or_app. now left. }
    apply (PD_neq _ _ (rext sz x) (hext y) P' (in_map (rext sz) _ _ Hx) (in_map hext _ _ Hy)); [reflexivity|exact Ha].
Qed.

Lemma out_quiet a v : (forall b, In b (rw_blocks w) -> ~ within a (block_extent b)) -> quiet (poke (rw_mem w) a v).
Proof.
  intros H. assert (H' : forall x, In x B -> ~ within a (bext x)).
  { intros x Hx. apply (H (snd x)). apply (Permutation_in _ (ri_blocks _ _ _ _ I)), in_map, Hx. }
  split; intros y Hy; apply poke_ne; intros E.
  - destruct (ri_block y (in_or_app _ _ _ (or_intror Hy))) as (b & Hb & _ & [C1 C2] & _). apply (H' b Hb). pose proof (ri_pos y (in_or_app _ _ _ (or_intror Hy))).
    unfold within, rext in *. cbn [fst snd] in *. lia.
  - apply (H' y Hy). unfold within, bext. cbn [fst snd]. rewrite E. unfold ALLOC_SIZE, PAGE_SIZE. lia.
Qed.
End Facts.

Lemma ri_live sz ms m bl live live' B free : Permutation live live' -> RInv sz (RW ms m bl live) B free -> RInv sz (RW ms m bl live') B free.
Proof.
  intros P [I1 I2 I3 I4 I5 I6 I7 I8 I9]. constructor; cbn [rw_ms rw_mem rw_blocks rw_live] in *; try assumption.
  eapply Permutation_trans; [exact I4|]. apply Permutation_app_tail, P.
Qed.

(** Replacing the record of a manager by one of the same shape. *)
Lemma ri_set sz ms m bl live B free i r r' free' live' : RInv sz (RW ms m bl live) B free -> nth_error ms i = Some (Some r) ->
  rsize r' = rsize r -> rper r' = rper r -> rblocks r' = rblocks r -> rnum r' = rnum r ->
  Permutation (live ++ free) (live' ++ free') -> chain m (rfree r') (proj i free') -> (forall j, j <> i -> proj j free' = proj j free) ->
  RInv sz (RW (set_nth ms i (Some r')) m bl live') B free'.
Proof.
  intros [I1 I2 I3 I4 I5 I6 I7 I8 I9] E S1 S2 S3 S4 P C O. cbn [rw_ms rw_mem rw_blocks rw_live] in *. pose proof (nth_error_lt _ _ _ E) as Li.
  constructor; cbn [rw_ms rw_mem rw_blocks rw_live]; try assumption.
  - eapply Permutation_trans; eassumption.
  - intros j rj Ej. destruct (Nat.eq_dec i j) as [<-|N]; [rewrite set_nth_same in Ej by exact Li; injection Ej as <-; rewrite S1, S2; exact (I5 i r E)|].
    rewrite set_nth_other in Ej by assumption. exact (I5 j rj Ej).
  - intros j rj Ej. destruct (Nat.eq_dec i j) as [<-|N]; [exact (I6 i r E)|]. rewrite set_nth_other in Ej by assumption. exact (I6 j rj Ej).
  - intros j rj Ej. destruct (Nat.eq_dec i j) as [<-|N]; [rewrite set_nth_same in Ej by exact Li; injection Ej as <-; exact C|].
    rewrite set_nth_other in Ej by assumption. rewrite O by congruence. exact (I7 j rj Ej).
  - intros j rj Ej. destruct (Nat.eq_dec i j) as [<-|N]; [rewrite set_nth_same in Ej by exact Li; injection Ej as <-; rewrite S3, S4; exact (I8 i r E)|].
    rewrite set_nth_other in Ej by assumption. exact (I8 j rj Ej).
  - intros j p Hp. destruct (I9 j p Hp) as [rj Ej]. destruct (Nat.eq_dec i j) as [<-|N]; [rewrite set_nth_same by exact Li; eauto|rewrite set_nth_other by assumption; eauto].
Qed.

Lemma rec_take sz ms m bl live B free i r : RInv sz (RW ms m bl live) B free -> nth_error ms i = Some (Some r) -> rfree r <> 0 ->
  exists free', RInv sz (RW (set_nth ms i (Some (RM (rsize r) (rper r) (m (rfree r)) (rblocks r) (rnum r)))) m bl ((i, rfree r) :: live)) B free'.
Proof.
  intros I E H. pose proof (ri_m _ _ _ _ I i r E) as C. cbn [rw_mem] in C. destruct (chain_head _ _ _ C H) as (l' & E' & C').
  destruct (proj_take Nat.eq_dec _ _ _ _ E') as (l1 & l2 & -> & E1 & E2). exists (l1 ++ l2).
  apply (ri_set sz ms m bl live B (l1 ++ (i, rfree r) :: l2) i r (RM (rsize r) (rper r) (m (rfree r)) (rblocks r) (rnum r)) (l1 ++ l2) ((i, rfree r) :: live) I E eq_refl eq_refl eq_refl eq_refl).
  - simpl. rewrite !app_assoc. apply Permutation_sym, Permutation_middle.
  - cbn [rfree]. rewrite proj_app, E1, E2. exact C'.
  - intros j N. rewrite !proj_app, (proj_other Nat.eq_dec) by congruence. reflexivity.
Qed.

Lemma rec_put sz ms m bl live B free i r a : RInv sz (RW ms m bl ((i, a) :: live)) B free -> nth_error ms i = Some (Some r) ->
  RInv sz (RW (set_nth ms i (Some (fst (rec_free r m a)))) (snd (rec_free r m a)) bl live) B ((i, a) :: free).
Proof.
  intros I E. pose proof (ri_al_ext I (i, a) (or_introl eq_refl)) as [A0 _]. cbn [snd] in A0.
  assert (W : within a (rext sz (i, a))). { pose proof (ri_pos I (i, a) (or_introl eq_refl)). unfold within, rext in *. cbn [fst snd] in *. lia. }
  pose proof (ri_frame I _ (live_quiet I a (i, a) (rfree r) (or_introl eq_refl) W)) as J. cbn [rw_ms rw_mem rw_blocks rw_live] in J. unfold rec_free. cbn [fst snd].
  apply (ri_set sz ms _ bl ((i, a) :: live) B free i r (RM (rsize r) (rper r) a (rblocks r) (rnum r)) ((i, a) :: free) live J E eq_refl eq_refl eq_refl eq_refl).
  - simpl. apply Permutation_middle.
  - cbn [rfree]. rewrite proj_same. simpl. split; [reflexivity|]. split; [exact A0|]. rewrite poke_eq. exact (ri_m _ _ _ _ J i r E).
  - intros j N. apply proj_other, N.
Qed.

Lemma roundup8 : roundup LIST_SIZE = 8.
Proof. reflexivity. Qed.

(** A new block. *)
Lemma rec_more sz ms m bl live B free i r b : RInv sz (RW ms m bl live) B free -> nth_error ms i = Some (Some r) -> rfree r = 0 -> fresh_block b (RW ms m bl live) ->
  exists B' free', RInv sz (RW (set_nth ms i (Some (RM (rsize r) (rper r) (b + 8) b (rnum r + 1))))
    (poke (link_up (N.to_nat (rper r - 1)) (b + 8) (rsize r) (poke m b (rblocks r))) (b + 8 + (rper r - 1) * rsize r) 0) (b :: bl) live) B' free'.
Proof.
  intros I E Ef (A0 & A1 & A2). cbn [rw_blocks] in A2. pose proof (nth_error_lt _ _ _ E) as Li.
  pose proof (ri_sz _ _ _ _ I i r E) as Es. pose proof (ri_fit _ _ _ _ I i r E) as Fi. pose proof Fi as (F1 & F2 & F3 & F4). rewrite Es in F1, F2, F3, F4. cbn [fst snd] in F1, F2, F3, F4.
  set (M := poke (link_up _ _ _ _) _ _).
  assert (Out : forall c, c < b \/ b + ALLOC_SIZE <= c -> M c = m c).
  { intros c Hc. unfold M. rewrite poke_ne by nia. rewrite link_up_out.
    - apply poke_ne. unfold ALLOC_SIZE, PAGE_SIZE in Hc. lia.
    - intros x Hx. apply cut_contained in Hx as [H1 H2]. cbn [fst snd] in *. rewrite N2Nat.id in H2. intros ->. nia. }
  assert (Ap : forall x, In x B -> apart (b, ALLOC_SIZE) (bext x)).
  { intros x Hx. apply (A2 (snd x)). apply (Permutation_in _ (ri_blocks _ _ _ _ I)), in_map, Hx. }
  assert (Q : @quiet (RW ms m bl live) B free M).
  { split; intros y Hy; apply Out; cbn [rw_mem].
    - destruct (ri_block I y (in_or_app _ _ _ (or_intror Hy))) as (c & Hc & _ & [C1 C2] & _). specialize (Ap c Hc (snd y)). pose proof (ri_pos I y (in_or_app _ _ _ (or_intror Hy))).
      unfold within, bext, rext in *. cbn [fst snd] in *. assert (T : ~ (b <= snd y < b + ALLOC_SIZE)) by (intros T; apply (Ap T); lia). lia.
    - specialize (Ap y Hy (snd y)). unfold within, bext in Ap. cbn [fst snd] in Ap. assert (0 < ALLOC_SIZE) by reflexivity.
      assert (T : ~ (b <= snd y < b + ALLOC_SIZE)) by (intros T; apply (Ap T); lia). lia. }
  pose proof (ri_frame I _ Q) as J. cbn [rw_ms rw_mem rw_blocks rw_live] in J. destruct J as [I1 I2 I3 I4 I5 I6 I7 I8 I9]. cbn [rw_ms rw_mem rw_blocks rw_live] in *.
  pose proof (I7 i r E) as C0. rewrite Ef in C0. assert (Z : proj i free = []).
  { destruct (proj i free) as [|x l]; [reflexivity|]. destruct C0 as (<- & C0 & _). congruence. }
  exists ((i, b) :: B), (recs sz (i, b) ++ free). constructor; cbn [rw_ms rw_mem rw_blocks rw_live].
  - simpl. constructor. exact I1.
  - simpl. split; [|exact I2]. intros y Hy. apply in_map_iff in Hy as (x & <- & Hx). exact (Ap x Hx).
  - intros x [<-|Hx]; [split; assumption|exact (I3 x Hx)].
  - simpl. rewrite app_assoc. eapply Permutation_trans; [apply Permutation_app_head, I4|]. rewrite app_assoc. apply Permutation_app_tail, Permutation_app_comm.
  - intros j rj Ej. destruct (Nat.eq_dec i j) as [<-|N]; [rewrite set_nth_same in Ej by exact Li; injection Ej as <-; exact Es|].
    rewrite set_nth_other in Ej by assumption. exact (I5 j rj Ej).
  - intros j rj Ej. destruct (Nat.eq_dec i j) as [<-|N]; [exact Fi|]. rewrite set_nth_other in Ej by assumption. exact (I6 j rj Ej).
  - intros j rj Ej. rewrite proj_app. unfold recs. cbn [fst snd]. destruct (Nat.eq_dec i j) as [<-|N].
    + rewrite set_nth_same in Ej by exact Li. injection Ej as <-. rewrite proj_map, Z, Es. cbn [rfree fst snd].
      replace (N.to_nat (rper r)) with (Datatypes.S (N.to_nat (rper r - 1))) by lia. unfold M.
      replace (b + 8 + (rper r - 1) * rsize r) with (b + 8 + N.of_nat (N.to_nat (rper r - 1)) * rsize r) by (rewrite N2Nat.id; reflexivity).
      apply link_up_chain; [lia|lia|reflexivity].
    + rewrite set_nth_other in Ej by assumption. rewrite proj_map_other by congruence. exact (I7 j rj Ej).
  - intros j rj Ej. destruct (Nat.eq_dec i j) as [<-|N].
    + rewrite set_nth_same in Ej by exact Li. injection Ej as <-. cbn [rblocks rnum]. destruct (I8 i r E) as (l & C & P & L). exists (b :: l). split; [|split].
      * simpl. split; [reflexivity|]. split; [exact A0|]. replace (M b) with (rblocks r); [exact C|]. unfold M. rewrite poke_ne by nia.
        rewrite link_up_out; [now rewrite poke_eq|]. intros x Hx. apply cut_contained in Hx as [H1 H2]. cbn [fst snd] in *. lia.
      * rewrite proj_same. constructor. exact P.
      * simpl length. lia.
    + rewrite set_nth_other in Ej by assumption. rewrite proj_other by congruence. exact (I8 j rj Ej).
  - intros j p Hp. assert (Hj : exists rj, nth_error ms j = Some (Some rj)) by (destruct Hp as [[= <- <-]|Hp]; [eauto|exact (I9 j p Hp)]).
    destruct Hj as [rj Ej]. destruct (Nat.eq_dec i j) as [<-|N]; [rewrite set_nth_same by exact Li; eauto|rewrite set_nth_other by assumption; eauto].
Qed.

Lemma set_nth_set {A} (l : list A) i x y : (i < length l)%nat -> set_nth (set_nth l i x) i y = set_nth l i y.
Proof.
  revert i. induction l as [|a l IH]; intros i H; [simpl in H; lia|]. destruct i as [|i]; [reflexivity|]. rewrite !set_nth_cons. f_equal. apply IH. simpl in H. lia.
Qed.

Lemma rec_alloc_spec sz w B free i r b r' m' a : RInv sz w B free -> nth_error (rw_ms w) i = Some (Some r) -> fresh_block b w ->
  rec_alloc b r (rw_mem w) = (r', m', a) ->
  exists B' free', RInv sz (RW (set_nth (rw_ms w) i (Some r')) m' (if rfree r =? 0 then b :: rw_blocks w else rw_blocks w) ((i, a) :: rw_live w)) B' free'.
Proof.
  destruct w as [ms m bl live]. cbn [rw_ms rw_mem rw_blocks rw_live]. intros I E Hb. pose proof (nth_error_lt _ _ _ E) as Li. unfold rec_alloc. rewrite roundup8.
  destruct (N.eqb_spec (rfree r) 0) as [E0|E0]; cbn [negb fst snd].
  - cbn [rsize rper rfree rblocks rnum]. intros H. apply pair_equal_spec in H as [H <-]. apply pair_equal_spec in H as [<- <-].
    destruct (rec_more _ _ _ _ _ _ _ _ _ _ I E E0 Hb) as (B' & f' & J).
    destruct (rec_take _ _ _ _ _ _ _ i _ J (set_nth_same _ _ _ Li)) as (f2 & J2); [cbn [rfree]; lia|]. cbn [rsize rper rfree rblocks rnum] in J2.
    rewrite set_nth_set in J2 by exact Li. eauto.
  - intros H. apply pair_equal_spec in H as [H <-]. apply pair_equal_spec in H as [<- <-].
    destruct (rec_take _ _ _ _ _ _ _ i _ I E E0) as (f2 & J2). eauto.
Qed.

Lemma walk_chain fuel m p l : chain m p l -> (length l <= fuel)%nat -> walk fuel m p = Got l.
Proof.
  revert p l. induction fuel as [|fuel IH]; intros p l C L; destruct l as [|x l]; simpl in *; try lia.
  - subst p. reflexivity.
  - subst p. reflexivity.
  - destruct C as (-> & C1 & C2). apply N.eqb_neq in C1. rewrite C1. rewrite (IH _ _ C2) by lia. reflexivity.
Qed.

Lemma rec_quit_spec sz w B free i r : RInv sz w B free -> nth_error (rw_ms w) i = Some (Some r) ->
  exists l, rec_quit r (rw_mem w) = Got l /\ Permutation l (proj i B).
Proof.
  intros I E. destruct (ri_b _ _ _ _ I i r E) as (l & C & P & L). exists l. split; [|exact P]. apply walk_chain; [exact C|]. lia.
Qed.

Lemma drop_recs sz i x : drop i (recs sz x) = if Nat.eq_dec i (fst x) then [] else recs sz x.
Proof.
  destruct (Nat.eq_dec i (fst x)) as [E|N].
  - destruct (drop i (recs sz x)) as [|y l] eqn:D; [reflexivity|]. assert (H : In y (drop i (recs sz x))) by (rewrite D; now left).
    apply drop_in in H as [H1 H2]. apply recs_tag in H1. congruence.
  - assert (H : forall y, In y (recs sz x) -> i <> fst y) by (intros y Hy; apply recs_tag in Hy; congruence).
    induction (recs sz x) as [|y l IH]; [reflexivity|]. unfold PoolBase.drop in *. cbn [filter]. destruct (Nat.eq_dec i (fst y)) as [E|_]; [exfalso; apply (H y); [now left|exact E]|].
    f_equal. apply IH. intros z Hz. apply H. now right.
Qed.

Lemma drop_flat sz i B : drop i (flat_map (recs sz) B) = flat_map (recs sz) (drop i B).
Proof.
  induction B as [|x B IH]; [reflexivity|]. simpl flat_map. rewrite drop_app, drop_recs, IH. unfold PoolBase.drop at 2. cbn [filter]. destruct (Nat.eq_dec i (fst x)); reflexivity.
Qed.

Lemma filter_drop i (l : list (nat * N)) : filter (fun x => negb (Nat.eqb i (fst x))) l = drop i l.
Proof. unfold PoolBase.drop. apply filter_ext. intros x. destruct (Nat.eqb_spec i (fst x)), (Nat.eq_dec i (fst x)); simpl; congruence. Qed.

Lemma filter_perm {A} (f : A -> bool) a b : Permutation a b -> Permutation (filter f a) (filter f b).
Proof.
  induction 1; simpl; auto.
  - destruct (f x); auto.
  - destruct (f x), (f y); auto. constructor.
  - eapply Permutation_trans; eauto.
Qed.

Lemma nodup_blocks sz w B free : RInv sz w B free -> NoDup (map snd B).
Proof.
  intros I. replace (map snd B) with (map fst (map bext B)) by (rewrite map_map; reflexivity). apply PD_nodup; [apply (ri_pd _ _ _ _ I)|].
  intros x Hx. apply in_map_iff in Hx as (y & <- & _). reflexivity.
Qed.

Lemma quit_inv sz w B free i r l : RInv sz w B free -> nth_error (rw_ms w) i = Some (Some r) -> rec_quit r (rw_mem w) = Got l ->
  RInv sz (RW (set_nth (rw_ms w) i None) (rw_mem w) (filter (fun b => negb (existsb (N.eqb b) l)) (rw_blocks w))
      (filter (fun x => negb (Nat.eqb i (fst x))) (rw_live w))) (drop i B) (drop i free).
Proof.
  intros I E El. destruct (rec_quit_spec _ _ _ _ _ _ I E) as (l' & E' & P). rewrite E' in El. injection El as ->. pose proof (nodup_blocks _ _ _ _ I) as ND.
  destruct I as [I1 I2 I3 I4 I5 I6 I7 I8 I9]. pose proof (nth_error_lt _ _ _ E) as Li. rewrite filter_drop. constructor; cbn [rw_ms rw_mem rw_blocks rw_live].
  - eapply Permutation_trans; [|apply filter_perm, I1].
    assert (Ex : map snd (drop i B) = filter (fun b => negb (existsb (N.eqb b) l)) (map snd B)); [|rewrite Ex; apply Permutation_refl].
    assert (Hl : forall b, existsb (N.eqb b) l = true <-> In (i, b) B).
    { intros b. rewrite existsb_exists. rewrite <- (proj_in Nat.eq_dec i b B). split.
      - intros (x & Hx & Ex). apply N.eqb_eq in Ex. subst x. exact (Permutation_in _ P Hx).
      - intros Hx. exists b. split; [exact (Permutation_in _ (Permutation_sym P) Hx)|apply N.eqb_refl]. }
    assert (G : forall C, incl C B -> NoDup (map snd B) -> map snd (drop i C) = filter (fun b => negb (existsb (N.eqb b) l)) (map snd C)).
    { clear - Hl. induction C as [|[j b] C IH]; intros Hi ND; [reflexivity|]. unfold PoolBase.drop in *. cbn [filter map fst snd].
      rewrite <- IH; [|intros x Hx; apply Hi; now right|exact ND]. destruct (Nat.eq_dec i j) as [<-|N].
      - assert (Q : existsb (N.eqb b) l = true) by (apply Hl, Hi; now left). rewrite Q. reflexivity.
      - destruct (existsb (N.eqb b) l) eqn:Q; [|reflexivity]. exfalso. apply Hl in Q. assert (Hj : In (j, b) B) by (apply Hi; now left).
        clear - ND Q Hj N. induction B as [|[t c] B IH]; [contradiction|]. simpl in ND. apply NoDup_cons_iff in ND as [N1 N2].
        destruct Q as [Q|Q], Hj as [Hj|Hj].
        + congruence.
        + injection Q as -> ->. apply N1. apply (in_map snd) in Hj. exact Hj.
        + injection Hj as -> ->. apply N1. apply (in_map snd) in Q. exact Q.
        + exact (IH N2 Q Hj). }
    apply G; [apply incl_refl|exact ND].
  - clear - I2. induction B as [|x B IH]; [exact I2|]. simpl in I2. destruct I2 as [H1 H2]. unfold PoolBase.drop in *. cbn [filter]. destruct (Nat.eq_dec i (fst x)); [exact (IH H2)|].
    simpl. split; [|exact (IH H2)]. intros y Hy. apply H1. apply in_map_iff in Hy as (z & <- & Hz). apply filter_In in Hz as [Hz _]. apply in_map, Hz.
  - intros x Hx. apply drop_in in Hx as [Hx _]. exact (I3 x Hx).
  - rewrite <- drop_flat, <- drop_app. apply drop_perm, I4.
  - intros j rj Ej. destruct (Nat.eq_dec i j) as [<-|N]; [rewrite set_nth_same in Ej by exact Li; discriminate|]. rewrite set_nth_other in Ej by assumption. exact (I5 j rj Ej).
  - intros j rj Ej. destruct (Nat.eq_dec i j) as [<-|N]; [rewrite set_nth_same in Ej by exact Li; discriminate|]. rewrite set_nth_other in Ej by assumption. exact (I6 j rj Ej).
  - intros j rj Ej. destruct (Nat.eq_dec i j) as [<-|N]; [rewrite set_nth_same in Ej by exact Li; discriminate|]. rewrite set_nth_other in Ej by assumption.
    rewrite proj_drop by congruence. exact (I7 j rj Ej).
  - intros j rj Ej. destruct (Nat.eq_dec i j) as [<-|N]; [rewrite set_nth_same in Ej by exact Li; discriminate|]. rewrite set_nth_other in Ej by assumption.
    rewrite proj_drop by congruence. exact (I8 j rj Ej).
  - intros j p Hp. apply drop_in in Hp as [Hp N]. cbn [fst] in N. rewrite set_nth_other by assumption. exact (I9 j p Hp).
Qed.

Lemma rec_init_spec size r : rec_init size = Got r ->
  rfree r = 0 /\ rblocks r = 0 /\ rnum r = 0 /\ 8 <= rsize r /\ size <= rsize r /\ rsize r mod 8 = 0 /\ 1 <= rper r /\ 8 + rper r * rsize r <= ALLOC_SIZE.
Proof.
  unfold rec_init. rewrite roundup8. set (s := if size <? LIST_SIZE then LIST_SIZE else size).
  assert (Hs : 8 <= s /\ size <= s). { unfold s, LIST_SIZE. destruct (N.ltb_spec size 8); lia. }
  set (t := roundup s). assert (Ht : s <= t /\ t mod 8 = 0).
  { unfold t, roundup. split; [|apply N.mod_mul; lia]. pose proof (N.div_mod (s + 7) 8 ltac:(lia)). pose proof (N.mod_lt (s + 7) 8 ltac:(lia)). lia. }
  destruct (N.ltb_spec (ALLOC_SIZE - 8) t) as [L|L]; [discriminate|]. intros [= <-]. cbn [rsize rper rfree rblocks rnum]. do 3 (split; [reflexivity|]).
  split; [lia|]. split; [lia|]. split; [apply Ht|]. assert (T : t <> 0) by lia. assert (E : ALLOC_SIZE - 8 + 8 = ALLOC_SIZE) by reflexivity. split.
  - apply N.div_le_lower_bound; [exact T|rewrite N.mul_1_r; exact L].
  - rewrite (N.mul_comm _ t), N.add_comm. etransitivity; [apply N.add_le_mono_r, (N.mul_div_le (ALLOC_SIZE - 8) t T)|]. rewrite E. apply N.le_refl.
Qed.

Lemma new_inv sz w B free size r : RInv sz w B free -> rec_init size = Got r ->
  exists sz', RInv sz' (RW (rw_ms w ++ [Some r]) (rw_mem w) (rw_blocks w) (rw_live w)) B free.
Proof.
  intros I E. apply rec_init_spec in E as (Z1 & Z2 & Z3 & F1 & _ & F2 & F3 & F4). destruct w as [ms m bl live]. cbn [rw_ms rw_mem rw_blocks rw_live].
  set (k := length ms). set (sz' := fun i => if Nat.eqb i k then (rsize r, rper r) else sz i). exists sz'.
  destruct I as [I1 I2 I3 I4 I5 I6 I7 I8 I9]. cbn [rw_ms rw_mem rw_blocks rw_live] in *.
  assert (Lt : forall i p, In (i, p) B -> (i < k)%nat). { intros i p Hp. destruct (I9 i p Hp) as [q Eq]. exact (nth_error_lt _ _ _ Eq). }
  assert (Es : forall i, (i < k)%nat -> sz' i = sz i). { intros i Hi. unfold sz'. destruct (Nat.eqb_spec i k); [lia|reflexivity]. }
  assert (Ek : sz' k = (rsize r, rper r)) by (unfold sz'; now rewrite Nat.eqb_refl).
  assert (Er : flat_map (recs sz') B = flat_map (recs sz) B).
  { rewrite !flat_map_concat_map. f_equal. apply map_ext_in. intros [i p] Hp. unfold recs. cbn [fst snd]. rewrite (Es i (Lt i p Hp)). reflexivity. }
  assert (Nth : forall i x, nth_error (ms ++ [Some r]) i = Some (Some x) -> (i < k)%nat /\ nth_error ms i = Some (Some x) \/ i = k /\ x = r).
  { intros i x H. destruct (Nat.lt_ge_cases i k) as [L|L].
    - left. rewrite nth_error_app1 in H by exact L. auto.
    - right. rewrite nth_error_app2 in H by exact L. destruct (i - length ms)%nat as [|q] eqn:Eq; [|destruct q; discriminate]. injection H as <-. unfold k in *. split; [lia|reflexivity]. }
  assert (Nb : forall l, (forall p, In (k, p) l -> False) -> proj k l = []).
  { intros l Hl. destruct (proj k l) as [|x q] eqn:El; [reflexivity|]. exfalso. apply (Hl x). apply (proj_in Nat.eq_dec). rewrite El. now left. }
  assert (NB : forall p, In (k, p) B -> False) by (intros p Hp; pose proof (Lt _ _ Hp); lia).
  constructor; cbn [rw_ms rw_mem rw_blocks rw_live]; try assumption.
  - rewrite Er. exact I4.
  - intros i x H. destruct (Nth i x H) as [[L H']|[-> ->]]; [rewrite Es by exact L; exact (I5 i x H')|exact Ek].
  - intros i x H. unfold fits. destruct (Nth i x H) as [[L H']|[-> ->]]; [rewrite Es by exact L; exact (I6 i x H')|rewrite Ek; cbn [fst snd]; auto].
  - intros i x H. destruct (Nth i x H) as [[L H']|[-> ->]]; [exact (I7 i x H')|]. rewrite Nb; [exact Z1|]. intros p Hp.
    assert (Hp' : In (k, p) (flat_map (recs sz) B)) by (eapply Permutation_in; [apply Permutation_sym, I4|]; apply in_or_app; now right).
    apply in_flat_map in Hp' as ([j q] & Hq & Hs). apply recs_tag in Hs. cbn [fst] in Hs. subst j. exact (NB q Hq).
  - intros i x H. destruct (Nth i x H) as [[L H']|[-> ->]]; [exact (I8 i x H')|]. exists []. rewrite Nb by exact NB. rewrite Z3. split; [exact Z2|]. split; [constructor|reflexivity].
  - intros i p Hp. destruct (I9 i p Hp) as [q Eq]. exists q. rewrite nth_error_app1; [exact Eq|]. exact (nth_error_lt _ _ _ Eq).
Qed.

Lemma rec_extent_ok sz w B free x : RInv sz w B free -> In x (rw_live w) -> rec_extent w x = rext sz x.
Proof.
  intros I H. destruct (ri_block I x (in_or_app _ _ _ (or_introl H))) as ([j b] & Hb & E & _). cbn [fst] in E. destruct (ri_tag _ _ _ _ I _ _ Hb) as [r Er].
  unfold rec_extent, rext. rewrite E, Er, (ri_sz _ _ _ _ I _ _ Er). reflexivity.
Qed.

Lemma rstep_inv sz w w' B free : RInv sz w B free -> rstep w w' -> exists sz' B' free', RInv sz' w' B' free'.
Proof.
  intros I H. inversion H; subst; clear H.
  - destruct (new_inv _ _ _ _ _ _ I H0) as [sz' J]. eauto.
  - destruct (rec_alloc_spec _ _ _ _ _ _ _ _ _ _ I H0 H1 H2) as (B' & f' & J). eauto.
  - exists sz, B, ((i, a) :: free). destruct w as [ms m bl live]. cbn [rw_ms rw_mem rw_blocks rw_live] in *. apply rec_put; [|assumption].
    eapply ri_live; [|exact I]. rewrite H1. apply Permutation_sym, Permutation_middle.
  - exists sz, (drop i B), (drop i free). eapply quit_inv; eassumption.
  - exists sz, B, free. apply ri_frame; [exact I|]. destruct H0 as [(x & Hx & Ha)|H0]; [|exact (out_quiet I a v H0)].
    rewrite (rec_extent_ok _ _ _ _ _ I Hx) in Ha. exact (live_quiet I a x v Hx Ha).
Qed.

Lemma rreach_inv w : rreach w -> exists sz B free, RInv sz w B free.
Proof.
  induction 1 as [m|w w' R (sz & B & free & I) S].
  - exists (fun _ => (0, 0)), [], []. constructor; cbn [rw_ms rw_mem rw_blocks rw_live]; try (constructor; fail); try exact Logic.I; try (intros ? []; fail);
      try (intros [|i] r; discriminate). intros i p [].
  - exact (rstep_inv _ _ _ _ _ I S).
Qed.
