(** * Ownership of node addresses: every address is in at most one table, queue or free list. *)
From Coq Require Import Permutation.
From Verif Require Import Base BFModel StoreInv.

Inductive tag := ONone | OX | ONode (i : N) | OFree (i : N) | OQue (d : nat) (i : N) | ODon (d : nat) (i : N)
  | OInd (a : N).

Definition tag_eq_dec (x y : tag) : {x = y} + {x <> y}.
Proof. decide equality; (apply N.eq_dec || apply Nat.eq_dec). Defined.

Definition listed (t : tag) : bool := match t with ONone | OX | OInd _ => false | _ => true end.

(** The list belonging to a tag. *)
Definition kont (s : store) (q dn : nat -> N -> list N) (t : tag) : list N :=
  match t with
  | ONode i => ut s i | OFree i => fl s i | OQue d i => q d i | ODon d i => dn d i | _ => []
  end.

Record Acc (own : N -> tag) (K : tag -> list N) (lim : N) : Prop := {
  acc_in : forall t a, listed t = true -> (In a (K t) <-> own a = t);
  acc_nd : forall t, listed t = true -> NoDup (K t);
  acc_rng : forall a, own a <> ONone -> 2 < a < lim;
  acc_lim : 2 < lim
}.

Definition EAcc own en := Acc own (kont (st en) (que en) (don en)) (nx (st en)).

Lemma acc_ext own K K' lim : (forall t, listed t = true -> K' t = K t) -> Acc own K lim -> Acc own K' lim.
Proof.
  intros H [I ND R L]. constructor; auto.
  - intros t a Ht. rewrite H by auto. auto.
  - intros t Ht. rewrite H by auto. auto.
Qed.

(** Remove an address from the list of its tag. *)
Lemma acc_take own K K' lim t1 a l :
  Acc own K lim -> listed t1 = true -> Permutation (K t1) (a :: l) ->
  K' t1 = l -> (forall t, listed t = true -> t <> t1 -> K' t = K t) ->
  Acc (upd own a OX) K' lim.
Proof.
  intros [I ND R L] Ht P E1 E2.
  assert (Ina : own a = t1).
  { apply I; auto. eapply Permutation_in; [symmetry; exact P|]. now left. }
  assert (NDl : NoDup (a :: l)) by (eapply Permutation_NoDup; [exact P|auto]).
  inversion NDl as [|? ? Na NDl']; subst.
  constructor; auto.
  - intros t b Hl. destruct (tag_eq_dec t (own a)) as [->|Ne].
    + destruct (N.eq_dec b a) as [->|Nb].
      * rewrite upd_same. split; [tauto|]. intros Hx. rewrite <- Hx in Hl. discriminate.
      * rewrite upd_other by auto. rewrite <- I by auto. split; intros Hb.
        -- eapply Permutation_in; [symmetry; exact P|]. now right.
        -- eapply Permutation_in in Hb; [|exact P]. destruct Hb; congruence.
    + rewrite E2 by auto. rewrite I by auto. destruct (N.eq_dec b a) as [->|Nb].
      * rewrite upd_same. split; [congruence|]. intros Hx. rewrite <- Hx in Hl. discriminate.
      * rewrite upd_other by auto. tauto.
  - intros t Hl. destruct (tag_eq_dec t (own a)) as [->|Ne].
    + auto.
    + rewrite E2 by auto. auto.
  - intros b Hb. destruct (N.eq_dec b a) as [->|Nb].
    + apply R. intros Hx. rewrite Hx in Ht. discriminate.
    + rewrite upd_other in Hb by auto. auto.
Qed.

(** Add an unlisted address to a list. *)
Lemma acc_give own K K' lim t2 a :
  Acc own K lim -> own a = OX -> listed t2 = true ->
  Permutation (K' t2) (a :: K t2) -> (forall t, listed t = true -> t <> t2 -> K' t = K t) ->
  Acc (upd own a t2) K' lim.
Proof.
  intros [I ND R L] Ha Ht P E2.
  assert (Na : ~ In a (K t2)).
  { rewrite I by auto. rewrite Ha. intros Hx. rewrite <- Hx in Ht. discriminate. }
  constructor; auto.
  - intros t b Hl. destruct (tag_eq_dec t t2) as [->|Ne].
    + destruct (N.eq_dec b a) as [->|Nb].
      * rewrite upd_same. split; auto. intros _. eapply Permutation_in; [symmetry; exact P|]. now left.
      * rewrite upd_other by auto. rewrite <- I by auto. split; intros Hb.
        -- eapply Permutation_in in Hb; [|exact P]. destruct Hb; congruence.
        -- eapply Permutation_in; [symmetry; exact P|]. now right.
    + rewrite E2 by auto. rewrite I by auto. destruct (N.eq_dec b a) as [->|Nb].
      * rewrite upd_same. split; [|congruence]. intros Hx. rewrite Ha in Hx. rewrite <- Hx in Hl. discriminate.
      * rewrite upd_other by auto. tauto.
  - intros t Hl. destruct (tag_eq_dec t t2) as [->|Ne].
    + eapply Permutation_NoDup; [symmetry; exact P|]. constructor; auto.
    + rewrite E2 by auto. auto.
  - intros b Hb. destruct (N.eq_dec b a) as [->|Nb].
    + apply R. rewrite Ha. discriminate.
    + rewrite upd_other in Hb by auto. auto.
Qed.

Lemma acc_perm own K K' lim :
  Acc own K lim -> (forall t, listed t = true -> Permutation (K' t) (K t)) -> Acc own K' lim.
Proof.
  intros [I ND R L] P. constructor; auto.
  - intros t a Hl. rewrite <- I by auto. split; apply Permutation_in; [|symmetry]; auto.
  - intros t Hl. eapply Permutation_NoDup; [symmetry; apply P; auto|auto].
Qed.

(** An address that is neither in use nor free. *)
Definition freeish (t : tag) : Prop := t = ONone \/ exists i, t = OFree i.
(** Addresses whose contents an operation must not touch. *)
Definition kept (own : N -> tag) (a : N) : Prop := a <= 2 \/ ~ freeish (own a).

Lemma freeish_dec t : {freeish t} + {~ freeish t}.
Proof.
  destruct t; (left; unfold freeish; eauto; fail) || (right; intros [H|[? H]]; discriminate).
Defined.

Lemma alloc_spec own s q dn i a s' :
  Acc own (kont s q dn) (nx s) -> alloc s i = (a, s') ->
  freeish (own a) /\ 2 < a < nx s' /\ nx s <= nx s' /\
  Acc (upd own a OX) (kont s' q dn) (nx s') /\
  mem s' = upd (mem s) a (C efwd efwd 0) /\ ut s' = ut s /\ nn s' = nn s.
Proof.
  intros A. unfold alloc. destruct (fl s i) as [|b r] eqn:F; intros [= <- <-]; simpl.
  - assert (Ho : own (nx s) = ONone).
    { destruct (own (nx s)) eqn:Eo; auto; exfalso;
      assert (own (nx s) <> ONone) as Hx by congruence; apply (acc_rng _ _ _ A) in Hx; lia. }
    pose proof (acc_lim _ _ _ A) as Hl.
    split; [left; auto|]. split; [lia|]. split; [lia|]. split; [|auto].
    destruct A as [I ND R L]. constructor.
    + intros t b Hl'. assert (Hk : kont {| mem := upd (mem s) (nx s) (C efwd efwd 0); ut := ut s;
           fl := fl s; nx := nx s + 1; nn := nn s |} q dn t = kont s q dn t) by (destruct t; auto).
      rewrite Hk, I by auto. destruct (N.eq_dec b (nx s)) as [->|Nb].
      * rewrite upd_same, Ho. split; intros Hx; rewrite <- Hx in Hl'; discriminate.
      * rewrite upd_other by auto. tauto.
    + intros t Ht. specialize (ND t Ht). now destruct t.
    + intros b Hb. destruct (N.eq_dec b (nx s)) as [->|Nb].
      * lia.
      * rewrite upd_other in Hb by auto. apply R in Hb. lia.
    + lia.
  - assert (Hb : own b = OFree i).
    { apply (acc_in _ _ _ A); auto. simpl. rewrite F. now left. }
    assert (2 < b < nx s) by (apply (acc_rng _ _ _ A); congruence).
    split; [right; eauto|]. split; [lia|]. split; [lia|]. split; [|auto].
    eapply (acc_take own _ _ _ (OFree i) b r A); auto.
    + simpl. now rewrite F.
    + simpl. now rewrite upd_same.
    + intros t Hl Ne. destruct t; simpl; auto. rewrite upd_other; auto. congruence.
Qed.

Lemma upd2_same {A} (f : nat -> N -> A) d i v : upd2 f d i v d i = v.
Proof. unfold upd2. now rewrite Nat.eqb_refl, N.eqb_refl. Qed.
Lemma upd2_other {A} (f : nat -> N -> A) d i v d' i' : d' <> d \/ i' <> i -> upd2 f d i v d' i' = f d' i'.
Proof.
  intros H. unfold upd2. destruct (Nat.eqb_spec d' d), (N.eqb_spec i' i); simpl; auto.
  destruct H; congruence.
Qed.
