(** * Printed BDDs in reachable worlds. *)
From Coq Require Import Ascii String Lia DecimalString DecimalN.
From Verif Require Import Base BFModel ITEModel MgrModel StoreInv MInv ApiModel ApiProof ApiStruct ApiVar VarProof GraphModel SpecApi
  WorldProof Client ApiLemmas ApiFacts DumpModel PrintModel SpecPrint BddPrintModel SpecBddPrint BddPrintProof.
Open Scope N_scope.

Lemma says_same env l b b' : says env l b -> says env l b' -> b = b'.
Proof. intros [d E] [d' E']. rewrite E in E'. now injection E'. Qed.

(** ** Words that can be told apart *)
Lemma suits_exists name term order rho : distinct_words name term order -> exists env, suits env name term order rho.
Proof.
  intros (Ht & Hn & Hi).
  set (hit := fun s k => match nth_error order k with Some i => String.eqb (name i (N.of_nat k)) s && rho i | None => false end).
  exists (fun s => if String.eqb s (term true) then true else if String.eqb s (term false) then false else existsb (hit s) (seq 0 (List.length order))).
  split.
  - intros [|]; [now rewrite String.eqb_refl|]. destruct (String.eqb_spec (term false) (term true)) as [E|_]; [now rewrite E in Ht|]. now rewrite String.eqb_refl.
  - intros k i E. destruct (String.eqb_spec (name i (N.of_nat k)) (term true)) as [X|_]; [now apply Hn in X|].
    destruct (String.eqb_spec (name i (N.of_nat k)) (term false)) as [X|_]; [now apply Hn in X|].
    apply Bool.eq_true_iff_eq. rewrite existsb_exists. split.
    + intros (k' & _ & H). unfold hit in H. destruct (nth_error order k') as [i'|] eqn:E'; [|discriminate]. apply andb_true_iff in H as [H1 H2].
      apply String.eqb_eq in H1. now rewrite (Hi k i k' i' E E' (eq_sym H1)).
    + intros H. exists k. split; [apply in_seq; split; [lia|]; apply nth_error_Some; rewrite E; discriminate|].
      unfold hit. now rewrite E, String.eqb_refl.
Qed.
Lemma dec_inj a b : dec_of a = dec_of b -> a = b.
Proof.
  unfold dec_of. intros H. apply (f_equal NilEmpty.uint_of_string) in H. rewrite !NilEmpty.usu in H. injection H as H.
  apply (f_equal N.of_uint) in H. now rewrite !Unsigned.of_to in H.
Qed.
Lemma default_words order : distinct_words (label (fun _ => None)) (constant (fun _ => None)) order.
Proof.
  split; [discriminate|]. split; [intros k i [|] _; discriminate|].
  intros k i k' i' E E' H. unfold label in H. cbn in H. injection H as H. apply dec_inj in H. apply Nnat.Nat2N.inj in H. congruence.
Qed.

Section World.
Variable w : world.
Hypothesis Rw : reachable w.
Notation m := (wm w).
Notation hs := (wh w).

Lemma W_print_bdd f F naming tid : In f hs -> means m f F ->
  exists lines, cal_print_bdd m f naming tid = Ok lines /\
    forall env rho, suits env (label naming) (constant tid) (ord (mo m)) rho -> says env lines (F rho).
Proof.
  intros If Mf. destruct (W_inv w Rw) as [D I]. rewrite (means_hv m hs lk0 D f F I If) in Mf.
  destruct (print_spec (mo m) D (st (me m)) (mi_wfo _ _ _ _ I) (MI_swf _ _ _ _ I) (MI_dok _ _ _ _ I) naming tid (uint (mmem m) f) (MI_int _ _ _ _ _ I If))
    as (mk & mk' & h & h' & lines & ns & E1 & E2 & E3 & H).
  exists lines. split.
  - unfold cal_print_bdd. rewrite (uok_notnull m hs lk0 D f I If). rewrite E1. cbn [fueled obind]. rewrite E2. cbn [fueled obind]. rewrite E3. reflexivity.
  - intros env rho S. rewrite <- Mf. apply H. exact S.
Qed.
Lemma W_print_determines f g F G naming tid : In f hs -> In g hs -> means m f F -> means m g G ->
  distinct_words (label naming) (constant tid) (ord (mo m)) -> cal_print_bdd m f naming tid = cal_print_bdd m g naming tid -> forall rho, F rho = G rho.
Proof.
  intros If Ig Mf Mg Dw E rho. destruct (W_print_bdd f F naming tid If Mf) as (l & El & Hl). destruct (W_print_bdd g G naming tid Ig Mg) as (l' & El' & Hl').
  rewrite El, El' in E. injection E as <-. destruct (suits_exists _ _ _ rho Dw) as [env S]. exact (says_same env l _ _ (Hl env rho S) (Hl' env rho S)).
Qed.
Lemma W_print_marks f : In f hs -> exists mk mk' h n, mark_shared (depth (mo m)) (mmem m) unmarked (uint (mmem m) f) = Some mk /\
  number_shared (depth (mo m)) (mmem m) mk [] 0 (uint (mmem m) f) = Some ((mk', h), n) /\ forall p, mk' p = unmarked p.
Proof.
  intros If. destruct (W_inv w Rw) as [D I].
  pose proof (mi_wfo _ _ _ _ I) as Wo. pose proof (MI_swf _ _ _ _ I) as W. pose proof (MI_dok _ _ _ _ I) as K. pose proof (MI_int _ _ _ _ _ I If) as V.
  destruct (print_spec (mo m) D (st (me m)) Wo W K (fun _ => None) (fun _ => None) (uint (mmem m) f) V) as (mk & mk' & h & h' & lines & ns & E1 & E2 & _).
  exists mk, mk', h, ns. split; [exact E1|]. split; [exact E2|]. exact (cleared (mo m) D (st (me m)) Wo W K (uint (mmem m) f) mk mk' h ns V E1 E2).
Qed.

Lemma W_function_print f F : In f hs -> means m f F ->
  exists l, cal_function_print m f = Ok l /\
    forall env rho, (forall i, In i (ord (mo m)) -> env (byte_of i) = rho i) -> fsays env l (F rho).
Proof.
  intros If Mf. destruct (W_inv w Rw) as [D I]. rewrite (means_hv m hs lk0 D f F I If) in Mf.
  pose proof (mi_wfo _ _ _ _ I) as Wo. pose proof (MI_swf _ _ _ _ I) as W. pose proof (MI_dok _ _ _ _ I) as K. pose proof (MI_int _ _ _ _ _ I If) as V.
  destruct (fprint_spec (mo m) D (st (me m)) Wo W K (depth (mo m)) (uint (mmem m) f) V (GraphProof.rank_depth _ _ _ V)) as (l & E & H).
  exists l. split.
  - unfold cal_function_print. rewrite (uok_notnull m hs lk0 D f I If), E. reflexivity.
  - intros env rho Hn. unfold fsays. rewrite <- (app_nil_r l) at 2. rewrite <- Mf. apply H; [|lia].
    intros i Ii. unfold letter. replace (97 + i - 1) with (96 + i) by lia. now apply Hn.
Qed.
Lemma W_function_determines f g F G : In f hs -> In g hs -> means m f F -> means m g G -> (List.length (ord (mo m)) <= 256)%nat ->
  cal_function_print m f = cal_function_print m g -> forall rho, F rho = G rho.
Proof.
  intros If Ig Mf Mg Hl E rho. destruct (W_function_print f F If Mf) as (l & El & Sl). destruct (W_function_print g G Ig Mg) as (l' & El' & Sl').
  rewrite El, El' in E. injection E as <-. destruct (W_inv w Rw) as [D I]. pose proof (mi_ids _ _ _ _ I) as Ids.
  set (env := fun c => existsb (fun i => (byte_of i =? c) && rho i) (ord (mo m))).
  assert (S : forall i, In i (ord (mo m)) -> env (byte_of i) = rho i).
  { intros i Ii. apply Bool.eq_true_iff_eq. unfold env. rewrite existsb_exists. split.
    - intros (j & Ij & H). apply andb_true_iff in H as [H1 H2]. apply N.eqb_eq in H1. assert (j = i); [|now subst].
      apply Ids in Ii, Ij. unfold byte_of in H1. 
      assert (A : forall x, (96 + x) mod 256 = (96 + x) - 256 * ((96 + x) / 256)) by (intros x; rewrite N.mod_eq; [reflexivity|discriminate]).
      rewrite !A in H1. pose proof (N.mul_div_le (96 + i) 256 ltac:(discriminate)). pose proof (N.mul_div_le (96 + j) 256 ltac:(discriminate)).
      pose proof (N.mul_succ_div_gt (96 + i) 256 ltac:(discriminate)). pose proof (N.mul_succ_div_gt (96 + j) 256 ltac:(discriminate)). lia.
    - intros H. exists i. split; [auto|]. now rewrite N.eqb_refl. }
  pose proof (Sl env rho S) as X. pose proof (Sl' env rho S) as Y. unfold fsays in X, Y. rewrite X in Y. now injection Y.
Qed.
End World.

Lemma print_null m f naming tid : uisnull f = true -> cal_print_bdd m f naming tid = Undefined /\ cal_function_print m f = Undefined.
Proof. intros H. unfold cal_print_bdd, cal_function_print. now rewrite H. Qed.

(** ** Examples *)
Definition texts (r : outcome (list pline)) : list string := match r with Ok l => map render l | _ => [] end.
Definition text2 (r : outcome (list piece)) : string := match r with Ok l => String.concat "" (map render_piece l) | _ => EmptyString end.
(** A sum modulo two of three variables: a shared node, met with both signs. *)
Definition parity : world := run (setup ++ [CBin BXor false 2 3; CBin BXor false 0 5]).
Notation h_par := (nth 0 (wh parity) unull).
Lemma parity_text : texts (cal_print_bdd (wm parity) h_par (fun _ => None) (fun _ => None)) =
  ["if var.1"; "  0: if var.2"; "    var.3"; "  else if !var.2"; "    !var.3"; "  endif var.2"; "else if !var.1"; "  !subformula 0"; "endif var.1"]%string.
Proof. vm_compute. reflexivity. Qed.
Lemma ite_text : text2 (cal_function_print (wm demo) h_and) = "( a ( b ( 1 ) + b' ( 0 ) ) + a' ( 0 ) ) "%string.
Proof. vm_compute. reflexivity. Qed.
Lemma parity_setting : reachable parity /\ In h_par (wh parity) /\ means (wm parity) h_par (fun rho => xorb (rho 2) (xorb (rho 3) (rho 4))) /\
  distinct_words (label (fun _ => None)) (constant (fun _ => None)) (ord (mo (wm parity))) /\ (List.length (ord (mo (wm parity))) <= 256)%nat.
Proof.
  split; [apply run_reachable|]. split; [vm_compute; left; reflexivity|]. split.
  - apply (tree_means (wm parity) h_par (Node 4 (Node 2 (Node 3 (Client.Leaf true) (Client.Leaf false)) (Node 3 (Client.Leaf false) (Client.Leaf true)))
      (Node 2 (Node 3 (Client.Leaf false) (Client.Leaf true)) (Node 3 (Client.Leaf true) (Client.Leaf false))))); [vm_compute; reflexivity|].
    intros rho. cbn [teval]. destruct (rho 2), (rho 3), (rho 4); reflexivity.
  - split; [apply default_words|]. vm_compute. repeat constructor.
Qed.

(** 257 variables. *)
Definition many : list cmd := map (fun k => CNewvar (N.of_nat k)) (seq 0 257).
Definition piece_dec : forall a b : piece, {a = b} + {a <> b}.
Proof. decide equality; try apply N.eq_dec; apply Bool.bool_dec. Defined.
Definition is_variable (t : option tree) : option N :=
  match t with Some (Node i (Client.Leaf true) (Client.Leaf false)) => Some i | _ => None end.
(** The first and the [k]th handle are two variables with the same text. *)
Definition alike (w : world) (k : nat) : bool :=
  match nth_error (wh w) 0, nth_error (wh w) k with
  | Some f, Some g =>
      match is_variable (unfold_tree 100 (mmem (wm w)) (uint (mmem (wm w)) f)), is_variable (unfold_tree 100 (mmem (wm w)) (uint (mmem (wm w)) g)) with
      | Some i, Some j =>
          match cal_function_print (wm w) f, cal_function_print (wm w) g with
          | Ok l, Ok l' => negb (i =? j) && (if list_eq_dec piece_dec l l' then true else false)
          | _, _ => false
          end
      | _, _ => false
      end
  | _, _ => false
  end.
Lemma variable_means m h i : is_variable (unfold_tree 100 (mmem m) (uint (mmem m) h)) = Some i -> means m h (fun rho => rho i).
Proof.
  destruct (unfold_tree 100 (mmem m) (uint (mmem m) h)) as [[b|j [[|]|] [[|]|]]|] eqn:E; try discriminate. intros [= ->].
  apply (tree_means m h _ _ E). intros rho. cbn [teval]. destruct (rho i); reflexivity.
Qed.
Lemma alike_refutes w k : reachable w -> alike w k = true -> exists w f g F G rho, reachable w /\ In f (wh w) /\ In g (wh w) /\ means (wm w) f F /\ means (wm w) g G /\ F rho <> G rho /\
  cal_function_print (wm w) f = cal_function_print (wm w) g /\ exists l, cal_function_print (wm w) f = Ok l.
Proof.
  intros R. unfold alike. destruct (nth_error (wh w) 0) as [f|] eqn:Ef; [|discriminate]. destruct (nth_error (wh w) k) as [g|] eqn:Eg; [|discriminate].
  destruct (is_variable (unfold_tree 100 (mmem (wm w)) (uint (mmem (wm w)) f))) as [i|] eqn:Vi; [|discriminate].
  destruct (is_variable (unfold_tree 100 (mmem (wm w)) (uint (mmem (wm w)) g))) as [j|] eqn:Vj; [|discriminate].
  destruct (cal_function_print (wm w) f) as [l| |] eqn:Pf; try discriminate. destruct (cal_function_print (wm w) g) as [l'| |] eqn:Pg; try discriminate.
  intros H. apply andb_true_iff in H as [H1 H2]. destruct (list_eq_dec piece_dec l l') as [<-|]; [|discriminate]. apply Bool.negb_true_iff, N.eqb_neq in H1.
  exists w, f, g, (fun rho => rho i), (fun rho => rho j), (fun x => x =? i). split; [auto|]. split; [eapply nth_error_In; eauto|]. split; [eapply nth_error_In; eauto|].
  split; [now apply variable_means|]. split; [now apply variable_means|]. split.
  - rewrite N.eqb_refl. rewrite (proj2 (N.eqb_neq j i)) by auto. discriminate.
  - split; [congruence|]. exists l. exact Pf.
Qed.
Lemma many_alike : alike (run many) 256 = true.
Proof. vm_compute. reflexivity. Qed.
Lemma letters_refuted : exists w f g F G rho, reachable w /\ In f (wh w) /\ In g (wh w) /\ means (wm w) f F /\ means (wm w) g G /\ F rho <> G rho /\
  cal_function_print (wm w) f = cal_function_print (wm w) g /\ exists l, cal_function_print (wm w) f = Ok l.
Proof. exact (alike_refutes (run many) 256 (run_reachable many) many_alike). Qed.
