(** * Printed profiles of several functions in reachable worlds. *)
From Coq Require Import String Lia.
From Verif Require Import Base BFModel ITEModel MgrModel MInv ApiModel ApiProof ApiOps ApiStruct ApiVar GraphModel GraphCall SpecApi SpecGraph
  WorldProof Client ApiLemmas ApiFacts GraphApi PrintModel SpecPrint PrintProof PrintFacts FProfModel FProfFacts FProfPrint.
Open Scope N_scope.

Lemma pre_array hs l : forall m ds, reachable (World m hs) -> args hs l ->
  exists m1, preproc_array ds m l = Ok (true, m1) /\ reachable (World m1 hs) /\ mo m1 = mo m /\
    forall h F, In h hs -> means m h F -> means m1 h F.
Proof.
  induction l as [|f l IH]; intros m ds R Al; cbn [preproc_array].
  { exists m. split; [reflexivity|]. split; [exact R|]. split; [reflexivity|]. auto. }
  assert (If : In f hs) by (apply Al; now left).
  destruct (W_inv _ R) as [D I]. cbn [wm wh] in I. destruct (pre1 (ds 0%nat) m hs lk0 D f I If) as (m1 & D1 & P & I1 & X1). rewrite P. cbn [obind].
  assert (S : step (World m hs) (World m1 hs)).
  { apply st_call. apply (st_type (ds 0%nat) m hs f (type_aux (mmem m1) (uint (mmem m1) f)) m1); [now right|]. unfold cal_type, query. rewrite P. reflexivity. }
  destruct (IH m1 (fun k => ds (Datatypes.S k)) (re_step _ _ R S)) as (m2 & E2 & R2 & O2 & K2). { intros h Ih. apply Al. now right. }
  exists m2. split; [exact E2|]. split; [exact R2|]. split; [rewrite O2; exact (preproc_mo _ _ _ _ _ P)|].
  intros h F Ih Mh. apply K2; [exact Ih|]. exact (W_keep (World m hs) R (World m1 hs) h F S Ih Ih Mh).
Qed.
Lemma each_keep hs m m1 l Fs : (forall h F, In h hs -> means m h F -> means m1 h F) -> args hs l -> each (means m) l Fs -> each (means m1) l Fs.
Proof.
  intros K Al H. unfold each in *. induction H as [|h F l Fs Mh H IH]; constructor.
  - apply K; [apply Al; now left|exact Mh].
  - apply IH. intros x Ix. apply Al. now right.
Qed.
Lemma upto_null_owned w l : reachable w -> args (wh w) l -> upto_null l = l.
Proof. intros R Al. destruct (W_inv _ R) as [D I]. exact (upto_null_live _ _ _ D l I Al). Qed.

Lemma W_print_profile_multiple w l Fs d1 d2 naming len : reachable w -> args (wh w) l -> each (means (wm w)) l Fs ->
  exists lines lc m', cal_print_profile_multiple d1 d2 (wm w) l naming len = Ok (Some lines, m') /\
    profile_text naming len (ord (mo m')) lc lines /\
    forall k, number (up_to true) (fun G => subfunction (ord (mo m')) Fs G /\ top_at (ord (mo m')) G k) (lc k).
Proof.
  intros R Al M. pose proof (upto_null_owned w l R Al) as U. destruct w as [m hs]. cbn [wm wh] in *.
  destruct (pre_array hs l m d1 R Al) as (m1 & E1 & R1 & _ & K1).
  destruct (W_profile_multiple (World m1 hs) R1 l Fs d2 true Al (each_keep _ _ _ _ _ K1 Al M)) as (lc & mk & m2 & E2 & _ & H). cbn [wm] in E2.
  exists (print_aux (mo m2) naming len lc), lc, m2. split; [|split; [apply print_text|exact H]].
  unfold cal_print_profile_multiple. rewrite U, E1. cbn [obind negb]. rewrite E2. reflexivity.
Qed.
Lemma W_print_function_profile_multiple w l Fs d1 d2 naming len n : reachable w -> args (wh w) l -> each (means (wm w)) l Fs ->
  number same (subfunction (ord (mo (wm w))) Fs) n -> n + N.of_nat (List.length l) < 1280 ->
  exists lines lc m', cal_print_function_profile_multiple d1 d2 (wm w) l naming len = Ok (Some lines, m') /\
    profile_text naming len (ord (mo m')) lc lines /\
    number same (fun G => subfunction (ord (mo m')) Fs G /\ top_at (ord (mo m')) G (N.of_nat (List.length (ord (mo m'))))) (lc (N.of_nat (List.length (ord (mo m'))))) /\
    forall k i, nth_error (ord (mo m')) (N.to_nat k) = Some i ->
      ((exists F, In F Fs /\ depends F i) -> number same (fun G => exists F, In F Fs /\ restriction (ord (mo m')) k F G) (lc k)) /\
      (~ (exists F, In F Fs /\ depends F i) -> lc k = 0).
Proof.
  intros R Al M Hn Cap. pose proof (upto_null_owned w l R Al) as U. destruct w as [m hs]. cbn [wm wh] in *.
  destruct (pre_array hs l m d1 R Al) as (m1 & E1 & R1 & O1 & K1). rewrite <- O1 in Hn.
  destruct (W_function_profile_multiple (World m1 hs) l Fs d2 n R1 Al (each_keep _ _ _ _ _ K1 Al M) Hn Cap) as (Rr & m2 & E2 & _ & (c0 & Ec0 & Nc0) & H). cbn [wm] in E2.
  exists (print_aux (mo m2) naming len (fun k => Z.to_N (Rr k))), (fun k => Z.to_N (Rr k)), m2. split; [|split; [apply print_text|split; [rewrite Ec0, N2Z.id; exact Nc0|]]].
  - unfold cal_print_function_profile_multiple. rewrite U, E1. cbn [obind negb]. rewrite E2. reflexivity.
  - intros k i Ek. destruct (H k i Ek) as [H1 H2]. split.
    + intros Df. destruct (H1 Df) as (c & Ec & Nc). rewrite Ec, N2Z.id. exact Nc.
    + intros Nd. rewrite (H2 Nd). reflexivity.
Qed.

Lemma lines_eq (r : outcome (option (list string) * mgr)) ls : ls <> [] -> printed_lines r = ls -> exists m', r = Ok (Some ls, m').
Proof. intros N0. destruct r as [[[x|] m']| |]; cbn [printed_lines]; intros <-; [exists m'; reflexivity| | |]; now elim N0. Qed.
Lemma print_array_example : exists m', cal_print_profile_multiple (fun _ => dec1) (fun _ => dec1) (wm demo) (h_var 3 :: repeat h_ite 1) (fun _ => None) 79 =
  Ok (Some ["var.0: 1 #"; "var.1: 2 ##"; "var.2: 2 ##"; "var.3: 1 #"; "leaf:  1 #"; "Total: 7"]%string, m').
Proof. apply lines_eq; [discriminate|]. vm_compute. exact eq_refl. Qed.
Lemma print_array_function_example : exists m', cal_print_function_profile_multiple (fun _ => dec1) (fun _ => dec1) (wm demo) (h_var 3 :: repeat h_ite 1) (fun _ => None) 79 =
  Ok (Some ["var.0: 2 ##"; "var.1: 3 ###"; "var.2: 5 #####"; "var.3: 4 ####"; "leaf:  2 ##"; "Total: 16"]%string, m').
Proof. apply lines_eq; [discriminate|]. vm_compute. exact eq_refl. Qed.
