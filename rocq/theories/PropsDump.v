(** * Properties of the files: C37 and C39. *)
From Verif Require Import Base BFModel MgrModel ApiModel DumpModel SpecApi SpecDump Client ApiFacts DumpFacts.
Open Scope N_scope.

(** C37.  Writing always ends well; a file is written exactly when the list consists of distinct variables and contains
    the support of the function. *)
Theorem C37_dump : forall w f vs F d0 d1 ds1 ds2 ds3, reachable w -> In f (wh w) -> args (wh w) vs -> means (wm w) f F ->
  exists r sup m', cal_dump d0 d1 ds1 ds2 ds3 (wm w) f vs = Ok ((r, sup), m') /\
  ((exists b, r = Some b) <-> exists ids, variables (wm w) vs ids /\ NoDup ids /\ covers ids F).
Proof. exact (fun w f vs F d0 d1 ds1 ds2 ds3 R => W_dump w R f vs F d0 d1 ds1 ds2 ds3). Qed.
Print Assumptions C37_dump.
(** Reading a file that was written in any world, in any other world (for example another manager with another order of
    the variables), with any list of variables of the same length, and followed by any other bytes, gives the renamed function.
    Partial: for files of at most four gigabytes.  The program uses at most four bytes for the number of a shared node. *)
Theorem C37_round_trip_partial : forall w w2 f F vs ids d0 d1 ds1 ds2 ds3 b sup m1 enum ds vs2 ids2 rest,
  reachable w -> In f (wh w) -> means (wm w) f F -> args (wh w) vs -> variables (wm w) vs ids ->
  cal_dump d0 d1 ds1 ds2 ds3 (wm w) f vs = Ok ((Some b, sup), m1) -> N.of_nat (length b) <= 2 ^ 32 ->
  reachable w2 -> args (wh w2) vs2 -> variables (wm w2) vs2 ids2 -> length ids2 = length ids -> good_enum enum ->
  exists h m2, cal_undump enum ds (wm w2) vs2 (b ++ rest) = Ok (UD h 0 rest, m2) /\ cal_isnull h = false /\
    exists G, means m2 h G /\ renamed ids ids2 F G.
Proof. exact W_round_trip. Qed.
Print Assumptions C37_round_trip_partial.
(** In the same manager with the same list the original handle comes back. *)
Theorem C37_restore_partial : forall w f vs ids d0 d1 ds1 ds2 ds3 b sup m1 enum ds rest,
  reachable w -> In f (wh w) -> args (wh w) vs -> variables (wm w) vs ids ->
  cal_dump d0 d1 ds1 ds2 ds3 (wm w) f vs = Ok ((Some b, sup), m1) -> N.of_nat (length b) <= 2 ^ 32 -> good_enum enum ->
  exists h m2, cal_undump enum ds m1 vs (b ++ rest) = Ok (UD h 0 rest, m2) /\ cal_isequal h f = true.
Proof. exact W_restore. Qed.
Print Assumptions C37_restore_partial.
Example C37_example : dumped_ok (fun b m' => (length b <=? 40)%nat && reread b m') = true.
Proof. exact reread_example. Qed.
Example C37_refuses_example :
  exists sup m', cal_dump dec1 dec1 (fun _ => dec1) (fun _ => dec1) (fun _ => dec1) (wm demo) h_ite [h_var 1; h_var 2] = Ok ((None, sup), m').
Proof. exact dump_refuses_example. Qed.

(** C39.  Reading any bytes is safe if the file announces at least as many shared nodes as there are bytes left. *)
Theorem C39_undump_partial : forall w enum ds vs inp, reachable w -> good_enum enum -> args (wh w) vs -> announces_enough inp ->
  reads_safely w vs (cal_undump enum ds (wm w) vs inp).
Proof. exact (fun w enum ds vs inp R => W_undump w R enum ds vs inp). Qed.
Print Assumptions C39_undump_partial.
(** For other files the only thing that can go wrong is the access beyond the table of shared nodes. *)
Theorem C39_otherwise : forall w enum ds vs inp, reachable w -> good_enum enum -> args (wh w) vs ->
  reads_safely w vs (cal_undump enum ds (wm w) vs inp) \/ cal_undump enum ds (wm w) vs inp = Undefined /\ ~ announces_enough inp.
Proof. exact (fun w enum ds vs inp R => W_undump_total w R enum ds vs inp). Qed.
Print Assumptions C39_otherwise.
(** And it does go wrong. *)
Theorem C39_refuted : exists w inp, reachable w /\ cal_undump listed (fun _ => dec1) (wm w) [] inp = Undefined.
Proof. exact overrun_witness. Qed.
Print Assumptions C39_refuted.
(** A list with a handle that is not a variable gives the null handle without an error code. *)
Theorem C39_silent_refuted : exists w vs inp u m', reachable w /\ args (wh w) vs /\
  cal_undump listed (fun _ => dec1) (wm w) vs inp = Ok (u, m') /\ cal_isnull (ud_h u) = true /\ ud_err u = 0.
Proof. exact silent_witness. Qed.
Print Assumptions C39_silent_refuted.
Example C39_good_example : announces_enough good_long /\
  match cal_undump listed (fun _ => dec1) (wm demo) [] good_long with Ok (u, _) => ud_err u =? 1 | _ => false end = true.
Proof. exact good_long_example. Qed.
Example C39_errors_example :
  match cal_undump listed (fun _ => dec1) (wm demo) [] (firstn 20 good_file) with Ok (u, _) => ud_err u =? 4 | _ => false end &&
  match cal_undump listed (fun _ => dec1) (wm demo) [h_var 1] good_file with Ok (u, _) => ud_err u =? 1 | _ => false end &&
  match cal_undump listed (fun _ => dec1) (wm demo) [h_and] good_file with Ok (u, _) => cal_isnull (ud_h u) && (ud_err u =? 0) | _ => false end = true.
Proof. exact errors_example. Qed.
