(** * Properties of the printed text of a BDD.

    See SpecApi.v for [reachable] and [means], SpecBddPrint.v for how the text is read. *)
From Coq Require Import String.
From Verif Require Import Base BFModel MgrModel ApiModel GraphModel DumpModel SpecApi Client ApiFacts PrintModel SpecPrint BddPrintModel SpecBddPrint BddPrintFacts.
Open Scope N_scope.

(** C55: the text of [Cal_BddPrintBdd], read with any meaning of the words that agrees with an assignment, gives the
    value of the function under that assignment; this holds for all variable and terminal names. *)
Theorem C55_printed_text : forall w f F naming tid, reachable w -> In f (wh w) -> means (wm w) f F ->
  exists lines, cal_print_bdd (wm w) f naming tid = Ok lines /\
    forall env rho, suits env (label naming) (constant tid) (ord (mo (wm w))) rho -> says env lines (F rho).
Proof. exact (fun w f F naming tid R => W_print_bdd w R f F naming tid). Qed.
Print Assumptions C55_printed_text.

(** If no word has two meanings, BDDs with the same text have the same function; the default words are such. *)
Theorem C55_text_determines_function : forall w f g F G naming tid, reachable w -> In f (wh w) -> In g (wh w) -> means (wm w) f F -> means (wm w) g G ->
  distinct_words (label naming) (constant tid) (ord (mo (wm w))) ->
  cal_print_bdd (wm w) f naming tid = cal_print_bdd (wm w) g naming tid -> forall rho, F rho = G rho.
Proof. exact (fun w f g F G naming tid R => W_print_determines w R f g F G naming tid). Qed.
Print Assumptions C55_text_determines_function.
Theorem C55_default_words : forall order, distinct_words (label (fun _ => None)) (constant (fun _ => None)) order.
Proof. exact default_words. Qed.
Print Assumptions C55_default_words.

(** The marks that printing (and writing to a file) puts on the nodes are all gone afterwards. *)
Theorem C55_marks_removed : forall w f, reachable w -> In f (wh w) ->
  exists mk mk' h n, mark_shared (depth (mo (wm w))) (mmem (wm w)) unmarked (uint (mmem (wm w)) f) = Some mk /\
    number_shared (depth (mo (wm w))) (mmem (wm w)) mk [] 0 (uint (mmem (wm w)) f) = Some ((mk', h), n) /\ forall p, mk' p = unmarked p.
Proof. exact (fun w f R => W_print_marks w R f). Qed.
Print Assumptions C55_marks_removed.

(** The text of [Cal_BddFunctionPrint] as a sum of products. *)
Theorem C55_function_text : forall w f F, reachable w -> In f (wh w) -> means (wm w) f F ->
  exists l, cal_function_print (wm w) f = Ok l /\
    forall env rho, (forall i, In i (ord (mo (wm w))) -> env (byte_of i) = rho i) -> fsays env l (F rho).
Proof. exact (fun w f F R => W_function_print w R f F). Qed.
Print Assumptions C55_function_text.
(** It identifies the function in managers with at most 256 variables ... *)
Theorem C55_function_text_determines_partial : forall w f g F G, reachable w -> In f (wh w) -> In g (wh w) -> means (wm w) f F -> means (wm w) g G ->
  (List.length (ord (mo (wm w))) <= 256)%nat -> cal_function_print (wm w) f = cal_function_print (wm w) g -> forall rho, F rho = G rho.
Proof. exact (fun w f g F G R => W_function_determines w R f g F G). Qed.
Print Assumptions C55_function_text_determines_partial.
(** ... and not in larger ones: variables whose numbers differ by 256 print alike. *)
Theorem C55_function_text_refuted : exists w f g F G rho, reachable w /\ In f (wh w) /\ In g (wh w) /\ means (wm w) f F /\ means (wm w) g G /\ F rho <> G rho /\
  cal_function_print (wm w) f = cal_function_print (wm w) g /\ exists l, cal_function_print (wm w) f = Ok l.
Proof. exact letters_refuted. Qed.
Print Assumptions C55_function_text_refuted.

(** Unlike other functions, these two do not look whether the handle is null. *)
Theorem C55_null_refuted : forall m f naming tid, uisnull f = true -> cal_print_bdd m f naming tid = Undefined /\ cal_function_print m f = Undefined.
Proof. exact print_null. Qed.
Print Assumptions C55_null_refuted.

Example C55_example : reachable parity /\ In h_par (wh parity) /\ means (wm parity) h_par (fun rho => xorb (rho 2) (xorb (rho 3) (rho 4))) /\
  distinct_words (label (fun _ => None)) (constant (fun _ => None)) (ord (mo (wm parity))) /\ (List.length (ord (mo (wm parity))) <= 256)%nat.
Proof. exact parity_setting. Qed.
Example C55_example_text : texts (cal_print_bdd (wm parity) h_par (fun _ => None) (fun _ => None)) =
  ["if var.1"; "  0: if var.2"; "    var.3"; "  else if !var.2"; "    !var.3"; "  endif var.2"; "else if !var.1"; "  !subformula 0"; "endif var.1"]%string.
Proof. exact parity_text. Qed.
Example C55_example_function_text : text2 (cal_function_print (wm demo) h_and) = "( a ( b ( 1 ) + b' ( 0 ) ) + a' ( 0 ) ) "%string.
Proof. exact ite_text. Qed.
