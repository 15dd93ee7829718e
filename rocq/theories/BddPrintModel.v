(** * Printing a BDD as text (executable model): /repo/src/calPrint.c:91-108,200-300, /repo/src/calUtil.c:117-177.

    The text is a list of lines; [render] gives the characters of a line.  Neither function below looks at the manager
    before it starts: there is no pre-processing, and nothing is changed (for the marks of the nodes see [cleared] in
    BddPrintProof.v). *)
From Coq Require Import Ascii String.
From Verif Require Import Base BFModel ITEModel MgrModel ApiModel GraphModel DumpModel PrintModel.
Open Scope string_scope.
Open Scope N_scope.

(** What stands in a line after the indentation: a variable or a constant, a reference to a labelled part, or the first,
    middle and last line of a branching. *)
Inductive body :=
| Leaf (neg : bool) (word : string)
| Refer (neg : bool) (n : N)
| Branch (label : option N) (word : string)
| Otherwise (word : string)
| Done (word : string).
Record pline := PL { indent : nat; what : body }.

(** The format strings of [BddPrintBddStep] (/repo/src/calPrint.c:232-274); the narrowing of labels to [int] is left out. *)
Definition render (l : pline) : string :=
  String.append (chars " "%char (indent l))
    match what l with
    | Leaf b w => String.append (if b then "!" else "") w
    | Refer b n => String.append (if b then "!" else "") (String.append "subformula " (dec_of n))
    | Branch None w => String.append "if " w
    | Branch (Some n) w => String.append (dec_of n) (String.append ": if " w)
    | Otherwise w => String.append "else if !" w
    | Done w => String.append "endif " w
    end.

(** [BddTerminalId] (/repo/src/calPrint.c:281-299): [tid] is what the function of the caller answers for the constant
    ([None]: the null pointer, also when there is no such function). *)
Definition term_word (tid : bool -> option string) (b : bool) : string :=
  match tid b with Some s => s | None => if b then "1" else "0" end.

(** [BddPrintBddStep] (/repo/src/calPrint.c:218-279); the word of a variable is that of [CalBddVarName]. *)
Fixpoint print_step (fuel : nat) (o : order) (m : memory) (naming : N -> option string) (tid : bool -> option string)
  (ind : nat) (h : map1 Z) (f : edge) : option (list pline * map1 Z) :=
  match fuel with
  | O => None
  | S fuel =>
      let v := var_name naming (eid f) (idx o (eid f)) in
      let t := type_aux m f in
      if t =? TYPE_ZERO then Some ([PL ind (Leaf false (term_word tid false))], h)
      else if t =? TYPE_ONE then Some ([PL ind (Leaf false (term_word tid true))], h)
      else if t =? TYPE_NEGVAR then Some ([PL ind (Leaf true v)], h)
      else if t =? TYPE_POSVAR then Some ([PL ind (Leaf false v)], h)
      else
        let '(negated, g) := match lookup1 h (enot f) with Some _ => (true, enot f) | None => (false, f) end in
        let number := lookup1 h g in
        if match number with Some z => (z <? 0)%Z | None => false end
        then Some ([PL ind (Refer negated (match number with Some z => Z.to_N (- z - 1) | None => 0 end))], h)
        else
          let h0 := match number with Some z => update1 h g (- z - 1)%Z | None => h end in
          match print_step fuel o m naming tid (ind + 2) h0 (thenof m g) with
          | None => None
          | Some (l1, h1) =>
              match print_step fuel o m naming tid (ind + 2) h1 (elseof m g) with
              | None => None
              | Some (l2, h2) =>
                  Some ((PL ind (Branch (match number with Some z => Some (Z.to_N z) | None => None end) v) :: l1) ++
                        (PL ind (Otherwise v) :: l2) ++ [PL ind (Done v)], h2)
              end
          end
  end%list.
(** [Cal_BddPrintBdd] (/repo/src/calPrint.c:91-108).  A null handle is followed without a test. *)
Definition cal_print_bdd (m : mgr) (f : ubdd) (naming : N -> option string) (tid : bool -> option string) : outcome (list pline) :=
  if uisnull f then Undefined
  else
    let F := uint (mmem m) f in
    obind (fueled (mark_shared (depth (mo m)) (mmem m) unmarked F)) (fun mk =>
    obind (fueled (number_shared (depth (mo m)) (mmem m) mk [] 0 F)) (fun '((_, h), _) =>
    obind (fueled (print_step (depth (mo m)) (mo m) (mmem m) naming tid 0 h F)) (fun '(l, _) => Ok l))).

(** ** The other text *)

(** The pieces [CalBddFunctionPrint] prints (/repo/src/calUtil.c:153-176); [c] is a byte. *)
Inductive piece := Open | Bit (b : bool) | Pos (c : N) | Plus | Neg (c : N) | Close.
Definition render_piece (p : piece) : string :=
  match p with
  | Open => "( " | Bit false => "0 " | Bit true => "1 " | Plus => "+ " | Close => ") "
  | Pos c => String (ascii_of_N c) " " | Neg c => String (ascii_of_N c) "' "
  end.
(** The [char] at /repo/src/calUtil.c:167. *)
Definition letter (id : N) : N := (97 + id - 1) mod 256.
(** [CalBddFunctionPrint] (/repo/src/calUtil.c:146-177).  The name and " = " before the text, the end of line after it
    and the static counter that decides about them, which is 0 between two calls, are left out. *)
Fixpoint fprint (fuel : nat) (m : memory) (f : edge) : option (list piece) :=
  match fuel with
  | O => None
  | S fuel =>
      if iszero f then Some [Open; Bit false; Close]
      else if isone f then Some [Open; Bit true; Close]
      else
        let c := letter (eid f) in
        match fprint fuel m (thenof m f) with
        | None => None
        | Some t =>
            match fprint fuel m (elseof m f) with
            | None => None
            | Some e => Some ((Open :: Pos c :: t) ++ (Plus :: Neg c :: e) ++ [Close])
            end
        end
  end%list.
(** [Cal_BddFunctionPrint] (/repo/src/calUtil.c:120-127). *)
Definition cal_function_print (m : mgr) (f : ubdd) : outcome (list piece) :=
  if uisnull f then Undefined else fueled (fprint (depth (mo m)) (mmem m) (uint (mmem m) f)).
