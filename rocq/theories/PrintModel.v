(** * Printed profiles, profiles of C++ handles and the collection mode (executable model):
    /repo/src/calPrintProfile.c:84-268, /repo/src/calObj.hh:598-604,630-636, /repo/src/calGC.c:79-86,143-153. *)
From Coq Require Import Ascii String Decimal DecimalString.
From Verif Require Import Base BFModel MgrModel ApiModel GraphModel.
Open Scope string_scope.
Open Scope N_scope.

(** ["%ld"] of a number that is not negative. *)
Definition dec_of (n : N) : string := NilEmpty.string_of_uint (N.to_uint n).
(** [chars] (/repo/src/calPrintProfile.c:255-268): nothing for a negative count. *)
Fixpoint chars (c : Ascii.ascii) (n : nat) : string := match n with O => EmptyString | S n => String c (chars c n) end.
Definition charsZ (c : Ascii.ascii) (z : Z) : string := chars c (Z.to_nat z).

(** [CalBddVarName] (/repo/src/calPrint.c:113-131).  [naming] is what the naming function of the caller answers for
    the variable ([None]: the null pointer, also when there is no such function); the handle made for that call and
    released after it is left out. *)
Definition var_name (naming : N -> option string) (id index : N) : string :=
  match naming id with Some s => s | None => String.append "var." (dec_of index) end.

(** The levels that are printed, from the first to the last: name and count (the condition at
    /repo/src/calPrintProfile.c:202 and 231). *)
Fixpoint levels (naming : N -> option string) (lc : N -> N) (ids : list N) (i : N) : list (string * N) :=
  match ids with
  | [] => []
  | id :: ids =>
      (if lc i =? 0 then [] else [(var_name naming id i, lc i)]) ++ levels naming lc ids (i + 1)
  end.
Definition slen (s : string) : Z := Z.of_nat (String.length s).
(** The first loop (/repo/src/calPrintProfile.c:201-216). *)
Fixpoint widths (ls : list (string * N)) (acc : (Z * N) * N) : (Z * N) * N :=
  match ls with
  | [] => acc
  | (nm, c) :: ls =>
      let '((mp, mw), tot) := acc in
      let l := (slen nm + slen (dec_of c))%Z in
      widths ls ((if (mp <? l)%Z then l else mp, if mw <? c then c else mw), tot + c)
  end.
(** [CalBddPrintProfileAux] (/repo/src/calPrintProfile.c:177-252): the lines without the ends of line.  The narrowing
    of counts to [int] is left out. *)
Definition line (pre : string) (pad : Z) (c scale : N) : string :=
  String.append pre (String.append ":" (String.append (charsZ " "%char pad) (String.append (dec_of c) (String.append " " (charsZ "#"%char (Z.of_N (c / scale))))))).
Definition print_aux (o : order) (naming : N -> option string) (len : Z) (lc : N -> N) : list string :=
  let n := N.of_nat (List.length (ord o)) in
  let ls := levels naming lc (ord o) 0 in
  let '((mp, mw), tot) := widths ls ((5%Z, lc n), lc n) in
  let w0 := (len - (mp + 3) - 1)%Z in
  let w := if (w0 <? 20)%Z then 20%Z else w0 in
  let scale := if (Z.of_N mw <=? w)%Z then 1 else Z.to_N ((Z.of_N mw + w - 1) / w)%Z in
  map (fun '(nm, c) => line nm (mp - slen nm - slen (dec_of c) + 1)%Z c scale) ls ++
  [line "leaf" (mp - 4 - slen (dec_of (lc n)) + 1)%Z (lc n) scale; String.append "Total: " (dec_of tot)].

(** [Cal_BddPrintProfile] (/repo/src/calPrintProfile.c:84-102): pre-processing, then [Cal_BddProfile], which does it
    again.  [None]: nothing is printed. *)
Definition cal_print_profile (d1 d2 : dec) (m : mgr) (f : ubdd) (naming : N -> option string) (len : Z)
  : outcome (option (list string) * mgr) :=
  obind (preproc d1 m [f]) (fun '(ok, m1) =>
    if negb ok then Ok (None, m1)
    else obind (cal_profile d2 m1 f true) (fun '((lc, _), m2) =>
      match lc with
      | None => Undefined
      | Some lc => Ok (Some (print_aux (mo m2) naming len lc), m2)
      end)).
(** [Cal_BddPrintFunctionProfile] (/repo/src/calPrintProfile.c:130-146).  [None] in place of the counts: the allocated
    array was not written, and printing reads it. *)
Definition cal_print_function_profile (d1 d2 d3 : dec) (m : mgr) (f : ubdd) (naming : N -> option string) (len : Z)
  : outcome (option (list string) * mgr) :=
  obind (preproc d1 m [f]) (fun '(ok, m1) =>
    if ok then Ok (None, m1)
    else obind (cal_function_profile d2 d3 m1 f) (fun '(lc, m2) =>
      match lc with
      | None => Undefined
      | Some lc => Ok (Some (print_aux (mo m2) naming len (fun k => Z.to_N (lc k))), m2)
      end)).

(** ** The standard vector, as far as the C++ class uses it *)
Record vec := Vec { vsize : N; vcap : N; vbuf : N -> option Z }.
Definition vec_new : vec := Vec 0 0 (fun _ => None).
(** [reserve] changes the capacity only. *)
Definition vec_reserve (n : N) (v : vec) : vec := if vcap v <? n then Vec (vsize v) n (vbuf v) else v.
(** The callee stores entries [0..n-1] through [data()]; storing beyond the capacity is undefined. *)
Definition vec_store (n : N) (g : N -> Z) (v : vec) : outcome vec :=
  if n <=? vcap v then Ok (Vec (vsize v) (vcap v) (fun i => if i <? n then Some (g i) else vbuf v i)) else Undefined.
(** What a reader of the vector sees: [size()] entries. *)
Definition vec_list (v : vec) : list (option Z) := map (fun k => vbuf v (N.of_nat k)) (seq 0 (N.to_nat (vsize v))).

(** [BDD::Profile], [BDD::FunctionProfile] (/repo/src/calObj.hh:598-604,630-636).  For a null handle the array is
    left alone. *)
Definition vars_of (m : mgr) : N := N.of_nat (List.length (ord (mo m))).
Definition store_counts (n : N) (lc : option (N -> Z)) (v : vec) : outcome vec :=
  match lc with None => Ok v | Some g => vec_store n g v end.
Definition cpp_profile (d : dec) (m : mgr) (f : ubdd) (negout : bool) : outcome (vec * mgr) :=
  let v := vec_reserve (vars_of m + 1) vec_new in
  obind (cal_profile d m f negout) (fun '((lc, _), m1) =>
    obind (store_counts (vars_of m1 + 1) (option_map (fun g k => Z.of_N (g k)) lc) v) (fun v1 => Ok (v1, m1))).
Definition cpp_function_profile (d1 d2 : dec) (m : mgr) (f : ubdd) : outcome (vec * mgr) :=
  let v := vec_reserve (vars_of m + 1) vec_new in
  obind (cal_function_profile d1 d2 m f) (fun '(lc, m1) =>
    obind (store_counts (vars_of m1 + 1) lc v) (fun v1 => Ok (v1, m1))).

(** ** The collection mode

    The field [gcMode] beside the rest of the manager; it is written by [Cal_BddSetGCMode] (/repo/src/calGC.c:79-86) and
    read by [CalBddManagerGCCheck] (/repo/src/calGC.c:143-153), which no function of the package calls.  What every call
    does is [CalBddPostProcessing] (/repo/src/calUtil.c:214-255), which does not read it. *)
Record moded := Moded { gcmode : N; gcmgr : mgr }.
Definition set_gc_mode (x : moded) (mode : N) : moded := Moded mode (gcmgr x).
Definition gc_check (d : dec) (x : moded) : moded :=
  if gcmode x =? 0 then x
  else if d_chk d then x
  else if mlim (gcmgr x) <? nn (st (me (gcmgr x))) then Moded (gcmode x) (set_gclimit (gc (gcmgr x)))
  else x.
(** [Cal_BddSize] of a manager with that field; the other calls pass through the same pre-processing. *)
Definition moded_size (d : dec) (x : moded) (f : ubdd) (negout : bool) : outcome (N * moded) :=
  obind (cal_size d (gcmgr x) f negout) (fun '((n, _), m1) => Ok (n, Moded (gcmode x) m1)).
