(** * Read-only graph algorithms (executable model).

    Models /repo/src/cal.c:473-482,526-553,588-640, /repo/src/calBddSize.c,
    /repo/src/calBddSupport.c and /repo/src/calBddSatisfy.c.

    All recursions take fuel; running out of it is the separate result [None] and the
    theorems show that it does not happen. *)
From Coq Require Import QArith.
From Verif Require Import Base BFModel ITEModel MgrModel ApiModel.
Open Scope N_scope.

Definition depth (o : order) : nat := S (length (ord o)).

(** Lifts a fuel-bounded result into the outcome of a call. *)
Definition fueled {A} (x : option A) : outcome A := match x with Some a => Ok a | None => Undefined end.

(** A call on one handle: [CalBddPreProcessing], and [dflt] if the handle is null. *)
Definition query {A} (d : dec) (m : mgr) (f : ubdd) (dflt : A) (k : mgr -> edge -> outcome A) : outcome (A * mgr) :=
  obind (preproc d m [f]) (fun '(ok, m1) =>
    if negb ok then Ok (dflt, m1)
    else obind (k m1 (uint (mmem m1) f)) (fun r => Ok (r, m1))).

(** ** Type *)

(** [CAL_BDD_TYPE_*] (/repo/src/cal.h:80-86). *)
Definition TYPE_NONTERMINAL : N := 0.
Definition TYPE_ZERO : N := 1.
Definition TYPE_ONE : N := 2.
Definition TYPE_POSVAR : N := 3.
Definition TYPE_NEGVAR : N := 4.
Definition TYPE_OVERFLOW : N := 5.

(** [CalBddTypeAux] (/repo/src/cal.c:616-640). *)
Definition type_aux (m : memory) (f : edge) : N :=
  if isconst f && iszero f then TYPE_ZERO
  else if isconst f && isone f then TYPE_ONE
  else
    let t := thenof m f in let e := elseof m f in
    if isone t && iszero e then TYPE_POSVAR
    else if iszero t && isone e then TYPE_NEGVAR
    else TYPE_NONTERMINAL.
(** [Cal_BddType] (/repo/src/cal.c:473-482). *)
Definition cal_type (d : dec) (m : mgr) (f : ubdd) : outcome (N * mgr) :=
  query d m f TYPE_OVERFLOW (fun m1 F => Ok (type_aux (mmem m1) F)).

(** ** Cubes *)

(** [CalBddIsCubeStep] (/repo/src/cal.c:588-611). *)
Fixpoint iscube_step (fuel : nat) (m : memory) (f : edge) : option (outcome bool) :=
  match fuel with
  | O => None
  | S fuel =>
      if isconst f then Some (if iszero f then Fatal else Ok true)
      else if iszero (thenof m f) then iscube_step fuel m (elseof m f)
      else if iszero (elseof m f) then iscube_step fuel m (thenof m f)
      else Some (Ok false)
  end.
(** [Cal_BddIsCube] (/repo/src/cal.c:526-553): the body is that of the step function; there is no
    pre-processing, so a null handle is dereferenced. *)
Definition cal_iscube (m : mgr) (f : ubdd) : outcome bool :=
  if uisnull f then Undefined
  else obind (fueled (iscube_step (depth (mo m)) (mmem m) (uint (mmem m) f))) (fun r => r).

(** ** Satisfying cubes *)

(** The creation of a cube node (/repo/src/calBddSatisfy.c:181-195): only the non-zero child's
    count is incremented, the constant's count being saturated. *)
Definition cube_node (s : store) (i : N) (pos : bool) (t : edge) : edge * store :=
  let '(r, found, s1) := if pos then find_or_add s i t zero else find_or_add s i zero t in
  (r, if found then s1 else icr s1 t).

(** [BddSatisfyStep] (/repo/src/calBddSatisfy.c:167-197). *)
Fixpoint satisfy_step (fuel : nat) (s : store) (f : edge) : option (edge * store) :=
  match fuel with
  | O => None
  | S fuel =>
      if isconst f then Some (f, s)
      else
        let t := thenof (mem s) f in
        if iszero t then
          match satisfy_step fuel s (elseof (mem s) f) with
          | None => None
          | Some (r, s1) => Some (cube_node s1 (eid f) false r)
          end
        else
          match satisfy_step fuel s t with
          | None => None
          | Some (r, s1) => Some (cube_node s1 (eid f) true r)
          end
  end.

(** [BddSatisfySupportStep] (/repo/src/calBddSatisfy.c:202-246); [sup] holds the ids of the
    support array up to its terminating 0. *)
Fixpoint satisfy_support_step (o : order) (fuel : nat) (s : store) (f : edge) (sup : list N) : option (edge * store) :=
  match fuel with
  | O => None
  | S fuel =>
      match sup with
      | [] => satisfy_step (depth o) s f
      | v :: rest =>
          if idx o (eid f) <=? idx o v then
            let sup' := if eid f =? v then rest else sup in
            let t := thenof (mem s) f in
            if iszero t then
              match satisfy_support_step o fuel s (elseof (mem s) f) sup' with
              | None => None
              | Some (r, s1) => Some (cube_node s1 (eid f) false r)
              end
            else
              match satisfy_support_step o fuel s t sup' with
              | None => None
              | Some (r, s1) => Some (cube_node s1 (eid f) true r)
              end
          else
            match satisfy_support_step o fuel s f rest with
            | None => None
            | Some (r, s1) => Some (cube_node s1 v false r)
            end
      end
  end.

(** [bddManager->currentAssociation]. *)
Definition current (m : mgr) : assoc :=
  match mcur m with
  | None => mtemp m
  | Some i => match find (fun a => aid a =? i) (massoc m) with Some a => a | None => mtemp m end
  end.

(** The support array (/repo/src/calBddSatisfy.c:117-129): the positions of the associated
    variables are sorted and mapped back to ids.  That is the sequence of associated variables
    in the variable order. *)
Definition support_ids (m : mgr) : list N :=
  filter (fun i => match amap (current m) i with Some _ => true | None => false end) (ord (mo m)).

(** [Cal_BddSatisfy], [Cal_BddSatisfySupport] (/repo/src/calBddSatisfy.c:83-135).  For zero the
    argument itself is returned, without counting it. *)
Definition satisfy_with (step : mgr -> store -> edge -> option (edge * store)) (d : dec) (m : mgr) (f : ubdd)
  : outcome (ubdd * mgr) :=
  obind (preproc d m [f]) (fun '(ok, m1) =>
    if negb ok then Ok (unull, m1)
    else
      let F := uint (mmem m1) f in
      if iszero F then Ok (f, m1)
      else match step m1 (st (me m1)) F with
           | None => Undefined
           | Some (r, s) => Ok (ret (set_mst m1 s) r)
           end).
Definition cal_satisfy := satisfy_with (fun m s F => satisfy_step (depth (mo m)) s F).
Definition cal_satisfy_support :=
  satisfy_with (fun m s F => satisfy_support_step (mo m) (depth (mo m) + length (ord (mo m))) s F (support_ids m)).

(** ** Satisfying fraction *)

(** [CalHashTableOne] (/repo/src/calHashTableOne.c:148-200) as a list of key/value pairs, newest
    first; keys are compared as tagged pointers. *)
Definition map1 (A : Type) := list (edge * A).
Fixpoint lookup1 {A} (h : map1 A) (k : edge) : option A :=
  match h with
  | [] => None
  | (k', v) :: h => if eeq k k' then Some v else lookup1 h k
  end.
(** Assignment through the pointer that the lookup returned. *)
Fixpoint update1 {A} (h : map1 A) (k : edge) (v : A) : map1 A :=
  match h with
  | [] => []
  | (k', v') :: h => if eeq k k' then (k', v) :: h else (k', v') :: update1 h k v
  end.

Section Fraction.
(** The rounding of floating point results; the theorems say what they need of it. *)
Variable rnd : Q -> Q.
(** [0.5 * a + 0.5 * b] *)
Definition mean (a b : Q) : Q := rnd (rnd ((1 # 2) * a) + rnd ((1 # 2) * b)).

(** [BddSatisfyingFractionStep] (/repo/src/calBddSatisfy.c:269-294).  The order of the two recursive
    calls is unspecified in C; the model does the then branch first. *)
Fixpoint fraction_step (fuel : nat) (m : memory) (h : map1 Q) (f : edge) : option (Q * map1 Q) :=
  match fuel with
  | O => None
  | S fuel =>
      if isconst f then Some (if iszero f then 0%Q else 1%Q, h)
      else match lookup1 h f with
           | Some q => Some (q, h)
           | None =>
               match fraction_step fuel m h (thenof m f) with
               | None => None
               | Some (a, h1) =>
                   match fraction_step fuel m h1 (elseof m f) with
                   | None => None
                   | Some (b, h2) => let r := mean a b in Some (r, (f, r) :: h2)
                   end
               end
           end
  end.
(** [Cal_BddSatisfyingFraction] (/repo/src/calBddSatisfy.c:139-153). *)
Definition cal_fraction (d : dec) (m : mgr) (f : ubdd) : outcome (Q * mgr) :=
  query d m f 0%Q (fun m1 F =>
    obind (fueled (fraction_step (depth (mo m1)) (mmem m1) [] F)) (fun '(q, _) => Ok q)).
End Fraction.

(** ** Marks

    The two mark bits of a node (bits 2 and 3 of the then pointer, /repo/src/calInt.h:1185-1212)
    are kept beside the memory.  They are zero between calls. *)
Definition marks := N -> N.
Definition unmarked : marks := fun _ => 0.

(** [BddMarkBdd] (/repo/src/calBddSize.c:333-352). *)
Definition signbit (f : edge) : N := if eneg f then 2 else 1.
Fixpoint mark_bdd (fuel : nat) (m : memory) (mk : marks) (f : edge) : option marks :=
  match fuel with
  | O => None
  | S fuel =>
      if negb (N.land (mk (eptr f)) (signbit f) =? 0) then Some mk
      else
        let mk1 := upd mk (eptr f) (N.lor (mk (eptr f)) (signbit f)) in
        if isconst f then Some mk1
        else match mark_bdd fuel m mk1 (thenof m f) with
             | None => None
             | Some mk2 => mark_bdd fuel m mk2 (elseof m f)
             end
  end.

(** [BddCountNoNodes], [BddCountNodes] (/repo/src/calBddSize.c:357-377) on the mark, and their choice
    by [countingFns[!negout]] (/repo/src/calBddSize.c:80-86,104). *)
Definition count_no_nodes (k : N) : N := if 0 <? k then 1 else 0.
Definition count_nodes (k : N) : N := (if N.testbit k 0 then 1 else 0) + (if N.testbit k 1 then 1 else 0).
Definition counting (negout : bool) : N -> N := if negout then count_no_nodes else count_nodes.

(** [BddSizeStep] (/repo/src/calBddSize.c:383-405); then branch first. *)
Fixpoint size_step (cnt : N -> N) (fuel : nat) (m : memory) (mk : marks) (f : edge) : option (N * marks) :=
  match fuel with
  | O => None
  | S fuel =>
      if mk (eptr f) =? 0 then Some (0, mk)
      else
        let c := cnt (mk (eptr f)) in
        if isconst f then Some (c, upd mk (eptr f) 0)
        else match size_step cnt fuel m mk (thenof m f) with
             | None => None
             | Some (a, mk1) =>
                 match size_step cnt fuel m mk1 (elseof m f) with
                 | None => None
                 | Some (b, mk2) => Some (c + (a + b), upd mk2 (eptr f) 0)
                 end
             end
  end.

(** [BddProfileStep] (/repo/src/calBddSize.c:411-433); [lc] is the array [levelCounts]. *)
Definition bump (lc : N -> N) (k c : N) : N -> N := upd lc k (lc k + c).
Fixpoint profile_step (cnt : N -> N) (o : order) (fuel : nat) (m : memory) (lc : N -> N) (mk : marks) (f : edge)
  : option ((N -> N) * marks) :=
  match fuel with
  | O => None
  | S fuel =>
      if mk (eptr f) =? 0 then Some (lc, mk)
      else
        let c := cnt (mk (eptr f)) in
        if isconst f then Some (bump lc (N.of_nat (length (ord o))) c, upd mk (eptr f) 0)
        else match profile_step cnt o fuel m (bump lc (idx o (eid f)) c) mk (thenof m f) with
             | None => None
             | Some (lc1, mk1) =>
                 match profile_step cnt o fuel m lc1 mk1 (elseof m f) with
                 | None => None
                 | Some (lc2, mk2) => Some (lc2, upd mk2 (eptr f) 0)
                 end
             end
  end.

(** Loops over an array of roots (/repo/src/calBddSize.c:133-141,195-201). *)
Fixpoint mark_all (fuel : nat) (m : memory) (mk : marks) (fs : list edge) : option marks :=
  match fs with
  | [] => Some mk
  | f :: fs => match mark_bdd fuel m mk f with None => None | Some mk1 => mark_all fuel m mk1 fs end
  end.
Fixpoint size_all (cnt : N -> N) (fuel : nat) (m : memory) (mk : marks) (fs : list edge) : option (N * marks) :=
  match fs with
  | [] => Some (0, mk)
  | f :: fs =>
      match size_step cnt fuel m mk f with
      | None => None
      | Some (a, mk1) =>
          match size_all cnt fuel m mk1 fs with None => None | Some (b, mk2) => Some (a + b, mk2) end
      end
  end.
Fixpoint profile_all (cnt : N -> N) (o : order) (fuel : nat) (m : memory) (lc : N -> N) (mk : marks) (fs : list edge)
  : option ((N -> N) * marks) :=
  match fs with
  | [] => Some (lc, mk)
  | f :: fs =>
      match profile_step cnt o fuel m lc mk f with
      | None => None
      | Some (lc1, mk1) => profile_all cnt o fuel m lc1 mk1 fs
      end
  end.

(** Sizes and profiles of internal edges with the marks they leave behind; the mark of the
    constant is cleared first. *)
Definition size_of (negout : bool) (o : order) (m : memory) (mk : marks) (fs : list edge) : option (N * marks) :=
  match mark_all (depth o) m (upd mk ONE 0) fs with
  | None => None
  | Some mk1 => size_all (counting negout) (depth o) m mk1 fs
  end.
Definition profile_of (negout : bool) (o : order) (m : memory) (mk : marks) (fs : list edge) : option ((N -> N) * marks) :=
  match mark_all (depth o) m (upd mk ONE 0) fs with
  | None => None
  | Some mk1 => profile_all (counting negout) o (depth o) m (fun _ => 0) mk1 fs
  end.

(** [Cal_BddSize], [Cal_BddProfile] (/repo/src/calBddSize.c:93-106,149-166).  The result includes the
    marks afterwards.  For a null handle [Cal_BddProfile] leaves the array alone ([None]). *)
Definition cal_size (d : dec) (m : mgr) (f : ubdd) (negout : bool) : outcome ((N * marks) * mgr) :=
  query d m f (0, unmarked) (fun m1 F => fueled (size_of negout (mo m1) (mmem m1) unmarked [F])).
Definition cal_profile (d : dec) (m : mgr) (f : ubdd) (negout : bool) : outcome ((option (N -> N) * marks) * mgr) :=
  query d m f (None, unmarked) (fun m1 F =>
    obind (fueled (profile_of negout (mo m1) (mmem m1) unmarked [F])) (fun '(lc, mk) => Ok (Some lc, mk))).

(** [Cal_BddSizeMultiple], [Cal_BddProfileMultiple] (/repo/src/calBddSize.c:111-145,170-203). *)
Definition cal_size_multiple (ds : nat -> dec) (m : mgr) (fs : list ubdd) (negout : bool) : outcome ((N * marks) * mgr) :=
  let fs := upto_null fs in
  obind (preproc_each ds m fs) (fun m1 =>
    obind (fueled (size_of negout (mo m1) (mmem m1) unmarked (map (uint (mmem m1)) fs))) (fun r => Ok (r, m1))).
Definition cal_profile_multiple (ds : nat -> dec) (m : mgr) (fs : list ubdd) (negout : bool)
  : outcome (((N -> N) * marks) * mgr) :=
  let fs := upto_null fs in
  obind (preproc_each ds m fs) (fun m1 =>
    obind (fueled (profile_of negout (mo m1) (mmem m1) unmarked (map (uint (mmem m1)) fs))) (fun r => Ok (r, m1))).

(** ** Support

    [CalBddIsMarked], [CalBddMark], [CalBddUnmark] use one mark bit (/repo/src/calInt.h:1182-1204). *)
Definition marked := N -> bool.
Definition nomark : marked := fun _ => false.

(** [CalBddSupportStep] (/repo/src/calBddSupport.c:136-158); the support array is a list of ids, the
    entry being [varBdds[id]]. *)
Fixpoint support_step (vb : N -> edge) (fuel : nat) (m : memory) (mk : marked) (f : edge) (sup : list N)
  : option (list N * marked) :=
  match fuel with
  | O => None
  | S fuel =>
      if mk (eptr f) || isconst f then Some (sup, mk)
      else
        let v := eptr (vb (eid f)) in
        let '(sup1, mk1) := if mk v then (sup, mk) else (sup ++ [eid f], upd mk v true) in
        let mk2 := upd mk1 (eptr f) true in
        match support_step vb fuel m mk2 (thenof m f) sup1 with
        | None => None
        | Some (sup2, mk3) => support_step vb fuel m mk3 (elseof m f) sup2
        end
  end.
(** [CalBddUnmarkNodes] (/repo/src/calBddSupport.c:164-181). *)
Fixpoint unmark_nodes (vb : N -> edge) (fuel : nat) (m : memory) (mk : marked) (f : edge) : option marked :=
  match fuel with
  | O => None
  | S fuel =>
      if negb (mk (eptr f)) || isconst f then Some mk
      else
        let mk1 := upd (upd mk (eptr f) false) (eptr (vb (eid f))) false in
        match unmark_nodes vb fuel m mk1 (thenof m f) with
        | None => None
        | Some mk2 => unmark_nodes vb fuel m mk2 (elseof m f)
        end
  end.
(** [Cal_BddSupport] (/repo/src/calBddSupport.c:80-100): the variables are wrapped one by one. *)
Definition cal_support (d : dec) (m : mgr) (f : ubdd) : outcome ((list ubdd * marked) * mgr) :=
  obind (preproc d m [f]) (fun '(ok, m1) =>
    if negb ok then Ok (([], nomark), m1)
    else
      let F := uint (mmem m1) f in
      obind (fueled (support_step (mvb m1) (depth (mo m1)) (mmem m1) nomark F [])) (fun '(ids, mk) =>
      obind (fueled (unmark_nodes (mvb m1) (depth (mo m1)) (mmem m1) mk F)) (fun mk' =>
        let '(hs, m2) := rets m1 (map (mvb m1) ids) in Ok ((hs, mk'), m2)))).

(** [CalBddDependsOnStep] (/repo/src/calBddSupport.c:186-218). *)
Fixpoint depends_step (o : order) (vi : N) (mark : bool) (fuel : nat) (m : memory) (mk : marked) (f : edge)
  : option (bool * marked) :=
  match fuel with
  | O => None
  | S fuel =>
      let fi := idx o (eid f) in
      if vi <? fi then Some (false, mk)
      else if fi =? vi then Some (true, mk)
      else if (mark && mk (eptr f)) || (negb mark && negb (mk (eptr f))) then Some (false, mk)
      else
        let mk1 := upd mk (eptr f) mark in
        match depends_step o vi mark fuel m mk1 (thenof m f) with
        | None => None
        | Some (true, mk2) => Some (true, mk2)
        | Some (false, mk2) => depends_step o vi mark fuel m mk2 (elseof m f)
        end
  end.
(** [Cal_BddDependsOn] (/repo/src/calBddSupport.c:104-122); the answer is the one of the second pass. *)
Definition cal_depends_on (d : dec) (m : mgr) (f v : ubdd) : outcome ((bool * marked) * mgr) :=
  obind (preproc d m [f; v]) (fun '(ok, m1) =>
    if negb ok then Ok ((false, nomark), m1)
    else
      let F := uint (mmem m1) f in let V := uint (mmem m1) v in
      if isconst V then Ok ((true, nomark), m1)
      else
        let vi := idx (mo m1) (eid V) in
        obind (fueled (depends_step (mo m1) vi true (depth (mo m1)) (mmem m1) nomark F)) (fun '(_, mk) =>
        obind (fueled (depends_step (mo m1) vi false (depth (mo m1)) (mmem m1) mk F)) (fun r => Ok (r, m1)))).

(** ** Function profile *)

(** [BddHighestRefStep] (/repo/src/calBddSize.c:439-475).  [int] values; -1 stands for the root. *)
Fixpoint highest_ref (o : order) (fuel : nat) (m : memory) (h : map1 Z) (f : edge) : option (map1 Z) :=
  match fuel with
  | O => None
  | S fuel =>
      if isconst f then Some h
      else
        let fi := Z.of_N (idx o (eid f)) in
        let visit h k :=
          match lookup1 h k with
          | Some v => Some (if (fi <? v)%Z then update1 h k fi else h)
          | None => highest_ref o fuel m ((k, fi) :: h) k
          end in
        match visit h (thenof m f) with
        | None => None
        | Some h1 => visit h1 (elseof m f)
        end
  end.
(** [BddDominatedStep] (/repo/src/calBddSize.c:480-501); an absent key would be dereferenced. *)
Definition bumpz (fc : N -> Z) (k : N) (c : Z) : N -> Z := upd fc k (fc k + c)%Z.
Fixpoint dominated_step (fuel : nat) (m : memory) (fc : N -> Z) (h : map1 Z) (f : edge) : option ((N -> Z) * map1 Z) :=
  match fuel with
  | O => None
  | S fuel =>
      match lookup1 h f with
      | None => None
      | Some v =>
          let fc1 := if (0 <=? v)%Z then bumpz fc (Z.to_N v) (-2) else fc in
          if (-2 <? v)%Z then
            let h1 := update1 h f (-2)%Z in
            if isconst f then Some (fc1, h1)
            else match dominated_step fuel m fc1 h1 (thenof m f) with
                 | None => None
                 | Some (fc2, h2) => dominated_step fuel m fc2 h2 (elseof m f)
                 end
          else Some (fc1, h)
      end
  end.
(** The encoding loop (/repo/src/calBddSize.c:235-242) and the summing loop (256-265): [i] runs down
    from [numVars-1]; [acc] is the value of the entry [j]. *)
Definition encode (n : N) (lc : N -> N) : N -> Z := fun k =>
  if k <? n then (if lc k =? 0 then 1%Z else (2 * Z.of_N (lc k))%Z) else Z.of_N (lc k).
Fixpoint sum_up (k : nat) (fc : N -> Z) (acc : Z) : N -> Z :=
  match k with
  | O => fc
  | S k =>
      let i := N.of_nat k in
      if negb (fc i =? 1)%Z
      then let v := (Z.shiftr (fc i) 1 + acc)%Z in sum_up k (upd fc i v) v
      else sum_up k (upd fc i 0%Z) acc
  end.
Definition function_profile_of (o : order) (m : memory) (lc : N -> N) (F : edge) : option (N -> Z) :=
  let n := length (ord o) in
  match highest_ref o (depth o) m [(F, (-1)%Z)] F with
  | None => None
  | Some h =>
      match dominated_step (depth o) m (encode (N.of_nat n) lc) h F with
      | None => None
      | Some (fc, _) => Some (sum_up n fc (fc (N.of_nat n)))
      end
  end.
(** [Cal_BddFunctionProfile] (/repo/src/calBddSize.c:207-263): calls [Cal_BddProfile], then
    pre-processes again. *)
Definition cal_function_profile (d1 d2 : dec) (m : mgr) (f : ubdd) : outcome (option (N -> Z) * mgr) :=
  obind (cal_profile d1 m f false) (fun '((lc, _), m1) =>
    query d2 m1 f None (fun m2 F =>
      match lc with
      | None => Undefined
      | Some lc => obind (fueled (function_profile_of (mo m2) (mmem m2) lc F)) (fun r => Ok (Some r))
      end)).
