(** * Writing a BDD to a file and reading it back (executable model): /repo/src/calDump.c, /repo/src/calPrint.c:133-184.

    A file is a list of bytes.  Writing never fails; reading fails at the end of the list. *)
From Verif Require Import Base BFModel ITEModel MgrModel ApiModel GraphModel CodecModel.
Open Scope N_scope.

(** Constants (/repo/src/calDump.c:46-56, /repo/src/cal.h:88-91). *)
Definition MAGIC : N := 1577252757.
Definition CODE : N := 4294967040.
Definition C_TRUE : N := 0.
Definition C_FALSE : N := 1.
Definition C_POSVAR : N := 2.
Definition C_NEGVAR : N := 3.
Definition C_POSNODE : N := 4.
Definition C_NEGNODE : N := 5.
Definition C_LABEL : N := 6.
Definition C_CONSTANT : N := 7.
Definition E_FORMAT : N := 1.
Definition E_OVERFLOW : N := 2.
Definition E_EOF : N := 4.

(** ** Finding the shared nodes *)

Definition is_var (m : memory) (f : edge) : bool :=
  (type_aux m f =? TYPE_POSVAR) || (type_aux m f =? TYPE_NEGVAR).
(** [CalBddMarkSharedNodes] (/repo/src/calPrint.c:162-184): [f] is made positive first. *)
Fixpoint mark_shared (fuel : nat) (m : memory) (mk : marks) (f : edge) : option marks :=
  match fuel with
  | O => None
  | S fuel =>
      let f := if eneg f then enot f else f in
      if isconst f || (type_aux m f =? TYPE_POSVAR) then Some mk
      else if mk (eptr f) =? 1 then Some (upd mk (eptr f) 2)
      else
        match mark_shared fuel m (upd mk (eptr f) 1) (thenof m f) with
        | None => None
        | Some mk1 => mark_shared fuel m mk1 (elseof m f)
        end
  end.
(** [CalBddNumberSharedNodes] (/repo/src/calPrint.c:136-157). *)
Fixpoint number_shared (fuel : nat) (m : memory) (mk : marks) (h : map1 Z) (next : Z) (f : edge) : option ((marks * map1 Z) * Z) :=
  match fuel with
  | O => None
  | S fuel =>
      if isconst f || is_var m f then Some ((mk, h), next)
      else if mk (eptr f) =? 0 then Some ((mk, h), next)
      else
        let '(h1, next1) := if mk (eptr f) =? 2 then ((f, next) :: h, (next + 1)%Z) else (h, next) in
        match number_shared fuel m (upd mk (eptr f) 0) h1 next1 (thenof m f) with
        | None => None
        | Some ((mk2, h2), next2) => number_shared fuel m mk2 h2 next2 (elseof m f)
        end
  end.

(** ** Writing *)

Definition code (isz : nat) (c : N) : list N := dwrite (S isz) (CODE + c).
(** [BddDumpBddStep] (/repo/src/calDump.c:285-361); [norm] is the array [normalizedIndexes]. *)
Fixpoint dump_step (fuel : nat) (o : order) (m : memory) (norm : N -> N) (isz nsz : nat) (h : map1 Z) (f : edge) : option (list N * map1 Z) :=
  match fuel with
  | O => None
  | S fuel =>
      let k := norm (idx o (eid f)) in
      let t := type_aux m f in
      if t =? TYPE_ZERO then Some (code isz C_FALSE, h)
      else if t =? TYPE_ONE then Some (code isz C_TRUE, h)
      else if t =? TYPE_POSVAR then Some (code isz C_POSVAR ++ dwrite isz k, h)
      else if t =? TYPE_NEGVAR then Some (code isz C_NEGVAR ++ dwrite isz k, h)
      else
        let '(negated, g) := match lookup1 h (enot f) with Some _ => (true, enot f) | None => (false, f) end in
        match lookup1 h g with
        | Some z =>
            if (z <? 0)%Z
            then Some (code isz (if negated then C_NEGNODE else C_POSNODE) ++ dwrite nsz (Z.to_N (- z - 1)), h)
            else
              match dump_step fuel o m norm isz nsz (update1 h g (- z - 1)%Z) (thenof m g) with
              | None => None
              | Some (b1, h1) =>
                  match dump_step fuel o m norm isz nsz h1 (elseof m g) with
                  | None => None
                  | Some (b2, h2) => Some (code isz C_LABEL ++ dwrite isz k ++ b1 ++ b2, h2)
                  end
              end
        | None =>
            match dump_step fuel o m norm isz nsz h (thenof m g) with
            | None => None
            | Some (b1, h1) =>
                match dump_step fuel o m norm isz nsz h1 (elseof m g) with
                | None => None
                | Some (b2, h2) => Some (dwrite isz k ++ b1 ++ b2, h2)
                end
            end
        end
  end.

(** The loop that checks the kind of the variables (/repo/src/calDump.c:117-122,213-218). *)
Fixpoint all_posvar (ds : nat -> dec) (m : mgr) (vs : list ubdd) : outcome (bool * mgr) :=
  match vs with
  | [] => Ok (true, m)
  | v :: vs =>
      obind (cal_type (ds 0%nat) m v) (fun '(t, m1) =>
        if t =? TYPE_POSVAR then all_posvar (fun k => ds (S k)) m1 vs else Ok (false, m1))
  end.
(** [CAL_BDD_CONST_INDEX] marks a variable that is not in the list. *)
Definition NOINDEX : N := 65535.
(** The loop at /repo/src/calDump.c:223-231; [None]: a variable occurs twice. *)
Fixpoint normalize (ds : nat -> dec) (m : mgr) (vs : list ubdd) (i : N) (norm : N -> N) : outcome (option (N -> N) * mgr) :=
  match vs with
  | [] => Ok (Some norm, m)
  | v :: vs =>
      obind (cal_ifindex (ds 0%nat) m v) (fun '(x, m1) =>
        if negb (norm x =? NOINDEX) then Ok (None, m1)
        else normalize (fun k => ds (S k)) m1 vs (i + 1) (upd norm x i))
  end.
(** The loop at /repo/src/calDump.c:236-241. *)
Fixpoint all_listed (ds : nat -> dec) (m : mgr) (vs : list ubdd) (norm : N -> N) : outcome (bool * mgr) :=
  match vs with
  | [] => Ok (true, m)
  | v :: vs =>
      obind (cal_ifindex (ds 0%nat) m v) (fun '(x, m1) =>
        if norm x =? NOINDEX then Ok (false, m1) else all_listed (fun k => ds (S k)) m1 vs norm)
  end.
(** Everything that is written, for an internal edge (/repo/src/calDump.c:250-261): the number of variables in the list
    is known. *)
Definition dump_bytes (o : order) (m : memory) (norm : N -> N) (nv : N) (F : edge) : option (list N) :=
  let isz := bytes_needed (nv + 1) in
  match mark_shared (depth o) m unmarked F with
  | None => None
  | Some mk =>
      match number_shared (depth o) m mk [] 0 F with
      | None => None
      | Some ((_, h), next) =>
          match dump_step (depth o) o m norm isz (bytes_needed (Z.to_N next)) h F with
          | None => None
          | Some (b, _) => Some (dwrite 8 MAGIC ++ dwrite 2 nv ++ dwrite 8 (Z.to_N next) ++ b)
          end
      end
  end.
(** [Cal_BddDumpBdd] (/repo/src/calDump.c:191-265): [None] stands for the answer 0, nothing was written.  The handles
    that [Cal_BddSupport] makes are never released; they are part of the result. *)
Definition cal_dump (d0 d1 : dec) (ds1 ds2 ds3 : nat -> dec) (m : mgr) (f : ubdd) (vars : list ubdd)
  : outcome ((option (list N) * list ubdd) * mgr) :=
  let vars := upto_null vars in
  obind (preproc d0 m [f]) (fun '(ok, m0) =>
    if negb ok then Ok ((None, []), m0)
    else
      obind (all_posvar ds1 m0 vars) (fun '(ok1, m1) =>
      if negb ok1 then Ok ((None, []), m1)
      else obind (normalize ds2 m1 vars 0 (fun _ => NOINDEX)) (fun '(nm, m2) =>
      match nm with
      | None => Ok ((None, []), m2)
      | Some norm =>
          obind (cal_support d1 m2 f) (fun '((sup, _), m3) =>
          obind (all_listed ds3 m3 sup norm) (fun '(ok3, m4) =>
          if negb ok3 then Ok ((None, sup), m4)
          else obind (fueled (dump_bytes (mo m4) (mmem m4) norm (N.of_nat (length vars)) (uint (mmem m4) f))) (fun b =>
            Ok ((Some b, sup), m4))))
      end))).

(** ** Reading *)

(** Nodes, the array [shared] as the pairs of index and entry that are not null, [sharedSoFar], the unread input and the
    error code. *)
Record ust := US { us_en : eng; us_sh : list (N * edge); us_n : N; us_in : list N; us_err : N }.
Inductive ures :=
| Res (r : option edge) (s : ust)   (** an edge, or the null edge *)
| Overrun                           (** a write beyond the array *)
| NoFuel.
Definition fail (e : N) (s : ust) : ures := Res None (US (us_en s) (us_sh s) (us_n s) (us_in s) e).
(** At the end of the input. *)
Definition eof (s : ust) : ures := Res None (US (us_en s) (us_sh s) (us_n s) [] E_EOF).
Definition us_read (bytes : nat) (s : ust) : option (N * ust) :=
  match dread bytes (us_in s) with
  | None => None
  | Some (n, rest) => Some (n, US (us_en s) (us_sh s) (us_n s) rest (us_err s))
  end.
Definition us_icr (e : edge) (s : ust) : ust := US (set_st (us_en s) (icr (st (us_en s)) e)) (us_sh s) (us_n s) (us_in s) (us_err s).
Definition us_dcr (e : edge) (s : ust) : ust := US (set_st (us_en s) (dcr (st (us_en s)) e)) (us_sh s) (us_n s) (us_in s) (us_err s).
Fixpoint sh_get (sh : list (N * edge)) (k : N) : option edge :=
  match sh with [] => None | (j, e) :: sh => if j =? k then Some e else sh_get sh k end.

Section Undump.
Variable enum : memory -> list N -> list N.
Variables (o : order) (vars : list edge) (ns : N) (isz nsz : nat).

(** [BddUndumpBddStep] (/repo/src/calDump.c:397-508).  The count of the null edge is saturated, so counting it changes
    nothing.  The number of variables is [length vars]. *)
Fixpoint undump_step (fuel : nat) (s : ust) : ures :=
  match fuel with
  | O => NoFuel
  | S fuel =>
      if negb (us_err s =? 0) then Res None s
      else match us_read isz s with
      | None => eof s
      | Some (i, s1) =>
          if match index_mask isz with Some mask => i =? mask | None => false end then
            match us_read 1 s1 with
            | None => eof s1
            | Some (c, s2) =>
                if c =? C_TRUE then Res (Some one) s2
                else if c =? C_FALSE then Res (Some zero) s2
                else if c =? C_CONSTANT then
                  match us_read 8 s2 with
                  | None => eof s2
                  | Some (_, s3) => match us_read 8 s3 with None => eof s3 | Some (_, s4) => fail E_OVERFLOW s4 end
                  end
                else if (c =? C_POSVAR) || (c =? C_NEGVAR) then
                  match us_read isz s2 with
                  | None => eof s2
                  | Some (i, s3) =>
                      match nth_error vars (N.to_nat i) with
                      | None => fail E_FORMAT s3
                      | Some v => Res (Some (if c =? C_POSVAR then v else enot v)) s3
                      end
                  end
                else if (c =? C_POSNODE) || (c =? C_NEGNODE) then
                  match us_read nsz s2 with
                  | None => eof s2
                  | Some (j, s3) =>
                      match (if j <? ns then sh_get (us_sh s3) j else None) with
                      | None => fail E_FORMAT s3
                      | Some v => Res (Some (if c =? C_POSNODE then v else enot v)) (us_icr v s3)
                      end
                  end
                else if c =? C_LABEL then
                  let j := us_n s2 in
                  match undump_step fuel (US (us_en s2) (us_sh s2) (j + 1) (us_in s2) (us_err s2)) with
                  | Res r s3 =>
                      if ns <=? j then Overrun
                      else match r with
                           | None => Res None s3
                           | Some v => Res (Some v) (us_icr v (US (us_en s3) ((j, v) :: us_sh s3) (us_n s3) (us_in s3) (us_err s3)))
                           end
                  | x => x
                  end
                else fail E_FORMAT s2
            end
          else
            match nth_error vars (N.to_nat i) with
            | None => fail E_FORMAT s1
            | Some v =>
                match undump_step fuel s1 with
                | Res r1 s2 =>
                    match undump_step fuel s2 with
                    | Res r2 s3 =>
                        match r1, r2 with
                        | Some t, Some e =>
                            if negb (us_err s3 =? 0) then Res None (us_dcr t s3)
                            else
                              let '(r, en) := opITEBF enum o (us_en s3) v t e in
                              let s4 := us_icr r (US en (us_sh s3) (us_n s3) (us_in s3) (us_err s3)) in
                              Res (Some r) (us_dcr e (us_dcr t s4))
                        | Some t, None => Res None (us_dcr t s3)
                        | None, _ => Res None s3
                        end
                    | x => x
                    end
                | x => x
                end
            end
      end
  end.
End Undump.

(** What a call of [Cal_BddUndumpBdd] leaves behind: the handle, the error code and the unread input. *)
Record undumped := UD { ud_h : ubdd; ud_err : N; ud_rest : list N }.
Definition set_eng (m : mgr) (en : eng) : mgr := set_me m en.
Fixpoint release (en : eng) (l : list (N * edge)) : eng :=
  match l with [] => en | (_, e) :: l => release (set_st en (dcr (st en) e)) l end.
(** [Cal_BddUndumpBdd] (/repo/src/calDump.c:97-187).  The releases of the entries of [shared] are in another order.
    The failure to allocate an array of [numberShared] entries is left out. *)
Definition cal_undump (enum : memory -> list N -> list N) (ds : nat -> dec) (m : mgr) (vars : list ubdd) (inp : list N) : outcome (undumped * mgr) :=
  let vars := upto_null vars in
  obind (all_posvar ds m vars) (fun '(ok, m1) =>
    if negb ok then Ok (UD unull 0 inp, m1)
    else
      let vs := map (uint (mmem m1)) vars in
      match dread 8 inp with
      | None => Ok (UD unull E_EOF [], m1)
      | Some (magic, i1) =>
          if negb (magic =? MAGIC) then Ok (UD unull E_FORMAT i1, m1)
          else match dread 2 i1 with
          | None => Ok (UD unull E_EOF [], m1)
          | Some (nv, i2) =>
              if negb (nv =? N.of_nat (length vars)) then Ok (UD unull E_FORMAT i2, m1)
              else match dread 8 i2 with
              | None => Ok (UD unull E_EOF [], m1)
              | Some (ns, i3) =>
                  if 2 ^ 63 <=? ns then Ok (UD unull E_FORMAT i3, m1)
                  else
                    match undump_step enum (mo m1) vs ns (bytes_needed (nv + 1)) (bytes_needed ns) (S (length i3)) (US (me m1) [] 0 i3 0) with
                    | NoFuel | Overrun => Undefined
                    | Res r s =>
                        let en := release (us_en s) (us_sh s) in
                        let err := if (us_err s =? 0) && negb (us_n s =? ns) then E_FORMAT else us_err s in
                        match r with
                        | None => Ok (UD unull err (us_in s), set_eng m1 en)
                        | Some e =>
                            let en1 := set_st en (dcr (st en) e) in
                            if negb (err =? 0) then Ok (UD unull err (us_in s), set_eng m1 en1)
                            else let '(h, m2) := ret (set_eng m1 en1) e in Ok (UD h 0 (us_in s), m2)
                        end
                    end
              end
          end
      end).
