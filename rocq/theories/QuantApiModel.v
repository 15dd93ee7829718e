(** * The interface functions of quantification and relational product (executable model).

    Models /repo/src/calQuant.c:97-209. *)
From Verif Require Import Base BFModel ITEModel MgrModel ApiModel GraphModel QuantModel QuantBFModel.

Section Interface.
(** The order in which the requests of a queue are visited, and the bin of an entry of the computed table. *)
Variable enum : memory -> list N -> list N.
Variable slot : N -> edge -> edge -> N.

(** [Cal_BddExists] ([neg] false), [Cal_BddForAll] ([neg] true) (/repo/src/calQuant.c:97-130, 174-209). *)
Definition quantify (neg : bool) (d1 d2 : dec) (m : mgr) (f : ubdd) : outcome (ubdd * mgr) :=
  obind (preproc d1 m [f]) (fun '(ok, m1) =>
    if negb ok then Ok (unull, m1)
    else
      let a := current m1 in
      let '(op, m2) := match mcur m1 with
                       | None => (mtop m1, set_mtop m1 (pred16 (mtop m1)))
                       | Some j => (OP_QUANT + j, m1)
                       end in
      let f := ephase (uint (mmem m2) f) neg in
      match (if LARGE <? nn (st (me m2)) then Some (exists_bf enum slot (mo m2) (amap a) (alast a) op (st (me m2)) (mca m2) f)
             else exists_df slot (mo m2) (amap a) (alast a) op (depth (mo m2)) (st (me m2)) (mca m2) f) with
      | None => Undefined
      | Some (r, s, c) => Ok (finish d2 (set_mca (set_mst m2 s) c) (ephase r neg))
      end).
Definition cal_exists := quantify false.
Definition cal_forall := quantify true.

(** [Cal_BddRelProd] (/repo/src/calQuant.c:135-170). *)
Definition cal_relprod (d1 d2 : dec) (m : mgr) (f g : ubdd) : outcome (ubdd * mgr) :=
  obind (preproc d1 m [f; g]) (fun '(ok, m1) =>
    if negb ok then Ok (unull, m1)
    else
      let a := current m1 in
      let '(op, qop, m2) := match mcur m1 with
                            | None => (mtop m1, pred16 (mtop m1), set_mtop m1 (pred16 (pred16 (mtop m1))))
                            | Some j => (OP_REL_PROD + j, OP_QUANT + j, m1)
                            end in
      let f := uint (mmem m2) f in
      let g := uint (mmem m2) g in
      match (if LARGE <? nn (st (me m2)) then Some (relprod_bf enum slot (mo m2) (amap a) (alast a) op (st (me m2)) (mca m2) f g)
             else relprod_df slot (mo m2) (amap a) (alast a) op qop (depth (mo m2)) (st (me m2)) (mca m2) f g) with
      | None => Undefined
      | Some (r, s, c) => Ok (finish d2 (set_mca (set_mst m2 s) c) r)
      end).
End Interface.
