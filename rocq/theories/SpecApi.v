(** * Client programs and what they observe.

    A client creates a manager and then performs interface calls on handles it owns.  The
    state of the world is the manager together with the multiset of handles the client
    owns: a handle is owned once for every call that returned it and was not matched by
    [Cal_BddFree].  The relations [call] and [step] have one rule per interface function; a rule
    only says which operands the client may pass and which handles it owns afterwards. *)
From Coq Require Import Permutation.
From Verif Require Import Base BFModel ITEModel MgrModel ApiModel GraphModel AssocModel QuantModel QuantBFModel QuantApiModel ComposeModel CofactorModel ReduceOpModel DumpModel ReorderModel BFReorderModel BFSiftModel AutoModel SubstModel SwapModel PipeModel PackModel.

(** A Boolean function of the variables; variables are named by their identifier, which does
    not depend on the variable order. *)
Definition bfun := (N -> bool) -> bool.

(** The handle [h] stands for the function [F]: evaluating the graph it points to under any
    assignment gives the value of [F]. *)
Definition means (m : mgr) (h : ubdd) (F : bfun) : Prop :=
  forall rho, ev (mmem m) rho (uint (mmem m) h) (F rho).

(** The function of [h] has the value [b] somewhere. *)
Definition takes (m : mgr) (h : ubdd) (b : bool) : Prop := exists rho, ev (mmem m) rho (uint (mmem m) h) b.

Record world := World { wm : mgr; wh : list ubdd }.

(** Operands are null or owned; results are owned unless null. *)
Definition arg (hs : list ubdd) (h : ubdd) : Prop := uisnull h = true \/ In h hs.
Definition args (hs l : list ubdd) : Prop := forall h, In h l -> In h hs.
Fixpoint own (l hs : list ubdd) : list ubdd :=
  match l with [] => hs | h :: l => if uisnull h then own l hs else h :: own l hs end.

(** The order in which the elements of a request queue are visited depends on addresses; it
    may be any permutation. *)
Definition good_enum (enum : memory -> list N -> list N) : Prop := forall m l, Permutation (enum m l) l.

(** The pairs of a pairwise operation that the engine has to work on, and the index of the
    topmost variable of a pair. *)
Definition pending (op : binop) (p : edge * edge) : bool :=
  match tcase op (fst p) (snd p) with Some _ => false | None => true end.
Definition topindex (o : order) (p : edge * edge) : N := N.min (idx o (eid (fst p))) (idx o (eid (snd p))).
(** The last pending pair has the topmost variable of all pending pairs.  (Without this the
    pairwise operations go wrong; see [C07_refuted].) *)
Definition last_pending_is_top (o : order) (op : binop) (ps : list (edge * edge)) : Prop :=
  forall p, In p ps -> pending op p = true ->
    exists l1 q l2, ps = l1 ++ q :: l2 /\ pending op q = true /\ (forall r, In r l2 -> pending op r = false) /\
      topindex o q <= topindex o p.

(** What the client must observe when it lists variables for an association: no constants in a plain list of
    variables, no variable twice in a list of pairs, at most 4096 associations at a time. *)
Definition no_constants (m : mgr) (pairs : bool) (l : list ubdd) : Prop :=
  pairs = false -> forall h, In h l -> cal_isconst m h = false.
Definition distinct_variables (with_pairs : bool) (l : list ubdd) : Prop :=
  with_pairs = true -> NoDup (map fst (pairs l)).
Definition room_for_association (m : mgr) : Prop := (length (massoc m) < 4096)%nat.

(** Operations with the temporary association use up operation codes, which are never given back; the client
    must not let them run out.  (What happens otherwise is the subject of C12.) *)
Definition room_for_temporary (m : mgr) : Prop := mcur m = None -> 36866 <= mtop m.

(** Every image of the current association is a variable or a constant. *)
Definition variable_images (m : mgr) : Prop :=
  forall i e, amap (current m) i = Some e ->
    (exists j, forall rho, ev (mmem m) rho e (rho j)) \/ (exists b, forall rho, ev (mmem m) rho e b).

(** Assignment [rho] with variable [i] set to [b]. *)
Definition assign (rho : N -> bool) (i : N) (b : bool) : N -> bool := fun j => if j =? i then b else rho j.
Definition depends (F : bfun) (i : N) : Prop := exists rho, F (assign rho i true) <> F (assign rho i false).
(** [i] is the topmost variable [F] depends on. *)
Definition topmost (m : mgr) (F : bfun) (i : N) : Prop :=
  In i (ord (mo m)) /\ depends F i /\ forall j, In j (ord (mo m)) -> idx (mo m) j < idx (mo m) i -> ~ depends F j.
(** What the client must observe when it exchanges two variables: if the operands have the same topmost variable they
    are the same function. *)
Definition swap_operands (m : mgr) (g h : ubdd) : Prop :=
  forall G H i, means m g G -> means m h H -> topmost m G i -> topmost m H i -> forall rho, G rho = H rho.

(** What the client must observe when it reorders: variables that occur together in the image of an association
    occur together in the function of some handle it owns; and the same for variables that occur together below a node
    whose count is saturated.  (Without this reordering goes wrong; see [C33_association_refuted] and
    [C33_saturated_refuted].) *)
Definition occur_together (m : mgr) (hs : list ubdd) (F : bfun) : Prop :=
  forall p q, p <> q -> depends F p -> depends F q ->
    exists h G, In h hs /\ means m h G /\ depends G p /\ depends G q.
Definition edge_means (m : mgr) (e : edge) (F : bfun) : Prop := forall rho, ev (mmem m) rho e (F rho).
Definition ready_to_reorder (m : mgr) (hs : list ubdd) : Prop :=
  (forall a i e F, In a (mtemp m :: massoc m) -> amap a i = Some e -> edge_means m e F -> occur_together m hs F) /\
  (forall i b F, i <> 0 -> In b (ut (st (me m)) i) -> cr (mmem m b) = 255 -> edge_means m (E i b false) F -> occur_together m hs F).

(** Pipelined operations.  No pipeline is in use. *)
Definition pipeline_idle (p : pipe) : Prop :=
  ps p = READY /\ (forall i, pls p i = []) /\ pus p = [] /\ pmk p = [] /\ (pdep p <= 1)%nat.
(** The operands of the operation number [k] are owned handles and provisional results of earlier operations. *)
Definition operand_from (hs : list ubdd) (k : nat) (x : operand) : Prop :=
  match x with Own h => In h hs | Prov j _ => (j < k)%nat end.
Definition well_formed (hs : list ubdd) (prog : list (operand * operand)) : Prop :=
  forall k x y, nth_error prog k = Some (x, y) -> operand_from hs k x /\ operand_from hs k y.
(** The operations can be arranged in at most 256 levels, so that an operation is on a higher level than the
    operations whose results it uses. *)
Definition beneath (level : nat -> nat) (x : operand) (n : nat) : Prop :=
  match x with Own _ => True | Prov j _ => (level j < n)%nat end.
Definition max_levels (prog : list (operand * operand)) : Prop :=
  exists level : nat -> nat, forall k x y, nth_error prog k = Some (x, y) ->
    N.of_nat (level k) < 256 /\ beneath level x (level k) /\ beneath level y (level k).
(** The results asked for exist. *)
Definition within_program (prog : list (operand * operand)) (outs : list (nat * bool)) : Prop :=
  forall k b, In (k, b) outs -> (k < length prog)%nat.

Inductive call : world -> world -> Prop :=
(** Constants need no counting. *)
| st_const m hs b : call (World m hs) (World m (U (muone m) b :: hs))
(** The order of the client's handles does not matter. *)
| st_perm m hs hs' : Permutation hs hs' -> call (World m hs) (World m hs')
(** [Cal_BddGetRegular] and its inverse. *)
| st_retag m hs h b : call (World m (h :: hs)) (World m (U (uptr h) b :: hs))
| st_identity m hs h r m' : In h hs -> cal_identity m h = Ok (r, m') -> call (World m hs) (World m' (r :: hs))
| st_not m hs h r m' : In h hs -> cal_not m h = Ok (r, m') -> call (World m hs) (World m' (r :: hs))
| st_unfree m hs h m' : In h hs -> cal_unfree m h = Ok m' -> call (World m hs) (World m' (h :: hs))
| st_free m hs h m' : cal_free m h = Ok m' -> call (World m (h :: hs)) (World m' hs)
(** [Cal_BddUnFree] directly after [Cal_BddFree] takes the handle back. *)
| st_refree m hs h m1 m' : In h hs -> cal_free m h = Ok m1 -> cal_unfree m1 h = Ok m' -> call (World m hs) (World m' hs)
| st_binary enum op neg d1 d2 m hs f g r m' : good_enum enum -> In op [op_and; op_nand; op_or; op_xor] ->
    arg hs f -> arg hs g -> binary enum op neg d1 d2 m f g = Ok (r, m') -> call (World m hs) (World m' (own [r] hs))
| st_ite enum d1 d2 m hs f g h r m' : good_enum enum -> arg hs f -> arg hs g -> arg hs h ->
    cal_ite enum d1 d2 m f g h = Ok (r, m') -> call (World m hs) (World m' (own [r] hs))
| st_pairwise enum op post ds d m hs l rs m' : good_enum enum -> In op [op_and; op_or; op_xor] -> args hs l ->
    (forall m1, preproc_each ds m l = Ok m1 -> last_pending_is_top (mo m1) op (pairs (map (uint (mmem m1)) l))) ->
    pairwise enum op post ds d m l = Ok (rs, m') ->
    call (World m hs) (World m' (own match rs with Some us => us | None => [] end hs))
| st_multiway enum op ds m hs l r m' : good_enum enum -> In op [op_and; op_or; op_xor] -> args hs l ->
    multiway enum op ds m l = Ok (r, m') -> call (World m hs) (World m' (own [r] hs))
| st_intersects neg d m hs f g r m' : arg hs f -> arg hs g -> intersects neg d m f g = Ok (r, m') ->
    call (World m hs) (World m' (own [r] hs))
| st_ifindex d m hs f i m' : arg hs f -> cal_ifindex d m f = Ok (i, m') -> call (World m hs) (World m' hs)
| st_ifid d m hs f i m' : arg hs f -> cal_ifid d m f = Ok (i, m') -> call (World m hs) (World m' hs)
| st_if d m hs f r m' : arg hs f -> cal_if d m f = Ok (r, m') -> call (World m hs) (World m' (own [r] hs))
| st_then d m hs f r m' : arg hs f -> cal_then d m f = Ok (r, m') -> call (World m hs) (World m' (own [r] hs))
| st_else d m hs f r m' : arg hs f -> cal_else d m f = Ok (r, m') -> call (World m hs) (World m' (own [r] hs))
| st_type d m hs f t m' : arg hs f -> cal_type d m f = Ok (t, m') -> call (World m hs) (World m' hs)
| st_satisfy d m hs f r m' : arg hs f -> cal_satisfy d m f = Ok (r, m') -> call (World m hs) (World m' (own [r] hs))
| st_satisfy_support d m hs f r m' : arg hs f -> cal_satisfy_support d m f = Ok (r, m') -> call (World m hs) (World m' (own [r] hs))
| st_fraction rnd d m hs f q m' : arg hs f -> cal_fraction rnd d m f = Ok (q, m') -> call (World m hs) (World m' hs)
| st_size d m hs f neg n m' : arg hs f -> cal_size d m f neg = Ok (n, m') -> call (World m hs) (World m' hs)
| st_profile d m hs f neg lc m' : arg hs f -> cal_profile d m f neg = Ok (lc, m') -> call (World m hs) (World m' hs)
| st_size_multiple ds m hs l neg n m' : args hs l -> cal_size_multiple ds m l neg = Ok (n, m') -> call (World m hs) (World m' hs)
| st_profile_multiple ds m hs l neg lc m' : args hs l -> cal_profile_multiple ds m l neg = Ok (lc, m') -> call (World m hs) (World m' hs)
| st_function_profile d1 d2 m hs f p m' : arg hs f -> cal_function_profile d1 d2 m f = Ok (p, m') -> call (World m hs) (World m' hs)
| st_support d m hs f rs mk m' : arg hs f -> cal_support d m f = Ok ((rs, mk), m') -> call (World m hs) (World m' (own rs hs))
| st_depends_on d m hs f v r m' : arg hs f -> arg hs v -> cal_depends_on d m f v = Ok (r, m') -> call (World m hs) (World m' hs)
| st_newvar m hs k r m' : newvar_at m k = Ok (r, m') -> call (World m hs) (World m' (own [r] hs))
| st_var_index m hs k r m' : cal_var_with_index m k = (r, m') -> call (World m hs) (World m' (own [r] hs))
| st_var_id m hs k r m' : cal_var_with_id m k = (r, m') -> call (World m hs) (World m' (own [r] hs))
| st_gc m hs : call (World m hs) (World (gc m) hs)
| st_gclimit m hs : call (World m hs) (World (set_gclimit m) hs)
| st_nodelimit m hs z r m' : cal_nodelimit m z = (r, m') -> call (World m hs) (World m' hs)
| st_overflow m hs b m' : cal_overflow m = (b, m') -> call (World m hs) (World m' hs)
| st_set_current m hs id r m' : cal_assoc_set_current m id = (r, m') -> call (World m hs) (World m' hs)
| st_temp_init ds m hs l pr m' : args hs l -> no_constants m pr l -> cal_temp_init ds m l pr = Ok m' -> call (World m hs) (World m' hs)
| st_temp_augment ds m hs l pr m' : args hs l -> no_constants m pr l -> cal_temp_augment ds m l pr = Ok m' ->
    call (World m hs) (World m' hs)
| st_temp_quit m hs : call (World m hs) (World (cal_temp_quit m) hs)
(** The place of an entry in the computed table depends on addresses; it may be any function. *)
| st_quantify enum slot neg d1 d2 m hs f r m' : good_enum enum -> arg hs f -> room_for_temporary m -> quantify enum slot neg d1 d2 m f = Ok (r, m') ->
    call (World m hs) (World m' (own [r] hs))
| st_relprod enum slot d1 d2 m hs f g r m' : good_enum enum -> arg hs f -> arg hs g -> room_for_temporary m -> cal_relprod enum slot d1 d2 m f g = Ok (r, m') ->
    call (World m hs) (World m' (own [r] hs))
| st_compose enum d m hs f g h r m' : good_enum enum -> arg hs f -> arg hs g -> arg hs h -> cal_compose enum d m f g h = Ok (r, m') ->
    call (World m hs) (World m' (own [r] hs))
| st_cofactor enum d1 d2 m hs f c r m' : good_enum enum -> arg hs f -> arg hs c -> cal_cofactor enum d1 d2 m f c = Ok (r, m') ->
    call (World m hs) (World m' (own [r] hs))
(** Writing to a file leaves the handles of the support behind, which nobody can give back. *)
| st_dump d0 d1 ds1 ds2 ds3 m hs f vs r sup m' : arg hs f -> args hs vs -> cal_dump d0 d1 ds1 ds2 ds3 m f vs = Ok ((r, sup), m') ->
    call (World m hs) (World m' (own sup hs))
| st_undump enum ds m hs vs inp u m' : good_enum enum -> args hs vs -> cal_undump enum ds m vs inp = Ok (u, m') ->
    call (World m hs) (World m' (own [ud_h u] hs))
(** The search decides at which indices neighbours are exchanged; it may be any sequence. *)
| st_reorder sw m hs : ready_to_reorder m hs -> call (World m hs) (World (reorder sw m) hs)
(** The care set must not be empty; see [C18_refuted] and [C19_refuted] for what happens otherwise. *)
| st_reduce enum d1 d2 d3 d4 m hs f c r m' : good_enum enum -> arg hs f -> arg hs c -> uisnull c = true \/ takes m c true ->
    cal_reduce enum d1 d2 d3 d4 m f c = Ok (r, m') -> call (World m hs) (World m' (own [r] hs))
| st_between enum d1 d2 d3 d4 d5 m hs f g r m' : good_enum enum -> arg hs f -> arg hs g ->
    uisnull f = true \/ uisnull g = true \/ takes m f true \/ takes m g false ->
    cal_between enum d1 d2 d3 d4 d5 m f g = Ok (r, m') -> call (World m hs) (World m' (own [r] hs))
| st_substitute enum d m hs f r m' : good_enum enum -> arg hs f -> cal_substitute enum d m f = Ok (r, m') ->
    call (World m hs) (World m' (own [r] hs))
(** Variables may only be replaced by variables or constants; see [C15_variables_needed]. *)
| st_varsubstitute enum slot d1 d2 m hs f r m' : good_enum enum -> arg hs f -> room_for_temporary m -> variable_images m ->
    cal_varsubstitute enum slot d1 d2 m f = Ok (r, m') -> call (World m hs) (World m' (own [r] hs))
| st_swapvars enum d m hs f g h r m' : good_enum enum -> arg hs f -> arg hs g -> arg hs h -> swap_operands m g h ->
    cal_swapvars enum d m f g h = Ok (r, m') -> call (World m hs) (World m' (own [r] hs))
(** A pipeline from [Cal_PipelineInit] to [Cal_PipelineQuit] that did not overflow. *)
| st_pipeline enum d0 ds m hs p op prog outs rs m' p' : good_enum enum -> In op [op_and; op_or; op_xor] -> pipeline_idle p ->
    well_formed hs prog -> max_levels prog -> within_program prog outs ->
    run_pipeline enum d0 ds m p op prog outs = Ok (Some rs, m', p') -> call (World m hs) (World m' (rs ++ hs))
(** At the end of any call: the check that collects garbage and compacts the memory ([CalBddPostProcessing]).  The
    nodes of the variables must lie in pages that stay; see [C53_refuted]. *)
| st_repack p m hs m' : 0 < npp p -> tnum p <= tden p -> vars_stay p (gc m) -> gc_repack p m = Ok m' -> call (World m hs) (World m' hs)
| st_reorder_window lim fuel m hs m' : ready_to_reorder m hs -> reorder_window lim fuel m = Ok m' -> call (World m hs) (World m' hs)
| st_reorder_sift lim maxv maxs grow m hs m' : ready_to_reorder m hs -> reorder_sift lim maxv maxs grow m = Ok m' -> call (World m hs) (World m' hs)
(** The check between operations, with automatic reordering. *)
| st_post_auto d thr t m hs ov m' : ready_to_reorder m hs -> post_auto d thr t m = Ok (ov, m') -> call (World m hs) (World m' hs).

(** Calls, and creating and giving up associations. *)
Inductive step : world -> world -> Prop :=
| st_call w w' : call w w' -> step w w'
| st_assoc_init ds m hs l pr r m' : args hs l -> no_constants m pr l -> distinct_variables pr l -> room_for_association m ->
    cal_assoc_init ds m l pr = Ok (r, m') -> step (World m hs) (World m' hs)
| st_assoc_quit m hs id : step (World m hs) (World (cal_assoc_quit m id) hs).

(** The worlds a client can get into. *)
Inductive reachable : world -> Prop :=
| re_init : reachable (World init [])
| re_step w w' : reachable w -> step w w' -> reachable w'.
Definition re_call w w' (R : reachable w) (C : call w w') : reachable w' := re_step w w' R (st_call w w' C).

(** ** Vocabulary of the properties *)

(** A call returned null because the node limit was exceeded. *)
Definition overflowed (m : mgr) (h : ubdd) (m' : mgr) : Prop :=
  cal_isnull h = true /\ mov m' = true /\ mnl m <> 0.
(** A call on the manager [m] returned a handle for [F] (or overflowed). *)
Definition computes (m : mgr) (r : outcome (ubdd * mgr)) (F : bfun) : Prop :=
  exists h m', r = Ok (h, m') /\ (overflowed m h m' \/ means m' h F).
(** The same for calls that never overflow. *)
Definition returns (r : outcome (ubdd * mgr)) (F : bfun) : Prop :=
  exists h m', r = Ok (h, m') /\ cal_isnull h = false /\ means m' h F.

Definition same (F G : bfun) : Prop := forall rho, F rho = G rho.

(** Conjunction, disjunction and parity of a list. *)
Definition all_true (l : list bool) : bool := forallb (fun b => b) l.
Definition some_true (l : list bool) : bool := existsb (fun b => b) l.
Definition odd_true (l : list bool) : bool := Nat.odd (length (filter (fun b => b) l)).

(** The nodes the client can still get at: from its handles, from the constant, from the
    variables, from associations, from a node with a saturated count, and from these
    through then and else edges. *)
Inductive in_use (m : mgr) (hs : list ubdd) : N -> Prop :=
| iu_handle h : In h hs -> in_use m hs (uptr h)
| iu_one : in_use m hs (muone m)
| iu_var i : In i (ord (mo m)) -> in_use m hs (eptr (mvb m i))
| iu_assoc a i e : In a (mtemp m :: massoc m) -> amap a i = Some e -> in_use m hs (eptr e)
| iu_saturated i b : In b (ut (st (me m)) i) -> cr (mmem m b) = 255 -> in_use m hs b
| iu_then b : in_use m hs b -> in_use m hs (eptr (ct (mmem m b)))
| iu_else b : in_use m hs b -> in_use m hs (eptr (ce (mmem m b))).

(** Two lists of equal length related element by element. *)
Definition each {A B} (R : A -> B -> Prop) (l : list A) (k : list B) : Prop := Forall2 R l k.
