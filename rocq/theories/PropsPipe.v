(** * Properties of pipelined operations: C40. *)
From Verif Require Import Base BFModel MgrModel ApiModel PipeModel SpecApi SpecPipe Client ApiFacts PipeWorld.

(** C40: every result that is asked for is the function the operations have when they are carried out one after
    another; a pipeline that does not complete has overflowed.  The handles of the client keep their functions, and after
    a complete pipeline the world is one of those the other properties are about. *)
Theorem C40_pipeline : forall w enum d0 ds p op b prog outs Fs, reachable w -> good_enum enum -> pipeline_operation op b ->
  pipeline_idle p -> well_formed (wh w) prog -> max_levels prog -> within_program prog outs -> pipeline_means (wm w) b prog Fs ->
  exists r m' p', run_pipeline enum d0 ds (wm w) p op prog outs = Ok (r, m', p') /\
    (forall h F, In h (wh w) -> means (wm w) h F -> means m' h F) /\
    match r with
    | Some rs => pipeline_idle p' /\ call w (World m' (rs ++ wh w)) /\ Forall2 (answers m' Fs) rs outs
    | None => mov m' = true /\ mnl (wm w) <> 0
    end.
Proof. exact (fun w enum d0 ds p op b prog outs Fs R => W_pipeline w R enum d0 ds p op b prog outs Fs). Qed.
Print Assumptions C40_pipeline.
(** There are always such functions, and only one for each operation. *)
Theorem C40_functions : forall w op b prog, reachable w -> pipeline_operation op b -> well_formed (wh w) prog ->
  exists Fs, pipeline_means (wm w) b prog Fs /\
    forall Gs, pipeline_means (wm w) b prog Gs -> forall k A B, nth_error Fs k = Some A -> nth_error Gs k = Some B -> same A B.
Proof. exact (fun w op b prog R => W_pipeline_functions w R op b prog). Qed.
Print Assumptions C40_functions.
Example C40_program : pipeline_idle pipe0 /\ well_formed (wh demo) demo_prog /\ max_levels demo_prog /\ within_program demo_prog demo_outs.
Proof. exact demo_prog_facts. Qed.
Example C40_example : forall d, In d [0%nat; 1%nat; 2%nat; 4%nat] ->
  exists rs m' p', run_pipeline reversed dec1 (fun _ => dec1) (wm demo) (cal_pipeline_setdepth pipe0 d) op_xor demo_prog demo_outs = Ok (Some rs, m', p') /\
    map (fun h => value m' h (fun i => i =? 4)) rs = map Some [false; false; false] /\
    map (fun h => value m' h (fun i => 3 <=? i)) rs = map Some [true; true; false].
Proof. exact pipeline_example. Qed.
Example C40_overflow_example : reachable tight /\
  exists m' p', run_pipeline listed dec1 (fun _ => dec1) (wm tight) pipe0 op_xor [(Own h_and, Own h_ite)] [(0%nat, false)] = Ok (None, m', p') /\
    ps p' = CREATE /\ mov m' = true /\ value m' h_ite (fun i => i =? 4) = Some true.
Proof. exact pipeline_overflow_example. Qed.
Example C40_levels_example : well_formed (wh demo) (chain h_and h_ite 255) /\ max_levels (chain h_and h_ite 255) /\
  exists rs m' p', run_pipeline listed dec1 (fun _ => dec1) (wm demo) pipe0 op_and (chain h_and h_ite 255) [(255%nat, false)] = Ok (Some rs, m', p') /\
    map (fun h => value m' h (fun i => i <=? 3)) rs = map Some [true].
Proof. exact levels_example. Qed.

(** Without the limit of 256 levels the claim is false: a chain of 257 operations makes the library read an array
    beyond its end. *)
Theorem C40_levels_refuted : exists w enum d0 ds p op b prog outs, reachable w /\ good_enum enum /\ pipeline_operation op b /\ pipeline_idle p /\
  well_formed (wh w) prog /\ within_program prog outs /\ length prog = N.to_nat 257 /\
  run_pipeline enum d0 ds (wm w) p op prog outs = Undefined.
Proof. exact levels_refuted. Qed.
Print Assumptions C40_levels_refuted.
(** An operation the pipeline does not know is refused, but then the pipeline is not idle and refuses the others as
    well. *)
Theorem C40_unknown_operation : forall d m p, pipeline_idle p ->
  exists m' p', cal_pipeline_init d m p None = (false, m', p') /\ ~ pipeline_idle p' /\
    forall d' m'' op, exists m3, cal_pipeline_init d' m'' p' (Some op) = (false, m3, p').
Proof. exact unknown_operation. Qed.
Print Assumptions C40_unknown_operation.
(** A pipeline with few levels leaves the manager executing all later ones level by level. *)
Example C40_depth_example : exists rs m' p',
  run_pipeline listed dec1 (fun _ => dec1) (wm demo) pipe0 op_or [(Own h_and, Own h_ite)] [(0%nat, false)] = Ok (Some rs, m', p') /\
  pman pipe0 = 4%nat /\ pman p' = 1%nat.
Proof. exact depth_example. Qed.
