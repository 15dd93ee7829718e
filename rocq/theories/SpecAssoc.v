(** * What variable associations are. *)
From Verif Require Import Base BFModel ITEModel MgrModel ApiModel GraphModel AssocModel SpecApi.

(** A partial map from variables to functions. *)
Definition substitution := N -> option bfun.
Definition both {A B} (R : A -> B -> Prop) (x : option A) (y : option B) : Prop :=
  match x, y with Some a, Some b => R a b | None, None => True | _, _ => False end.
Definition same_substitution (S T : substitution) : Prop := forall i, both same (S i) (T i).

(** The association with identifier [j] stands for [S]. *)
Definition stands_for (m : mgr) (mp : N -> option edge) (S : substitution) : Prop :=
  forall i, both (fun e F => forall rho, ev (mmem m) rho e (F rho)) (mp i) (S i).
Definition assoc_means (m : mgr) (j : N) (S : substitution) : Prop :=
  exists a, In a (massoc m) /\ aid a = j /\ stands_for m (amap a) S.
(** The temporary association stands for [S]. *)
Definition temp_means (m : mgr) (S : substitution) : Prop := stands_for m (amap (mtemp m)) S.

(** [i] is the first variable in the order that the handle's function depends on. *)
Definition top_variable (m : mgr) (h : ubdd) (i : N) : Prop :=
  exists F, means m h F /\ depends F i /\ forall j, In j (ord (mo m)) -> idx (mo m) j < idx (mo m) i -> ~ depends F j.
Definition is_variable (m : mgr) (h : ubdd) (i : N) : Prop := means m h (fun rho => rho i).

(** The list of handles [l] describes [S]: with pairs, every other handle is a variable and the
    handle after it its image; without pairs the (top) variables of the handles are associated with
    the constant true. *)
Definition describes (m : mgr) (with_pairs : bool) (l : list ubdd) (S : substitution) : Prop :=
  if with_pairs
  then (forall p, In p (pairs l) -> exists i, is_variable m (fst p) i) /\
       forall i, match S i with
                 | Some G => exists p, In p (pairs l) /\ is_variable m (fst p) i /\ means m (snd p) G
                 | None => forall p, In p (pairs l) -> ~ is_variable m (fst p) i
                 end
  else forall i, match S i with
                 | Some G => same G (fun _ => true) /\ exists h, In h l /\ top_variable m h i
                 | None => forall h, In h l -> ~ top_variable m h i
                 end.

(** [T] where it is defined, [S] elsewhere. *)
Definition override (S T : substitution) : substitution := fun i => match T i with Some G => Some G | None => S i end.

(** The identifiers a client holds: one occurrence for every successful initialisation that
    was not given up. *)
Fixpoint give_up (j : N) (ids : list N) : list N :=
  match ids with [] => [] | i :: ids => if i =? j then ids else i :: give_up j ids end.
Inductive holding : world -> list N -> Prop :=
| ho_init : holding (World init []) []
| ho_call w w' ids : holding w ids -> call w w' -> holding w' ids
| ho_assoc_init ds m hs l pr r m' ids : holding (World m hs) ids ->
    args hs l -> no_constants m pr l -> distinct_variables pr l -> room_for_association m ->
    cal_assoc_init ds m l pr = Ok (r, m') ->
    holding (World m' hs) match r with Some j => j :: ids | None => ids end
| ho_assoc_quit m hs j ids : holding (World m hs) ids -> holding (World (cal_assoc_quit m j) hs) (give_up j ids).

(** [z] is the largest position in the order of a variable with the property [P]; -1 if there
    is none. *)
Definition last_position (order : list N) (P : N -> Prop) (z : Z) : Prop :=
  (forall k i, nth_error order k = Some i -> P i -> (Z.of_nat k <= z)%Z) /\
  ((z = -1)%Z \/ exists k i, nth_error order k = Some i /\ P i /\ z = Z.of_nat k).
