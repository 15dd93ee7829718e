(** * Well nested variable blocks (specification). *)
From Coq Require Import ZArith List Permutation.
From Verif Require Import Base BFModel BlockModel.
Import ListNotations.
Open Scope Z_scope.

(** The block covers the positions [lo..hi]; either it is a single variable or its children cover its range one after
    the other. *)
Inductive wf : Z -> Z -> block -> Prop :=
| wf_leaf re k : wf k k (Blk re k k [])
| wf_node re lo hi b ch : tiles lo hi (b :: ch) -> wf lo hi (Blk re lo hi (b :: ch))
with tiles : Z -> Z -> list block -> Prop :=
| t_nil lo : tiles lo (lo - 1) []
| t_cons lo mid hi b ch : wf lo mid b -> tiles (mid + 1) hi ch -> tiles lo hi (b :: ch).
(** The block that contains all [n] variables; its own bounds are one too wide on both sides. *)
Definition wf_super (n : Z) (s : block) : Prop :=
  bfirst s = -1 /\ blast s = n /\ tiles 0 (n - 1) (bchildren s).

(** All blocks below a block, as (reorderable, first, last). *)
Fixpoint ranges (b : block) : list (bool * Z * Z) :=
  let '(Blk r f l ch) := b in (r, f, l) :: flat_map ranges ch.
Definition inner (s : block) : list (bool * Z * Z) := flat_map ranges (bchildren s).

(** Two ranges are disjoint or one contains the other. *)
Definition nested (a b : Z * Z) : Prop :=
  snd a < fst b \/ snd b < fst a \/ (fst a <= fst b /\ snd b <= snd a) \/ (fst b <= fst a /\ snd a <= snd b).

(** Where a block is after the creation of a variable at position [k]. *)
Definition moved (k : Z) (r : bool * Z * Z) : bool * Z * Z :=
  let '(re, f, l) := r in
  if k <=? f then (re, f + 1, l + 1) else if l <? k then (re, f, l) else (re, f, l + 1).

(** A range that is nested with all the given ones. *)
Definition fits (f l : Z) (rs : list (bool * Z * Z)) : Prop := forall re a b, In (re, a, b) rs -> nested (f, l) (a, b).
(** The last position of a requested block: at least one variable, cut off at the last variable. *)
Definition asked_last (n index length : Z) : Z := Z.min (index + Z.max length 1 - 1) (n - 1).

(** The variables of every block, in order. *)
Definition members (o : Z -> N) (rs : list (bool * Z * Z)) : list (bool * list N) :=
  map (fun r => let '(re, f, l) := r in (re, map o (zrange f l))) rs.
(** The two block lists contain the same blocks, each with the same set of variables. *)
Definition same_blocks (o : Z -> N) (rs : list (bool * Z * Z)) (o' : Z -> N) (rs' : list (bool * Z * Z)) : Prop :=
  exists q, Permutation rs' q /\
    Forall2 (fun r r' => let '(re, f, l) := r in let '(re', f', l') := r' in
               re' = re /\ Permutation (map o' (zrange f' l')) (map o (zrange f l))) rs q.
(** Two neighbouring blocks somewhere in the tree exchange places; [o] is the order of the variables before, [o'] after. *)
Inductive exchanged (o : Z -> N) : block -> (Z -> N) -> block -> Prop :=
| ex_here re f l ch k o' ch' : exchange_blocks o ch k = Some (o', ch') -> exchanged o (Blk re f l ch) o' (Blk re f l ch')
| ex_below re f l c1 c c2 o' c' : exchanged o c o' c' -> exchanged o (Blk re f l (c1 ++ c :: c2)) o' (Blk re f l (c1 ++ c' :: c2)).
(** What can happen to the blocks of a manager with [n] variables. *)
Inductive block_history : Z -> block -> Prop :=
| bh_start : block_history 0 super0
| bh_variable n s index s' : block_history n s -> 0 <= index <= n -> shift_block index s = Some s' -> block_history (n + 1) s'
| bh_block n s index length s' : block_history n s -> 0 <= index < n -> new_var_block n s index length = Ok s' -> block_history n s'
| bh_exchange n s o o' s' : block_history n s -> exchanged o s o' s' -> block_history n s'.
