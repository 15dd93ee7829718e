(** * Vocabulary for hash tables: finite maps and the operations on them. *)
From Verif Require Import Base HashModel.

Section Maps.
Variable K V : Type.

(** The entries: node address, key, value. *)
Definition entries := list (N * K * V).
Definition addr_of (e : N * K * V) : N := fst (fst e).
Definition key_of (e : N * K * V) : K := snd (fst e).
Definition value_of (e : N * K * V) : V := snd e.

(** The operations a client of a table performs. *)
Inductive hop :=
| OFind (k : K) (v : V) (a : N)    (* find or add: the node [a] is used if [k] is new *)
| OAdd (a : N) (k : K) (v : V)     (* add without search *)
| ODel (a : N)                     (* delete the node *)
| ORekey (a : N) (k : K)           (* the key of node [a] becomes [k] *)
| OResize (grow : bool).           (* explicit resize *)

Definition fresh (a : N) (M : entries) : Prop := a <> 0 /\ ~ In a (map addr_of M).
Definition absent (k : K) (M : entries) : Prop := ~ In k (map key_of M).

(** [does M o r M']: operation [o] on the finite map [M] answers [r] and leaves the map [M'].  Adding without search
    and changing a key are the client's to use with keys that are not in the table. *)
Inductive does (M : entries) : hop -> N -> entries -> Prop :=
| d_found k v a a' v' : fresh a M -> In (a', k, v') M -> does M (OFind k v a) a' M
| d_new k v a : fresh a M -> absent k M -> does M (OFind k v a) a ((a, k, v) :: M)
| d_add a k v : fresh a M -> absent k M -> does M (OAdd a k v) a ((a, k, v) :: M)
| d_del a k v M1 M2 : M = M1 ++ (a, k, v) :: M2 -> does M (ODel a) a (M1 ++ M2)
| d_miss a : fresh a M -> does M (ODel a) 0 M
| d_rekey a k k' v M1 M2 : M = M1 ++ (a, k, v) :: M2 -> absent k' (M1 ++ M2) -> does M (ORekey a k') a (M1 ++ (a, k', v) :: M2)
| d_size g : does M (OResize g) 0 M.

Inductive history : list (hop * N) -> entries -> Prop :=
| h_nil : history [] []
| h_snoc l M o r M' : history l M -> does M o r M' -> history (l ++ [(o, r)]) M'.
End Maps.
Arguments OFind {K V}. Arguments OAdd {K V}. Arguments ODel {K V}. Arguments ORekey {K V}. Arguments OResize {K V}.
Arguments addr_of {K V}. Arguments key_of {K V}. Arguments value_of {K V}.
Arguments does {K V}. Arguments history {K V}. Arguments fresh {K V}. Arguments absent {K V}.

(** Running the operations on a table: the answers and the table afterwards; [None] if an operation
    does not come to an end or exits. *)
Section Run.
Variable K V : Type.
Variable keqb : K -> K -> bool.
Variable hash : N -> K -> N.
Definition hstep (t : table K V) (o : hop K V) : option (N * table K V) :=
  match o with
  | OFind k v a => match find_or_add K V keqb hash t k v a with Some (_, r, t) => Some (r, t) | None => None end
  | OAdd a k v => match add_direct K V hash t a k v with Some t => Some (a, t) | None => None end
  | ODel a => match hdelete K V hash t a with Some (true, t) => Some (a, t) | Some (false, t) => Some (0, t) | None => None end
  | ORekey a k => match rehash_node K V hash t a k with Some t => Some (a, t) | None => None end
  | OResize g => match hrehash K V hash t g with Some t => Some (0, t) | None => None end
  end.
Fixpoint hrun (t : table K V) (l : list (hop K V)) : option (list N * table K V) :=
  match l with
  | [] => Some ([], t)
  | o :: l => match hstep t o with
              | Some (r, t) => match hrun t l with Some (rs, t) => Some (r :: rs, t) | None => None end
              | None => None
              end
  end.
End Run.
