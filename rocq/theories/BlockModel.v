(** * Variable blocks (executable model): /repo/src/calBlk.c, /repo/src/calReorderDF.c:1034-1062. *)
From Coq Require Import ZArith List Lia.
From Verif Require Import Base BFModel.
Import ListNotations.
Open Scope Z_scope.

(** [Cal_Block_t] (/repo/src/calInt.h:334-341). *)
Inductive block := Blk (reorderable : bool) (firstIndex lastIndex : Z) (children : list block).
Definition bre (b : block) := let '(Blk r _ _ _) := b in r.
Definition bfirst (b : block) := let '(Blk _ f _ _) := b in f.
Definition blast (b : block) := let '(Blk _ _ l _) := b in l.
Definition bchildren (b : block) := let '(Blk _ _ _ ch) := b in ch.

(** [CalBddFindBlock] (/repo/src/calBlk.c:118-139).  [None]: out of fuel or an access outside the array; neither happens. *)
Fixpoint find_loop (fuel : nat) (ch : list block) (index i j : Z) : option Z :=
  match fuel with
  | O => None
  | S fuel =>
      if j <? i then Some i
      else
        let k := (i + j) / 2 in
        if k <? 0 then None else
        match nth_error ch (Z.to_nat k) with
        | None => None
        | Some c =>
            if (bfirst c <=? index) && (index <=? blast c) then Some k
            else if index <? bfirst c then find_loop fuel ch index i (k - 1)
            else find_loop fuel ch index (k + 1) j
        end
  end.
Definition find_block (ch : list block) (index : Z) : option Z :=
  find_loop (S (length ch)) ch index 0 (Z.of_nat (length ch) - 1).

(** [CalBddBlockDelta] (/repo/src/calBlk.c:143-151). *)
Fixpoint block_delta (d : Z) (b : block) : block :=
  let '(Blk r f l ch) := b in Blk r (f + d) (l + d) (map (block_delta d) ch).

(** [CalBddShiftBlock] (/repo/src/calBlk.c:156-192): the children from position [i] on are shifted. *)
Fixpoint shift_block (index : Z) (b : block) : option block :=
  let '(Blk r f l ch) := b in
  if index <=? f then Some (block_delta 1 b)
  else if l <? index then Some b
  else
    match find_block ch index with
    | None => None
    | Some i =>
        let fix go (k : Z) (cs : list block) : option (list block) :=
          match cs with
          | [] => Some []
          | c :: cs =>
              match (if k <? i then Some c else shift_block index c), go (k + 1) cs with
              | Some c', Some cs' => Some (c' :: cs')
              | _, _ => None
              end
          end in
        match go 0 ch with
        | None => None
        | Some ch' =>
            let fresh := (i =? Z.of_nat (length ch)) ||
                         match nth_error ch (Z.to_nat i) with Some c => bfirst c =? index | None => false end in
            Some (Blk r f (l + 1)
              (if fresh then firstn (Z.to_nat i) ch' ++ Blk false index index [] :: skipn (Z.to_nat i) ch' else ch'))
        end
    end.

(** [AddBlock] (/repo/src/calBlk.c:229-271); the new block is given by its range. *)
Fixpoint add_block (f l : Z) (b1 : block) : outcome block :=
  let '(Blk r1 f1 l1 ch) := b1 in
  match ch with
  | [] => Ok (Blk r1 f1 l1 [Blk false f l []])
  | _ =>
      match find_block ch f, find_block ch l with
      | Some i, Some j =>
          if (0 <=? i) && (i <? Z.of_nat (length ch)) && (0 <=? j) && (j <? Z.of_nat (length ch)) then
            if i =? j then
              let fix go (k : Z) (cs : list block) : outcome (list block) :=
                match cs with
                | [] => Ok []
                | c :: cs =>
                    if k =? i then
                      match add_block f l c with Ok c' => Ok (c' :: cs) | Fatal => Fatal | Undefined => Undefined end
                    else match go (k + 1) cs with Ok cs' => Ok (c :: cs') | Fatal => Fatal | Undefined => Undefined end
                end in
              match go 0 ch with Ok ch' => Ok (Blk r1 f1 l1 ch') | Fatal => Fatal | Undefined => Undefined end
            else
              match nth_error ch (Z.to_nat i), nth_error ch (Z.to_nat j) with
              | Some start, Some end_ =>
                  if negb (bfirst start =? f) || negb (blast end_ =? l) then Fatal
                  else Ok (Blk r1 f1 l1 (firstn (Z.to_nat i) ch ++
                         Blk false f l (firstn (Z.to_nat (j - i + 1)) (skipn (Z.to_nat i) ch)) :: skipn (Z.to_nat (j + 1)) ch))
              | _, _ => Undefined
              end
          else Undefined
      | _, _ => Undefined
      end
  end.

(** [superBlock] of a new manager (/repo/src/calBddManager.c:271-277). *)
Definition super0 : block := Blk true (-1) 0 [].
(** [Cal_BddNewVarBlock] (/repo/src/calBlk.c:74-102) for a block that starts at the variable with the given index, with
    [n] variables in the manager. *)
Definition new_var_block (n : Z) (super : block) (index length : Z) : outcome block :=
  let length := if length <=? 0 then 1 else length in
  let last := index + length - 1 in
  let last := if n <=? last then n - 1 else last in
  add_block index last super.

(** The exchanges of neighbouring variables that [BddExchangeVarBlocks] carries out, as the upper position of each pair
    (/repo/src/calReorderDF.c:1044-1055): [w1], [w2] are the widths less one, [F] is the first index of the second block. *)
Definition jlow (w1 i : Z) : Z := if i - w1 <? 0 then 0 else i - w1.
Definition jhigh (w2 i : Z) : Z := if i >? w2 then w2 else i.
Definition zrange (a b : Z) : list Z := map (fun k => a + Z.of_nat k) (seq 0 (Z.to_nat (b - a + 1))).
Definition exchange_positions (F w1 w2 : Z) : list Z :=
  flat_map (fun i => map (fun j => F + j - i + j - 1) (zrange (jlow w1 i) (jhigh w2 i))) (zrange 0 (w1 + w2)).
(** The effect of an exchange on [indexToId]. *)
Definition swap_at (o : Z -> N) (k : Z) : Z -> N :=
  fun x => if x =? k then o (k + 1) else if x =? k + 1 then o k else o x.
Definition exchange_order (o : Z -> N) (F w1 w2 : Z) : Z -> N := fold_left swap_at (exchange_positions F w1 w2) o.

(** [BddExchangeVarBlocks] (/repo/src/calReorderDF.c:1034-1062): the order and the parent's children. *)
Definition exchange_blocks (o : Z -> N) (ch : list block) (k : nat) : option ((Z -> N) * list block) :=
  match nth_error ch k, nth_error ch (S k) with
  | Some b1, Some b2 =>
      let w1 := blast b1 - bfirst b1 in let w2 := blast b2 - bfirst b2 in
      Some (exchange_order o (bfirst b2) w1 w2,
            firstn k ch ++ block_delta (-(w1 + 1)) b2 :: block_delta (w2 + 1) b1 :: skipn (S (S k)) ch)
  | _, _ => None
  end.
