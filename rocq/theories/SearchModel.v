(** * The searches for a good variable order (executable model): /repo/src/calReorderDF.c:1067-1386 (block based, depth
    first) and /repo/src/calReorderBF.c:721-1379 (variable based, breadth first).

    What is modelled is which exchanges of neighbours are carried out, depending on the numbers of nodes observed after each
    of them.  [size] gives [bddManager->numNodes] for an order of the items; the items are blocks or variables.  The state is
    the current order and all orders seen so far, the newest first.  [None] is an access outside an array or a loop that
    would run past its end. *)
From Coq Require Import ZArith List Bool.
Import ListNotations.
Open Scope Z_scope.

Fixpoint swap_nth {A} (k : nat) (l : list A) : option (list A) :=
  match k, l with
  | O, a :: b :: l => Some (b :: a :: l)
  | S k, a :: l => option_map (cons a) (swap_nth k l)
  | _, _ => None
  end.
Fixpoint set_nth {A} (k : nat) (x : A) (l : list A) : option (list A) :=
  match k, l with
  | O, _ :: l => Some (x :: l)
  | S k, a :: l => option_map (cons a) (set_nth k x l)
  | _, [] => None
  end.
Definition bindp {A B} (x : option A) (f : A -> option B) : option B := match x with Some a => f a | None => None end.
Notation "'do' x <- e ; f" := (bindp e (fun x => f)) (at level 200, x pattern, e at level 100, f at level 200).
Fixpoint foldp {A B} (f : B -> A -> option B) (l : list A) (b : B) : option B :=
  match l with [] => Some b | a :: l => do b' <- f b a; foldp f l b' end.

Section Search.
  Variable A : Type.
  Variable size : list A -> Z.
  Definition st : Type := list A * list (list A).
  Definition numNodes (s : st) : Z := size (fst s).

  (** [BddExchangeVarBlocks] (/repo/src/calReorderDF.c:1034-1062), [BddReorderSwapVarIndex] (/repo/src/calReorderBF.c:229-558). *)
  Definition exchange (s : st) (k : nat) : option st :=
    do l <- swap_nth k (fst s); Some (l, l :: snd s).

  (** [BddReorderWindow2] (/repo/src/calReorderDF.c:1067-1079). *)
  Definition df_window2 (i : nat) (s : st) : option (bool * st) :=
    let best := numNodes s in
    do s1 <- exchange s i;
    if numNodes s1 <? best then Some (true, s1)
    else do s2 <- exchange s1 i; Some (false, s2).
  (** [BddReorderWindow2] (/repo/src/calReorderBF.c:1272-1293). *)
  Definition bf_window2 (i : nat) (s : st) : option (bool * st) :=
    let start := numNodes s in
    do s1 <- exchange s i;
    let cur := numNodes s1 in
    do s2 <- (if start <? cur then exchange s1 i else Some s1);
    Some (cur <? start, s2).

  (** [BddReorderWindow3] (/repo/src/calReorderDF.c:1085-1154, /repo/src/calReorderBF.c:1298-1379).  The two differ only in the
      way back to the third order, given by [back2]. *)
  Definition note (lt : bool) (k : nat) (cur : Z) (b : nat * Z) : nat * Z :=
    if (if lt then cur <? snd b else cur <=? snd b) then (k, cur) else b.
  Definition window3 (back2 : nat -> list nat) (i : nat) (s : st) : option (bool * st) :=
    let orig := numNodes s in
    let b := (0%nat, numNodes s) in
    do s <- exchange s i; let b := note true 1 (numNodes s) b in
    do s <- exchange s (S i); let b := note true 2 (numNodes s) b in
    do s <- exchange s i; let b := note false 3 (numNodes s) b in
    do s <- exchange s (S i); let b := note false 4 (numNodes s) b in
    do s <- exchange s i; let b := note false 5 (numNodes s) b in
    do s <- foldp exchange (match fst b with
                            | 0 => [S i] | 1 => [S i; i] | 2 => back2 i | 3 => [i; S i] | 4 => [i] | _ => []
                            end%nat) s;
    Some ((0 <? fst b)%nat && (snd b <? orig), s).
  Definition df_window3 := window3 (fun i => [S i; i; S i]).
  Definition bf_window3 := window3 (fun i => [i; S i; i]).

  (** The loop over the windows ([BddReorderStableWindow3Aux], /repo/src/calReorderDF.c:1167-1208; [BddReorderVarWindow],
      /repo/src/calReorderBF.c:1135-1230: [even] stays 1): [n] is the number of items, [marks] the entries of [levels] that
      are set when window [i] has moved. *)
  Definition marks (n i : nat) : list nat :=
    ((if 0 <? i then [i - 1] ++ (if 1 <? i then [i - 2] else []) else []) ++ [i; i + 1] ++
    (if i + 2 <? n then [i + 2] ++ (if i + 3 <? n then [i + 3] ++ (if i + 4 <? n then [i + 4] else []) else []) else []))%nat.
  Variables win2 win3 : nat -> st -> option (bool * st).
  Definition pass_step (n : nat) (c : st * list bool * bool) (i : nat) : option (st * list bool * bool) :=
    let '(s, levels, any) := c in
    do lv <- nth_error levels i;
    if (lv : bool) then
      do (moved, s') <- (if (i + 2 <? n)%nat then win3 i s else win2 i s);
      if (moved : bool) then
        do levels' <- foldp (fun lv k => set_nth k true lv) (marks n i) levels;
        Some (s', levels', true)
      else do levels' <- set_nth i false levels; Some (s', levels', any)
    else Some c.
  Fixpoint window_loop (fuel : nat) (n : nat) (s : st) (levels : list bool) : option st :=
    match fuel with
    | O => None
    | S fuel =>
        do (s', levels', any) <- foldp (pass_step n) (seq 0 (n - 1)) (s, levels, false);
        if (any : bool) then window_loop fuel n s' levels' else Some s'
    end.
  (** [levels] has room for [nv] entries, of which the first [n - 1] are set to 1. *)
  Definition windows (nv : nat) (l : list A) : option st :=
    let n := length l in
    do levels <- foldp (fun lv k => set_nth k true lv) (seq 0 (n - 1)) (repeat false nv);
    window_loop (S (Z.to_nat (size l))) n (l, [l]) levels.

  (** One direction of a sift: at most [k] steps; the position and the size at which the item would be best so far. *)
  Variables stop_before : Z -> bool.
  Fixpoint walk (right lt : bool) (stop_after : Z -> Z -> bool) (k cur : nat) (curSize : Z) (best : nat * Z) (s : st)
    : option (nat * (nat * Z) * st) :=
    match k with
    | O => Some (cur, best, s)
    | S k =>
        if stop_before curSize then Some (cur, best, s)
        else
          do s' <- exchange s (if right then cur else cur - 1)%nat;
          let cur' := (if right then cur + 1 else cur - 1)%nat in
          let c := numNodes s' in
          if stop_after (snd best) c then Some (cur', best, s')
          else walk right lt stop_after k cur' c (note lt cur' c best) s'
    end.
  (** [while (currentPosition != goal)], upwards or downwards in the array. *)
  Definition go_right (cur goal : nat) (s : st) : option st :=
    if (goal <? cur)%nat then None else foldp exchange (seq cur (goal - cur)) s.
  Definition go_left (cur goal : nat) (s : st) : option st :=
    if (cur <? goal)%nat then None else foldp exchange (rev (seq goal (cur - goal))) s.
  Definition sift_with (right_first : bool) (stop_right stop_left : Z -> Z -> bool) (start : nat) (s : st) : option st :=
    let n := length (fst s) in
    let startSize := numNodes s in
    if right_first then
      do (cur, best, s) <- walk true true stop_right (n - 1 - start) start startSize (start, startSize) s;
      do s <- go_left cur start s;
      do (cur, best, s) <- walk false false stop_left start start startSize best s;
      go_right cur (fst best) s
    else
      do (cur, best, s) <- walk false true stop_left start start startSize (start, startSize) s;
      do s <- go_right cur start s;
      do (cur, best, s) <- walk true false stop_right (n - 1 - start) start startSize best s;
      go_left cur (fst best) s.
End Search.

Section Sift.
  Variable A : Type.
  Variable size : list A -> Z.
  Notation st := (st A).
  (** [BddSiftBlock] (/repo/src/calReorderDF.c:1230-1308) with [maxSizeFactor] 2.0 (/repo/src/calBddManager.c:265; no call changes
      it); [limit] is [nodeLimit], 0 for none. *)
  Definition df_sift_block (limit : Z) (start : nat) (s : st) : option st :=
    let maxSize := 2 * numNodes A size s in
    let maxSize := if negb (limit =? 0) && (limit <? maxSize) then limit else maxSize in
    sift_with A size (fun c => negb (c <=? maxSize)) (Nat.div2 (length (fst s)) <? start)%nat
      (fun _ _ => false) (fun _ _ => false) start s.
  (** [BddReorderSiftToBestPos] (/repo/src/calReorderBF.c:777-1083).  Simplified: only the exchanges; the repairs of forwarded
      nodes and the repacking do not change the order. *)
  Definition bf_sift_block (start : nat) (s : st) : option st :=
    let maxSize := 2 * numNodes A size s in
    sift_with A size (fun _ => false) (Nat.div2 (length (fst s)) <=? start)%nat
      (fun best c => 2 * best <=? c) (fun _ c => maxSize <? c) start s.

  (** [BddReorderSiftAux] (/repo/src/calReorderDF.c:1316-1366), [BddReorderVarSift] (/repo/src/calReorderBF.c:721-771).  [width]
      gives the number of nodes of an item (for a block: per variable), [proceed] tells if the limits on the number of sifted
      items and of exchanges are not exceeded yet, [eqb] compares items. *)
  Variable sift_block : nat -> st -> option st.
  Variable width : list A -> A -> Z.
  Variable proceed : nat -> st -> bool.
  Variable eqb : A -> A -> bool.
  Fixpoint widest (order : list A) (j : nat) (items : list A) (best : nat * Z) : nat * Z :=
    match items with
    | [] => best
    | a :: items => widest order (S j) items (if snd best <? width order a then (j, width order a) else best)
    end.
  Fixpoint position (a : A) (l : list A) : option nat :=
    match l with
    | [] => None
    | b :: l => if eqb b a then Some 0%nat else option_map S (position a l)
    end.
  Fixpoint sift_loop (i : nat) (shifted : nat) (toSift : list A) (s : st) : option st :=
    match i with
    | O => Some s
    | S i =>
        if proceed shifted s then
          let '(w, maxWidth) := widest (fst s) 0 (firstn (S i) toSift) (0%nat, 0) in
          if 1 <? maxWidth then
            do a <- nth_error toSift w;
            do j <- position a (fst s);
            do s' <- sift_block j s;
            do z <- nth_error toSift i;
            do toSift' <- set_nth w z toSift;
            sift_loop i (S shifted) toSift' s'
          else Some s
        else Some s
    end.
  Definition sift (l : list A) : option st := sift_loop (length l) 0 l (l, [l]).
End Sift.

(** ** Breadth first: over the variables. *)
Section BF.
  Variable size : list N -> Z.
  Definition bf_windows (nv : nat) (l : list N) := windows N size (bf_window2 N size) (bf_window3 N size) nv l.
  Definition bf_sift (width : list N -> N -> Z) (proceed : nat -> st N -> bool) (l : list N) :=
    sift N (bf_sift_block N size) width proceed N.eqb l.
End BF.

(** ** Depth first: over the tree of blocks, each named by an identifier (its address in the program). *)
Inductive tree := T (id : N) (reorderable : bool) (children : list tree).
Definition tid (t : tree) : N := let '(T i _ _) := t in i.
Definition tchildren (t : tree) := let '(T _ _ ch) := t in ch.
Fixpoint height (t : tree) : nat := let '(T _ _ ch) := t in S (list_max (map height ch)).
(** The recursion over the blocks ([BddReorderStableWindow3Aux], /repo/src/calReorderDF.c:1209-1211; [BddReorderSiftAux],
    /repo/src/calReorderDF.c:1368-1371): [size] is the number of nodes when the given tree takes the place of the block. *)
Section Tree.
  Variable search : (list tree -> Z) -> list tree -> option (st tree).
  Fixpoint reorder_tree (fuel : nat) (size : tree -> Z) (t : tree) : option (tree * list tree) :=
    match fuel with
    | O => None
    | S fuel =>
        let '(T i re ch) := t in
        do (ch, seen) <- (if re then search (fun l => size (T i re l)) ch else Some (ch, [ch]));
        let fix go (pre post : list tree) (seen : list tree) : option (tree * list tree) :=
          match post with
          | [] => Some (T i re pre, seen)
          | c :: post =>
              do (c', sn) <- reorder_tree fuel (fun x => size (T i re (pre ++ x :: post))) c;
              go (pre ++ [c']) post (map (fun x => T i re (pre ++ x :: post)) sn ++ seen)
          end in
        go [] ch (map (T i re) seen)
    end.
End Tree.
Definition same_block (a b : tree) : bool := N.eqb (tid a) (tid b).
Definition df_windows (nv : nat) (size : tree -> Z) (t : tree) : option (tree * list tree) :=
  reorder_tree (fun sz ch => windows tree sz (df_window2 tree sz) (df_window3 tree sz) nv ch) (height t) size t.
Definition df_sift (limit : Z) (width : list tree -> tree -> Z) (proceed : nat -> st tree -> bool) (size : tree -> Z) (t : tree)
  : option (tree * list tree) :=
  reorder_tree (fun sz ch => sift tree (df_sift_block tree sz limit) width proceed same_block ch) (height t) size t.
