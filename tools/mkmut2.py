#!/usr/bin/env python3
"""Second list of wrong programs -> seeded/round2.json (see mutate.py)."""
import json, os
L = []
def m(id, file, definition, old, new, edit, claim, count=1, props=None):
    x = dict(id=id, file=file, definition=definition, old=old, new=new, edit=edit, claim=claim, count=count)
    if props: x["props"] = props
    L.append(x)
# C++ handles
F, P = "CppModel.v", ["PropsCpp"]
m("Q1", F, "cpp_copy", "Some (bdd_unfree (fst c) h, (n, h) :: snd c)\n  end.\n(** [operator=(const", "Some (fst c, (n, h) :: snd c)\n  end.\n(** [operator=(const", "copy not counted", "C29", props=P)
m("Q2", F, "cpp_assign", "let m1 := bdd_free (fst c) old in\n      match obj_get k (snd c) with\n      | None => None\n      | Some h => let os", "let m1 := fst c in\n      match obj_get k (snd c) with\n      | None => None\n      | Some h => let os", "old value not released", "C29: leak", props=P)
m("Q3", F, "cpp_move", "Some (fst c, (n, h) :: obj_set k unull (snd c))", "Some (fst c, (n, h) :: snd c)", "moved-from object keeps the node", "C29: one reference, two objects", props=P)
m("Q4", F, "cpp_move_assign", "Some (m1, obj_set k unull (obj_set n h (snd c)))", "Some (m1, obj_set n h (obj_set k unull (snd c)))", "source cleared before the target is written", "C29: self-move", props=P)
m("Q5", F, "cpp_destroy", "Some (bdd_free (fst c) h, obj_drop n (snd c))", "Some (fst c, obj_drop n (snd c))", "destructor does not release", "C29: leak", props=P)
m("Q6", F, "cpp_regular", "Some (bdd_unfree (fst c) r, (n, r) :: snd c)", "Some (bdd_unfree (fst c) h, (n, h) :: snd c)", "complement kept", "C29: Regular", props=P)
m("Q7", F, "cpp_refcount", "if uisnull h then 255 else", "if uisnull h then 0 else", "null object has no references", "C29: RefCount of null", props=P)
m("Q8", F, "bdd_free", "if uisnull h then m else udec m h", "udec m h", "null handle released", "C29", props=P)
# interaction matrix
F, P = "InteractModel.v", ["PropsInteract"]
m("N1", F, "posn", "do c <- int (b - 3)", "do c <- int (b - 1)", "row length off by two", "matrix: two pairs share a bit", props=P)
m("N2", F, "test_interact", "if x >? y then (y, x) else (x, y)", "(x, y)", "not symmetric", "matrix: answer depends on the order of the arguments", props=P)
m("N3", F, "new_matrix", "Z.shiftr a (1 + LOGBPL) + 1", "Z.shiftr a (1 + LOGBPL)", "one word less", "matrix: write beyond the array", props=P)
m("N4", F, "update_interact", "(upto 0 (n - 1)) M", "(upto 1 (n - 1)) M", "first variable skipped", "matrix: interaction missed", props=P)
m("N5", F, "set_interact", "Z.lor w (one_shl bit)", "one_shl bit", "word overwritten", "matrix: interaction forgotten", props=P)
m("N6", F, "BPL", "Definition BPL : Z := 32.", "Definition BPL : Z := 16.", "half of each word", "matrix: two pairs share a bit", props=P)
# blocks
F, P = "BlockModel.v", ["PropsBlock"]
m("K1", F, "find_loop", "(index <=? blast c) then Some k", "(index <? blast c) then Some k", "last index excluded", "blocks: found block", props=P)
m("K2", F, "shift_block", "if index <=? f then Some (block_delta 1 b)", "if index <? f then Some (block_delta 1 b)", "new variable at the first index", "blocks: shift", props=P)
m("K3", F, "shift_block", "Some (Blk r f (l + 1)", "Some (Blk r f l", "parent not widened", "blocks: nesting", props=P)
m("K4", F, "add_block", "negb (bfirst start =? f) || negb (blast end_ =? l)", "negb (bfirst start =? f) && negb (blast end_ =? l)", "overlap accepted", "blocks: overlapping blocks", props=P)
m("K5", F, "new_var_block", "let last := if n <=? last then n - 1 else last in", "", "not clipped", "blocks: beyond the last variable", props=P)
m("K6", F, "jhigh", "if i >? w2 then w2 else i", "i", "no upper bound", "exchange of blocks", props=P)
m("K7", F, "exchange_positions", "F + j - i + j - 1", "F + j - i + j", "off by one", "exchange of blocks", props=P)
m("K8", F, "exchange_blocks", "block_delta (w2 + 1) b1", "block_delta (w1 + 1) b1", "moved by its own width", "exchange of blocks: indices", props=P)
m("K9", F, "block_delta", "map (block_delta d) ch", "ch", "children not shifted", "blocks: nesting", props=P)
# searches
F, P = "SearchModel.v", ["PropsSearch"]
m("S1", F, "df_window2", "if numNodes s1 <? best then Some (true, s1)", "if numNodes s1 <=? best then Some (true, s1)", "equal size counts as progress", "C34: termination", props=P)
m("S2", F, "window3", "| 3 => [i; S i] |", "| 3 => [S i; i] |", "wrong way back", "C34: not the best order", props=P)
m("S3", F, "window3", "0 => [S i] | 1 => [S i; i]", "0 => [] | 1 => [S i; i]", "no way back to the first order", "C34: worse than at the start", props=P)
m("S4", F, "marks", "(if i + 4 <? n then [i + 4] else [])", "[i + 4]", "mark beyond the last window", "C34: write beyond the array", props=P)
m("S5", F, "walk", "if stop_after (snd best) c then Some (cur', best, s')", "if stop_after (snd best) c then Some (cur, best, s')", "position not advanced when stopping", "C34: wrong position", props=P)
m("S6", F, "sift_with", "do s <- go_left cur start s;\n      do (cur, best, s) <- walk false false stop_left start start startSize best s;\n      go_right cur (fst best) s", "do s <- go_left cur start s;\n      do (cur, best, s) <- walk false false stop_left start start startSize (start, startSize) s;\n      go_right cur (fst best) s", "the best of the first half forgotten", "C34: not the best order seen", props=P)
m("S7", F, "sift_with", "go_right cur (fst best) s\n    else", "Some s\n    else", "not returned to the best position", "C34: worse than at the start", props=P)
m("S8", F, "bf_window2", "do s2 <- (if start <? cur then exchange s1 i else Some s1);", "do s2 <- Some s1;", "never undone", "C34: worse than at the start", props=P)
m("S9", F, "sift_loop", "do z <- nth_error toSift i;", "do z <- nth_error toSift w;", "sifted item not removed from the list", "C34: every item sifted at most once (not claimed)", props=P)
# hash tables
F, P = "HashModel.v", ["PropsHash"]
m("H1", F, "hfind", "if keqb (hkey (m p)) k then Some p else hfind n m k (hnext (m p))", "if keqb (hkey (m p)) k then Some p else Some 0", "only the first node of a bin", "C31", props=P)
m("H2", F, "move_chain", "let next := hnext (m p) in", "let next := hnext (m (hnext (m p))) in", "every second node lost", "C31", props=P)
m("H3", F, "hrehash", "(upto_bins (hsize t)) with", "(upto_bins s) with", "bins of the new size scanned", "C31: lost on shrinking", props=P)
m("H4", F, "find_or_add", "let t1 := HT (hsize t) (hbins t) (hnum t + 1) (hmem t) in", "let t1 := HT (hsize t) (hbins t) (hnum t) (hmem t) in", "not counted", "C31: number of entries", props=P)
m("H5", F, "unlink", "if last =? 0 then Some (true, updn bins b (hnext (m p)), m)", "if last =? 0 then Some (true, updn bins b 0, m)", "rest of the bin lost", "C31: delete", props=P)
m("H6", F, "rehash_node", "let m1 := put_cell (hmem t) a k (hval (hmem t a)) in\n  if ob =? nb", "let m1 := hmem t in\n  if ob =? nb", "key not changed", "C31: rehash of a node", props=P)
m("H7", F, "hdelete", "hnum t - 1", "hnum t", "count not lowered", "C31: number of entries", props=P)
m("H8", F, "add_direct", "let t1 := HT (hsize t) (hbins t) (hnum t + 1) (put_cell (hmem t) a k v) in", "let t1 := HT (hsize t) (hbins t) (hnum t + 1) (hmem t) in", "key not stored", "C31", props=P)
# pools
F, P = "PoolModel.v", ["PropsPool"]
m("O1", F, "segment_to_list", "link_up (N.to_nat (n - 1)) seg PAGE_SIZE m", "link_up (N.to_nat n) seg PAGE_SIZE m", "one page too many", "pool: page outside the segment", props=P)
m("O2", F, "segment_to_list", "(seg + (n - 1) * PAGE_SIZE) last.", "(seg + (n - 1) * PAGE_SIZE) 0.", "old free list dropped", "pool: leak of pages (no claim if always empty)", props=P)
m("O3", F, "page_free", "poke m page (pfree pm))", "m)", "not linked", "pool", props=P)
m("O4", F, "node_alloc", "link_down (NUM_NODES_PER_PAGE - 1) (page + N.of_nat (NUM_NODES_PER_PAGE - 1) * NODE_SIZE) 0 m", "link_down NUM_NODES_PER_PAGE (page + N.of_nat NUM_NODES_PER_PAGE * NODE_SIZE) 0 m", "one node beyond the page", "pool: node outside its page", props=P)
m("O5", F, "node_alloc", "NM (page + NODE_SIZE) (npages nm ++ [page])", "NM page (npages nm ++ [page])", "first node handed out twice", "pool: two clients, one node", props=P)
m("O6", F, "node_free", "poke m node (nfree nm))", "m)", "not linked", "pool", props=P)
m("O7", F, "rec_alloc", "link_up (N.to_nat (rper r - 1)) free (rsize r) m", "link_up (N.to_nat (rper r - 1)) free 8 m", "wrong step", "pool: records overlap", props=P)
m("O8", F, "rec_alloc", "let free := blk + roundup LIST_SIZE in", "let free := blk in", "link of the block overwritten", "pool: record overlaps the block header", props=P)
m("O9", F, "rec_init", "(ALLOC_SIZE - roundup LIST_SIZE) / size)", "ALLOC_SIZE / size)", "header not subtracted", "pool: record beyond the block", props=P)
m("O10", F, "roundup", "(n + 7) / 8 * 8", "n / 8 * 8", "rounded down", "pool: records too small", props=P)
m("O11", F, "clear_node", "poke (poke (poke (poke m a 0) (a + 24) 0) (a + 8) 0) (a + 16) 0", "poke (poke (poke m (a + 24) 0) (a + 8) 0) (a + 16) 0", "link word not cleared", "pool: fresh node is clean", props=P)
# buddy allocator
F, P = "BuddyModel.v", ["PropsBuddy"]
m("U1", F, "Buddy", "N.lxor (b - base) (2 ^ hidx h)", "N.lxor (b - base) (2 ^ (hidx h + 1))", "wrong bit", "C44", props=P)
m("U2", F, "MergeAndFree", "negb (hused hb) && (hidx hb =? hidx h) then\n          obind (RemoveFromFreeList s bb) (fun s =>\n          let b", "negb (hused hb) then\n          obind (RemoveFromFreeList s bb) (fun s =>\n          let b", "split buddy merged", "C44: overlap", props=P)
m("U3", F, "MergeAndFree", "let b := if bb <? b then bb else b in", "", "upper half becomes the head", "C44: overlap", props=P)
m("U4", F, "TrimToSize", "let s := brand s bb (hidx h - 1) (hseg h) in", "let s := brand s bb (hidx h) (hseg h) in", "split-off half too large", "C44: overlap", props=P)
m("U5", F, "BlockSizeIndex", "CeilingLog2 (size + HEADER)", "CeilingLog2 size", "header forgotten", "C44: block too small", props=P)
m("U6", F, "grow", "(b <? bb) && negb (hused hb)", "negb (hused hb)", "grows downwards", "C44: overlap", props=P)
m("U7", F, "ResizeBlock", "if k <=? hidx h then", "if hidx h <=? k then", "comparison reversed", "C44: block too small", props=P)
m("U8", F, "RemoveFromFreeList", "Ok (if avl s i =? b then with_avl s i (hnext h) else s)", "Ok s", "list head not advanced", "C44: block handed out twice", props=P)
m("U9", F, "AddToFreeList", "(fun s => wr s b (sused false)))", "(fun s => Ok s))", "not marked free", "C44: double free unnoticed", props=P)
m("U10", F, "carve", "with_sg s (cur s) base (limit + one)", "with_sg s (cur s) base (limit + size)", "limit too far", "C44: block outside the segment", props=P)
m("U11", F, "FreeBlock", "if negb (hused h) then Fatal else if MAXIDX <? hidx h then Fatal else MergeAndFree 64 s b", "MergeAndFree 64 s b", "double free not detected", "C44: double free", props=P)
# printing
F, P = "PrintModel.v", ["PropsPrint"]
m("R1", F, "widths", "tot + c)", "tot + 1)", "levels counted", "C49: total", props=P)
m("R2", F, "print_aux", "((5%Z, lc n), lc n)", "((5%Z, 0), 0)", "leaf not counted", "C49: total", props=P)
m("R3", F, "levels", "if lc i =? 0 then []", "if lc i =? 1 then []", "wrong levels left out", "C49: levels", props=P)
m("R4", F, "line", "charsZ \"#\"%char (Z.of_N (c / scale))", "charsZ \"#\"%char (Z.of_N c)", "not scaled", "C49: bars", props=P)
m("R5", F, "var_name", "String.append \"var.\" (dec_of index)", "String.append \"var.\" (dec_of id)", "id instead of index", "C49: names", props=P)
m("R6", F, "gc_check", "if gcmode x =? 0 then x\n  else", "", "mode ignored", "C52", props=P)
# algorithms
A = ["PropsCompose", "PropsSwap", "PropsApi"]
F = "ComposeModel.v"
m("V1", F, "compose_req", "opite o di en h (thenof (mem (st en)) f) (elseof (mem (st en)) f)", "opite o di en h (elseof (mem (st en)) f) (thenof (mem (st en)) f)", "cofactors swapped", "C13", props=A)
m("V2", F, "compose_req", "if gi <? eidx o f then (f, en)", "if gi <=? eidx o f then (f, en)", "variable itself not replaced", "C13", props=A)
m("V3", F, "cal_compose", "if isconst G then Ok (f, uinc m1 f)", "if isconst G then Ok (f, m1)", "result not counted", "C13/C26", props=A)
m("V4", F, "composeBF", "(r', set_st en4 (free_node (st en4) 0 a))", "(r', en4)", "list node not given back", "C27: leak", props=A)
F, A = "CofactorModel.v", ["PropsCofactor", "PropsReduce", "PropsApi"]
m("V5", F, "tcofactor", "Some (if eneg c then bnull else f)", "Some f", "empty care set not noticed", "C17", props=A)
m("V6", F, "cofreduce1", "if isbnull (ct c) then forward (fwd (mem s) (ce c))", "if isbnull (ct c) then forward (fwd (mem s) (ct c))", "null result propagated", "C17", props=A)
m("V7", F, "cofreduce1", "addref s r (Z.of_N (cr c) - 1)", "addref s r (Z.of_N (cr c))", "one reference too many", "C27: leak", props=A)
m("V8", F, "cofactorBF", "if isconst c && eneg c then (one, en)", "if isconst c && eneg c then (zero, en)", "zero on the empty care set", "C17: documented value", props=A)
F = "ReduceOpModel.v"
m("V9", F, "pull1", "addref (st en1) r 2", "addref (st en1) r 1", "one reference missing", "C26: freed too early", props=A)
m("V10", F, "cal_reduce", "if nh <? nf then Ok (h, m4) else cal_identity (udec m4 h) f", "if nf <? nh then Ok (h, m4) else cal_identity (udec m4 h) f", "larger result returned", "C18: never larger", props=A)
m("V11", F, "cal_between", "(enot (uint (mmem m1) fmax))", "(uint (mmem m1) fmax)", "wrong care set", "C19", props=A)
m("V12", F, "cal_reduce", "cal_identity (udec m4 h) f)))).", "cal_identity m4 f)))).", "temporary result not released", "C27: leak", props=A)
F, A = "SubstModel.v", ["PropsSubst", "PropsApi"]
m("V13", F, "subst_req", "(Z.of_N (eidx o f) <=? last)%Z", "(Z.of_N (eidx o f) <? last)%Z", "last associated variable left alone", "C14", props=A)
m("V14", F, "direct", "vs && (eidx o h <? eidx o t) && (eidx o h <? eidx o e)", "vs && (eidx o h <? eidx o t)", "else child not looked at", "C15: order of the nodes", props=A)
m("V15", F, "svar", "Some h => h | None => vb i", "Some h => vb i | None => vb i", "variable kept", "C14", props=A)
m("V16", F, "cal_varsubstitute", "(OP_VAR_SUBSTITUTE + j, m1)", "(OP_VAR_SUBSTITUTE, m1)", "association missing from the key", "C30: stale entry", props=A)
m("V17", F, "cal_varsubstitute", "(mtop m1, set_mtop m1 (pred16 (mtop m1)))", "(mtop m1, m1)", "same key for every temporary association", "C30: stale entry", props=A)
m("V18", F, "sfinish", "addref (dcr (dcr s (fwd (mem s) (ct c))) (fwd (mem s) (ce c))) r", "addref (dcr s (fwd (mem s) (ct c))) r", "else reference kept", "C27: leak", props=A)
F, A = "SwapModel.v", ["PropsSwap", "PropsApi"]
m("V19", F, "swap_req", "eidx o f <=? hi", "eidx o f <? hi", "requests at the lower variable dropped", "C16", props=A)
m("V20", F, "swap_node", "if found then s1 else icr (icr s1 t) e", "s1", "children not counted", "C26", props=A)
m("V21", F, "swap1", "expand (fun en => swap_two true en ft fe) (fun en => swap_two false en ft fe) en a", "expand (fun en => swap_two false en ft fe) (fun en => swap_two true en ft fe) en a", "phases swapped", "C16", props=A)
m("V22", F, "cal_swapvars", "if eidx (mo m1) H <? eidx (mo m1) G then (H, G) else (G, H)", "(G, H)", "not ordered", "C16", props=A)
F, A = "PipeModel.v", ["PropsPipe", "PropsApi"]
m("V23", F, "opdepth", "S (N.to_nat (cr (mm (eptr e))))", "N.to_nat (cr (mm (eptr e)))", "same level as its operand", "C40", props=A)
m("V24", F, "cal_pipeline_create", "Nat.max (opdepth (mmem m) p F) (opdepth (mmem m) p G)", "opdepth (mmem m) p F", "second operand ignored", "C40", props=A)
m("V25", F, "exec_loop", "(set_st en1 (lock_results (st en1) (concat lists)))", "en1", "results not locked", "C40: collected in between", props=A)
m("V26", F, "cal_pipeline_update", "ephase (ct (mmem m (eptr e))) (eneg e)", "ct (mmem m (eptr e))", "complement lost", "C40", props=A)
m("V27", F, "cal_pipeline_quit", "let s2 := free_all s1 (pus p) in", "let s2 := s1 in", "user nodes not given back", "C40: leak", props=A)
m("V28", F, "cal_pipeline_create", "if Nat.leb MAX_INSERT d then", "if false then", "limit not checked", "C40: array overrun", props=A)
F, A = "DumpModel.v", ["PropsDump", "PropsApi"]
m("V29", F, "number_shared", "if mk (eptr f) =? 2 then ((f, next) :: h, (next + 1)%Z)", "if mk (eptr f) =? 2 then ((f, next) :: h, next)", "numbers not distinct", "C37", props=A)
m("V30", F, "dump_step", "(if negated then C_NEGNODE else C_POSNODE)", "C_POSNODE", "complement lost", "C37", props=A)
m("V31", F, "undump_step", "Res (Some (if c =? C_POSVAR then v else enot v)) s3", "Res (Some v) s3", "complement lost", "C37", props=A)
m("V32", F, "undump_step", "if ns <=? j then Overrun", "if ns <? j then Overrun", "bound not checked by the model", "C39: undefined behaviour hidden", props=A)
m("V33", F, "cal_undump", "if (us_err s =? 0) && negb (us_n s =? ns) then E_FORMAT else us_err s", "us_err s", "missing shared nodes accepted", "C39", props=A)
m("V34", F, "cal_undump", "let en := release (us_en s) (us_sh s) in", "let en := us_en s in", "shared nodes stay counted", "C27: leak", props=A)
m("V35", F, "cal_undump", "if negb (nv =? N.of_nat (length vars)) then Ok (UD unull E_FORMAT i2, m1)\n              else", "", "number of variables not checked", "C39", props=A)
m("V36", F, "dump_bytes", "bytes_needed (nv + 1) in\n  match mark_shared", "bytes_needed nv in\n  match mark_shared", "no room for the escape code", "C37", props=A)
F, A = "ReorderModel.v", ["PropsReorder", "PropsApi"]
m("V37", F, "exchange_aux", "dunique s i f10 f00", "dunique s i f00 f10", "cofactors swapped", "C33", props=A)
m("V38", F, "exchange_aux", "let s6 := if found0 then s5 else dicr (dicr s5 f00) f10 in", "let s6 := s5 in", "children of a new node not counted", "C33/C26", props=A)
m("V39", F, "exchange_aux", "ddcr (ddcr s7 f0) f1", "ddcr s7 f0", "old child still counted", "C27: leak", props=A)
m("V40", F, "touches", "(did (dm s (fst (de (dm s a)))) =? j) || (did (dm s (fst (dt (dm s a)))) =? j)", "did (dm s (fst (dt (dm s a)))) =? j", "else child not looked at", "C33", props=A)
m("V41", F, "fixup_assoc", "A (aid a) (amap a) (alast a + 1)%Z (arc a)", "a", "last index not moved", "C36/C33", props=A)
m("V42", F, "reorder", "(fun _ => None)\n    (map (fix_assoc", "(mca m)\n    (map (fix_assoc", "computed table kept", "C30/C33", props=A)
m("V43", F, "fix_user1", "DN (did c) (drc c) (dfwd (dm s) (dt c)) (de c))", "DN (did c) (drc c) (dt c) (de c))", "handles keep the old addresses", "C33", props=A)
m("V44", F, "swap_order", "idx := upd (upd (idx o) i (k + 1)) j k", "idx := upd (idx o) i (k + 1)", "one index not updated", "C32/C33", props=A)
m("V45", F, "dunique", "dfindadd s i (dnot t) (dnot e) in ((a, true)", "dfindadd s i (dnot t) e in ((a, true)", "else edge not complemented", "C33", props=A)
m("V46", F, "interacts", "existsb (N.eqb i) l && existsb (N.eqb j) l", "false", "no variables interact", "C33", props=A)
json.dump(L, open(os.path.join(os.path.dirname(os.path.abspath(__file__)), "..", "seeded", "round2.json"), "w"), indent=1)
for x in L:
    s = open("/verif/rocq/theories/" + x["file"]).read()
    if s.count(x["old"]) != x["count"]: print("BAD", x["id"], s.count(x["old"]))
print(len(L))
