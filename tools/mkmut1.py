#!/usr/bin/env python3
"""First list of mutations, written to seeded/round1.json."""
import json, os
L = []
def m(id, file, definition, old, new, edit, claim, count=1):
    L.append(dict(id=id, file=file, definition=definition, old=old, new=new, edit=edit, claim=claim, count=count))
# quantification
Q = "QuantModel.v"
m("Q1", Q, "exists_df", "(last <? Z.of_N (idx o (eid f)))%Z then Some (f, s, c)", "(last <=? Z.of_N (idx o (eid f)))%Z then Some (f, s, c)", "stop at the last associated variable instead of below it", "C10: the lowest associated variable is not quantified")
m("Q2", Q, "exists_df", "if quantified i && isone t1 then Some (t1, s1, cache_insert op f one t1 c1)", "if isone t1 then Some (t1, s1, cache_insert op f one t1 c1)", "short cut taken for variables that are not quantified too", "C10")
m("Q3", Q, "join", "nand_df (depth o) s c (enot t1) (enot t0)", "nand_df (depth o) s c t1 t0", "operands of the NAND not complemented", "C10, C11")
m("Q4", Q, "relprod_df", "match cache_lookup op f g c with\n          | Some r => Some (r, s, c)\n          | None =>\n              let i := minid2 o f g in\n              let '(f1, f0) := cofac (mem s) f i in\n              let '(g1, g0) := cofac (mem s) g i in\n              match relprod_df", "match cache_lookup qop f g c with\n          | Some r => Some (r, s, c)\n          | None =>\n              let i := minid2 o f g in\n              let '(f1, f0) := cofac (mem s) f i in\n              let '(g1, g0) := cofac (mem s) g i in\n              match relprod_df", "relational product looked up under the code of the quantification", "C11, C30: an entry of Exists for (f, one) is not confused, but the codes are mixed")
m("Q5", Q, "cal_relprod", "(mtop m1, pred16 (mtop m1), set_mtop m1 (pred16 (pred16 (mtop m1))))", "(mtop m1, mtop m1, set_mtop m1 (pred16 (mtop m1)))", "one temporary code for the product and its quantifications", "C30: entries (f, one) and products share a code (still correct as the product with one is the quantification)")
m("Q6", Q, "quantify", "None => (mtop m1, set_mtop m1 (pred16 (mtop m1)))", "None => (mtop m1, m1)", "temporary code not used up", "C12, C30: results of another temporary association are reused")
m("Q7", Q, "quantify", "Ok (finish d2 (set_mca (set_mst m2 s) c) (ephase r neg))", "Ok (finish d2 (set_mca (set_mst m2 s) c) r)", "result of ForAll not complemented", "C10 for ForAll")
m("Q8", Q, "cache_lookup", "eeq (cf e) a && eeq (cg e) b && (cop e =? op)", "eeq (cf e) a && (cop e =? op)", "second operand not compared", "C11, C30")
m("Q9", Q, "relprod_case", "iszero f || iszero g || eeq f (enot g)", "iszero f || iszero g || sameptr f g", "equal operands treated like complementary ones", "C11")
m("Q10", Q, "mknode", "if found then s1 else icr (icr s1 t) e", "if found then s1 else icr s1 t", "else child of a new node not counted", "C10/C26: a live node may be collected")
m("Q11", Q, "cache_insert", "Some (CE op a b r false)", "Some (CE op f g r false)", "operands stored unsorted", "C30: only misses (performance), no wrong answer expected")
m("Q12", Q, "relprod_df", "(last <? Z.of_N (idx o (eid f)))%Z && (last <? Z.of_N (idx o (eid g)))%Z", "(last <? Z.of_N (idx o (eid f)))%Z || (last <? Z.of_N (idx o (eid g)))%Z", "NAND short cut when only one operand is below the association", "C11")
# associations
A = "AssocModel.v"
m("A1", A, "assoc_share", "A (aid p) (amap p) (alast p) (arc p + 1)", "A (aid p) (amap p) (alast p) (arc p)", "sharing does not count", "C35: the first release frees it")
m("A2", A, "cal_assoc_quit", "(flush_assoc id (mca m1))", "(mca m1)", "computed table not flushed when an association is released", "C30: a later association with the same id gets the old results")
m("A3", A, "quit_list", "if arc p =? 1 then", "if arc p =? 0 then", "released one too late", "C35 lifetime")
m("A4", A, "augment1", "match amap a (fst p) with Some e => dcr (st (me m)) e | None => st (me m) end", "st (me m)", "replaced image not released", "C27/C35: leaked reference")
m("A5", A, "cal_temp_quit", "(A (aid a) (fun i => if existsb (N.eqb i) (varids m) then None else amap a i) (-1) (arc a))", "(A (aid a) (fun i => if existsb (N.eqb i) (varids m) then None else amap a i) (alast a) (arc a))", "last index not reset", "C36")
m("A6", A, "cal_assoc_set_current", "then set_mcur m (Some j) else set_mcur m None", "then set_mcur m (Some j) else m", "unknown id leaves the current association", "C35 select")
m("A7", A, "check_pairs", "(type_aux mm (uint mm a) =? TYPE_POSVAR) && check_pairs mm l", "check_pairs mm l", "keys of pairs not checked", "C35 init: non-variables rejected")
m("A8", A, "cal_assoc_init", "let s := if pr then fold_left (fun s p => icr s (snd p)) ps (st (me m1)) else st (me m1) in", "let s := st (me m1) in", "images not counted", "C26: images can be collected")
m("A9", A, "last_put", "(last <? Z.of_N (idx o (fst p)))%Z", "(Z.of_N (idx o (fst p)) <? last)%Z", "smallest instead of largest index", "C36")
m("A10", A, "assoc_insert", "assoc_insert mk (i + 1) l' in (j, p :: r)", "assoc_insert mk i l' in (j, p :: r)", "id not advanced", "C35: two associations with one id")
# graph
G = "GraphModel.v"
m("G1", G, "satisfy_support_step", "if idx o (eid f) <=? idx o v then", "if idx o (eid f) <? idx o v then", "equal index falls into the other case", "C20")
m("G2", G, "iscube_step", "else if iszero (elseof m f) then iscube_step fuel m (thenof m f)", "else if iszero (elseof m f) then Some (Ok true)", "rest of the cube not examined", "C24")
m("G3", G, "type_aux", "else if iszero t && isone e then TYPE_NEGVAR", "else if iszero t then TYPE_NEGVAR", "negated variable recognised by its then child alone", "C25")
m("G4", G, "count_nodes", "(if N.testbit k 0 then 1 else 0) + (if N.testbit k 1 then 1 else 0)", "(if N.testbit k 0 then 1 else 0)", "complemented uses not counted", "C22")
m("G5", G, "size_step", "Some (c + (a + b), upd mk2 (eptr f) 0)", "Some (c + (a + b), mk2)", "marks not cleared", "C22: double counting and dirty marks")
m("G6", G, "profile_step", "(bump lc (idx o (eid f)) c) mk", "(bump lc (eid f) c) mk", "counted under the id instead of the index", "C22")
m("G7", G, "support_step", "let '(sup1, mk1) := if mk v then (sup, mk) else (sup ++ [eid f], upd mk v true) in", "let '(sup1, mk1) := (sup ++ [eid f], upd mk v true) in", "duplicates in the support", "C23")
m("G8", G, "depends_step", "if vi <? fi then Some (false, mk)", "if vi <=? fi then Some (false, mk)", "own index answered with no", "C23")
m("G9", G, "highest_ref", "Some (if (fi <? v)%Z then update1 h k fi else h)", "Some (if (v <? fi)%Z then update1 h k fi else h)", "lowest instead of highest reference", "C48")
m("G10", G, "sum_up", "else sum_up k (upd fc i 0%Z) acc", "else sum_up k (upd fc i acc) acc", "levels without nodes get the running sum", "C48")
m("G11", G, "mean", "rnd (rnd ((1 # 2) * a) + rnd ((1 # 2) * b))", "rnd (rnd ((1 # 2) * a) + rnd b)", "else branch not halved", "C21")
m("G12", G, "cal_size", "fueled (size_of negout (mo m1) (mmem m1) unmarked [F])", "fueled (size_of (negb negout) (mo m1) (mmem m1) unmarked [F])", "negout inverted", "C22")
m("G13", G, "cube_node", "(r, if found then s1 else icr s1 t)", "(r, s1)", "child of the cube node not counted", "C20/C26")
# words
B = "BitsModel.v"
m("W1", B, "w_icr", "W (wt w) (we w + 2) (N.ldiff (wn w) 15)", "W (wt w) (we w + 2) (wn w)", "low digit not reset on carry", "C28")
m("W2", B, "w_dcr", "else W (wt w) (we w - 2) (N.lor (wn w) 15)", "else W (wt w) (we w - 2) (wn w)", "borrow forgets the low digit", "C28")
m("W3", B, "w_addrc", "if c <? 255 then", "if c <=? 255 then", "saturated counts are changed", "C28")
m("W4", B, "w_hash", "N.land (((t + e) mod 2 ^ 64) / 32) (numBins - 1)", "N.land ((t + e) mod 2 ^ 64) (numBins - 1)", "not shifted", "C47: tags change the bin")
m("W5", B, "w_putmark", "N.ldiff (wt w) 12", "N.ldiff (wt w) 14", "mark clears a count bit", "C28 marks keep count")
m("W6", B, "transform", "Some (W64 - 1 - v1, r)", "Some (W64 - v1, r)", "carry lost", "C51")
m("K1", "CodecModel.v", "dwrite", "N.land (N.shiftr n (8 * N.of_nat k)) 255", "N.land (N.shiftr n (8 * N.of_nat k)) 127", "seven bits only", "C38")
m("K2", "CodecModel.v", "bytes_needed", "if n <=? 256 then", "if n <? 256 then", "one byte too many for 256", "C38 width least")
m("R1", "RandModel.v", "random", "(if s <? 1 then MODULUS1 - 1 else 0)", "(if s <? 0 then MODULUS1 - 1 else 0)", "zero not lifted", "C50: -1 returned")
m("R2", "RandModel.v", "LEQR2", "LEQR2 : Z := 3791", "LEQR2 : Z := 3971", "transposed digits", "C50 equals the reference generator")
# interface
P = "ApiModel.v"
m("P1", P, "postproc", "negb (mnl m1 =? 0) && (mnl m1 <? nn (st (me m1)))", "negb (mnl m1 =? 0) && (mnl m1 <=? nn (st (me m1)))", "overflow when the limit is reached, not exceeded", "C41: null only if the limit is exceeded")
m("P2", P, "cal_nodelimit", "  (mnl m, M (me m)", "  (l, M (me m)", "returns the new limit", "C42: the old limit is returned")
m("P3", P, "cal_overflow", "(mov m, set_mov m false)", "(mov m, m)", "flag not cleared", "C41: overflow test resets the flag")
m("P4", P, "finish", "if ov then (unull, gc (udec m2 h))", "if ov then (unull, gc m2)", "result not freed on overflow", "C27/C41: leak")
m("P5", P, "isect", "else let '(r, found, s3) := find_or_add s1 i t zero in\n                 Some (r, if found then s3 else icr s3 t)", "else let '(r, found, s3) := find_or_add s1 i t zero in\n                 Some (r, s3)", "child not counted", "C09/C26")
m("P6", P, "cal_newvar_after", "newvar_at m (idx (mo m) (eid F) + 1)", "newvar_at m (idx (mo m) (eid F))", "inserted before", "C32")
m("P7", P, "preproc", "else if existsb uisnull hs then Ok (false, m)", "else if forallb uisnull hs then Ok (false, m)", "one null operand goes unnoticed", "C41")
m("P8", P, "cal_not", "Ok (unot h, uinc m h)", "Ok (unot h, m)", "not counted", "C05/C26")
m("P9", P, "isect", "if sameptr f g then Some (if eeq f g then f else zero, s)", "if sameptr f g then Some (f, s)", "complementary operands", "C09")
m("P10", P, "cal_else", "Ok (ret m1 (elseof (mmem m1) F))", "Ok (ret m1 (thenof (mmem m1) F))", "swapped child", "C06")
m("P11", P, "postproc", "let m1 := set_gclimit (gc m) in", "let m1 := gc m in", "limit not recomputed", "C42 recomputed limit")
m("P12", P, "multiway", "| [h] => cal_identity m1 h", "| [h] => Ok (h, m1)", "single operand returned uncounted", "C08/C26")
# manager
R = "MgrModel.v"
m("M1", R, "gc_store", "fold_left gc_table (0 :: ord o) (s, [])", "fold_left gc_table (ord o ++ [0]) (s, [])", "user table collected last", "C27: dead nodes survive")
m("M2", R, "gc1", "if cr (mem s a) =? 0 then", "if cr (mem s a) <=? 1 then", "nodes with one reference collected", "C26")
m("M3", R, "cache_gc", "if mentions fr (cf e) || mentions fr (cg e) || mentions fr (cres e) then None", "if mentions fr (cf e) || mentions fr (cg e) then None", "dead results stay in the table", "C30")
m("M4", R, "assoc_shift", "(Z.of_N index <=? alast a)%Z", "(Z.of_N index <? alast a)%Z", "new variable at the last associated position", "C36")
m("M5", R, "order_insert", "(index <=? idx o j)", "(index <? idx o j)", "two variables with one index", "C32")
m("M6", R, "getext", "let s3 := if found then s2 else icr s2 e in", "let s3 := s2 in", "internal node not counted by its handle", "C26")
m("M7", R, "set_gclimit", "let l := if l <? 10000 then 10000 else l in", "", "lower bound dropped", "C42")
m("M8", R, "newvar", "put s1 a (C one zero MAXREF)", "put s1 a (C one zero 1)", "variable node can die", "C26")
# engine
E = "BFModel.v"
m("E1", E, "op_or", "then (if xorb (eneg F) (eneg G) then Some one else Some F)\n            else None;\n     bsem := orb", "then (if xorb (eneg F) (eneg G) then Some zero else Some F)\n            else None;\n     bsem := orb", "f or not f is zero", "C01")
m("E2", E, "reduce1", "addref s t (Z.of_N n - 2)", "addref s t (Z.of_N n - 1)", "one reference too many", "C27: leak")
m("E3", E, "reduce1", "addref (dcr (dcr s t) e) r (Z.of_N n)", "addref (dcr s t) r (Z.of_N n)", "else reference not released", "C27: leak")
m("E4", E, "minindex2", "if eidx F <? eidx G then eidx F else eidx G", "if eidx F <? eidx G then eidx G else eidx F", "larger index", "C01: requests above never processed")
m("E5", E, "cofactors2", "else ((F, F), (thenof m G, elseof m G))", "else ((F, F), (elseof m G, thenof m G))", "children swapped", "C01")
m("E6", "ITEModel.v", "ite_subst", "if sameptr f h then (if xorb (eneg f) (eneg h) then one else zero) else h", "if sameptr f h then (if xorb (eneg f) (eneg h) then zero else one) else h", "else operand equal to the condition", "C02")
m("E7", E, "pair_nodes", "(put s1 a (C (E 0 x false) l 0), a :: acc, None)", "(put s1 a (C (E 0 x false) l 0), a :: acc, last)", "left-over operand used twice", "C08 (xor)")
json.dump(L, open(os.path.join(os.path.dirname(os.path.abspath(__file__)), "..", "seeded", "round1.json"), "w"), indent=1)
for x in L:
    s = open("/verif/rocq/theories/" + x["file"]).read()
    if s.count(x["old"]) != x["count"]: print("BAD", x["id"], s.count(x["old"]))
print(len(L))
