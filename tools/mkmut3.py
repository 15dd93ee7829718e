#!/usr/bin/env python3
"""Third list of wrong programs -> seeded/round3.json (see mutate.py): compaction, breadth-first quantification."""
import json, os
L = []
def m(id, file, definition, old, new, edit, claim, count=1, props=None):
    x = dict(id=id, file=file, definition=definition, old=old, new=new, edit=edit, claim=claim, count=count)
    if props: x["props"] = props
    L.append(x)
F, P = "PackModel.v", ["PropsPack"]
m("K1", F, "required", "count (ut s i) / npp p + 1.", "count (ut s i) / npp p.", "one page too few", "C53: no free cell for a moved node", props=P)
m("K2", F, "pack_keep", "(upd m a (fixc m a), a :: T, F)", "(m, a :: T, F)", "edges of nodes that stay not updated", "C53: dangling edges", props=P)
m("K3", F, "pack_move", "upd m n (fixc m a)", "upd m n (m a)", "edges of moved nodes not updated", "C53: dangling edges", props=P)
m("K4", F, "pack_move", "Ok (upd m1 a (C (E i n false) efwd (cr (m a))), n :: T, F')", "Ok (m1, n :: T, F')", "no forwarding left behind", "C53: edges to the old place", props=P)
m("K5", F, "pack_move", "n :: T, F')\n", "n :: T, F)\n", "cell not taken off the free list", "C53: two nodes in one cell", props=P)
m("K6", F, "pack_move", "n :: T, F')\n", "T, F')\n", "moved node not entered in the table", "C53: node lost", props=P)
m("K7", F, "pack_var", "Ok (if b then fix_table s i else s, b)", "Ok (s, b)", "tables that are not packed are not updated", "C53: dangling edges", props=P)
m("K8", F, "pack_vars", "(rev (ord o))", "(ord o)", "variables from the top down", "C53: edges updated before the nodes move", props=P)
m("K9", F, "fix_user", "C (fwd m (ct c)) (ce c) (cr c)", "C (ct c) (ce c) (cr c)", "handles not updated", "C53: handles dangle", props=P)
m("K10", F, "repack", "(map (fix_images (mem s)) (massoc m))", "(massoc m)", "associations not updated", "C53: images dangle", props=P)
m("K11", F, "repack", "(fix_images (mem s) (mtemp m))", "(mtemp m)", "temporary association not updated", "C53: images dangle", props=P)
m("K12", F, "repack", "(fix_cache (mem s) (mca m))", "(mca m)", "computed table not updated", "C53/C30: stale entries", props=P)
m("K13", F, "fix_entry", "(fwd m (cres e))", "(cres e)", "results in the computed table not updated", "C53/C30: stale result", props=P)
m("K14", F, "needs", "(3 <? pages p s i) &&", "(5 <? pages p s i) &&", "other threshold for the number of pages", "C53: thin tables stay", props=P)
m("K15", F, "pack_keep", "else (m, T, a :: F)", "else (m, T, F)", "free cells forgotten", "C53: no room for moved nodes", props=P)
m("K16", F, "pack_table", "fl := upd (fl s) i F;", "fl := fl s;", "old free list kept", "C53: cells both free and used", props=P)
m("K17", F, "fixc", "(fwd m (ce c)) (cr c)", "(ce c) (cr c)", "else edge not updated", "C53: dangling else edges", props=P)
m("K19", F, "gc_repack", "Ok (set_gclimit m')", "Ok m'", "limit not recomputed", "C42", props=["PropsPack", "PropsApi"])
F, P = "QuantBFModel.v", ["PropsQuant"]
m("G1", F, "norreq", "request en 0 (minid2 o (enot f) (enot g)) (enot f) (enot g)", "request en 0 (minid2 o f g) f g", "operands of NAND not complemented", "C10/C11: disjunction of negations", props=P)
m("G2", F, "norreq", "tcase op_or (fst p) (snd p)", "tcase op_and (fst p) (snd p)", "terminal cases of AND", "C10/C11", props=P)
m("G3", F, "qstep", "if isone t then", "if isone (enot t) then", "finished when the then side is zero", "C10/C11: else side dropped", props=P)
m("G4", F, "qfinish", "addref (st en) r (Z.of_N (cr (mem (st en) a)))", "st en", "references of the request not passed on", "C26/C10: result without references", props=P)
m("G5", F, "qreduce", "(fwd m (ct (m (fst q))), snd q)", "(ct (m (fst q)), snd q)", "then result not forwarded", "C10/C11", props=P)
m("G6", F, "qreduce", "fold_left (qfinish d i) (combine (map fst qs) rs)", "fold_left (qfinish d i) (combine pd rs)", "results matched with requests in the wrong order", "C10/C11: results exchanged", props=P)
m("G7", F, "exreq", "(last <? Z.of_N (eidx o f))%Z then (f, en)", "(last <=? Z.of_N (eidx o f))%Z then (f, en)", "stops at the last quantified variable", "C10: last variable stays", props=P)
m("G8", F, "exists1", "C r fe (cr (mem (st en1) a))", "C r ft (cr (mem (st en1) a))", "then cofactor kept for the else side", "C10", props=P)
m("G9", F, "exists1", "exreq (set_st en1 s2) fe", "exreq (set_st en1 s2) ft", "then cofactor requested twice", "C10", props=P)
m("G10", F, "exists1", "let s3 := icr (st en2) r0 in", "let s3 := st en2 in", "else result not counted", "C26/C10", count=2, props=P)
m("G11", F, "existB", "if quantified mp i then qreduce (fun m a => ce (m a)) (existB l') 0 i en'", "if negb (quantified mp i) then qreduce (fun m a => ce (m a)) (existB l') 0 i en'", "quantified and kept variables exchanged", "C10", props=P)
m("G12", F, "rpreq", "let '(r, en1) := request en 0 (minid2 o f g) f g in (enot r, en1)", "request en 0 (minid2 o f g) f g", "NAND taken for AND", "C11", props=P)
m("G13", F, "rpreq", "(last <? Z.of_N (minindex2 o f g))%Z", "(last <? Z.of_N (eidx o f))%Z", "only the first operand decides whether anything is quantified below", "C11", props=P)
m("G14", F, "relprod1", "put s1 p (C fxb gxb 0)", "put s1 p (C fxb gx 0)", "wrong cofactor kept for the else side", "C11", props=P)
m("G15", F, "relprodB", "relprod_table (apply_table enum o op_nand en 0 i) i", "relprod_table en i", "NAND requests are not applied", "C11", props=P)
m("G16", F, "exists_bf", "cache_insert slot op f one r c", "cache_insert slot op r one f c", "argument and result exchanged in the computed table", "C30/C10", props=["PropsQuant", "PropsApi"])
m("G17", F, "relprod_bf", "(skipn (N.to_nat (minindex2 o f g)) (ord o))", "(skipn (N.to_nat (eidx o f)) (ord o))", "tables above the second operand skipped", "C11", props=P)
F = "QuantApiModel.v"
m("G18", F, "quantify", "(ephase r neg))", "r)", "result of ForAll not complemented", "C10", props=P)
m("G19", F, "quantify", "(mtop m1, set_mtop m1 (pred16 (mtop m1)))", "(mtop m1, m1)", "operation code of a temporary association used again", "C30/C10: stale results", props=P)
m("G20", F, "quantify", "Some j => (OP_QUANT + j, m1)", "Some j => (OP_REL_PROD + j, m1)", "operation code of the relational product", "C30: clashes", props=P)
m("G21", F, "cal_relprod", "(OP_REL_PROD + j, OP_QUANT + j, m1)", "(OP_REL_PROD + j, OP_REL_PROD + j, m1)", "one code for both operations", "C30: clashes", props=P)
json.dump(L, open(os.path.join(os.path.dirname(__file__), "..", "seeded", "round3.json"), "w"), indent=1)
for x in L:
    s = open(os.path.join(os.path.dirname(__file__), "..", "rocq", "theories", x["file"])).read()
    if s.count(x["old"]) != x["count"]: print(x["id"], s.count(x["old"]))
