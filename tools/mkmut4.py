#!/usr/bin/env python3
"""Fourth list of wrong programs -> seeded/round4.json (see mutate.py): ranges of C++ objects, printed text."""
import json, os
L = []
def m(id, file, definition, old, new, edit, claim, count=1, props=None):
    x = dict(id=id, file=file, definition=definition, old=old, new=new, edit=edit, claim=claim, count=count)
    if props: x["props"] = props
    L.append(x)
F, P = "RangeModel.v", ["PropsRange"]
m("RG1", F, "elements", "OfBdds l => (unfree_all m l, l)", "OfBdds l => (m, l)", "elements not counted again", "C54: counts drop with each call", props=P)
m("RG2", F, "over", "Ok (x, free_all m2 v)", "Ok (x, m2)", "temporaries never released", "C54: leak", props=P)
m("RG3", F, "over", "Ok (x, free_all m2 v)", "Ok (x, free_all m2 (tl v))", "first temporary not released", "C54: leak", props=P)
m("RG4", F, "over", "let v := hs ++ [unull] in", "let v := hs in", "no null at the end of the vector", "C54: the C function reads past the end (the model of the C function takes a list, so only the unconditional release of the final null changes)", props=P)
m("RG5", F, "range_or", "Definition range_or enum := range_multiway enum op_or.", "Definition range_or enum := range_multiway enum op_xor.", "parity taken for disjunction", "C54", props=P)
m("RG6", F, "to_id", "z mod 65536", "z mod 256", "identifiers narrowed to 8 bits", "C54: wrong variables", props=P)
m("RG7", F, "variables", "cal_var_with_id m (to_id z)", "cal_var_with_id m (to_id (z + 1))", "identifiers off by one", "C54: wrong variables", props=P)
m("RG8", F, "variables", "(m2, h :: hs)", "(m2, hs ++ [h])", "identifiers in reverse order", "C54: order of operands (harmless for the symmetric operations on ranges of identifiers)", props=P)
m("RG9", F, "unfree_all", "fold_left bdd_unfree l m", "fold_left bdd_unfree (tl l) m", "first element not counted", "C54: count of the first element drops", props=P)
m("RG10", F, "from_c_array", "| [] => Undefined", "| [] => Ok (res, m)", "stops at the end of the array", "C54: the pairwise operations would work", props=P)
m("RG11", F, "range_assoc_init", "cal_assoc_init ds m1 v pr).", "cal_assoc_init ds m1 v (negb pr)).", "pairs and single variables exchanged", "C54: associations", props=P)
m("RG12", F, "range_temp_augment", "cal_temp_augment ds m1 v pr", "cal_temp_init ds m1 v pr", "the temporary association is replaced", "C54: associations", props=P)
m("RG13", F, "range_multiway", "over m r (multiway enum op ds).", "over m r (fun m1 v => multiway enum op ds m1 (tl v)).", "first element skipped", "C54", props=P)
F, P = "BddPrintModel.v", ["PropsBddPrint"]
m("T1", F, "print_step", "Some ([PL ind (Leaf true v)], h)", "Some ([PL ind (Leaf false v)], h)", "sign of a negated variable lost", "C55", props=P)
m("T2", F, "print_step", "(Refer negated (match", "(Refer false (match", "sign of a reference lost", "C55", props=P)
m("T3", F, "print_step", "(true, enot f) | None => (false, f) end in", "(true, f) | None => (false, f) end in", "node of the other sign not used", "C55", props=P)
m("T4", F, "print_step", "Some z => Z.to_N (- z - 1) | None => 0 end", "Some z => Z.to_N (- z) | None => 0 end", "label of a reference off by one", "C55: references to other parts", props=P)
m("T5", F, "print_step", "Some z => update1 h g (- z - 1)%Z | None => h end in", "Some z => update1 h g (- z)%Z | None => h end in", "label 0 never marked as printed", "C55: labels given twice", props=P)
m("T6", F, "print_step", "(ind + 2) h1 (elseof m g)", "(ind + 2) h1 (elseof m f)", "else cofactor of the unadjusted edge", "C55", props=P)
m("T7", F, "print_step", "(ind + 2) h1 (elseof m g)", "(ind + 2) h0 (elseof m g)", "labels printed in the then part forgotten", "C55: labels given twice", props=P)
m("T8", F, "print_step", "(PL ind (Otherwise v) :: l2)", "(PL (ind + 2) (Otherwise v) :: l2)", "middle line indented like the parts", "C55: layout", props=P)
m("T9", F, "print_step", "++ [PL ind (Done v)], h2)", ", h2)", "last line of a branching missing", "C55: where a part ends", props=P)
m("T10", F, "print_step", "var_name naming (eid f) (idx o (eid f))", "var_name naming (eid f) (eid f)", "default name from the number of the variable", "C55: default names are by position", props=P)
m("T11", F, "term_word", 'if b then "1" else "0" end', 'if b then "0" else "1" end', "constants exchanged", "C55", props=P)
m("T12", F, "cal_print_bdd", "naming tid 0 h F))", "naming tid 0 [] F))", "labels not used", "C55: text grows, still correct (shared parts are printed again)", props=P)
m("T13", F, "letter", "(97 + id - 1) mod 256", "(97 + id) mod 256", "letters off by one", "C55: letters", props=P)
m("T14", F, "fprint", "(Plus :: Neg c :: e)", "(Plus :: Neg c :: t)", "then part printed twice", "C55", props=P)
m("T15", F, "fprint", "if iszero f then Some [Open; Bit false; Close]", "if iszero f then Some [Open; Bit true; Close]", "constant zero printed as 1", "C55", props=P)
m("T16", F, "cal_function_print", "if uisnull f then Undefined else", "if uisnull f then Ok [] else", "null handle tested", "C55_null_refuted", props=P)
m("T17", F, "print_step", "Some z => Some (Z.to_N z) | None => None end) v)", "Some z => None | None => None end) v)", "labels not printed", "C55: references to nothing", props=P)
F, P = "DumpModel.v", ["PropsBddPrint", "PropsDump"]
m("T18", F, "mark_shared", "let f := if eneg f then enot f else f in\n      if isconst f || (type_aux m f =? TYPE_POSVAR)", "if isconst f || (type_aux m f =? TYPE_POSVAR)", "negative edges not made positive", "C55: negated variables are marked", props=P)
m("T19", F, "number_shared", "(upd mk (eptr f) 0) h1 next1", "mk h1 next1", "marks not removed", "C55: marks stay, nodes numbered several times", props=P)
m("T20", F, "number_shared", "((f, next) :: h, (next + 1)%Z)", "((f, next) :: h, next)", "all labels the same", "C55/C37", props=P)
m("T21", F, "mark_shared", "Some (upd mk (eptr f) 2)", "Some mk", "no node is ever marked as shared", "C55/C37: output grows, still correct", props=P)
json.dump(L, open(os.path.join(os.path.dirname(__file__), "..", "seeded", "round4.json"), "w"), indent=1)
print(len(L))
