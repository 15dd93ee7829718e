#!/usr/bin/env python3
"""Regenerates MANIFEST.json from the table below."""
import json, os
here = os.path.dirname(os.path.abspath(__file__))
claims = []
def c(prop, status, theorems, note):
    claims.append({"property": prop, "status": status, "theorems": theorems.split(), "note": note})

c("C01", "proved", "C01_binary_operators C01_handles_have_meaning", "All six operators, for every reachable world; null only with the overflow flag set and a node limit in force.")
c("C02", "proved", "C02_if_then_else", "")
c("C03", "proved", "C03_equal_handles_equal_functions", "")
c("C04", "proved", "C04_other_handles_undisturbed", "For every modelled interface call (relation step).")
c("C05", "proved", "C05_negation C05_constants C05_constant_tests C05_identity", "")
c("C06", "proved", "C06_shannon_expansion C06_expansion_and_independence C06_on_constants_refuted", "Proved for every non-constant handle; on constants the calls are undefined (finding).")
c("C07", "partial", "C07_pairwise_partial C07_pairwise_refuted", "Proved when the last pair that needs work has the topmost variable; false in general (counterexample).")
c("C08", "proved", "C08_multiway", "Up to the library's limit of 1024 operands.")
c("C09", "proved", "C09_intersects_and_implies", "")
c("C10", "partial", "C10_exists_partial C10_forall_partial C10_current_has_meaning", "For managers of any size (depth-first routines, and breadth-first ones above 2^19 nodes). With the temporary association current it needs operation codes left for it; without, see C12_refuted. With another association current that condition is void.")
c("C11", "partial", "C11_relational_product_partial C11_null", "As C10.")
c("C12", "partial", "C12_history_partial C12_refuted", "False in general: the 16-bit operation codes of the temporary association come round after 65535 uses and a stale result is returned. Proved while codes remain.")
c("C20", "proved", "C20_satisfy C20_satisfy_support", "For zero the call returns zero.")
c("C21", "proved", "C21_satisfying_fraction", "Exact up to 53 variables, error at most 3n/2^54 for n variables, for every rounding as in SpecRound.v.")
c("C22", "proved", "C22_size C22_size_counts_nodes C22_profile C22_size_multiple C22_profile_multiple C22_numbers_are_unique", "Counted as distinct subfunctions; marks are clear afterwards.")
c("C23", "proved", "C23_support C23_depends_on C23_constant_operand", "DependsOn for variables and negated variables; a constant second operand is answered with yes.")
c("C24", "partial", "C24_iscube C24_zero_refuted", "Proved for every function but zero, on which the program exits.")
c("C25", "proved", "C25_type C25_type_of_null", "")
c("C48", "proved", "C48_function_profile C48_last_entry", "")
c("C26", "proved", "C26_collection_keeps_functions C26_collection_keeps_associations C26_after_collection_reachable", "")
c("C27", "proved", "C27_collection_is_complete", "")
c("C29", "proved", "C29_reference_counts C29_no_dangling C29_objects_undisturbed C29_program_is_client C29_no_leak C29_no_handle_left C29_copy_assignment C29_move_assignment C29_self_move_loses_value",
  "For every sequence of constructions, copies, moves, assignments, destructions and C calls on one manager; counts saturate at 255. Self move-assignment leaks nothing but loses the value.")
c("C30", "partial", "C30_remembered_results_partial C30_remembered_substitutions_partial", "For all users of the table. Needs operation codes left for the temporary association (see C12); the entries of intermediate requests of the breadth-first routines are not modelled.")
c("C32", "proved", "C32_order_is_a_permutation C32_new_variable_position", "")
c("C35", "proved", "C35_init C35_lifetime C35_every_world_has_holdings C35_kept C35_select C35_temporary C35_current_refuted C35_duplicate_refuted", "For lists without constants (plain lists) and with distinct variables (pairs).  Giving up one of several holds of the current association deselects it, and a variable listed twice leaks a reference: both shown by counterexample.")
c("C36", "partial", "C36_last_index_partial C36_constant_refuted", "For all sequences of modelled calls, including variable creation and depth-first reordering (under the condition of C33).  False when a constant is put into a plain association.")
c("C33", "partial", "C33_reorder_partial C33_association_refuted C33_saturated_refuted", "Depth-first method: conversion, exchanges guided by the interaction matrix, reallocation, conversion back.  For any sequence of exchanges, when variables that occur together in an association image or below a saturated node also occur together in an owned handle.  Without that condition the code damages images: two refutations.  The breadth-first method is C56.")
c("C41", "partial", "C41_null_operands C41_overflow_keeps_handles C41_null_refuted", "Binary operations, ITE, Intersects/Implies, If/Then/Else; Identity, Not and Free dereference a null handle.")
c("C42", "partial", "C42_limit_partial C42_recomputed_limit C42_check C42_node_limit C42_limit_refuted", "Upper bound always; lower bound after every recomputation, refuted in between (lifting a node limit).")
c("C28", "proved", "C28_packed_count_is_a_counter C28_saturated_count_is_permanent C28_tests_read_the_count C28_put_get C28_pointer_updates_keep_count C28_marks_keep_count C28_two_bit_marks C28_links_keep_count",
  "For every node content and every history of increments, decrements and additions.")
c("C38", "proved", "C38_read_back C38_width_suffices C38_width_least C38_variables_are_not_codes C38_codes_read_back",
  "For every width and number; index counts below 2^16 as the index type is 16 bits wide.")
c("C47", "proved", "C47_hash_in_table C47_hash_ignores_tags C47_ceiling_log", "")
c("C50", "partial", "C50_random_partial C50_unseeded C50_random_refuted C50_seed_overflow_refuted",
  "Proved for every seed of absolute value below 2147483399; refuted for larger seeds (documented range violated, then an index outside the table).")
c("C51", "partial", "C51_transform_negates_partial C51_transform_defined C51_transform_defined_refuted",
  "Proved for every pair of words on which the C code is defined; negation of 2^63 as a signed word overflows.")
c("C43", "proved", "C43_blocks_are_ranges C43_well_nested C43_children_cover C43_search C43_new_variable C43_new_block C43_exchange C43_exchange_keeps_order",
  "For every sequence of variable creations, block creations and exchanges of neighbouring blocks.")
c("C46", "partial", "C46_recorded_pairs_partial C46_interaction_of_roots_partial C46_refuted",
  "Proved for at most 46341 variables; with more the size computation overflows an int (refuted).")
c("C34", "proved", "C34_windows_breadth_first C34_sift_breadth_first C34_windows_depth_first C34_sift_depth_first C34_one_window C34_one_item",
  "The number of nodes is an arbitrary function of the order of the variables (blocks); garbage collection decides nothing here.")

c("C13","proved","C13_compose C13_topmost C13_constant C13_null_refuted","Composition is proved for every order, every operand and every iteration order of the request tables. A null operand is read without a check (refuted part).")
c("C17","proved","C17_cofactor C17_empty","The result is the constrain operator: it takes the value of the function at the nearest assignment of the care set. For the empty care set the answer is the constant one.")
c("C31","proved","C31_tables_are_maps C31_duplicate_refuted","Bins and links are modelled; the key of a node is one value. Adding a key that is already there (the table of one never looks) is found by its newest or oldest entry depending on later resizes (refuted part).")
c("C45","proved","C45_pages_and_nodes_apart C45_pages_and_nodes_place C45_pages_again C45_nodes_again C45_nodes_clear C45_no_endless_loop C45_records_apart C45_records_place C45_records_again C45_record_size C45_records_quit","Free lists are modelled as words in memory that clients may overwrite wherever they hold memory. The answers of the operating system and of the block allocator are arbitrary but do not overlap memory in use.")
c("C49","partial","C49_print_profile C49_print_function_profile_refuted C49_print_function_profile_never_prints C49_print_function_profile_of_null C49_cpp_profile_refuted C49_cpp_function_profile_refuted","Refuted for the printed function profile and the C++ vectors; proved for Cal_BddPrintProfile: layout, counts and total.")
c("C52","partial","C52_mode_refuted C52_check_respects_mode C52_mode_ignored","Refuted: the mode is read only by a function nobody calls; a concrete call collects with the mode off.")

c("C37", "partial", "C37_dump C37_round_trip_partial C37_restore_partial",
  "Between any two reachable managers, for any list that covers the support; only for files of at most 2^32 bytes, as node numbers are written with at most four bytes.")
c("C39", "partial", "C39_undump_partial C39_otherwise C39_refuted C39_silent_refuted",
  "Safe for every input that announces at least as many shared nodes as bytes follow; otherwise the only other outcome is the write beyond the table of shared nodes, which does happen (refuted).")
c("C44", "partial", "C44_blocks C44_get C44_free C44_resize C44_coalesce_partial C44_coalesce_refuted",
  "Disjointness, alignment, size and absence of failures are proved for every history of calls, writes into held blocks and moves of the break. Complete coalescing is proved when no segment has been extended and refuted otherwise: storage added to a segment is not merged with a free neighbour.")
c("C18","partial","C18_reduce_partial C18_refuted","Proved for every non-empty care set, with the sizes as counted by Cal_BddSize. False as stated: for the empty care set the behaviour is undefined (C18_refuted).")
c("C19","partial","C19_between_partial C19_refuted","Proved for every interval except the one from zero to one, where the behaviour is undefined (C19_refuted).")

c("C14","proved","C14_substitute C14_null","Every current association (temporary or not), every image, every iteration order of the request tables.")
c("C15","proved","C15_var_substitute C15_variables_needed C14_null","Images are variables or constants; for other images the result is wrong (C15_variables_needed). Overflow is reported by a null handle. The entries of intermediate requests in the computed table are not modelled.")
c("C16","proved","C16_swapvars C16_topmost C16_constant C16_null","Operands that are not variables stand for their topmost variables; two different functions with the same topmost variable are excluded.")
c("C40","proved","C40_pipeline C40_functions C40_levels_refuted C40_unknown_operation","The documented sequence of calls with every program of provisional operations of at most 256 levels, any execution depth, collections and overflow between the batches. Beyond the bound the library reads outside an array (C40_levels_refuted).")
c("C53","partial","C53_compaction_partial C53_refuted","Every reachable state, page size and threshold up to 1. Partial: the nodes of the variables must lie in pages that stay, as they always do before the first reordering; false as stated after a reordering, because the manager's record of the variables is not updated (C53_refuted). Compaction is a step of its own after a collection, not a part of each call.")
c("C54","partial","C54_ranges_of_bdds_partial C54_ranges_of_ids C54_associations C54_null_ignored C54_null_refuted C54_wrapped_identifier C54_pairwise_refuted","Every C++ program and every range of at most 1024 elements, with the counts of all objects exact afterwards (the result is again a program in the sense of C29). False as stated: a null element hides itself and the elements behind it (C54_null_refuted), identifiers are taken modulo 65536, and the pairwise operations always read past the array of results (C54_pairwise_refuted). Associations are covered for ranges of BDDs.")
c("C55","partial","C55_printed_text C55_text_determines_function C55_default_words C55_marks_removed C55_function_text C55_function_text_determines_partial C55_function_text_refuted C55_null_refuted","Cal_BddPrintBdd: proved in full for owned handles. Cal_BddFunctionPrint: the text has the value of the function, but it tells functions apart only in managers with at most 256 variables (refuted beyond). Both follow a null handle without a test. Lines are structured; their characters are given by a rendering function.")
c("C56","partial","C56_window_partial","Window technique, any number of passes; the manager afterwards is reachable, so that all other properties hold of later calls. Partial: the condition of C33 on associations and saturated nodes; the call returns (assertions of the code are tests of the model, not proved to hold; more forwardings than the threshold end the model). Sifting is C57.")
c("C57","partial","C57_sift_partial","All limits (variables, exchanges, growth, forwardings before a repair). The manager afterwards is reachable. Partial: the condition of C33 on associations and saturated nodes; the call returns (assertions on forwardings are tests of the model, not proved to hold). Packing of the sifted variable is not modelled.")
c("C58","partial","C58_window_partial C58_sift_refuted","True of the window technique, for every manager. False of sifting: the cells of all forwarded nodes are lost (finding).")
c("C59","partial","C59_automatic_partial","For calls that return and worlds meeting the condition of C33; the repacking of pages when no reordering is made is a step of its own (C37, C53).")
c("C60","partial","C60_function_profile_multiple_partial C60_rehash_refuted","Proved when the functions below those of the array and the entries of the array are together fewer than 1280; without that bound the claim is false of the code (C60_rehash_refuted).")
c("C61","partial","C61_print_profile_multiple C61_print_function_profile_multiple_partial","The node profile in full; the function profile under the bound of C60.")
c("C62","partial","C62_size C62_print_profile C62_print_function_profile_partial C62_profile_refuted C62_function_profile_refuted","Proved for Size and PrintProfile; PrintFunctionProfile while subfunctions and elements together stay below 1280; Profile and FunctionProfile of a range return an empty vector (refuted).")
c("C63","partial","C63_print_profile C63_print_function_profile_partial","The node profile in full; the function profile under the bound of C60 for both arrays.")
c("C64","proved","C64_size_of_joined","Both ways of counting (with and without identification of complements).")
c("C65","proved","C65_profile_total C65_printed_total","Both ways of counting for the vector; the printed profile identifies complements.")
claims.sort(key=lambda x: x["property"])
json.dump({"claims": claims}, open(os.path.join(here, "..", "MANIFEST.json"), "w"), indent=1)
