#!/usr/bin/env python3
# Generates ../MANIFEST.json.
import json, os
C = []
def c(prop, status, theorems, note=""):
    C.append(dict(property=prop, status=status, theorems=theorems, note=note))
c("C01", "proved", ["C01_simple_blocks_disjoint_inside"], "any number of processes, any history including deaths inside allocate/free")
c("C02", "proved", ["C02_simple_contents_kept"])
c("C03", "proved", ["C03_simple_accounting_exact"])
c("C04", "proved", ["C04_simple_best_fit"])
c("C05", "proved", ["C05_simple_failed_allocation_noop"])
c("C06", "proved", ["C06_simple_crash_repaired", "C06_simple_construct_any_time"])
c("C07", "proved", ["C07_simple_base_object"])
LOGNOTE = "requests of 1 to 4088 bytes, no death in the middle of allocate (deaths at every point of free, of writes, of set_base and of repair are included): the code is wrong outside this range (C13, C51)"
c("C08", "partial", ["C08_log_blocks_disjoint_inside_partial"], LOGNOTE)
c("C09", "partial", ["C09_log_contents_kept_partial"], LOGNOTE)
c("C10", "partial", ["C10_log_accounting_exact_partial"], LOGNOTE)
c("C11", "partial", ["C11_log_partition_merged_partial", "C11_log_crash_leaves_buddies_refuted"], LOGNOTE + "; merging is proved for blocks below 2 GiB and as long as nobody has died inside free (false after that: refuted)")
c("C12", "partial", ["C12_log_double_free_ignored_partial"], LOGNOTE)
c("C13", "partial", ["C13_log_zero_size_refuted", "C13_log_large_size_refuted", "C08_log_blocks_disjoint_inside_partial"], "false of the code for 0 bytes and for more than a page; C08 proves it for 1 to 4088 bytes")
c("C14", "proved", ["C14_log_failed_allocation_noop", "C14_log_failed_allocation_noop_locked"], "for all sizes and all states of the pool file")
c("C15", "proved", ["C15_pool_expand"])
c("C16", "proved", ["C16_lock_remaps", "C16_any_process_same_result"])
c("C17", "proved", ["C17_queue_is_a_deque", "C17_queue_is_a_deque_log_partial"], "over SimpleAllocator, and over LogarithmicAllocator for requests of 1 to 4088 bytes")
c("C18", "proved", ["C18_queue_size_and_bytes", "C18_queue_size_and_bytes_log_partial"], "over SimpleAllocator, and over LogarithmicAllocator for requests of 1 to 4088 bytes")
c("C19", "proved", ["C19_queue_owns_exactly_its_blocks", "C19_queue_owns_exactly_its_blocks_log_partial"], "over SimpleAllocator, and over LogarithmicAllocator for requests of 1 to 4088 bytes; blocks that free does not give back (C45) excluded")
c("C20", "partial", ["C20_queue_crash_drains_partial", "C20_queue_crash_refuted", "C20_queue_crash_pops_twice_refuted"], "proved from one end, in every history with any number of earlier crashes: after a death at any point of push_front or pop_back from both ends, of push_back from the front, of pop_front from the back, the queue is emptied exactly as before or as after the operation; false of the code for the other end and for size()")
c("C21", "proved", ["C21_priority_queue_pops_least", "C21_priority_queue_pops_least_log_partial"])
c("C22", "proved", ["C22_priority_queue_multiset", "C22_priority_queue_multiset_log_partial"])
c("C23", "partial", ["C23_hash_table_is_a_map_partial", "C23_hash_table_is_a_map_log_partial", "C23_erase_first_of_three_refuted", "C23_erase_second_of_two_refuted"], "false of the code for two kinds of erasures from a collision list; proved for all histories without them, for every hash function; over SimpleAllocator, and over LogarithmicAllocator for requests of 1 to 4088 bytes")
c("C24", "partial", ["C24_hash_table_compare_and_set_partial", "C24_hash_table_compare_and_set_log_partial"], "proved for all histories without the erasures of C23")
c("C25", "partial", ["C25_hash_table_incr_partial", "C25_hash_table_incr_log_partial", "C25_incr_in_chain_refuted"], "false of the code for keys in collision lists; proved for the others, in pools that do not grow where the key is absent")
c("C26", "partial", ["C26_hash_table_iteration_partial", "C26_hash_table_iteration_log_partial"], "proved for all histories without the erasures of C23")
TL = "; over SimpleAllocator, and over LogarithmicAllocator for requests of 1 to 4088 bytes"
c("C27", "proved", ["C27_prefix_tree_is_a_map", "C27_prefix_tree_is_a_map_log_partial"], "in histories without the calls that the code gets wrong (C31, C32, C55, C57); -0.0 counts as equal to 0.0 (C28)" + TL)
c("C28", "partial", ["C28_prefix_tree_lossless_partial", "C28_prefix_tree_lossless_log_partial", "C28_sign_of_zero_refuted"], "all values but -0.0, which is read back as 0.0" + TL)
c("C29", "partial", ["C29_prefix_tree_exists_partial", "C29_prefix_tree_exists_log_partial", "C29_exists_of_prefix_refuted"], "false of the code for proper prefixes of stored keys; what exists() returns is characterized exactly, for trees in which memory never ran out" + TL)
c("C30", "partial", ["C30_prefix_tree_erase_partial", "C30_prefix_tree_erase_log_partial", "C30_erase_of_prefix_refuted"], "the contents change as they should; the result is wrong for proper prefixes of stored keys" + TL)
c("C31", "partial", ["C31_prefix_tree_order_partial", "C31_prefix_tree_order_log_partial", "C31_next_of_absent_key_refuted"], "iteration is proved in full; next_key() is proved for stored keys and all others that do not lead to an empty slot, and false of the code for those" + TL)
c("C32", "partial", ["C32_prefix_tree_incr_partial", "C32_prefix_tree_incr_log_partial", "C32_incr_by_zero_refuted"], "false of the code for incr(0.0) of an absent key; proved for everything else, for any addition of doubles" + TL)
c("C33", "partial", ["C33_prefix_tree_counts_partial", "C33_prefix_tree_counts_log_partial", "C33_size_after_failed_incr_refuted"], "false of the code after an operation that ran out of memory; proved otherwise" + TL)
c("C34", "partial", ["C34_prefix_tree_compare_and_set_partial", "C34_prefix_tree_compare_and_set_log_partial", "C34_check_by_reference_refuted"], "false of the code for expected strings passed by reference, which never match; proved for all others" + TL)
c("C35", "partial", ["C35_prefix_tree_failed_insert_partial", "C35_prefix_tree_failed_insert_log_partial", "C35_failed_insert_loses_value_refuted"], "false of the code: the old value of the key may be lost; proved for all other keys and for new keys" + TL)
c("C36", "proved", ["C36_writer_excludes_everyone", "C36_process_lock_excludes", "C36_lock_functions_do_not_throw"])
c("C37", "proved", ["C37_stolen_only_from_the_dead", "C37_thief_is_told"])
c("C38", "partial", ["C38_operations_are_linearizable_partial", "C38_operations_are_linearizable_log_partial"], "every schedule of the individual accesses; obtaining the lock is one step (C36, C37), processes do not die holding it, an iteration is not one call; after a call in a case that the code gets wrong (C23, C25, C31, C32) nothing is claimed; over LogarithmicAllocator for requests of 1 to 4088 bytes")
c("C39", "proved", ["C39_only_own_or_dead_words_change", "C39_holder_keeps_its_word"])
c("C40", "proved", ["C40_elements_linearizable", "C40_new_pool_is_empty_vector"], "vectors that are not being expanded; expansion is C42")
c("C41", "partial", ["C41_bits_linearizable", "C41_xor_bit_returns_old_refuted"], "proved with one correction: xor_bit returns the new value, README.md says the old one")
c("C42", "partial", ["C42_expand_partial", "C42_expand_bits", "C42_concurrent_expand_refuted", "C42_expand_during_load_refuted"], "false of the code in general; proved when expand calls do not overlap and elements are used only after the expansion that creates them")
c("C43", "proved", ["C43_structures_do_not_interfere", "C43_structures_do_not_interfere_log_partial"], "queues, priority queues, hash tables, prefix trees and raw blocks, over SimpleAllocator, and over LogarithmicAllocator for requests of 1 to 4088 bytes")
c("C44", "proved", ["C43_structures_do_not_interfere", "C43_structures_do_not_interfere_log_partial"], "queues, priority queues, hash tables, prefix trees and raw blocks, over SimpleAllocator, and over LogarithmicAllocator for requests of 1 to 4088 bytes")
c("C45", "partial", ["C45_simple_free_gives_back_partial", "C45_simple_free_gives_back_refuted"],
  "false of the code: a block of at most 16 bytes within the last 24 bytes of the pool is silently not freed; proved for all others")
c("C46", "partial", ["C46_simple_huge_request_refuted", "C01_simple_blocks_disjoint_inside"],
  "false of the code for sizes near 2^64 (refuted); C01 proves it for sizes up to 2^62")
c("C47", "partial", ["C47_map_and_read_partial", "C47_map_and_read_refuted", "C47_map_and_write_partial", "C47_map_and_write_refuted", "C47_map_and_call_partial", "C47_map_and_call_refuted"],
  "false of the code outside the first page")
c("C48", "partial", ["C48_creation_crash_partial", "C48_creation_crash_refuted", "C48_log_creation_crash_refuted"], "SimpleAllocator: proved for deaths at every point of creating the pool and constructing the allocator, except between ftruncate and storing the size, where it is false of the code (refuted); LogarithmicAllocator: false of the code for deaths inside the constructor (refuted)")
c("C49", "partial", ["C36_big_pids_refuted", "C36_writer_excludes_everyone"], "false of the code for pids of 2^18 and more, of which the token keeps 18 bits; C36 proves it for pids below 2^18")
c("C50", "partial", ["C50_reuse_when_quiet_partial", "C36_pid_reuse_refuted", "C50_never_taken_over_refuted"], "exclusion proved if a pid is given out again only when no lock word holds it, no living thread is inside of a lock function and none has a guard taken over from it; false of the code otherwise (refuted), and the lock of a dead process is never taken over while another process with its pid lives (refuted)")
c("C51", "partial", ["C51_log_crash_in_allocate_refuted", "C51_log_survives_crashes_partial", "C48_log_creation_crash_refuted"], "false of the code for deaths in the middle of allocate and of the constructor (refuted); proved for deaths at every point of free, writes into blocks, set_base_object_offset and repair, pools below 4 GiB, requests of 1 to 4088 bytes")
c("C52", "partial", ["C52_log_growth_partial"], LOGNOTE)
c("C53", "partial", ["C53_prefix_tree_survives_crashes_partial", "C53_double_over_integer_refuted", "C53_size_after_crash_refuted"], "over SimpleAllocator, deaths at every point of every tree operation and of the repair; false of the code when a double replaces an integer that does not fit in 61 bits (refuted); size() may be wrong after a crash (refuted; the theorem does not claim it); over LogarithmicAllocator see C51")
c("C54", "partial", ["C54_crash_spares_other_objects_partial", "C54_others_are_left", "C54_queue_base_crash_refuted"], "over SimpleAllocator, deaths at every point of everything that takes the lock for writing; operations that the code gets wrong without any crash (see C23, C25, C31, C32) are left out; false of the code when a process dies while it opens the base object as a queue (refuted)")
c("C55", "partial", ["C55_prefix_tree_bounds_partial", "C55_prefix_tree_bounds_log_partial", "C55_bounds_of_absent_key_refuted"], "find() in full; the bounds for stored keys, prefixes of stored keys, keys that continue a stored one and all others that do not lead to an empty slot; false of the code for those (refuted)" + TL)
c("C56", "proved", ["C56_prefix_tree_nodes_for_prefix", "C56_prefix_tree_nodes_for_prefix_log_partial"], "in full over SimpleAllocator; over LogarithmicAllocator for requests of 1 to 4088 bytes")
c("C57", "partial", ["C57_prefix_tree_bytes_for_prefix_partial", "C57_prefix_tree_bytes_for_prefix_log_partial", "C57_bytes_of_empty_string_refuted", "C57_bytes_of_inner_value_refuted", "C57_bytes_of_zero_refuted"], "if all values below the prefix are counted rightly by the code; it is wrong for empty strings (reads outside the pool), for values of keys that are prefixes of other keys (block not counted) and for 0.0 (8 bytes too many): all refuted" + TL)
c("C58", "partial", ["C58_log_verify_accepts_partial", "C58_log_verify_sound", "C58_log_verify_misses_lost_block_refuted", "C58_log_verify_misses_overlong_block_refuted"], "pools below 4 GiB, histories with requests of 1 to 4088 bytes and without deaths inside allocate (see C51); the converse in full for counters and links in pools up to 2 GiB; verify() overlooks free blocks that are in no list and a last block that is too long (refuted)")
c("C59", "proved", ["C59_is_locked_sees_writer", "C59_process_lock_is_locked", "C59_is_locked_sees_reader", "C59_reader_count_sees_readers"], "for pids below 2^18 that are not given out again (see C49, C50)")
c("C60", "partial", ["C60_hash_iteration_under_changes_partial", "C60_hash_iteration_under_changes_log_partial"], "in all histories without the erasures and increments that the code gets wrong (see C23, C25); over SimpleAllocator, and over LogarithmicAllocator for requests of 1 to 4088 bytes")
c("C61", "partial", ["C61_tree_iteration_under_changes_partial", "C61_tree_iteration_under_changes_log_partial", "C61_iteration_goes_back_refuted"], "as stated, in all histories without incr(0.0) of absent keys (see C32); also for steps from erased keys that do not lead to an empty slot; when the key the iterator is at has been erased and left an empty slot, the code goes back (refuted); over SimpleAllocator, and over LogarithmicAllocator for requests of 1 to 4088 bytes")
c("C62", "partial", ["C62_lower_bound_under_changes_partial", "C62_lower_bound_under_changes_log_partial", "C62_lower_bound_not_atomic_refuted"], "the first sentence on the result (at some moment) is false of the code (refuted); the rest is proved, for keys that do not lead to an empty slot at the second lookup (see C55); over SimpleAllocator, and over LogarithmicAllocator for requests of 1 to 4088 bytes")
c("C63","proved",["C63_openers_agree","C63_openers_agree_log_partial"],"the two halves of the constructors are two critical sections with any history in between; example C63_case. The histories are those of C43 (the calls that C23 to C35 leave out are not in them). Over LogarithmicAllocator for requests of 1 to 4088 bytes (log_limits).")
c("C64","proved",["C64_readers_write_nothing","C64_readers_write_nothing_log","C64_verify_writes_nothing"],"example C64_case; which functions take the lock for reading is op_writes in ConcSpec.v, after the code. print() is not modelled")
c("C65","partial",["C65_hash_table_bits_partial","C65_hash_table_bits_log_partial"],"in the histories of C23, where the wrong erasures (refuted there) are left out; over LogarithmicAllocator for tables of at most 7 bits. Example C65_case")
out = os.path.join(os.path.dirname(os.path.abspath(__file__)), "..", "MANIFEST.json")
json.dump({"claims": C}, open(out, "w"), indent=1)
print(len(C))
