{
 "claims": [
  {
   "property": "C01",
   "status": "proved",
   "theorems": [
    "C01_simple_blocks_disjoint_inside"
   ],
   "note": "any number of processes, any history including deaths inside allocate/free"
  },
  {
   "property": "C02",
   "status": "proved",
   "theorems": [
    "C02_simple_contents_kept"
   ],
   "note": ""
  },
  {
   "property": "C03",
   "status": "proved",
   "theorems": [
    "C03_simple_accounting_exact"
   ],
   "note": ""
  },
  {
   "property": "C04",
   "status": "proved",
   "theorems": [
    "C04_simple_best_fit"
   ],
   "note": ""
  },
  {
   "property": "C05",
   "status": "proved",
   "theorems": [
    "C05_simple_failed_allocation_noop"
   ],
   "note": ""
  },
  {
   "property": "C06",
   "status": "proved",
   "theorems": [
    "C06_simple_crash_repaired",
    "C06_simple_construct_any_time"
   ],
   "note": ""
  },
  {
   "property": "C07",
   "status": "proved",
   "theorems": [
    "C07_simple_base_object"
   ],
   "note": ""
  },
  {
   "property": "C08",
   "status": "partial",
   "theorems": [
    "C08_log_blocks_disjoint_inside_partial"
   ],
   "note": "requests of 1 to 4088 bytes, no death in the middle of allocate (deaths at every point of free, of writes, of set_base and of repair are included): the code is wrong outside this range (C13, C51)"
  },
  {
   "property": "C09",
   "status": "partial",
   "theorems": [
    "C09_log_contents_kept_partial"
   ],
   "note": "requests of 1 to 4088 bytes, no death in the middle of allocate (deaths at every point of free, of writes, of set_base and of repair are included): the code is wrong outside this range (C13, C51)"
  },
  {
   "property": "C10",
   "status": "partial",
   "theorems": [
    "C10_log_accounting_exact_partial"
   ],
   "note": "requests of 1 to 4088 bytes, no death in the middle of allocate (deaths at every point of free, of writes, of set_base and of repair are included): the code is wrong outside this range (C13, C51)"
  },
  {
   "property": "C11",
   "status": "partial",
   "theorems": [
    "C11_log_partition_merged_partial",
    "C11_log_crash_leaves_buddies_refuted"
   ],
   "note": "requests of 1 to 4088 bytes, no death in the middle of allocate (deaths at every point of free, of writes, of set_base and of repair are included): the code is wrong outside this range (C13, C51); merging is proved for blocks below 2 GiB and as long as nobody has died inside free (false after that: refuted)"
  },
  {
   "property": "C12",
   "status": "partial",
   "theorems": [
    "C12_log_double_free_ignored_partial"
   ],
   "note": "requests of 1 to 4088 bytes, no death in the middle of allocate (deaths at every point of free, of writes, of set_base and of repair are included): the code is wrong outside this range (C13, C51)"
  },
  {
   "property": "C13",
   "status": "partial",
   "theorems": [
    "C13_log_zero_size_refuted",
    "C13_log_large_size_refuted",
    "C08_log_blocks_disjoint_inside_partial"
   ],
   "note": "false of the code for 0 bytes and for more than a page; C08 proves it for 1 to 4088 bytes"
  },
  {
   "property": "C14",
   "status": "proved",
   "theorems": [
    "C14_log_failed_allocation_noop",
    "C14_log_failed_allocation_noop_locked"
   ],
   "note": "for all sizes and all states of the pool file"
  },
  {
   "property": "C15",
   "status": "proved",
   "theorems": [
    "C15_pool_expand"
   ],
   "note": ""
  },
  {
   "property": "C16",
   "status": "proved",
   "theorems": [
    "C16_lock_remaps",
    "C16_any_process_same_result"
   ],
   "note": ""
  },
  {
   "property": "C17",
   "status": "proved",
   "theorems": [
    "C17_queue_is_a_deque",
    "C17_queue_is_a_deque_log_partial"
   ],
   "note": "over SimpleAllocator, and over LogarithmicAllocator for requests of 1 to 4088 bytes"
  },
  {
   "property": "C18",
   "status": "proved",
   "theorems": [
    "C18_queue_size_and_bytes",
    "C18_queue_size_and_bytes_log_partial"
   ],
   "note": "over SimpleAllocator, and over LogarithmicAllocator for requests of 1 to 4088 bytes"
  },
  {
   "property": "C19",
   "status": "proved",
   "theorems": [
    "C19_queue_owns_exactly_its_blocks",
    "C19_queue_owns_exactly_its_blocks_log_partial"
   ],
   "note": "over SimpleAllocator, and over LogarithmicAllocator for requests of 1 to 4088 bytes; blocks that free does not give back (C45) excluded"
  },
  {
   "property": "C20",
   "status": "partial",
   "theorems": [
    "C20_queue_crash_drains_partial",
    "C20_queue_crash_refuted",
    "C20_queue_crash_pops_twice_refuted"
   ],
   "note": "proved from one end, in every history with any number of earlier crashes: after a death at any point of push_front or pop_back from both ends, of push_back from the front, of pop_front from the back, the queue is emptied exactly as before or as after the operation; false of the code for the other end and for size()"
  },
  {
   "property": "C21",
   "status": "proved",
   "theorems": [
    "C21_priority_queue_pops_least",
    "C21_priority_queue_pops_least_log_partial"
   ],
   "note": ""
  },
  {
   "property": "C22",
   "status": "proved",
   "theorems": [
    "C22_priority_queue_multiset",
    "C22_priority_queue_multiset_log_partial"
   ],
   "note": ""
  },
  {
   "property": "C23",
   "status": "partial",
   "theorems": [
    "C23_hash_table_is_a_map_partial",
    "C23_hash_table_is_a_map_log_partial",
    "C23_erase_first_of_three_refuted",
    "C23_erase_second_of_two_refuted"
   ],
   "note": "false of the code for two kinds of erasures from a collision list; proved for all histories without them, for every hash function; over SimpleAllocator, and over LogarithmicAllocator for requests of 1 to 4088 bytes"
  },
  {
   "property": "C24",
   "status": "partial",
   "theorems": [
    "C24_hash_table_compare_and_set_partial",
    "C24_hash_table_compare_and_set_log_partial"
   ],
   "note": "proved for all histories without the erasures of C23"
  },
  {
   "property": "C25",
   "status": "partial",
   "theorems": [
    "C25_hash_table_incr_partial",
    "C25_hash_table_incr_log_partial",
    "C25_incr_in_chain_refuted"
   ],
   "note": "false of the code for keys in collision lists; proved for the others, in pools that do not grow where the key is absent"
  },
  {
   "property": "C26",
   "status": "partial",
   "theorems": [
    "C26_hash_table_iteration_partial",
    "C26_hash_table_iteration_log_partial"
   ],
   "note": "proved for all histories without the erasures of C23"
  },
  {
   "property": "C27",
   "status": "proved",
   "theorems": [
    "C27_prefix_tree_is_a_map",
    "C27_prefix_tree_is_a_map_log_partial"
   ],
   "note": "in histories without the calls that the code gets wrong (C31, C32, C55, C57); -0.0 counts as equal to 0.0 (C28); over SimpleAllocator, and over LogarithmicAllocator for requests of 1 to 4088 bytes"
  },
  {
   "property": "C28",
   "status": "partial",
   "theorems": [
    "C28_prefix_tree_lossless_partial",
    "C28_prefix_tree_lossless_log_partial",
    "C28_sign_of_zero_refuted"
   ],
   "note": "all values but -0.0, which is read back as 0.0; over SimpleAllocator, and over LogarithmicAllocator for requests of 1 to 4088 bytes"
  },
  {
   "property": "C29",
   "status": "partial",
   "theorems": [
    "C29_prefix_tree_exists_partial",
    "C29_prefix_tree_exists_log_partial",
    "C29_exists_of_prefix_refuted"
   ],
   "note": "false of the code for proper prefixes of stored keys; what exists() returns is characterized exactly, for trees in which memory never ran out; over SimpleAllocator, and over LogarithmicAllocator for requests of 1 to 4088 bytes"
  },
  {
   "property": "C30",
   "status": "partial",
   "theorems": [
    "C30_prefix_tree_erase_partial",
    "C30_prefix_tree_erase_log_partial",
    "C30_erase_of_prefix_refuted"
   ],
   "note": "the contents change as they should; the result is wrong for proper prefixes of stored keys; over SimpleAllocator, and over LogarithmicAllocator for requests of 1 to 4088 bytes"
  },
  {
   "property": "C31",
   "status": "partial",
   "theorems": [
    "C31_prefix_tree_order_partial",
    "C31_prefix_tree_order_log_partial",
    "C31_next_of_absent_key_refuted"
   ],
   "note": "iteration is proved in full; next_key() is proved for stored keys and all others that do not lead to an empty slot, and false of the code for those; over SimpleAllocator, and over LogarithmicAllocator for requests of 1 to 4088 bytes"
  },
  {
   "property": "C32",
   "status": "partial",
   "theorems": [
    "C32_prefix_tree_incr_partial",
    "C32_prefix_tree_incr_log_partial",
    "C32_incr_by_zero_refuted"
   ],
   "note": "false of the code for incr(0.0) of an absent key; proved for everything else, for any addition of doubles; over SimpleAllocator, and over LogarithmicAllocator for requests of 1 to 4088 bytes"
  },
  {
   "property": "C33",
   "status": "partial",
   "theorems": [
    "C33_prefix_tree_counts_partial",
    "C33_prefix_tree_counts_log_partial",
    "C33_size_after_failed_incr_refuted"
   ],
   "note": "false of the code after an operation that ran out of memory; proved otherwise; over SimpleAllocator, and over LogarithmicAllocator for requests of 1 to 4088 bytes"
  },
  {
   "property": "C34",
   "status": "partial",
   "theorems": [
    "C34_prefix_tree_compare_and_set_partial",
    "C34_prefix_tree_compare_and_set_log_partial",
    "C34_check_by_reference_refuted"
   ],
   "note": "false of the code for expected strings passed by reference, which never match; proved for all others; over SimpleAllocator, and over LogarithmicAllocator for requests of 1 to 4088 bytes"
  },
  {
   "property": "C35",
   "status": "partial",
   "theorems": [
    "C35_prefix_tree_failed_insert_partial",
    "C35_prefix_tree_failed_insert_log_partial",
    "C35_failed_insert_loses_value_refuted"
   ],
   "note": "false of the code: the old value of the key may be lost; proved for all other keys and for new keys; over SimpleAllocator, and over LogarithmicAllocator for requests of 1 to 4088 bytes"
  },
  {
   "property": "C36",
   "status": "proved",
   "theorems": [
    "C36_writer_excludes_everyone",
    "C36_process_lock_excludes",
    "C36_lock_functions_do_not_throw"
   ],
   "note": ""
  },
  {
   "property": "C37",
   "status": "proved",
   "theorems": [
    "C37_stolen_only_from_the_dead",
    "C37_thief_is_told"
   ],
   "note": ""
  },
  {
   "property": "C38",
   "status": "partial",
   "theorems": [
    "C38_operations_are_linearizable_partial",
    "C38_operations_are_linearizable_log_partial"
   ],
   "note": "every schedule of the individual accesses; obtaining the lock is one step (C36, C37), processes do not die holding it, an iteration is not one call; after a call in a case that the code gets wrong (C23, C25, C31, C32) nothing is claimed; over LogarithmicAllocator for requests of 1 to 4088 bytes"
  },
  {
   "property": "C39",
   "status": "proved",
   "theorems": [
    "C39_only_own_or_dead_words_change",
    "C39_holder_keeps_its_word"
   ],
   "note": ""
  },
  {
   "property": "C40",
   "status": "proved",
   "theorems": [
    "C40_elements_linearizable",
    "C40_new_pool_is_empty_vector"
   ],
   "note": "vectors that are not being expanded; expansion is C42"
  },
  {
   "property": "C41",
   "status": "partial",
   "theorems": [
    "C41_bits_linearizable",
    "C41_xor_bit_returns_old_refuted"
   ],
   "note": "proved with one correction: xor_bit returns the new value, README.md says the old one"
  },
  {
   "property": "C42",
   "status": "partial",
   "theorems": [
    "C42_expand_partial",
    "C42_expand_bits",
    "C42_concurrent_expand_refuted",
    "C42_expand_during_load_refuted"
   ],
   "note": "false of the code in general; proved when expand calls do not overlap and elements are used only after the expansion that creates them"
  },
  {
   "property": "C43",
   "status": "proved",
   "theorems": [
    "C43_structures_do_not_interfere",
    "C43_structures_do_not_interfere_log_partial"
   ],
   "note": "queues, priority queues, hash tables, prefix trees and raw blocks, over SimpleAllocator, and over LogarithmicAllocator for requests of 1 to 4088 bytes"
  },
  {
   "property": "C44",
   "status": "proved",
   "theorems": [
    "C43_structures_do_not_interfere",
    "C43_structures_do_not_interfere_log_partial"
   ],
   "note": "queues, priority queues, hash tables, prefix trees and raw blocks, over SimpleAllocator, and over LogarithmicAllocator for requests of 1 to 4088 bytes"
  },
  {
   "property": "C45",
   "status": "partial",
   "theorems": [
    "C45_simple_free_gives_back_partial",
    "C45_simple_free_gives_back_refuted"
   ],
   "note": "false of the code: a block of at most 16 bytes within the last 24 bytes of the pool is silently not freed; proved for all others"
  },
  {
   "property": "C46",
   "status": "partial",
   "theorems": [
    "C46_simple_huge_request_refuted",
    "C01_simple_blocks_disjoint_inside"
   ],
   "note": "false of the code for sizes near 2^64 (refuted); C01 proves it for sizes up to 2^62"
  },
  {
   "property": "C47",
   "status": "partial",
   "theorems": [
    "C47_map_and_read_partial",
    "C47_map_and_read_refuted",
    "C47_map_and_write_partial",
    "C47_map_and_write_refuted",
    "C47_map_and_call_partial",
    "C47_map_and_call_refuted"
   ],
   "note": "false of the code outside the first page"
  },
  {
   "property": "C48",
   "status": "partial",
   "theorems": [
    "C48_creation_crash_partial",
    "C48_creation_crash_refuted",
    "C48_log_creation_crash_refuted"
   ],
   "note": "SimpleAllocator: proved for deaths at every point of creating the pool and constructing the allocator, except between ftruncate and storing the size, where it is false of the code (refuted); LogarithmicAllocator: false of the code for deaths inside the constructor (refuted)"
  },
  {
   "property": "C49",
   "status": "partial",
   "theorems": [
    "C36_big_pids_refuted",
    "C36_writer_excludes_everyone"
   ],
   "note": "false of the code for pids of 2^18 and more, of which the token keeps 18 bits; C36 proves it for pids below 2^18"
  },
  {
   "property": "C50",
   "status": "partial",
   "theorems": [
    "C50_reuse_when_quiet_partial",
    "C36_pid_reuse_refuted",
    "C50_never_taken_over_refuted"
   ],
   "note": "exclusion proved if a pid is given out again only when no lock word holds it, no living thread is inside of a lock function and none has a guard taken over from it; false of the code otherwise (refuted), and the lock of a dead process is never taken over while another process with its pid lives (refuted)"
  },
  {
   "property": "C51",
   "status": "partial",
   "theorems": [
    "C51_log_crash_in_allocate_refuted",
    "C51_log_survives_crashes_partial",
    "C48_log_creation_crash_refuted"
   ],
   "note": "false of the code for deaths in the middle of allocate and of the constructor (refuted); proved for deaths at every point of free, writes into blocks, set_base_object_offset and repair, pools below 4 GiB, requests of 1 to 4088 bytes"
  },
  {
   "property": "C52",
   "status": "partial",
   "theorems": [
    "C52_log_growth_partial"
   ],
   "note": "requests of 1 to 4088 bytes, no death in the middle of allocate (deaths at every point of free, of writes, of set_base and of repair are included): the code is wrong outside this range (C13, C51)"
  },
  {
   "property": "C53",
   "status": "partial",
   "theorems": [
    "C53_prefix_tree_survives_crashes_partial",
    "C53_double_over_integer_refuted",
    "C53_size_after_crash_refuted"
   ],
   "note": "over SimpleAllocator, deaths at every point of every tree operation and of the repair; false of the code when a double replaces an integer that does not fit in 61 bits (refuted); size() may be wrong after a crash (refuted; the theorem does not claim it); over LogarithmicAllocator see C51"
  },
  {
   "property": "C54",
   "status": "partial",
   "theorems": [
    "C54_crash_spares_other_objects_partial",
    "C54_others_are_left",
    "C54_queue_base_crash_refuted"
   ],
   "note": "over SimpleAllocator, deaths at every point of everything that takes the lock for writing; operations that the code gets wrong without any crash (see C23, C25, C31, C32) are left out; false of the code when a process dies while it opens the base object as a queue (refuted)"
  },
  {
   "property": "C55",
   "status": "partial",
   "theorems": [
    "C55_prefix_tree_bounds_partial",
    "C55_prefix_tree_bounds_log_partial",
    "C55_bounds_of_absent_key_refuted"
   ],
   "note": "find() in full; the bounds for stored keys, prefixes of stored keys, keys that continue a stored one and all others that do not lead to an empty slot; false of the code for those (refuted); over SimpleAllocator, and over LogarithmicAllocator for requests of 1 to 4088 bytes"
  },
  {
   "property": "C56",
   "status": "proved",
   "theorems": [
    "C56_prefix_tree_nodes_for_prefix",
    "C56_prefix_tree_nodes_for_prefix_log_partial"
   ],
   "note": "in full over SimpleAllocator; over LogarithmicAllocator for requests of 1 to 4088 bytes"
  },
  {
   "property": "C57",
   "status": "partial",
   "theorems": [
    "C57_prefix_tree_bytes_for_prefix_partial",
    "C57_prefix_tree_bytes_for_prefix_log_partial",
    "C57_bytes_of_empty_string_refuted",
    "C57_bytes_of_inner_value_refuted",
    "C57_bytes_of_zero_refuted"
   ],
   "note": "if all values below the prefix are counted rightly by the code; it is wrong for empty strings (reads outside the pool), for values of keys that are prefixes of other keys (block not counted) and for 0.0 (8 bytes too many): all refuted; over SimpleAllocator, and over LogarithmicAllocator for requests of 1 to 4088 bytes"
  },
  {
   "property": "C58",
   "status": "partial",
   "theorems": [
    "C58_log_verify_accepts_partial",
    "C58_log_verify_sound",
    "C58_log_verify_misses_lost_block_refuted",
    "C58_log_verify_misses_overlong_block_refuted"
   ],
   "note": "pools below 4 GiB, histories with requests of 1 to 4088 bytes and without deaths inside allocate (see C51); the converse in full for counters and links in pools up to 2 GiB; verify() overlooks free blocks that are in no list and a last block that is too long (refuted)"
  },
  {
   "property": "C59",
   "status": "proved",
   "theorems": [
    "C59_is_locked_sees_writer",
    "C59_process_lock_is_locked",
    "C59_is_locked_sees_reader",
    "C59_reader_count_sees_readers"
   ],
   "note": "for pids below 2^18 that are not given out again (see C49, C50)"
  },
  {
   "property": "C60",
   "status": "partial",
   "theorems": [
    "C60_hash_iteration_under_changes_partial",
    "C60_hash_iteration_under_changes_log_partial"
   ],
   "note": "in all histories without the erasures and increments that the code gets wrong (see C23, C25); over SimpleAllocator, and over LogarithmicAllocator for requests of 1 to 4088 bytes"
  },
  {
   "property": "C61",
   "status": "partial",
   "theorems": [
    "C61_tree_iteration_under_changes_partial",
    "C61_tree_iteration_under_changes_log_partial",
    "C61_iteration_goes_back_refuted"
   ],
   "note": "as stated, in all histories without incr(0.0) of absent keys (see C32); also for steps from erased keys that do not lead to an empty slot; when the key the iterator is at has been erased and left an empty slot, the code goes back (refuted); over SimpleAllocator, and over LogarithmicAllocator for requests of 1 to 4088 bytes"
  },
  {
   "property": "C62",
   "status": "partial",
   "theorems": [
    "C62_lower_bound_under_changes_partial",
    "C62_lower_bound_under_changes_log_partial",
    "C62_lower_bound_not_atomic_refuted"
   ],
   "note": "the first sentence on the result (at some moment) is false of the code (refuted); the rest is proved, for keys that do not lead to an empty slot at the second lookup (see C55); over SimpleAllocator, and over LogarithmicAllocator for requests of 1 to 4088 bytes"
  },
  {
   "property": "C63",
   "status": "proved",
   "theorems": [
    "C63_openers_agree",
    "C63_openers_agree_log_partial"
   ],
   "note": "the two halves of the constructors are two critical sections with any history in between; example C63_case. The histories are those of C43 (the calls that C23 to C35 leave out are not in them). Over LogarithmicAllocator for requests of 1 to 4088 bytes (log_limits)."
  },
  {
   "property": "C64",
   "status": "proved",
   "theorems": [
    "C64_readers_write_nothing",
    "C64_readers_write_nothing_log",
    "C64_verify_writes_nothing"
   ],
   "note": "example C64_case; which functions take the lock for reading is op_writes in ConcSpec.v, after the code. print() is not modelled"
  },
  {
   "property": "C65",
   "status": "partial",
   "theorems": [
    "C65_hash_table_bits_partial",
    "C65_hash_table_bits_log_partial"
   ],
   "note": "in the histories of C23, where the wrong erasures (refuted there) are left out; over LogarithmicAllocator for tables of at most 7 bits. Example C65_case"
  }
 ]
}