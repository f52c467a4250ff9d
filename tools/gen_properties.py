#!/usr/bin/env python3
# Generates ../properties.jsonl (kept as a script so that the JSON is always well formed).
import json, os
P = []
def p(title, statement, quantifier, why, anchors):
    P.append(dict(id="C%02d" % (len(P)+1), title=title, statement=statement,
                  quantifier=quantifier, why_tests_cant=why, anchors=anchors))

# ---- SimpleAllocator -------------------------------------------------------
p("SimpleAllocator: live blocks are disjoint and inside the pool",
  "After any sequence of SimpleAllocator allocate/free calls with requests of at most 2^62 bytes (for larger ones see C46), every offset that allocate returned and that has not been freed denotes a block of at least the requested size that lies entirely after the pool header and inside the pool, and no two such blocks (including their bookkeeping headers) share a byte.",
  "all finite sequences of allocate(size)/free(live offset) calls, all request sizes, all pool size limits",
  "depends on the whole free-gap layout produced by an unbounded history; tests visit a handful of histories",
  ["src/SimpleAllocator.cc: SimpleAllocator::allocate, free", "src/Pool.cc: Pool::expand"])
p("SimpleAllocator: allocate and free never touch other blocks' contents",
  "A byte inside a live block keeps its value across every allocate and free of other blocks, and block_size(offset) returns exactly the size that was requested for that block, for as long as it is live.",
  "all histories, all live blocks, all bytes of those blocks",
  "a stray header write may hit any of unboundedly many layouts",
  ["src/SimpleAllocator.cc: allocate, free, block_size"])
p("SimpleAllocator: accounting is exact",
  "bytes_allocated() is always the sum of the requested sizes of the live blocks (a block is live until a free of it takes effect, see C45), and bytes_free() is always the pool size minus the pool header and minus, per live block, its size rounded up to 8 plus 24 bytes; it never underflows.",
  "all histories of allocate/free, with and without pool growth",
  "drift appears only after particular interleavings of frees, gap reuse and expansions",
  ["src/SimpleAllocator.cc: bytes_allocated, bytes_free, allocate, free"])
p("SimpleAllocator: allocation uses the best fitting gap and grows the pool only when it must",
  "If some gap between live blocks (or at either end of the pool) can hold the request, allocate does not change the pool size and places the block at the start of a gap of minimal sufficient size; otherwise the block is placed right after the last block and the pool grows to the least multiple of the page size that holds it.",
  "all reachable layouts, all request sizes",
  "the layout space is unbounded, and only the full layout decides which gap is best",
  ["src/SimpleAllocator.cc: allocate"])
p("SimpleAllocator: a failed allocation changes nothing",
  "If allocate throws because the pool may not grow (max_size reached or the OS refuses), then every byte of the pool and the pool size are exactly what they were before, and later calls behave as if the failed call had not been made.",
  "all reachable states, all sizes, all values of max_size and OS limits",
  "tests do not enumerate the states in which growth is refused",
  ["src/SimpleAllocator.cc: allocate", "src/Pool.cc: Pool::expand"])
p("SimpleAllocator: a crash at any point of allocate/free is repaired",
  "If a process dies after any prefix of the memory writes of an allocate or free, and another process then takes over the lock and runs the repair, the allocator is consistent again: the live blocks are those from before or those from after the interrupted call, all accounting is exact, all their contents are intact, and subsequent allocate/free calls are correct.",
  "all reachable states, all calls, every crash point (every individual store)",
  "a test cannot kill a process between each pair of stores in each reachable state",
  ["src/SimpleAllocator.cc: allocate, free, repair, lock"])
p("SimpleAllocator: the base object offset is stored and returned verbatim",
  "base_object_offset() returns the last value given to set_base_object_offset() (0 for a new pool), and no allocate/free changes it.",
  "all histories mixing set_base_object_offset, allocate, free",
  "needs the frame property of every allocator operation on every reachable state",
  ["src/SimpleAllocator.cc: set_base_object_offset, base_object_offset", "src/LogarithmicAllocator.cc: set_base_object_offset, base_object_offset"])
# ---- LogarithmicAllocator --------------------------------------------------
p("LogarithmicAllocator: live blocks are disjoint, aligned and inside the pool",
  "After any sequence of LogarithmicAllocator allocate/free calls, live blocks lie inside the pool after the header, do not share bytes with each other or with allocator metadata, and each holds at least the requested number of bytes.",
  "all finite histories, all request sizes",
  "buddy splitting, merging and expansion interact over unbounded histories",
  ["src/LogarithmicAllocator.cc: allocate, free"])
p("LogarithmicAllocator: allocate and free preserve contents of other blocks",
  "Bytes inside live blocks are not changed by allocate/free of other blocks, and block_size returns the requested size.",
  "all histories with request sizes for which C08 holds, all live bytes",
  "same as C08",
  ["src/LogarithmicAllocator.cc: allocate, free, block_size"])
p("LogarithmicAllocator: accounting is exact",
  "bytes_allocated() is the sum of the requested sizes of live blocks; bytes_free() is the pool size minus the header minus the sum of the power-of-two sizes of the live blocks.",
  "all histories", "drift appears only after particular histories",
  ["src/LogarithmicAllocator.cc: bytes_allocated, bytes_free, allocate, free"])
p("LogarithmicAllocator: the pool is always partitioned and buddies are always merged",
  "At any time live blocks and free blocks tile the pool after the header exactly, every free block is reachable from the free list of its own size and only from it, and no two free buddies coexist unmerged; in particular freeing everything gives back every byte for reuse.",
  "all histories", "a lost or doubly-listed free block is invisible until some later allocation",
  ["src/LogarithmicAllocator.cc: free, allocate, verify"])
p("LogarithmicAllocator: freeing a block that is not allocated is a no-op",
  "free(offset) on a block that is already free (double free), or on an out-of-range offset, changes nothing.",
  "all reachable states, all previously freed offsets that are still free block starts, all out-of-range offsets",
  "which offsets are free block starts depends on the merge history",
  ["src/LogarithmicAllocator.cc: free"])
p("LogarithmicAllocator: zero-sized and larger-than-a-page requests are served correctly",
  "allocate(0) and allocate(n) with n larger than a page satisfy the same disjointness and bounds guarantees as any other request.",
  "all histories containing such requests",
  "the failing layouts need a specific history of growth and frees that the unit tests never produce",
  ["src/LogarithmicAllocator.cc: allocate"])
p("LogarithmicAllocator: failed allocation changes nothing",
  "If allocate throws because the pool may not grow, allocator state and all contents are unchanged.",
  "all reachable states, sizes and limits", "needs all states in which growth is refused",
  ["src/LogarithmicAllocator.cc: allocate"])
# ---- Pool -------------------------------------------------------------------
p("Pool::expand grows to the page-rounded size, never shrinks, respects max_size and preserves data",
  "expand(n) throws and changes nothing if n rounded up to a page exceeds a non-zero max_size; otherwise afterwards size() is the maximum of the old size and n rounded up to a page, all old bytes are unchanged and new bytes are zero.",
  "all n below the 64-bit wrap-around, all pool contents, all max_size values", "unbounded domain of sizes and contents",
  ["src/Pool.cc: Pool::expand, check_size_and_remap, size"])
p("A process sees the pool growth done by other processes once it takes the lock",
  "When one process has grown the pool, any other process that subsequently starts an operation under the allocator lock accesses the whole grown pool, so operations issued by different processes in any order behave as if issued by one process.",
  "all sequences of (process, operation) pairs over any number of processes",
  "the order in which processes observe growth is a schedule",
  ["src/Pool.cc: check_size_and_remap", "src/SimpleAllocator.cc: lock", "src/LogarithmicAllocator.cc: lock"])
# ---- Queue -------------------------------------------------------------------
p("Queue is a double-ended queue",
  "Queue push_back/push_front/pop_back/pop_front return exactly what an ideal double-ended queue of byte strings would return after the same history, and popping from an empty queue throws out_of_range and changes nothing.",
  "all histories, all byte-string values (including empty), any other data structures in the same pool",
  "unbounded histories and values; pointer surgery at both ends",
  ["src/Queue.cc: push, pop, push_back, push_front, pop_back, pop_front"])
p("Queue::size and Queue::bytes are exact",
  "size() is the number of stored items and bytes() is the total length of the stored items.",
  "all histories", "drift is only visible after specific histories",
  ["src/Queue.cc: size, bytes"])
p("Queue operations do not leak or over-free pool memory",
  "After any history the blocks owned by a queue are exactly its base object plus one block per stored item; in particular once every item is popped the allocator's bytes_allocated returns to the value just after the queue was created (as long as every freed block is one that the allocator's free gives back, see C45).",
  "all histories", "a leak on one path is found only if that path is exercised and measured",
  ["src/Queue.cc: push, pop"])
p("Queue survives a crash at any point",
  "README: if a process dies at any point of a push or pop on a Queue, the next user of the queue sees a consistent queue with the operation either done or not done.",
  "all queue states, all operations, every crash point", "cannot kill between each pair of stores",
  ["src/Queue.cc: push, pop, link_node, unlink_node", "README.md"])
# ---- PriorityQueue -------------------------------------------------------------
p("PriorityQueue pops in ascending lexicographic order",
  "pop() always returns the least stored item in byte-wise lexicographic order (a proper prefix is smaller), for every history of push/pop/clear; popping from an empty queue throws out_of_range and changes nothing.",
  "all histories, all byte-string values", "heap order must hold for all shapes and histories",
  ["src/PriorityQueue.cc: push, pop, sift_up_locked, sift_down_locked, less_locked"])
p("PriorityQueue never loses or duplicates items",
  "The multiset of stored items is exactly pushed minus popped; size() is its cardinality; clear() empties it.",
  "all histories", "see C21",
  ["src/PriorityQueue.cc: push, pop, clear, size"])
# ---- HashTable --------------------------------------------------------------------
p("HashTable behaves as a finite map from byte strings to byte strings",
  "insert/erase/exists/at/size/clear behave like an ideal finite map for all keys and values, whatever the hash collisions.",
  "all histories, all keys/values, all hash functions, all table sizes", "collision chains depend on the hash and the history; tests do not force chains of length three or more",
  ["src/HashTable.cc: insert, erase, exists, at, clear, size, walk_indirect_list"])
p("HashTable conditional writes are compare-and-set",
  "A conditional insert or erase is performed, and returns true, exactly when the check key currently has the expected value (or is absent, when absence was requested); otherwise it returns false and changes nothing.",
  "all tables, all check keys and target keys, whatever collisions", "depends on chain layout",
  ["src/HashTable.cc: insert, erase, execute_check"])
p("HashTable::incr adds to the stored number",
  "incr(key, delta) on an existing 1, 2, 4 or 8-byte value stores and returns the wrapped sum of that width, creates an 8-byte value if the key is absent, throws out_of_range on other widths, and changes nothing else.",
  "all tables, keys, deltas, whatever collisions and pool growth", "the wrong paths need a collision or a remap at a particular moment",
  ["src/HashTable.cc: incr"])
p("HashTable iteration visits every item exactly once",
  "Iterating an unmodified table yields each (key, value) pair exactly once.",
  "all tables", "depends on chain layout",
  ["src/HashTable.cc: get_slot_contents, HashTableIterator"])
# ---- PrefixTree ---------------------------------------------------------------------
p("PrefixTree behaves as a finite map from byte strings to typed values",
  "insert (of strings, integers, floats, booleans, null) followed by at/type returns the last value written with its type for each key, and out_of_range for absent keys, for every history of inserts and erases.",
  "all histories, all keys (including empty and keys that are prefixes of others), all values", "trie shapes are unbounded; node range extension and pruning depend on history",
  ["src/PrefixTree.cc: insert, at, type, erase, traverse"])
p("PrefixTree value encoding is lossless",
  "Every 64-bit integer, double, boolean, null and string of any length read back from the tree equals the one inserted, although small ones are packed in the slot itself.",
  "all values", "2^64 integers, all strings",
  ["src/PrefixTree.cc: insert, get_string..., lookup_result_for_contents", "src/PrefixTree.hh: StoredValueType"])
p("PrefixTree::exists is membership",
  "exists(key) returns true exactly when a value is stored for key.",
  "all trees and keys", "wrong answers appear only for keys that are interior positions of the trie",
  ["src/PrefixTree.cc: exists, traverse"])
p("PrefixTree::erase reports whether it removed something and removes only that key",
  "erase(key) returns true exactly when key had a value, after which key is absent and all other keys are unchanged.",
  "all trees, keys", "path-sharing keys, pruning",
  ["src/PrefixTree.cc: erase"])
p("PrefixTree iteration is in lexicographic order and complete",
  "next_key_value(key) returns the least stored key greater than key together with its value, or throws out_of_range if there is none; so iteration from the beginning visits all keys in ascending order.",
  "all trees and all current keys, stored or not", "position of the current key relative to node ranges",
  ["src/PrefixTree.cc: next_key_value_internal, next_key, next_key_value"])
p("PrefixTree::incr adds to the stored number",
  "incr(key, delta) stores and returns old+delta (or delta if absent) with 64-bit wrap-around for integers, throws out_of_range when the value has another type, and changes no other key.",
  "all trees, keys, deltas", "encoding switches between inline and out-of-line representations",
  ["src/PrefixTree.cc: incr"])
p("PrefixTree counts are exact and erasing frees memory",
  "size() is the number of stored keys, node_size() the number of nodes, and after erasing every key no node other than the root and no value block remains allocated.",
  "all histories", "leak/over-free on rarely taken paths",
  ["src/PrefixTree.cc: size, node_size, erase, clear"])
p("PrefixTree conditional writes are compare-and-set",
  "A conditional insert/erase takes effect and returns true exactly when the check key's current value (with type) equals the expected one, else returns false and changes nothing.",
  "all trees, check keys, values", "depends on representation of the compared values",
  ["src/PrefixTree.cc: execute_check, insert, erase"])
p("A failed PrefixTree insert leaves the old value in place",
  "If insert throws because the pool is full, the tree's contents are unchanged.",
  "all trees, keys, values and limits", "states in which the pool is exactly full",
  ["src/PrefixTree.cc: insert"])
# ---- Locking ------------------------------------------------------------------------
p("The read-write lock excludes writers from everyone",
  "While a live process holds the lock for writing, no other process holds it for reading or writing; readers may share.",
  "all interleavings of the individual memory accesses of lock/unlock by any number of processes, with processes dying at any step and waking from waits at any time; pids below 2^18 and not reused (the rest is C49 and C50)",
  "schedules cannot be enumerated by tests",
  ["src/ProcessLock.cc: ProcessReadWriteLockGuard, ProcessLockGuard"])
p("The lock is stolen only from dead processes, and thieves are told",
  "A process takes over a lock without its holder releasing it only when the holder has died, and then the guard reports the stolen token, so that the caller repairs the pool before using it.",
  "all interleavings, all crash points; pids below 2^18 and not reused", "timing and death of processes",
  ["src/ProcessLock.cc: ProcessReadWriteLockGuard, stolen_token", "src/SimpleAllocator.cc: lock"])
p("Operations under the lock are linearizable",
  "Concurrent operations on a shared structure, each executed under the allocator lock (shared for read-only operations), give the results of some sequential order of the same operations consistent with real time.",
  "all interleavings of the individual memory accesses of any number of processes", "schedules are unbounded",
  ["src/ProcessLock.cc", "src/Queue.cc", "src/HashTable.cc", "src/PrefixTree.cc", "src/PriorityQueue.cc"])
p("Releasing the lock never releases someone else's lock",
  "When a guard is destroyed it clears the lock only if the lock still carries that process's own token.",
  "all interleavings; pids below 2^18 and not reused", "needs a steal between acquire and release",
  ["src/ProcessLock.cc: ~ProcessReadWriteLockGuard"])
# ---- AtomicVector -------------------------------------------------------------------
p("AtomicVector element operations are atomic and independent",
  "Concurrent load/store/exchange/compare_exchange/fetch_add/... on elements behave as if executed one at a time, each returning the value that preceded it and touching only its own element; out-of-range indices throw out_of_range.",
  "all interleavings, all vector contents, all indices", "schedules and contents are unbounded",
  ["src/AtomicVector.hh"])
p("AtomicVector bit operations touch exactly the addressed bit",
  "load_bit/store_bit/xor_bit address bit i of the vector in a fixed bijective numbering, report its previous value and leave all other bits unchanged.",
  "all vectors, all bit indices", "unbounded domain",
  ["src/AtomicVector.hh: load_bit, store_bit, xor_bit"])
p("AtomicVector::expand is safe under concurrency",
  "Concurrent expand calls never lose elements: afterwards size() is at least each requested size and every element below size() is backed by the pool.",
  "all interleavings of expand calls", "needs a race of two processes inside expand",
  ["src/AtomicVector.hh: expand", "src/Pool.cc: expand"])
# ---- Cross cutting ------------------------------------------------------------------
p("Structures sharing a pool do not interfere",
  "Operations on one data structure never change the observable contents of another structure or of raw blocks in the same pool, in any interleaving of operations on any number of structures.",
  "all histories over any number of structures in one pool", "unbounded histories over several structures",
  ["src/Queue.cc", "src/PriorityQueue.cc", "src/HashTable.cc", "src/PrefixTree.cc", "src/SimpleAllocator.cc", "src/LogarithmicAllocator.cc"])
p("Structures can be closed and reopened",
  "Reopening a structure by its base offset (or by the pool's base object), in the same or another process, gives access to exactly the contents left by earlier operations.",
  "all histories with reopenings at any point", "unbounded histories",
  ["src/Queue.cc: Queue::Queue", "src/PriorityQueue.cc", "src/HashTable.cc", "src/PrefixTree.cc"])
# ---- Added while modelling -----------------------------------------------------------
p("SimpleAllocator::free gives every block back",
  "free(offset) of a live block makes its bytes available again and removes it from bytes_allocated(), wherever the block lies.",
  "all reachable layouts, all live blocks", "the exception needs a small block that ends exactly at the end of the pool",
  ["src/SimpleAllocator.cc: SimpleAllocator::free"])
p("SimpleAllocator refuses requests that cannot fit",
  "allocate(size) either returns an offset with size usable bytes inside the pool or throws, also for sizes near 2^64.",
  "all 64-bit sizes", "the overflow needs a size within 40 bytes of 2^64",
  ["src/SimpleAllocator.cc: SimpleAllocator::allocate"])
p("Pool::map_and_read_atomic and map_and_write_atomic access the given offset",
  "map_and_read_atomic<T>(offset) returns the value stored at that offset of the pool, and map_and_write_atomic<T>(offset, v) stores v there.",
  "all offsets inside the pool, all pool contents", "wrong for every offset outside the first page only",
  ["src/Pool.hh: map_and_read_atomic, map_and_write_atomic", "src/Pool.cc: map_and_call"])
p("A pool whose creator died can still be opened and used",
  "If the process that creates a pool dies at any point of the constructor, other processes can either create the pool anew or open and use it.",
  "every crash point of pool creation", "a test cannot kill the creator between ftruncate and the store of the size",
  ["src/Pool.cc: Pool::Pool, check_size_and_remap"])
p("The lock excludes for every process id the kernel can assign",
  "The exclusion of C36 holds for all process ids Linux can assign (up to 2^22), not only for those below 2^18.",
  "all interleavings, all pids below 2^22", "the default pid_max is 32768; collisions of truncated tokens need large pids",
  ["src/ProcessLock.cc: this_process_token"])
p("The lock excludes even when process ids are reused",
  "If a process dies holding the lock and another process gets the same pid, the lock still excludes and is still eventually taken over.",
  "all interleavings with pid reuse", "pid reuse with an equal start time cannot be provoked in a test",
  ["src/ProcessLock.cc: this_process_token, process_for_token_is_running"])
p("LogarithmicAllocator survives the death of a process anywhere in an operation",
  "If a process dies at any point while it holds the allocator lock, also in the middle of allocate or free, the next process to take the lock repairs the free lists and counters; live blocks stay live, disjoint and intact.",
  "every crash point of every operation in every reachable state", "a crash between two stores of a block split cannot be forced by a test",
  ["src/LogarithmicAllocator.cc: LogarithmicAllocator::repair, allocate, free"])
p("LogarithmicAllocator grows the pool only when nothing fits",
  "allocate serves a request from a free block whenever one is long enough, and otherwise makes the pool larger, by no more than needed, or throws if that is not allowed; no other call changes the pool's size.",
  "all histories, all request sizes, all limits", "depends on the whole layout of free blocks that the history leaves",
  ["src/LogarithmicAllocator.cc: LogarithmicAllocator::allocate"])
p("A prefix tree survives a crash at any point of an operation",
  "If a process dies at any point of an operation on a prefix tree in a pool with a SimpleAllocator, or while it repairs after such a death, the next process that takes the lock finds a consistent tree: it holds the old contents or the new ones (an insertion may have removed the old value, clear() may have removed only a part), every later operation gives the right results for these contents, and no other object in the pool is affected.",
  "all histories, every crash point of every operation and of every repair", "a test cannot kill a process between every two stores of every operation in every state",
  ["README.md: crash safety notes of PrefixTree", "src/PrefixTree.cc: insert, erase, incr, clear, traverse", "src/SimpleAllocator.cc: repair"])
p("A crash in an operation on one object does not harm the other objects",
  "If a process dies at any point of an operation on one object of a pool with a SimpleAllocator (also while it creates an object, opens or changes the base object, or frees a block), the next process that takes the lock finds all other objects as they were: every later operation on them has the right result, raw blocks keep their bytes (also the bytes of a raw block outside of the range being written), and the pool can be used as before. A base object that was being created is complete or not visible.",
  "all histories over all kinds of objects, every crash point of every operation and of every repair, any number of crashes", "a test cannot kill a process between every two stores of every operation in every state, and a wild store to another object shows only later",
  ["README.md: crash safety notes", "src/SimpleAllocator.cc: allocate, free, repair, lock", "src/Queue.cc, src/PriorityQueue.cc, src/HashTable.cc, src/PrefixTree.cc: all operations and constructors"])
p("find, lower_bound and upper_bound of a prefix tree find the right item",
  "find(k) returns an iterator at key k, lower_bound(k) one at the first key that is not less than k and upper_bound(k) one at the first key that is greater than k, in byte-lexicographic order; each returns end() if there is no such key, raises nothing and changes nothing.",
  "all histories, all keys whether stored or not, all tree shapes", "which item comes next depends on how the gaps of the nodes lie, that is on the whole history",
  ["src/PrefixTree.cc: PrefixTree::find, lower_bound, upper_bound, next_key_value_internal"])
p("nodes_for_prefix counts the nodes below a prefix",
  "nodes_for_prefix(p) returns the number of nodes that the tree has for keys that begin with p (0 if there are none); unless memory ran out before, these are exactly the root and the proper prefixes of the stored keys, so the call tells how much an erasure would release. It raises nothing and changes nothing.",
  "all histories, all prefixes", "recursion over trees of any depth and shape",
  ["src/PrefixTree.cc: PrefixTree::nodes_for_prefix, nodes_for_contents, traverse"])
p("bytes_for_prefix tells the bytes used below a prefix",
  "bytes_for_prefix(p) returns the bytes that the tree uses for keys that begin with p: the slot that leads there, the nodes below it and the blocks of the values stored there; for the empty prefix this is everything the tree has allocated but its 16 bytes of counters.",
  "all histories, all prefixes, all types and lengths of values", "needs every kind of value at every kind of place in a tree of any shape",
  ["src/PrefixTree.cc: PrefixTree::bytes_for_prefix, bytes_for_contents, traverse", "src/SimpleAllocator.cc, src/LogarithmicAllocator.cc: block_size"])
p("LogarithmicAllocator::verify() accepts every pool in use and finds wrong counters and links",
  "verify() throws nothing and changes nothing in a pool that has only been used through the API (after a death it repairs first); conversely, if it does not throw and the blocks tile the pool, the counters of allocated and committed bytes are right and every free list is linked correctly in both directions.",
  "all histories with any number of processes, deaths included; for the converse all pool files, also damaged ones", "every reachable layout of blocks must pass, and every damaged one with a wrong counter or link must fail",
  ["src/LogarithmicAllocator.cc: LogarithmicAllocator::verify, next_order_boundary, repair"])
p("is_locked() and reader_count() never miss a holder",
  "While a thread of a running process holds a lock for writing, is_locked(true) (for ProcessLock: is_locked()) returns true; while one holds it for reading, is_locked(false) returns true; and if n threads hold it for reading all through a call of reader_count(), the result is at least n - although the calls take no lock and other processes and threads acquire, release, wait, die and take over locks in between.",
  "all histories and interleavings with any number of processes and threads, deaths included", "a reader that a scan of 65 slots misses because another one moves in between shows only in rare interleavings",
  ["src/ProcessLock.cc: ProcessLock::is_locked, ProcessReadWriteLock::is_locked, reader_count"])
p("Iterating over a hash table while others change it",
  "An iteration over a hash table (begin(), ++, == end(), *) takes the lock anew for each slot, and in between other processes may insert, erase, clear, add to and do anything else with this table and other objects. It never visits a key twice; what it visits was in the table, with this value, at the time of one of its calls; when it comes to the end it has visited every key that was in the table at the time of all its calls. None of its calls fails or reads outside of the table.",
  "all histories before and between any two calls of the iteration, all tables and hash functions", "the interleavings of an iteration with changes of the slots before and behind it cannot be enumerated",
  ["src/HashTable.cc: HashTableIterator, HashTable::get_slot_contents, begin, end, bits"])
p("Iterating over a prefix tree while others change it",
  "An iteration over a prefix tree (begin(), ++, *) takes the lock anew for each step, and in between other processes may do anything with this tree and other objects. As long as the key that the iterator is at is still stored when it advances, it visits keys in strictly ascending order, so none twice; what it visits was in the tree, with this value, at the time of one of its calls; when it comes to the end it has visited every key that was in the tree at the time of all its calls. None of its calls fails.",
  "all histories before and between any two steps of the iteration, all trees, any number of steps", "the interleavings of an iteration with changes before and behind it cannot be enumerated",
  ["src/PrefixTree.cc: PrefixTreeIterator, PrefixTree::begin, end, next_key_value, next_key_value_internal"])
p("lower_bound of a prefix tree while others change it",
  "lower_bound(k) takes the lock twice when k is not stored. While other processes do anything with the tree and other objects in between, it still returns what it would return at some moment between its call and its return. At the least: an item that it returns is stored when it returns, its key is not less than k, and no key that is not less than k and is stored all the time comes before it; it returns end() only if there is no such key.",
  "all histories before and between the two lookups, all trees and keys", "needs changes by other processes exactly between two lookups inside one call",
  ["src/PrefixTree.cc: PrefixTree::lower_bound, upper_bound, at"])
p("Processes that open the base object at the same time agree",
  "A constructor that is called without an offset reads the pool's base object under the read lock and, if there is none, takes the write lock, reads again and creates one. Whatever other processes do in between, it gets the base object that was set meanwhile and creates nothing, or else creates one at a place that no object has and makes it the base object; and from then on, until someone calls set_base_object_offset, everyone who opens the base object, by either half of a constructor of any structure, gets this one. When memory runs out, the constructor raises and there is still no base object.",
  "all histories before, between and after the two halves of a constructor, any number of processes, all four structures (hash tables of 2 to 30 bits)",
  "two processes creating the base object at the same time meet only in rare schedules",
  ["src/Queue.cc: Queue::Queue(allocator, base_offset)", "src/PriorityQueue.cc: PriorityQueue::PriorityQueue(allocator, base_offset)", "src/HashTable.cc: HashTable::HashTable(allocator, base_offset, bits)", "src/PrefixTree.cc: PrefixTree::PrefixTree(allocator, base_offset)", "src/Allocator.hh: base_object_offset, set_base_object_offset"])
p("Functions that read write nothing",
  "The functions that take the lock for reading - size(), bytes(), verify(), exists(), at(), type(), find(), the bounds, iteration, counts, block_size(), bytes_allocated(), bytes_free(), base_object_offset() - change no byte of the pool file (apart from the words of the lock itself, and the repair by a process that takes the lock over from a dead one), nor its size, nor the mappings of other processes: whether they return, raise an exception or their process dies in the middle, and whatever the pool contains, even if it is corrupt.",
  "all pool contents, including corrupt ones, all arguments, all points at which the process may die, both allocators",
  "a read path that writes in some corner case is seen only when another reader runs at the same moment",
  ["src/Queue.cc", "src/PriorityQueue.cc", "src/HashTable.cc", "src/PrefixTree.cc", "src/SimpleAllocator.cc: SimpleAllocator::block_size, bytes_allocated, bytes_free, base_object_offset", "src/LogarithmicAllocator.cc: LogarithmicAllocator::verify, block_size, bytes_allocated, bytes_free, base_object_offset"])
p("The number of slots of a hash table is fixed",
  "bits() of a hash table is the argument with which it was created, for all processes and for ever: no operation on this table or another object, by any process, changes it. A constructor with fewer than 2 bits raises invalid_argument and changes no byte of the pool.",
  "all histories, all tables of 2 to 30 bits, all processes",
  "a change of the number of slots by any sequence of operations would make items unreachable, and only in later lookups",
  ["src/HashTable.cc: HashTable::bits, create_hash_base"])
out = os.path.join(os.path.dirname(os.path.abspath(__file__)), "..", "properties.jsonl")
with open(out, "w") as f:
    for x in P: f.write(json.dumps(x) + "\n")
print(len(P))
