{"id": "C01", "title": "SimpleAllocator: live blocks are disjoint and inside the pool", "statement": "After any sequence of SimpleAllocator allocate/free calls with requests of at most 2^62 bytes (for larger ones see C46), every offset that allocate returned and that has not been freed denotes a block of at least the requested size that lies entirely after the pool header and inside the pool, and no two such blocks (including their bookkeeping headers) share a byte.", "quantifier": "all finite sequences of allocate(size)/free(live offset) calls, all request sizes, all pool size limits", "why_tests_cant": "depends on the whole free-gap layout produced by an unbounded history; tests visit a handful of histories", "anchors": ["src/SimpleAllocator.cc: SimpleAllocator::allocate, free", "src/Pool.cc: Pool::expand"]}
{"id": "C02", "title": "SimpleAllocator: allocate and free never touch other blocks' contents", "statement": "A byte inside a live block keeps its value across every allocate and free of other blocks, and block_size(offset) returns exactly the size that was requested for that block, for as long as it is live.", "quantifier": "all histories, all live blocks, all bytes of those blocks", "why_tests_cant": "a stray header write may hit any of unboundedly many layouts", "anchors": ["src/SimpleAllocator.cc: allocate, free, block_size"]}
{"id": "C03", "title": "SimpleAllocator: accounting is exact", "statement": "bytes_allocated() is always the sum of the requested sizes of the live blocks (a block is live until a free of it takes effect, see C45), and bytes_free() is always the pool size minus the pool header and minus, per live block, its size rounded up to 8 plus 24 bytes; it never underflows.", "quantifier": "all histories of allocate/free, with and without pool growth", "why_tests_cant": "drift appears only after particular interleavings of frees, gap reuse and expansions", "anchors": ["src/SimpleAllocator.cc: bytes_allocated, bytes_free, allocate, free"]}
{"id": "C04", "title": "SimpleAllocator: allocation uses the best fitting gap and grows the pool only when it must", "statement": "If some gap between live blocks (or at either end of the pool) can hold the request, allocate does not change the pool size and places the block at the start of a gap of minimal sufficient size; otherwise the block is placed right after the last block and the pool grows to the least multiple of the page size that holds it.", "quantifier": "all reachable layouts, all request sizes", "why_tests_cant": "the layout space is unbounded, and only the full layout decides which gap is best", "anchors": ["src/SimpleAllocator.cc: allocate"]}
{"id": "C05", "title": "SimpleAllocator: a failed allocation changes nothing", "statement": "If allocate throws because the pool may not grow (max_size reached or the OS refuses), then every byte of the pool and the pool size are exactly what they were before, and later calls behave as if the failed call had not been made.", "quantifier": "all reachable states, all sizes, all values of max_size and OS limits", "why_tests_cant": "tests do not enumerate the states in which growth is refused", "anchors": ["src/SimpleAllocator.cc: allocate", "src/Pool.cc: Pool::expand"]}
{"id": "C06", "title": "SimpleAllocator: a crash at any point of allocate/free is repaired", "statement": "If a process dies after any prefix of the memory writes of an allocate or free, and another process then takes over the lock and runs the repair, the allocator is consistent again: the live blocks are those from before or those from after the interrupted call, all accounting is exact, all their contents are intact, and subsequent allocate/free calls are correct.", "quantifier": "all reachable states, all calls, every crash point (every individual store)", "why_tests_cant": "a test cannot kill a process between each pair of stores in each reachable state", "anchors": ["src/SimpleAllocator.cc: allocate, free, repair, lock"]}
{"id": "C07", "title": "SimpleAllocator: the base object offset is stored and returned verbatim", "statement": "base_object_offset() returns the last value given to set_base_object_offset() (0 for a new pool), and no allocate/free changes it.", "quantifier": "all histories mixing set_base_object_offset, allocate, free", "why_tests_cant": "needs the frame property of every allocator operation on every reachable state", "anchors": ["src/SimpleAllocator.cc: set_base_object_offset, base_object_offset", "src/LogarithmicAllocator.cc: set_base_object_offset, base_object_offset"]}
{"id": "C08", "title": "LogarithmicAllocator: live blocks are disjoint, aligned and inside the pool", "statement": "After any sequence of LogarithmicAllocator allocate/free calls, live blocks lie inside the pool after the header, do not share bytes with each other or with allocator metadata, and each holds at least the requested number of bytes.", "quantifier": "all finite histories, all request sizes", "why_tests_cant": "buddy splitting, merging and expansion interact over unbounded histories", "anchors": ["src/LogarithmicAllocator.cc: allocate, free"]}
{"id": "C09", "title": "LogarithmicAllocator: allocate and free preserve contents of other blocks", "statement": "Bytes inside live blocks are not changed by allocate/free of other blocks, and block_size returns the requested size.", "quantifier": "all histories with request sizes for which C08 holds, all live bytes", "why_tests_cant": "same as C08", "anchors": ["src/LogarithmicAllocator.cc: allocate, free, block_size"]}
{"id": "C10", "title": "LogarithmicAllocator: accounting is exact", "statement": "bytes_allocated() is the sum of the requested sizes of live blocks; bytes_free() is the pool size minus the header minus the sum of the power-of-two sizes of the live blocks.", "quantifier": "all histories", "why_tests_cant": "drift appears only after particular histories", "anchors": ["src/LogarithmicAllocator.cc: bytes_allocated, bytes_free, allocate, free"]}
{"id": "C11", "title": "LogarithmicAllocator: the pool is always partitioned and buddies are always merged", "statement": "At any time live blocks and free blocks tile the pool after the header exactly, every free block is reachable from the free list of its own size and only from it, and no two free buddies coexist unmerged; in particular freeing everything gives back every byte for reuse.", "quantifier": "all histories", "why_tests_cant": "a lost or doubly-listed free block is invisible until some later allocation", "anchors": ["src/LogarithmicAllocator.cc: free, allocate, verify"]}
{"id": "C12", "title": "LogarithmicAllocator: freeing a block that is not allocated is a no-op", "statement": "free(offset) on a block that is already free (double free), or on an out-of-range offset, changes nothing.", "quantifier": "all reachable states, all previously freed offsets that are still free block starts, all out-of-range offsets", "why_tests_cant": "which offsets are free block starts depends on the merge history", "anchors": ["src/LogarithmicAllocator.cc: free"]}
{"id": "C13", "title": "LogarithmicAllocator: zero-sized and larger-than-a-page requests are served correctly", "statement": "allocate(0) and allocate(n) with n larger than a page satisfy the same disjointness and bounds guarantees as any other request.", "quantifier": "all histories containing such requests", "why_tests_cant": "the failing layouts need a specific history of growth and frees that the unit tests never produce", "anchors": ["src/LogarithmicAllocator.cc: allocate"]}
{"id": "C14", "title": "LogarithmicAllocator: failed allocation changes nothing", "statement": "If allocate throws because the pool may not grow, allocator state and all contents are unchanged.", "quantifier": "all reachable states, sizes and limits", "why_tests_cant": "needs all states in which growth is refused", "anchors": ["src/LogarithmicAllocator.cc: allocate"]}
{"id": "C15", "title": "Pool::expand grows to the page-rounded size, never shrinks, respects max_size and preserves data", "statement": "expand(n) throws and changes nothing if n rounded up to a page exceeds a non-zero max_size; otherwise afterwards size() is the maximum of the old size and n rounded up to a page, all old bytes are unchanged and new bytes are zero.", "quantifier": "all n below the 64-bit wrap-around, all pool contents, all max_size values", "why_tests_cant": "unbounded domain of sizes and contents", "anchors": ["src/Pool.cc: Pool::expand, check_size_and_remap, size"]}
{"id": "C16", "title": "A process sees the pool growth done by other processes once it takes the lock", "statement": "When one process has grown the pool, any other process that subsequently starts an operation under the allocator lock accesses the whole grown pool, so operations issued by different processes in any order behave as if issued by one process.", "quantifier": "all sequences of (process, operation) pairs over any number of processes", "why_tests_cant": "the order in which processes observe growth is a schedule", "anchors": ["src/Pool.cc: check_size_and_remap", "src/SimpleAllocator.cc: lock", "src/LogarithmicAllocator.cc: lock"]}
{"id": "C17", "title": "Queue is a double-ended queue", "statement": "Queue push_back/push_front/pop_back/pop_front return exactly what an ideal double-ended queue of byte strings would return after the same history, and popping from an empty queue throws out_of_range and changes nothing.", "quantifier": "all histories, all byte-string values (including empty), any other data structures in the same pool", "why_tests_cant": "unbounded histories and values; pointer surgery at both ends", "anchors": ["src/Queue.cc: push, pop, push_back, push_front, pop_back, pop_front"]}
{"id": "C18", "title": "Queue::size and Queue::bytes are exact", "statement": "size() is the number of stored items and bytes() is the total length of the stored items.", "quantifier": "all histories", "why_tests_cant": "drift is only visible after specific histories", "anchors": ["src/Queue.cc: size, bytes"]}
{"id": "C19", "title": "Queue operations do not leak or over-free pool memory", "statement": "After any history the blocks owned by a queue are exactly its base object plus one block per stored item; in particular once every item is popped the allocator's bytes_allocated returns to the value just after the queue was created (as long as every freed block is one that the allocator's free gives back, see C45).", "quantifier": "all histories", "why_tests_cant": "a leak on one path is found only if that path is exercised and measured", "anchors": ["src/Queue.cc: push, pop"]}
{"id": "C20", "title": "Queue survives a crash at any point", "statement": "README: if a process dies at any point of a push or pop on a Queue, the next user of the queue sees a consistent queue with the operation either done or not done.", "quantifier": "all queue states, all operations, every crash point", "why_tests_cant": "cannot kill between each pair of stores", "anchors": ["src/Queue.cc: push, pop, link_node, unlink_node", "README.md"]}
{"id": "C21", "title": "PriorityQueue pops in ascending lexicographic order", "statement": "pop() always returns the least stored item in byte-wise lexicographic order (a proper prefix is smaller), for every history of push/pop/clear; popping from an empty queue throws out_of_range and changes nothing.", "quantifier": "all histories, all byte-string values", "why_tests_cant": "heap order must hold for all shapes and histories", "anchors": ["src/PriorityQueue.cc: push, pop, sift_up_locked, sift_down_locked, less_locked"]}
{"id": "C22", "title": "PriorityQueue never loses or duplicates items", "statement": "The multiset of stored items is exactly pushed minus popped; size() is its cardinality; clear() empties it.", "quantifier": "all histories", "why_tests_cant": "see C21", "anchors": ["src/PriorityQueue.cc: push, pop, clear, size"]}
{"id": "C23", "title": "HashTable behaves as a finite map from byte strings to byte strings", "statement": "insert/erase/exists/at/size/clear behave like an ideal finite map for all keys and values, whatever the hash collisions.", "quantifier": "all histories, all keys/values, all hash functions, all table sizes", "why_tests_cant": "collision chains depend on the hash and the history; tests do not force chains of length three or more", "anchors": ["src/HashTable.cc: insert, erase, exists, at, clear, size, walk_indirect_list"]}
{"id": "C24", "title": "HashTable conditional writes are compare-and-set", "statement": "A conditional insert or erase is performed, and returns true, exactly when the check key currently has the expected value (or is absent, when absence was requested); otherwise it returns false and changes nothing.", "quantifier": "all tables, all check keys and target keys, whatever collisions", "why_tests_cant": "depends on chain layout", "anchors": ["src/HashTable.cc: insert, erase, execute_check"]}
{"id": "C25", "title": "HashTable::incr adds to the stored number", "statement": "incr(key, delta) on an existing 1, 2, 4 or 8-byte value stores and returns the wrapped sum of that width, creates an 8-byte value if the key is absent, throws out_of_range on other widths, and changes nothing else.", "quantifier": "all tables, keys, deltas, whatever collisions and pool growth", "why_tests_cant": "the wrong paths need a collision or a remap at a particular moment", "anchors": ["src/HashTable.cc: incr"]}
{"id": "C26", "title": "HashTable iteration visits every item exactly once", "statement": "Iterating an unmodified table yields each (key, value) pair exactly once.", "quantifier": "all tables", "why_tests_cant": "depends on chain layout", "anchors": ["src/HashTable.cc: get_slot_contents, HashTableIterator"]}
{"id": "C27", "title": "PrefixTree behaves as a finite map from byte strings to typed values", "statement": "insert (of strings, integers, floats, booleans, null) followed by at/type returns the last value written with its type for each key, and out_of_range for absent keys, for every history of inserts and erases.", "quantifier": "all histories, all keys (including empty and keys that are prefixes of others), all values", "why_tests_cant": "trie shapes are unbounded; node range extension and pruning depend on history", "anchors": ["src/PrefixTree.cc: insert, at, type, erase, traverse"]}
{"id": "C28", "title": "PrefixTree value encoding is lossless", "statement": "Every 64-bit integer, double, boolean, null and string of any length read back from the tree equals the one inserted, although small ones are packed in the slot itself.", "quantifier": "all values", "why_tests_cant": "2^64 integers, all strings", "anchors": ["src/PrefixTree.cc: insert, get_string..., lookup_result_for_contents", "src/PrefixTree.hh: StoredValueType"]}
{"id": "C29", "title": "PrefixTree::exists is membership", "statement": "exists(key) returns true exactly when a value is stored for key.", "quantifier": "all trees and keys", "why_tests_cant": "wrong answers appear only for keys that are interior positions of the trie", "anchors": ["src/PrefixTree.cc: exists, traverse"]}
{"id": "C30", "title": "PrefixTree::erase reports whether it removed something and removes only that key", "statement": "erase(key) returns true exactly when key had a value, after which key is absent and all other keys are unchanged.", "quantifier": "all trees, keys", "why_tests_cant": "path-sharing keys, pruning", "anchors": ["src/PrefixTree.cc: erase"]}
{"id": "C31", "title": "PrefixTree iteration is in lexicographic order and complete", "statement": "next_key_value(key) returns the least stored key greater than key together with its value, or throws out_of_range if there is none; so iteration from the beginning visits all keys in ascending order.", "quantifier": "all trees and all current keys, stored or not", "why_tests_cant": "position of the current key relative to node ranges", "anchors": ["src/PrefixTree.cc: next_key_value_internal, next_key, next_key_value"]}
{"id": "C32", "title": "PrefixTree::incr adds to the stored number", "statement": "incr(key, delta) stores and returns old+delta (or delta if absent) with 64-bit wrap-around for integers, throws out_of_range when the value has another type, and changes no other key.", "quantifier": "all trees, keys, deltas", "why_tests_cant": "encoding switches between inline and out-of-line representations", "anchors": ["src/PrefixTree.cc: incr"]}
{"id": "C33", "title": "PrefixTree counts are exact and erasing frees memory", "statement": "size() is the number of stored keys, node_size() the number of nodes, and after erasing every key no node other than the root and no value block remains allocated.", "quantifier": "all histories", "why_tests_cant": "leak/over-free on rarely taken paths", "anchors": ["src/PrefixTree.cc: size, node_size, erase, clear"]}
{"id": "C34", "title": "PrefixTree conditional writes are compare-and-set", "statement": "A conditional insert/erase takes effect and returns true exactly when the check key's current value (with type) equals the expected one, else returns false and changes nothing.", "quantifier": "all trees, check keys, values", "why_tests_cant": "depends on representation of the compared values", "anchors": ["src/PrefixTree.cc: execute_check, insert, erase"]}
{"id": "C35", "title": "A failed PrefixTree insert leaves the old value in place", "statement": "If insert throws because the pool is full, the tree's contents are unchanged.", "quantifier": "all trees, keys, values and limits", "why_tests_cant": "states in which the pool is exactly full", "anchors": ["src/PrefixTree.cc: insert"]}
{"id": "C36", "title": "The read-write lock excludes writers from everyone", "statement": "While a live process holds the lock for writing, no other process holds it for reading or writing; readers may share.", "quantifier": "all interleavings of the individual memory accesses of lock/unlock by any number of processes, with processes dying at any step and waking from waits at any time; pids below 2^18 and not reused (the rest is C49 and C50)", "why_tests_cant": "schedules cannot be enumerated by tests", "anchors": ["src/ProcessLock.cc: ProcessReadWriteLockGuard, ProcessLockGuard"]}
{"id": "C37", "title": "The lock is stolen only from dead processes, and thieves are told", "statement": "A process takes over a lock without its holder releasing it only when the holder has died, and then the guard reports the stolen token, so that the caller repairs the pool before using it.", "quantifier": "all interleavings, all crash points; pids below 2^18 and not reused", "why_tests_cant": "timing and death of processes", "anchors": ["src/ProcessLock.cc: ProcessReadWriteLockGuard, stolen_token", "src/SimpleAllocator.cc: lock"]}
{"id": "C38", "title": "Operations under the lock are linearizable", "statement": "Concurrent operations on a shared structure, each executed under the allocator lock (shared for read-only operations), give the results of some sequential order of the same operations consistent with real time.", "quantifier": "all interleavings of the individual memory accesses of any number of processes", "why_tests_cant": "schedules are unbounded", "anchors": ["src/ProcessLock.cc", "src/Queue.cc", "src/HashTable.cc", "src/PrefixTree.cc", "src/PriorityQueue.cc"]}
{"id": "C39", "title": "Releasing the lock never releases someone else's lock", "statement": "When a guard is destroyed it clears the lock only if the lock still carries that process's own token.", "quantifier": "all interleavings; pids below 2^18 and not reused", "why_tests_cant": "needs a steal between acquire and release", "anchors": ["src/ProcessLock.cc: ~ProcessReadWriteLockGuard"]}
{"id": "C40", "title": "AtomicVector element operations are atomic and independent", "statement": "Concurrent load/store/exchange/compare_exchange/fetch_add/... on elements behave as if executed one at a time, each returning the value that preceded it and touching only its own element; out-of-range indices throw out_of_range.", "quantifier": "all interleavings, all vector contents, all indices", "why_tests_cant": "schedules and contents are unbounded", "anchors": ["src/AtomicVector.hh"]}
{"id": "C41", "title": "AtomicVector bit operations touch exactly the addressed bit", "statement": "load_bit/store_bit/xor_bit address bit i of the vector in a fixed bijective numbering, report its previous value and leave all other bits unchanged.", "quantifier": "all vectors, all bit indices", "why_tests_cant": "unbounded domain", "anchors": ["src/AtomicVector.hh: load_bit, store_bit, xor_bit"]}
{"id": "C42", "title": "AtomicVector::expand is safe under concurrency", "statement": "Concurrent expand calls never lose elements: afterwards size() is at least each requested size and every element below size() is backed by the pool.", "quantifier": "all interleavings of expand calls", "why_tests_cant": "needs a race of two processes inside expand", "anchors": ["src/AtomicVector.hh: expand", "src/Pool.cc: expand"]}
{"id": "C43", "title": "Structures sharing a pool do not interfere", "statement": "Operations on one data structure never change the observable contents of another structure or of raw blocks in the same pool, in any interleaving of operations on any number of structures.", "quantifier": "all histories over any number of structures in one pool", "why_tests_cant": "unbounded histories over several structures", "anchors": ["src/Queue.cc", "src/PriorityQueue.cc", "src/HashTable.cc", "src/PrefixTree.cc", "src/SimpleAllocator.cc", "src/LogarithmicAllocator.cc"]}
{"id": "C44", "title": "Structures can be closed and reopened", "statement": "Reopening a structure by its base offset (or by the pool's base object), in the same or another process, gives access to exactly the contents left by earlier operations.", "quantifier": "all histories with reopenings at any point", "why_tests_cant": "unbounded histories", "anchors": ["src/Queue.cc: Queue::Queue", "src/PriorityQueue.cc", "src/HashTable.cc", "src/PrefixTree.cc"]}
{"id": "C45", "title": "SimpleAllocator::free gives every block back", "statement": "free(offset) of a live block makes its bytes available again and removes it from bytes_allocated(), wherever the block lies.", "quantifier": "all reachable layouts, all live blocks", "why_tests_cant": "the exception needs a small block that ends exactly at the end of the pool", "anchors": ["src/SimpleAllocator.cc: SimpleAllocator::free"]}
{"id": "C46", "title": "SimpleAllocator refuses requests that cannot fit", "statement": "allocate(size) either returns an offset with size usable bytes inside the pool or throws, also for sizes near 2^64.", "quantifier": "all 64-bit sizes", "why_tests_cant": "the overflow needs a size within 40 bytes of 2^64", "anchors": ["src/SimpleAllocator.cc: SimpleAllocator::allocate"]}
{"id": "C47", "title": "Pool::map_and_read_atomic and map_and_write_atomic access the given offset", "statement": "map_and_read_atomic<T>(offset) returns the value stored at that offset of the pool, and map_and_write_atomic<T>(offset, v) stores v there.", "quantifier": "all offsets inside the pool, all pool contents", "why_tests_cant": "wrong for every offset outside the first page only", "anchors": ["src/Pool.hh: map_and_read_atomic, map_and_write_atomic", "src/Pool.cc: map_and_call"]}
{"id": "C48", "title": "A pool whose creator died can still be opened and used", "statement": "If the process that creates a pool dies at any point of the constructor, other processes can either create the pool anew or open and use it.", "quantifier": "every crash point of pool creation", "why_tests_cant": "a test cannot kill the creator between ftruncate and the store of the size", "anchors": ["src/Pool.cc: Pool::Pool, check_size_and_remap"]}
{"id": "C49", "title": "The lock excludes for every process id the kernel can assign", "statement": "The exclusion of C36 holds for all process ids Linux can assign (up to 2^22), not only for those below 2^18.", "quantifier": "all interleavings, all pids below 2^22", "why_tests_cant": "the default pid_max is 32768; collisions of truncated tokens need large pids", "anchors": ["src/ProcessLock.cc: this_process_token"]}
{"id": "C50", "title": "The lock excludes even when process ids are reused", "statement": "If a process dies holding the lock and another process gets the same pid, the lock still excludes and is still eventually taken over.", "quantifier": "all interleavings with pid reuse", "why_tests_cant": "pid reuse with an equal start time cannot be provoked in a test", "anchors": ["src/ProcessLock.cc: this_process_token, process_for_token_is_running"]}
{"id": "C51", "title": "LogarithmicAllocator survives the death of a process anywhere in an operation", "statement": "If a process dies at any point while it holds the allocator lock, also in the middle of allocate or free, the next process to take the lock repairs the free lists and counters; live blocks stay live, disjoint and intact.", "quantifier": "every crash point of every operation in every reachable state", "why_tests_cant": "a crash between two stores of a block split cannot be forced by a test", "anchors": ["src/LogarithmicAllocator.cc: LogarithmicAllocator::repair, allocate, free"]}
{"id": "C52", "title": "LogarithmicAllocator grows the pool only when nothing fits", "statement": "allocate serves a request from a free block whenever one is long enough, and otherwise makes the pool larger, by no more than needed, or throws if that is not allowed; no other call changes the pool's size.", "quantifier": "all histories, all request sizes, all limits", "why_tests_cant": "depends on the whole layout of free blocks that the history leaves", "anchors": ["src/LogarithmicAllocator.cc: LogarithmicAllocator::allocate"]}
{"id": "C53", "title": "A prefix tree survives a crash at any point of an operation", "statement": "If a process dies at any point of an operation on a prefix tree in a pool with a SimpleAllocator, or while it repairs after such a death, the next process that takes the lock finds a consistent tree: it holds the old contents or the new ones (an insertion may have removed the old value, clear() may have removed only a part), every later operation gives the right results for these contents, and no other object in the pool is affected.", "quantifier": "all histories, every crash point of every operation and of every repair", "why_tests_cant": "a test cannot kill a process between every two stores of every operation in every state", "anchors": ["README.md: crash safety notes of PrefixTree", "src/PrefixTree.cc: insert, erase, incr, clear, traverse", "src/SimpleAllocator.cc: repair"]}
{"id": "C54", "title": "A crash in an operation on one object does not harm the other objects", "statement": "If a process dies at any point of an operation on one object of a pool with a SimpleAllocator (also while it creates an object, opens or changes the base object, or frees a block), the next process that takes the lock finds all other objects as they were: every later operation on them has the right result, raw blocks keep their bytes (also the bytes of a raw block outside of the range being written), and the pool can be used as before. A base object that was being created is complete or not visible.", "quantifier": "all histories over all kinds of objects, every crash point of every operation and of every repair, any number of crashes", "why_tests_cant": "a test cannot kill a process between every two stores of every operation in every state, and a wild store to another object shows only later", "anchors": ["README.md: crash safety notes", "src/SimpleAllocator.cc: allocate, free, repair, lock", "src/Queue.cc, src/PriorityQueue.cc, src/HashTable.cc, src/PrefixTree.cc: all operations and constructors"]}
{"id": "C55", "title": "find, lower_bound and upper_bound of a prefix tree find the right item", "statement": "find(k) returns an iterator at key k, lower_bound(k) one at the first key that is not less than k and upper_bound(k) one at the first key that is greater than k, in byte-lexicographic order; each returns end() if there is no such key, raises nothing and changes nothing.", "quantifier": "all histories, all keys whether stored or not, all tree shapes", "why_tests_cant": "which item comes next depends on how the gaps of the nodes lie, that is on the whole history", "anchors": ["src/PrefixTree.cc: PrefixTree::find, lower_bound, upper_bound, next_key_value_internal"]}
{"id": "C56", "title": "nodes_for_prefix counts the nodes below a prefix", "statement": "nodes_for_prefix(p) returns the number of nodes that the tree has for keys that begin with p (0 if there are none); unless memory ran out before, these are exactly the root and the proper prefixes of the stored keys, so the call tells how much an erasure would release. It raises nothing and changes nothing.", "quantifier": "all histories, all prefixes", "why_tests_cant": "recursion over trees of any depth and shape", "anchors": ["src/PrefixTree.cc: PrefixTree::nodes_for_prefix, nodes_for_contents, traverse"]}
{"id": "C57", "title": "bytes_for_prefix tells the bytes used below a prefix", "statement": "bytes_for_prefix(p) returns the bytes that the tree uses for keys that begin with p: the slot that leads there, the nodes below it and the blocks of the values stored there; for the empty prefix this is everything the tree has allocated but its 16 bytes of counters.", "quantifier": "all histories, all prefixes, all types and lengths of values", "why_tests_cant": "needs every kind of value at every kind of place in a tree of any shape", "anchors": ["src/PrefixTree.cc: PrefixTree::bytes_for_prefix, bytes_for_contents, traverse", "src/SimpleAllocator.cc, src/LogarithmicAllocator.cc: block_size"]}
{"id": "C58", "title": "LogarithmicAllocator::verify() accepts every pool in use and finds wrong counters and links", "statement": "verify() throws nothing and changes nothing in a pool that has only been used through the API (after a death it repairs first); conversely, if it does not throw and the blocks tile the pool, the counters of allocated and committed bytes are right and every free list is linked correctly in both directions.", "quantifier": "all histories with any number of processes, deaths included; for the converse all pool files, also damaged ones", "why_tests_cant": "every reachable layout of blocks must pass, and every damaged one with a wrong counter or link must fail", "anchors": ["src/LogarithmicAllocator.cc: LogarithmicAllocator::verify, next_order_boundary, repair"]}
{"id": "C59", "title": "is_locked() and reader_count() never miss a holder", "statement": "While a thread of a running process holds a lock for writing, is_locked(true) (for ProcessLock: is_locked()) returns true; while one holds it for reading, is_locked(false) returns true; and if n threads hold it for reading all through a call of reader_count(), the result is at least n - although the calls take no lock and other processes and threads acquire, release, wait, die and take over locks in between.", "quantifier": "all histories and interleavings with any number of processes and threads, deaths included", "why_tests_cant": "a reader that a scan of 65 slots misses because another one moves in between shows only in rare interleavings", "anchors": ["src/ProcessLock.cc: ProcessLock::is_locked, ProcessReadWriteLock::is_locked, reader_count"]}
{"id": "C60", "title": "Iterating over a hash table while others change it", "statement": "An iteration over a hash table (begin(), ++, == end(), *) takes the lock anew for each slot, and in between other processes may insert, erase, clear, add to and do anything else with this table and other objects. It never visits a key twice; what it visits was in the table, with this value, at the time of one of its calls; when it comes to the end it has visited every key that was in the table at the time of all its calls. None of its calls fails or reads outside of the table.", "quantifier": "all histories before and between any two calls of the iteration, all tables and hash functions", "why_tests_cant": "the interleavings of an iteration with changes of the slots before and behind it cannot be enumerated", "anchors": ["src/HashTable.cc: HashTableIterator, HashTable::get_slot_contents, begin, end, bits"]}
{"id": "C61", "title": "Iterating over a prefix tree while others change it", "statement": "An iteration over a prefix tree (begin(), ++, *) takes the lock anew for each step, and in between other processes may do anything with this tree and other objects. As long as the key that the iterator is at is still stored when it advances, it visits keys in strictly ascending order, so none twice; what it visits was in the tree, with this value, at the time of one of its calls; when it comes to the end it has visited every key that was in the tree at the time of all its calls. None of its calls fails.", "quantifier": "all histories before and between any two steps of the iteration, all trees, any number of steps", "why_tests_cant": "the interleavings of an iteration with changes before and behind it cannot be enumerated", "anchors": ["src/PrefixTree.cc: PrefixTreeIterator, PrefixTree::begin, end, next_key_value, next_key_value_internal"]}
{"id": "C62", "title": "lower_bound of a prefix tree while others change it", "statement": "lower_bound(k) takes the lock twice when k is not stored. While other processes do anything with the tree and other objects in between, it still returns what it would return at some moment between its call and its return. At the least: an item that it returns is stored when it returns, its key is not less than k, and no key that is not less than k and is stored all the time comes before it; it returns end() only if there is no such key.", "quantifier": "all histories before and between the two lookups, all trees and keys", "why_tests_cant": "needs changes by other processes exactly between two lookups inside one call", "anchors": ["src/PrefixTree.cc: PrefixTree::lower_bound, upper_bound, at"]}
{"id": "C63", "title": "Processes that open the base object at the same time agree", "statement": "A constructor that is called without an offset reads the pool's base object under the read lock and, if there is none, takes the write lock, reads again and creates one. Whatever other processes do in between, it gets the base object that was set meanwhile and creates nothing, or else creates one at a place that no object has and makes it the base object; and from then on, until someone calls set_base_object_offset, everyone who opens the base object, by either half of a constructor of any structure, gets this one. When memory runs out, the constructor raises and there is still no base object.", "quantifier": "all histories before, between and after the two halves of a constructor, any number of processes, all four structures (hash tables of 2 to 30 bits)", "why_tests_cant": "two processes creating the base object at the same time meet only in rare schedules", "anchors": ["src/Queue.cc: Queue::Queue(allocator, base_offset)", "src/PriorityQueue.cc: PriorityQueue::PriorityQueue(allocator, base_offset)", "src/HashTable.cc: HashTable::HashTable(allocator, base_offset, bits)", "src/PrefixTree.cc: PrefixTree::PrefixTree(allocator, base_offset)", "src/Allocator.hh: base_object_offset, set_base_object_offset"]}
{"id": "C64", "title": "Functions that read write nothing", "statement": "The functions that take the lock for reading - size(), bytes(), verify(), exists(), at(), type(), find(), the bounds, iteration, counts, block_size(), bytes_allocated(), bytes_free(), base_object_offset() - change no byte of the pool file (apart from the words of the lock itself, and the repair by a process that takes the lock over from a dead one), nor its size, nor the mappings of other processes: whether they return, raise an exception or their process dies in the middle, and whatever the pool contains, even if it is corrupt.", "quantifier": "all pool contents, including corrupt ones, all arguments, all points at which the process may die, both allocators", "why_tests_cant": "a read path that writes in some corner case is seen only when another reader runs at the same moment", "anchors": ["src/Queue.cc", "src/PriorityQueue.cc", "src/HashTable.cc", "src/PrefixTree.cc", "src/SimpleAllocator.cc: SimpleAllocator::block_size, bytes_allocated, bytes_free, base_object_offset", "src/LogarithmicAllocator.cc: LogarithmicAllocator::verify, block_size, bytes_allocated, bytes_free, base_object_offset"]}
{"id": "C65", "title": "The number of slots of a hash table is fixed", "statement": "bits() of a hash table is the argument with which it was created, for all processes and for ever: no operation on this table or another object, by any process, changes it. A constructor with fewer than 2 bits raises invalid_argument and changes no byte of the pool.", "quantifier": "all histories, all tables of 2 to 30 bits, all processes", "why_tests_cant": "a change of the number of slots by any sequence of operations would make items unreachable, and only in later lookups", "anchors": ["src/HashTable.cc: HashTable::bits, create_hash_base"]}
