# Formal model of sharedstructures in Rocq (Coq 8.16.1)

Contents: 1 What is modelled - 2 Simplifications - 3 How it is proved - 4 Property by
property - 5 Trusted base - 6 Testing against wrong programs.

## 1. What is modelled

The C++ code under `/repo/src` is transcribed, function by function, into a deeply embedded
imperative language (`Prog.v`): a free monad `prog A` whose effects are the individual memory
accesses and system calls that the C++ code makes:

* `Load n a`, `Store n a v`: an n-byte little-endian load/store at pool offset `a`; `memcpy`
  is a sequence of one-byte accesses;
* `Ftruncate`, `Remap`, `Mapped`, `Epoch`, `MaxSize`: the system calls and the fields that
  `Pool` uses;
* `Throw e` (C++ exceptions), `Undef` (undefined behaviour), `NoFuel` (a C++ loop ran longer
  than the fuel given to the model; every theorem shows that this does not happen).

The same program text has several semantics: `run` (sequential execution in one process),
`crash_states` (every state left behind by a process that dies after any prefix of its
accesses), and, for C38, an interleaving semantics in which each access is a step
(`ConcSpec.v`).  The locks (`ProcessLockModel.v`) and AtomicVector (`AtomicVectorModel.v`)
have their own small languages of atomic actions with interleaving semantics, because their
functions are meant to run concurrently with each other.

Pool state: byte memory, file size, mapped size, a mapping epoch (bumped by each remap, so
that a pointer kept across a remap can be detected), `max_size` of the process, and the
size above which the operating system refuses `ftruncate`.  An access outside the mapped part
of the file is `Undef`.  All 64-bit arithmetic of the C++ code is modelled with explicit
wrap-around (`u64`).  A `world` (`World.v`) is the pool file plus, per live process, its
mapping; events of different processes act on the same file.

| model file (rocq/theories) | code |
|---|---|
| Base.v, Prog.v | machine words, bytes, programs and their semantics |
| PoolModel.v | Pool.cc, Pool.hh: constructor, expand, check_size_and_remap, map_and_* |
| AllocModel.v | Allocator.hh: the virtual interface |
| SimpleAllocModel.v | SimpleAllocator.cc: all of it but print/verify |
| LogAllocModel.v | LogarithmicAllocator.cc, incl. verify; not print |
| QueueModel.v | Queue.cc, incl. verify |
| PriorityQueueModel.v | PriorityQueue.cc |
| HashTableModel.v | HashTable.cc, incl. the iterator; not print/verify |
| PrefixTreeModel.v | PrefixTree.cc; not print and get_structure |
| ProcessLockModel.v, LockQueries.v (first part) | ProcessLock.cc: ProcessLock and ProcessReadWriteLock |
| AtomicVectorModel.v | AtomicVector.hh |

| specification file (what the English claims mean) | |
|---|---|
| IdealSpec.v, TreeSpec.v, TreeOps.v | ideal deques, priority queues, maps, typed maps |
| SimpleSpec.v, LogSpec.v | histories of the allocators and the checks of C01-C14, C51, C52, C58 |
| StructSpec.v, TreeChecks.v | histories over any number of objects in a pool, checks C17-C35, C43, C44, C55-C57 |
| BitsSpec.v | the number of slots of hash tables (C65) |
| ReadOnlySpec.v | functions that take the lock for reading write nothing (C64) |
| BaseSpec.v | opening the base object, in two halves, while others do (C63) |
| IterSpec.v, TreeIterSpec.v, TreeBoundSpec.v | iterations over hash tables and prefix trees, and lower_bound, while others work (C60, C61, C62) |
| CrashSpec.v | histories in which processes die inside any operation (C53, C54) |
| QueueDrainSpec.v | emptying a queue after a death inside one of its operations (C20) |
| Lin.v | linearizability, used by C38, C40, C41 |
| AtomicVectorSpec.v | ideal vectors of elements and bits |
| ConcSpec.v | concurrent histories under the lock (C38) |
| PropertiesLock.v (first part) | holding a lock, for C36, C37, C39 |

### Not modelled

PythonModule.cc and the other bindings, IntVector (an AtomicVector<int64_t> by another name in
Python), the *Test and *Benchmark programs, file names, permissions, `delete_pool`, the print
and get_structure functions, failure of `mmap` itself, sleeping and timing (`sched_yield`,
back-off, timeouts of waiting), phosg.

## 2. Simplifications

* Memory is sequentially consistent; an aligned access of at most 8 bytes is one step.
* The hash function is any function from byte strings to 64-bit words (`HashFn`); the theorems
  hold for all of them, so for phosg's fnv1a64.  Doubles are their 64-bit patterns; the
  addition of doubles is any function.
* Loops have fuel `F`, at least 2^62 in the theorems; that it suffices is part of what is proved.
* Sequential histories (C01-C35, C43-C48, C51, C52, C55-C58, C60-C63, C65): each API call is one event, executed from
  taking the lock to releasing it.  That this loses nothing is C36 (the lock excludes) and C38
  (operations under the lock are linearizable).  An iteration over a table or tree
  (`HItems`, `TItems`) is one event: the code takes the lock for each step of it (C60 and C61 take iterations
  apart).  So is
  lower_bound (`TLower`), which takes it twice (C62 takes it apart).
* C53, C54: taking the lock over from a dead process (with the repair) is an event of its own; the
  history check states that this followed by an operation is the same execution as the
  operation that takes the lock over (`CTakeover` in CrashSpec.v).
* C38: obtaining the lock is one step (the code of the lock is modelled separately, C36, C37,
  C39); while it waits a process may see the pool grow; no process dies inside the lock.
* Iterators and LookupResult copies are values: the model returns what they hold.
* `Pool` keeps its mapping in a process-wide object; a process of the model has one.

## 3. How it is proved

`HeapProp.v` builds a small separation logic: predicates over finite byte heaps form a BI
(an instance of Iris' `bi` interface, so that the Iris proof mode can be used), with a weakest
precondition `wp`/`wpc` *defined from* `run` and `crash_states` (not axiomatised), so every
triple proved unfolds to a statement about the executions of the model.  The allocator
interface is specified once (`AllocSpec.v`); both allocators are proved to implement it, and
each data structure is proved once against the interface.  The theorems in `Properties*.v` are
stated in plain Coq against the specification files, without separation logic: they say that
along *every* history (list of events, any length, any processes, any arguments) every check
holds.  Beside each theorem an example runs a concrete history with `vm_compute` and shows that
the hypotheses are met and that the check would notice a difference.

Refuted properties (`_refuted`) are theorems that exhibit a concrete execution of the model in
which the property fails.  They are claims about the code: each cites the lines at fault.

## 4. Property by property

* **C01-C05, C07** (SimpleAllocator) - invariant: the memory holds a doubly linked,
  address-ordered list of blocks; preserved by allocate, free, repair; `game` plays any history
  of any processes, including deaths inside allocate and free.
* **C06** - crash semantics: after every prefix of the accesses of allocate/free, the memory
  holds one of five shapes from which `repair` re-establishes the invariant.
* **C45, C46** - false of the code in corner cases (free of a small block at the very end of
  the pool; sizes near 2^64): refuted, and proved outside of the corner.
* **C08-C12, C52** (LogarithmicAllocator) - buddy-system invariant (tiling of the pool, free
  lists, no unmerged buddies) for requests of 1 to 4088 bytes.  **C13**: zero and larger
  requests: refuted.  **C14**: for all sizes and states.  **C51**: a death inside allocate is
  not repaired: refuted.  Deaths at every point of free, of repair, of writes and of
  set_base_object_offset are part of the histories of C08-C12 (LogCrash.v): all the way
  through free every block header stays readable, so that the state is a tiling with
  arbitrary free lists (`flat`), from which repair rebuilds the lists.
* **C15, C16, C47** (Pool) - direct.  C47: map_and_* use the mapping of the page but add the
  page offset twice/not at all: refuted outside of the first page, proved inside.
  **C48**: a creator's death between ftruncate and storing the size: refuted; at every other
  point, over SimpleAllocator: `Creation.v`; inside the constructor of LogarithmicAllocator:
  refuted.
* **C17-C19** (Queue) - refinement to a list of byte strings; footprint = owned blocks.
  **C20**: death between the two link stores: refuted (from the wrong end items are lost or
  come out twice).  What holds: from one end, which depends on the operation, the queue can be
  emptied exactly as before or as after the operation.  Crash rules with a new representation
  invariant, a chain of nodes readable from that end only (`QueueDrain.v`), and the drain
  itself on that invariant (`QueueDrainPop.v`); claim in `QueueDrainSpec.v`.
* **C21, C22** (PriorityQueue) - heap property, refinement to sorted lists.
* **C23-C26** (HashTable) - refinement to finite maps for every hash function; erasing the
  first of three or more, or the second of two, colliding keys and incr of colliding keys are
  wrong in the code: refuted, and proved for histories without them.
* **C60** (`IterProof.v`) - the iterator as a client that calls bits() and get_slot_contents() with
  any history before each call; the number of slots never changes, so the slots that were read at
  different times form a well-formed table of their own, whose items are what was visited.
* **C61** (`TreeIterProof.v`) - one next_key() per step, after any history each; what has been
  visited are the keys up to the current one.  After an erasure of the current key the iterator
  may go back: refuted.
* **C62** (`TreeBoundProof.v`) - at() and upper_bound() with any history in between; that the
  result is right at some moment is refuted by a run with two insertions in between.
* **C63** (`BaseProof.v`) - the two halves of a constructor with any history in between; that the
  base object stays the same in histories without set_base_object_offset is an invariant of the game.
* **C64** (`ReadOnlyProof.v`) - the programs contain no store and no ftruncate, by induction on
  their loops; so no run and no crash of theirs changes the file, from any contents.
* **C65** (`BitsProof.v`) - an invariant of the game: tables keep their length, and the header their bits.
* **C27-C35** (PrefixTree) - refinement to maps with typed values; trees that have never run
  out of memory are neat (no superfluous nodes).  Several claims are false in corner cases
  (see MANIFEST notes): refuted there, proved elsewhere.
* **C55-C57** (PrefixCount.v) - find and the bounds reduce to next_key(); keys that lead to an
  empty slot are refuted.  nodes_for_prefix and bytes_for_prefix: induction over the depth of
  the tree, with one lemma for sums over all nodes and values below a prefix; three ways in
  which bytes_for_prefix miscounts are refuted.
* **C58** (LogVerify.v) - verify() of a pool that satisfies the invariant of C08-C11 by the
  same program logic; the converse by induction over the runs of its loops in any memory.
* **C53** - crash weakest preconditions (`wpc`, WPCrash.v) for every function of PrefixTree
  that writes: at every access the memory holds a tree (`PrefixCrash*.v`), with blocks leaked
  and superfluous nodes, from which the history goes on after `repair` (`CrashGame.v`).
* **C54** - the functional rules of the data structures are reused as crash rules: they are
  generic in the resource that the program logic keeps (`Rep` in WP.v), and `Locked.v`,
  `LockedAlloc.v` instantiate it with an invariant that holds at every access (the blocks of
  all other objects, and an allocator that `repair` can repair).  `CrashOther.v` derives what a
  death at any access of any operation leaves; `CrashGame.v` plays the histories.  Opening the
  base object as a queue makes it visible before it is set up: refuted there.
* **C36, C37, C39** (locks) - transition system of threads and processes executing the lock
  functions action by action, with deaths at any point; invariant over all reachable states.
  **C59** (`LockQueries.v`) - an observer executes is_locked() or reader_count() load by load
  while the system takes any steps in between; the invariant of C36 says that the word of a holder
  is not 0 and that two readers have different slots.
  **C49, C50**: big pids and reused pids: refuted.
  **C50**: a pid that is given out again when the lock is quiet can be forgotten from the
  invariant (`ProcessReuse.v`); otherwise two refutations, one of them over all continuations of a
  history (nobody ever gets the lock).
* **C38** - any schedule of individual accesses of any number of processes, shared lock for
  reading operations; every history is linearizable with respect to the ideal objects.
* **C40-C42** (AtomicVector) - linearizability of element and bit operations; races of
  expand: refuted, and proved for expansions that do not overlap.
* **C43, C44** - any number of objects in one pool; contents of the others never change;
  a handle is (allocator, base offset), so any process may use any object at any time.

## 5. Trusted base

* Coq's kernel, and the standard library; libraries used: std++ and Iris (the BI interface
  and the proof mode).
* Axioms: `Print Assumptions` says "Closed under the global context" for every theorem listed
  in MANIFEST.json.  No axiom of the standard library is used.  (A listing of everything in
  the loaded libraries also shows the fields of the module type `Coq.ssr.ssrunder.UNDER_REL`,
  which come with ssreflect and on which no theorem rests.)
* The transcription of C++ into `prog`: every definition cites the file and lines.
* The specification files listed above.

## 6. Testing against wrong programs

`tools/mutate.py` edits a definition of the model in a scratch copy, rebuilds, and records the
proofs that fail in `seeded/LOG.jsonl`.
