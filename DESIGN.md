# Formal model of broune/mathic in Rocq (Coq 8.16.1)

Source modelled: `/repo/src/mathic` (read as text, never built or run).

## Layout

`rocq/theories/` (logical name `Verif`):

| file pattern | holds |
|---|---|
| `Base/*.v` | the outcome monad, list update, strict weak orders, arithmetic helpers |
| `Spec/*.v` | small specifications, independent of the model (priority queue, divisor finder, finite map, ...) |
| `<Component>/Model.v` | executable Gallina model, each definition citing file and lines in `/repo`; no proofs |
| `<Component>/Proofs.v` (and further proof files) | lemmas |
| `<Component>/Properties.v` | only property theorems, closed by `exact`, each with `Print Assumptions` and a non-vacuity `Example` |

## Method

* C++ state is an immutable record; a mutating member function is a function that returns the new state.
* Every partial operation returns an outcome `res A` with the constructors `Ok a`, `UB` (undefined behaviour:
  out-of-bounds access, violated documented precondition, division by zero, ...), `Throw e` (a C++ exception) and
  `NoFuel` (a model loop ran out of its fuel). Theorems say which of them can occur. `NoFuel` is always excluded.
* Template configurations are section variables in the model files, hence universally quantified parameters once the
  section is closed. Assumptions on them (for example "strict weak order") are explicit hypotheses of the theorems.
* Sizes and indexes are `nat` or `N`, unbounded, unless a property is about wrap-around or storage width, in which case
  the width is explicit.
* Memory allocation failure (`std::bad_alloc`) is modelled only where the table below says so, and the arena/heap allocator is not modelled. Objects are values;
  pointers are modelled as indexes where aliasing matters (tournament tree slots, front positions, KD tree nodes, the
  divisor cache).

## Trusted base

* Coq 8.16.1's kernel (and `coqchk`, which rechecks every compiled file), and the parser and elaborator that turn the `.v` files into terms.
* `Print Assumptions` says "Closed under the global context" for every theorem named in `MANIFEST.json`. No axiom is added, and none of the
  standard library is used by a theorem.
* `coqchk` checks whole libraries and therefore lists the axioms of every library file that is loaded, used or not. These are seven parameters
  of the opaque module type instance in the standard library's `Coq.ssr.ssrunder`, which `Lia` and `ZArith` load: `Under_rel.Over_rel`,
  `Under_rel.Under_rel_from_rel`, `Under_rel.over_rel`, `Under_rel.over_rel_done`, `Under_rel.Under_rel`, `Under_rel.Under_relE`,
  `Under_rel.under_rel_done`. No theorem here depends on them.
* That the model says what the C++ code does. Each definition cites the lines it models. The conventions above and the following are part of this:
  * `size_t` has 64 bits (`ComTree.h` node arithmetic), `unsigned int` 32 and `unsigned short` 16 bits; `unsigned long` has 64 bits. Elsewhere
    sizes are unbounded numbers, that is, no container is assumed to hold 2^64 entries; C99 justifies this for `Geobucket`, whose sizes are multiplied by factors.
  * `double` is IEEE 754 binary64 with round-to-nearest-even, evaluated without excess precision and without contraction to fused
    multiply-add. It is the standard library's `SpecFloat`, an executable definition without axioms. `CLOCKS_PER_SEC` is 10^6.
  * The "C" locale, ASCII, and `std::string` as a list of 8-bit characters.
  * The standard library's algorithms do what the C++ standard says: `std::sort` is any function that returns a sorted permutation for a
    strict weak order, `std::partition` any function that separates by the predicate, `std::upper_bound` is modelled by its binary search
    (`Base/StdAlg.v`), `std::multiset::insert` inserts after the equivalent entries (C++11), `std::floor` and conversions as IEEE says.
  * Configurations are functions: calling them twice with the same arguments gives the same answer and changes nothing that the data
    structures see. Whatever else they do (counting comparisons, for example) is not modelled.
  * Objects are values, except where pointers matter: the one array of a Geobucket (`GeoMem/`) and the nodes of the KD trees (`KDMem/`) are
    modelled as memory, and the models with values that the other properties use are proved to give the same answers (C64, C66).
    Allocation never fails and the arena of `memtailor` hands out fresh memory.

## What is modelled and what is not

| source | modelled | not modelled |
|---|---|---|
| `ComTree.h` | nodes, all operations, move construction, capacity, pushing a reference to an own entry, `isValid`, `print`, `getMemoryUse` | – |
| `Heap.h` | all operations with and without `fastIndex`, `supportDeduplication`, `isValid`, `getName`, exceptions thrown by the configuration, move construction, `print`, `getMemoryUse`, failed allocations; twice: on the list of entries (`Heap/`) and on the array of ComTree (`HeapMem/`) | – |
| `TourTree.h` | all operations, reallocation of the player vector, `isValid`, `getName`, exceptions thrown by `compare`; twice: with indices of players (`TourTree/`) and with pointers into the memory of the vector, copies and moves (`TourMem/`); `print`, `getMemoryUse`, failed allocations | assignment (does not compile: `ComTree::operator=` is private) |
| `GeoFront.h`, `Geobucket.h` | all operations for all five options and three kinds of bucket storage, `isValid`; once with the memory areas as lists and sizes (`Geobucket/`), once with `_mem` and the pointers into it (`GeoMem/`); exceptions thrown by the client's functions, failed allocations, sizes that wrap around; `getName`, `print`, `getMemoryUse` | in `GeoMem/` the pointers to buckets are indices |
| `StlSet.h` | all operations, `getName`, copies and moves, `print`, `getMemoryUse` | – |
| `BitTriangle.h` | all operations, failed allocations, `getMemoryUse` | – |
| `PairQueue.h` | columns, retirement, the log of constructed and destructed pair data, index width, exceptions thrown by the configuration, failed allocations, assertions, `getName`, `getMemoryUse` (`PairQueue/Bytes.v`) | how much more than it is asked for the arena reserves |
| `HashTable.h` | `insert`, `lookup`, `grow`, `reset`, statistics, exceptions thrown by the configuration and by the allocation of the bins, `memoryUse` (`HashTable/Bytes.v`) | `remove` (does not compile), `hardReset` (not defined), how much more than it is asked for the pool reserves |
| `DivMask.h` | calculators (with overflow of signed exponents), masks, extenders | `HasDivMask<false>` members that only assert |
| `DivList.h`, `Comparer.h`, `DivFinder.h` | all operations for both kinds of list and all options, `getName`, exceptions thrown by the configuration and by callbacks; searches made in callbacks, and rebuilds and insertions that leave the iterators valid (`DivList/Rebuilding.v`); the calls of `isLessThan` counted (`DivList/Ordered.v`); `getMemoryUse` for vectors (`DivList/Bytes.v`) | callbacks that change a sorted list or make iterators invalid, iterators as such |
| `KDEntryArray.h`, `BinaryKDTree.h`, `PackedKDTree.h`, `KDTree.h` | all operations that compile, for all options; exceptions of `split` and, in all calls, of client functions and allocations; the divisor cache as a pointer; the nodes as memory and the entries of a leaf as constructed and destroyed objects (`KDMem/`); `debugIsValid` and the assertions, `print`; searches made in callbacks; the memory of the nodes (`KDMem/Bytes.v`) | callbacks that change the tree, range insert, `clear` and binary `removeElement` (do not compile), the rest of `getMemoryUse` (the slack of the arena and the capacity of `_tmp`) |
| `NameFactory.h`, `CliParser.cpp`, `*Parameter.cpp`, `error.h` | all operations, messages of exceptions | - |
| `HelpAction.cpp` | all functions, byte for byte | - |
| `ColumnPrinter.cpp`, `display.cpp`, `Timer.cpp` | all functions, byte for byte | writing to the terminal (`fputs` succeeds), `clock()` |
| `divsim/*` | insertion with `minimizeOnInsert`, move to front, the events, the run of a simulation with and without `DEBUG`, `makeStandard`, the list of finders in main, the tables of results | `rand()` (the monomials drawn are a parameter), clocks, counting of comparisons |
| `pqsim/*` | items and spans, the queue models with their pending items, the builder and the three generators, the run of a simulation, the list of queues in main, names, the summary and list of events, the tables of results | clocks, comparison counts; Geobucket on spans with de-duplication |
| `test/*` | all tests that make assertions, call by call | the test framework |
| `main.cpp`, `mathic.cpp` | - | calls `divMain` and `pqMain`, which are declared nowhere, so it does not compile; one empty function |

## Method of refutation

A property the code does not have is kept in `properties.jsonl` in full. The theorem that shows it false has the suffix `_refuted` and
contains a concrete witness; the part that holds is proved under an explicit extra hypothesis and has status `partial`.

## Tests against wrong programs

`seeded/LOG.jsonl` has one line for each wrong program tried. The edit is made in a copy of the model and everything is built again; a lemma
whose proof no longer goes through is admitted (or deleted, if its statement no longer type-checks), and `theorems_failed` lists the property
theorems that then depend on an admitted or deleted lemma. So a failed theorem is one whose proof as written does not survive the edit. It has
not been shown false of the edited program: a proof script may also break for an edit that keeps the claim true, which is why edits that change
nothing that is claimed (marked as controls) are in the log too, and some of those do break scripts. What the test does show is the converse: a
theorem that is not listed is proved for the wrong program as well, so it says nothing about that bug. `theorems_tightened` names theorems that
were strengthened because of that.

## Plan per property

| id | modelled | proof |
|---|---|---|
| C01-C03 | `Heap.h` sift loops on an array in heap layout | invariant + refinement to the multiset queue, induction over histories |
| C04, C05 | `TourTree.h` with players and slot indexes | invariant (leaf ownership, winners), refinement |
| C06-C08 | `Geobucket.h` + `GeoFront.h`, both front variants, all options | invariant, refinement; C08 refuted by a witness for front tracking, proved otherwise |
| C09 | `StlSet.h` as sorted list | refinement |
| C10 | corollary of the refinements | determinism of the specification for linear orders |
| C11 | `ComTree.h` node arithmetic on `N` with `mod 2^64` | algebraic laws |
| C12 | `ComTree.h` storage with capacity, move constructor as written | refinement; move refuted by a witness |
| C13 | `BitTriangle.h` | refinement to a function of unordered pairs |
| C14-C16 | `PairQueue.h` on top of the tournament tree model | refinement to a set of live pairs |
| C17, C18 | `HashTable.h` chains | refinement to an association list |
| C19-C22 | `DivMask.h` masks as `N` of 32 bits | algebraic laws, bit reasoning |
| C23-C27 | `DivList.h` vector and list variants | refinement to a multiset of entries; C24/C27 refuted where the documented conditions are too weak |
| C28-C36 | `KDEntryArray.h`, `BinaryKDTree.h`, `PackedKDTree.h`, `KDTree.h` | tree invariant, refinement; C33 refuted |
| C37-C41 | `NameFactory.h`, `CliParser.cpp`, parameters | functional specifications |
| C42-C47 | `ColumnPrinter.cpp`, `display.cpp`, `Timer.cpp` | functional specifications; C45 refuted |
| C48 | rebuild counters | invariant / counting |
| C49 | the log of `PairQueue` | invariant of the log; refuted for the row passed to destructPairData |
| C50, C51 | `Heap.h` and `TourTree.h` with a counter of comparisons | counted copy equals the model, then induction over loops and histories |
| C52 | `PairQueue.h` on a tournament whose comparison may throw | fault model equals the model without faults, strong guarantee of add; refuted for compare and pop |
| C53 | `debugIsValid` of both KD trees and a KDTree with its assertions | invariant on the masks, then the debug build equals the model |
| C54, C55 | `HelpAction.cpp` on the models of the parser, `ColumnPrinter` and `display` | composition of C38, C42 and C46 |
| C56 | `Heap.h` with the state of the configuration threaded through | the specification of C02 with a state (`Spec/PQState.v`) |
| C57 | the four queues | the lemmas about `pop` and `decreaseTop` name the entry that `top` returns |
| C58, C59 | `pqsim/*` on the models of the queues | values held in the queue or pending as a set; the builder's multiset has the same elements after every event |
| C60, C61, C62 | `divsim/*` on the models of the finders | every finder simulates the same list of monomials up to order (`Spec/DivClient.v`); an event is unknown or holds the answer of that list; for C61 the events after the first run fix all later answers |
| C63 | `test/*` as lists of calls and expected answers | computation; the answers of the hash table by C17 |
| C64, C65 | `Geobucket.h` with one array of cells, a pointer being (allocation, offset) | an invariant that names the areas and keeps them apart; every function simulates the one on lists; C65 counts the buckets added |
| C66, C67 | the nodes of both KD trees in an arena, a pointer being a number that `freeAllAllocs` makes invalid | a relation between the memory and the tree that is a value, with the set of nodes below a pointer; every function preserves it |
| C68 | `Geobucket.h` and `GeoFront.h` with a counter of comparisons | counted copy equals the model; every entry holds credit for the buckets above its own, and the number of buckets is that of C65 |
| C69 | `Geobucket.h` and `GeoFront.h` with their assertions | every assertion follows from the invariant of C06; the debug build equals the model |
| C70 | `Queues/InPlace.v`: each removal preceded by `top()` and an overwrite of the top entry | Heap: the root is overwritten before it is read; TourTree: run the pop on pairs (old, new) and read off both halves; Geobucket: the bucket's last entry goes before any comparison |
| C71 | `Heap.h`, `TourTree.h` and `PairQueue.h` with their assertions, the top column changed in place and undefined to compare once its data is destroyed | `isValid` follows from the invariants; C70's lemmas with a comparison that is defined for live columns only |
| C72 | `ComTree.h`, `BitTriangle.h`, `HashTable.h` and `DivList.h` (with `DivMask.h`) with their assertions | the debug step equals the release step: from the invariants for ComTree, BitTriangle and HashTable, in every state for DivList |
| C73 | `Heap.h`, `TourTree.h`, `Geobucket.h`, `GeoFront.h` and `HashTable.h` with client functions that obey no law | the invariants speak of an order that is kept and a comparison that is made; with the empty order they say nothing about the answers and everything about memory and contents |
| C74 | `Heap.h`, `TourTree.h`, `Geobucket.h` and `HashTable.h` with client functions that throw after a given number of calls | a budget of client calls that return; the state left behind is related to the entries before and to the normal result; the rest by witnesses |
| C75 | `KDEntryArray.h` with its memory: places that are raw or hold an object, and counts of constructions and destructions | each operation on the memory that holds an array equals the operation of `KD/EntryArray.v`; then any sequence of calls on any number of arrays |
| C76 | the names of `getName` as texts, with the options as parameters and the text of the rebuild ratio as one | split a name into words at its spaces; the words of each structure occur in a fixed order and no word is another |
| C77 | `TourTree.h` with pointers, blocks of memory that are alive or freed, and a vector that moves its elements | each call on the memory equals the call of `TourTree/`; then any program with any number of trees |
| C78 | the implicit copy and move constructors of `TourTree.h`, `StlSet.h` with the pointer in its comparator, `Heap.h:39` | refuted in every reachable state, with what remains true |
| C79 | the `print` functions as texts; how a stream shows entries, addresses and exponents is a parameter | equal texts are split at separators that entries do not contain; for KD trees the lines of entries, over the loop with its stack |
| C80 | Heap on the storage of ComTree (`HeapMem/`), `getMemoryUse` of Heap and TourTree | simulation of the heap on lists, with the capacity; potential argument for the copies |
| C81 | Calls of `hash` and `keysEqual` and the number of bins of HashTable (`HashTable/Counted.v`) | the model run in a counting monad; potential argument for growing, chains for the comparisons |
| C82 | Calls of `divides` and exponents looked at by DivList and KDTree (`DivList/Counted.v`, `KD/Counted.v`) | the models run in a counting monad with a weight per entry; the nodes are bounded along histories |
| C83 | Summary and list of the events of the pq simulation (`PqSim/Summary.v`) | the builder is replayed on lists of calls; counters are compared with counts over the history of live values |
| C84 | Result tables of both simulation programs (`Report/Outcome.v`) | built on the tables of C42; rows are read from the right |
| C85 | all calls of `Geobucket.h` and `GeoFront.h` with client functions that throw (`Geobucket/Throws.v`) | inversion of every call that threw; a Geobucket with too great a count runs like one with the right count, so histories with any number of exceptions follow `Spec/Caught.v` |
| C86 | all calls of `DivList.h` and the rebuild of the calculator with client functions that throw (`DivList/Throws.v`) | inversion of every call that threw; histories over a specification with caught exceptions (`Spec/DivCaught.v`) |
| C87 | the searches of both KD trees with their stack `_tmp` and client functions that throw (`KD/Throws.v`) | the nodes left on the stack are nodes of the tree; histories over a specification in which entries may be gone over twice (`Spec/DivStale.v`) |
| C88 | `insert` and `removeElement` of both KD trees with client functions and allocations that throw (`KD/InsertThrows.v`) | inversion of every insertion that threw: the invariant of the tree and the multiset of entries survive; histories over `Spec/DivCaught.v`; witnesses for the cases that do harm |
| C89 | `removeMultiples` of both KD trees with client functions that throw, and all calls together with `_tmp` (`KD/RemoveThrows.v`) | structural induction over the tree: what was given away, what is left, and the shape; nodes left in `_tmp` have nothing left to remove; histories over `Spec/DivHurt.v`; witnesses for what is not guaranteed |
| C90 | `rebuild` of both KD trees with client functions and allocations that throw, the calculator and `reset` included (`KD/RebuildThrows.v`) | case analysis over the point of the exception; the search lemmas hold for any mask of the query, so searches with a stale calculator are sound (`Spec/DivHonest.v`); `forAll` does not look at the masks of nodes; witnesses for what is not kept |
| C91 | pushes onto `TourTree` (`TourMem/Alloc.v`) and `Heap` (`HeapMem/Alloc.v`) and `BitTriangle::addColumn` (`BitTriangle/Alloc.v`) with allocations that fail | a tree after a failed `reserve` is a good tree but for the capacity of its players, which no call but `push` looks at; a triangle after a failed `resize` is a good one with some columns emptied; histories against `Spec/Refused.v` and `Spec/TriangleHurt.v` |
| C92 | the depth of both KD trees, per variable (`KD/Depth.v`) | the split lies in the middle of the range, so `build` halves it; the splits of any tree lie between the bounds of their part of the space; each call either makes the tree anew, inserts, or keeps the nodes |
| C93 | the precision of the masks of `DivMask.h` (`DivMask/PrecisionProofs.v`) | from the meaning of a mask (C19) and the list of thresholds (C20): there is a threshold between two exponents |
| C94 | exceptions in automatic rebuilds of KD trees (`KD/AutoThrows.v`) | insertion (C88) and removal (C89) that return, followed by a rebuild that throws (C90) of a tree that satisfies the invariant |
| C95 | failed allocations in `PairQueue.h` (`PairQueue/Alloc.v`) | C14's invariant for the queue with more room for players; calls other than additions do not look at that room |
| C96 | calls of `compare` and `computePairData` in `PairQueue.h` (`PairQueue/Counted.v`) | each round of pop takes out a pair, so the pairs in the queue pay for the rounds; the pairs handed in are those computed, those behind the first of their column and those dropped |
| C97 | failed allocations in `Geobucket.h` (`GeoMem/Alloc.v`) | a call that throws has only raised the count and added buckets; C64's representation with a count that is too great; pointers into freed memory are refuted by their allocation number |
| C98 | `getMemoryUse` of Geobucket, GeoFront, StlSet and BitTriangle (`Bytes/`); the capacities of vectors are a parameter | the slots of the front are as many as the buckets; C65 for the cells |
| C99 | the functions that lead to `addBucket` with wrap-around at any `M` (`GeoMem/Sizes.v`) | only `addBucket` changes the size of the memory; if the unbounded run ends with fewer than `M` cells no intermediate size reached `M`; C65 for the bound |
| C100 | the searches with a callback that makes searches with the stack as it is (`KD/Nested.v`, `DivList/Nested.v`) | an inner search leaves the stack as it was or empty, and only after something was reported; the rest as for C87 |
| C101 | the sizes of the nodes in the arena (`KDMem/Bytes.v`); how much more the arena reserves and the capacity of `_tmp` are left out | how each call changes the numbers of children in use and allocated, and the number of leaves as for C92 |
| C102 | what the arena of the queue is asked for beside the states (`PairQueue/Bytes.v`); the tournament's part is that of C80 | each call adds what its column takes; the capacity of the tournament as for C80 |
| C103 | `memoryUse` of HashTable; the capacity of the vector of a DivList beside its states (`DivList/Bytes.v`), with any growth policy up to a factor of two | numbers of bins as for C81; how each call changes the number of entries |
| C104 | the searches of an unsorted DivList with an iterator into the list as the callback leaves it (`DivList/Rebuilding.v`) | contents only grow at the end; the masks only matter for what is missed; witnesses |
| C105 | DivList with every call of `isLessThan` counted (`DivList/Ordered.v`) | halving finds the partition point in at most k steps if the range has less than 2^k entries; one comparison per 35 entries; induction over the history |
| C106 | ComTree with assignments, constructions and allocations counted (`ComTree/Moved.v`) | exact account of arrays allocated, entries moved and entries built in terms of the capacity, by induction over the history |
| C107 | Heap with the assignments to entries counted (`Heap/Assigned.v`) | each assignment is charged to a comparison of C50; moving back passes the nodes that were moved up |
| C108 | TourTree with the copies of entries counted (`TourTree/Copied.v`) | the shape (2 k - 1 nodes for k players) ties the capacity to the entries moved so far and to the entries pushed |
| C109 | DivList with the assignments to entries counted (`DivList/Shifted.v`) | exact numbers per call from the positions involved; the history adds them up, bounding the size by the insertions |
| C110 | Heap, TourTree, StlSet, Geobucket, each at two entry types | every function commutes with a map on entries that the configuration does not notice (`Queues/RelabelProofs.v`, `Queues/RelabelGeoProofs.v`); histories by induction |
| C111 | HashTable and DivList, each at two entry types | as C110 (`HashTable/RelabelProofs.v`, `DivList/RelabelProofs.v`); the mask calculators choose the same bits since they only read exponents |
| C112 | PairQueue at two types of pair data | as C110, on top of the lemmas for TourTree (`PairQueue/RelabelProofs.v`); both configurations are images of one whose data is the pair itself |
| C113 | KDTree, binary and packed, at two entry types | as C111, for leaves, trees and the tree with its schedule and cache in turn (`KD/RelabelProofs.v`) |

## What the proofs found in the code

Refuted claims (with witnesses in the development) are marked R. The others were noticed while modelling and are recorded in comments.

* `ComTree.h`: the move constructor leaves the new object's nodes uninitialised and clears its own fields (R, C12), so that both destructors
  fail their assertion (R, C72); `pushBack` of a reference to an own
  entry of a full tree reads freed memory (R, C12).
* `Heap.h`: the move constructor moves `_tree` into itself (line 39; R, C78).  `TourTree.h`: the implicit copy constructor leaves the nodes pointing to the
  players of the original; `StlSet.h`: the comparator of a copied or moved set points to the configuration of the original (R, C78).
* `Geobucket.h`/`GeoFront.h`: `clear` with `trackFront` leaves stale `_frontPos` (R, C08).  Pushing an empty range, `insertFactor` 0 and an unsorted
  range are not guarded against.  `top` of a de-duplicating geobucket changes it.
* `PairQueue.h`: `destructPairData` is told the wrong pair after rows have been skipped (R, C49).
* `PairQueue.h`: an exception thrown by `compare` inside `addColumnDescending` leaves a dangling `Column*` in the tournament; one thrown by
  `computePairData` inside `pop` leaves a pair with the data of another one; `constructPairData` leaks the object if `computePairData`
  throws (R, C52).
* `PairQueue.h`: retiring an index twice is documented to fail an assertion and does not (C71); the check that added rows are not retired is under `DEBUG`
  and not under `MATHIC_DEBUG`; the debug code of `create` tells `destructPairData` the row of the other object (line 416).  `Heap.h:132` asserts after a `return`.
* Exceptions (R, C74): one thrown by the first comparison of `Heap::push` leaves the heap out of order; one thrown by a later comparison of
  `TourTree::push` or `decreaseTop` leaves nodes that name the wrong player, so that `pop` loses an entry or uses a removed player; `Geobucket::push`
  counts the entry before it compares; `HashTable::makeNode` counts the node before it makes it, and `grow` changes the mask before it allocates and
  loses the nodes not yet moved.
* `HashTable.h`: `remove` does not compile when used; `hardReset` is not defined; `reset` leaves pointers into freed memory; `mBinCount` is not maintained;
  the load bound fails for fewer than two bits.
* `DivMask.h`: with one variable and `int` exponents, `rebuildDefault` overflows; differences of exponents may overflow (excluded by the hypothesis
  "no overflow" of the theorems, for which instances are proved in `DivMask/Defined.v`).
* `DivList.h`: sorted lists need an order that refines divisibility (R, C24); move-to-front breaks sorted lists (R, C27); `rebuildRatio` 0 violates an
  assertion (C72); `removeElement` is not counted as a change; `getMemoryUse` does not compile for linked lists.
* `KDTree.h`: `removeElement` updates neither the size nor the divisor cache (R, C33); range insert, `clear` and binary `removeElement` do not compile;
  `findAllDivisors` of a leaf returns an iterator as a `bool` (true); `std::copy` onto itself in the packed tree; a `reset` that throws leaves a tree
  whose destructor follows a null or never written pointer (R, C67).
* `NameFactory.h`, `CliParser.cpp`: a registered name whose function returns null is reported as unknown, or dereferenced by `parse`; duplicate option names
  are accepted silently; the integer range in the message is not the range accepted (R, C40); a rejected argument overwrites the value; `registerHelpAction` is
  declared and not defined; `parse(argc, argv)` takes the program's name for the action if it is passed the arguments of `main`; the overview of `help` shows
  the name an action gives itself, not the one it is registered under (R, C54).
* `ColumnPrinter.cpp`: `withSIPrefix` and `bytesInUnit` read past the end of the table of units (R, C45); `percentInteger` wraps around; `oneDecimal`
  of a negative or huge number is undefined; the examples in the header are wrong; `repeatToEndOfLine` of one column accepts '\n'.
* `display.cpp`: `isspace` of a negative `char` is undefined; `fputs` stops at a null character; an overlong first word is preceded by a line without a word.
* `Timer.cpp`: ties are not always rounded up (500500 clocks are 500 ms), because 0.001 is not a binary fraction.
* `pqsim/Simulator.cpp`: `randomSpans` expects the copies of a value to be popped one at a time while the queues pop them all, so it reports false errors
  (R, C59); `dupSpans` is undefined for spans of one value and for goal 0, and pushes beyond its goal unless it hits it exactly (R, C59).
* `divsim/Simulation.h`: a finder is not emptied between repetitions, so that with two repetitions correct finders are reported (R, C60); state events
  compare the order of entries (R, C60); with `DEBUG`, `checkQuery` compares only as many monomials as the later finder found, and reads past the end of
  `_allMonomials` if it found more (R, C61).
* `divsim/Simulation.cpp`: `makeStandard` makes one insertion more and one query less than asked for (R, C62).
* `divsim/divMain.cpp`: without minimizing, a tree with leaves of one entry throws an exception that nothing catches if `rand` yields the
  same monomial twice (C35).
* `Geobucket.h`: with `GeoStoreSameSizeBuffer` the memory is not linear in the entries (R, C65).  `addBucket` copies the old array to the front of the
  new one (line 526) although `setBuffer` copies the entries of every bucket again.
* `Geobucket.h`: pushing an empty range onto a non-empty queue fails an assertion, `clear` with `trackFront` fails `isValid` (R, C69); in release builds of
  MSVC, where a failed assertion is undefined behaviour, both are undefined.
* `test/DivFinder.cpp`: the test constructs a tree with masks for one variable, which overflows an `int` (R, C63).
* `KDTree.h`: without masks `getName` does not mention automatic rebuilds, which are made (R, C76).  `divMain.cpp` with `DEBUG` runs two equal finders (R, C76).
* `ComTree.h:284` writes a closing brace that Heap and TourTree write as well; `TourTree::print` shows pointers; `Geobucket::print` abbreviates (R, C79).  `BinaryKDTree::print`
  numbers variables from 0, `PackedKDTree::print` from 1.
* `KDTree.h:182-186`: findDivisor may ask twice about the cached entry, the first time without looking at its mask; removal leaves the nodes of the tree behind, so that
  searching a tree without entries may take as long as before (R, C82).  `HashTable.h`: a hash function that spreads badly makes lookups linear (R, C81).
* `Simulator.cpp:136`: the summary prints the number of values pushed as "entries popped in total", but pops are fewer if there are duplicates; `Simulator.cpp:166`: `<=` makes
  duplicates even if zero percent are asked for; `Simulator.cpp:263-264`: the event of an empty push is printed as a pop of an uninitialised value (R, C83).
* Exceptions in `Geobucket.h` (R, C85): without premerging the entries merged so far are in a temporary area only and are lost (680-701); with plain buckets the merge
  overwrites the bucket in place (597-600); with a tracked front `keyIncreased` and `keyDecreased` leave the front in the wrong order and `pop` has removed the top already
  (450-454); `merge` decrements `_entryCount` for merges that are then thrown away (764).
* Exceptions in `DivList.h` (R, C86): `rebuild` clears the bits of the calculator and recomputes the masks one by one (575-586), so an exception leaves masks that do not
  belong to the calculator and searches miss divisors; `removeMultiples` on a vector (224-251) leaves entries twice and entries reported as removed; a sorted vector is left
  out of order by it and by `insert` of a range (421-425), and `std::upper_bound` is then undefined.
* Exceptions in searches of `BinaryKDTree.h` and `PackedKDTree.h` (R, C87): `_tmp` is a member and keeps the nodes that were still to be visited, so the next enumeration reports
  entries twice (in debug builds `MATHIC_ASSERT(_tmp.empty())` fails), and a rebuild stores them twice.
* Exceptions in `splitInsert` of `BinaryKDTree.h` and `PackedKDTree.h` (R, C88): when the root is split, the tree is told about the new node only by the return value, so an exception in the last
  `getExponent` loses the greater entries (binary, 763-775) or the others with all children of the root (packed, 705-729); with `sortOnInsert` a leaf is left unsorted; with
  `AllowRemovals` off an empty leaf is left; with the divisor cache the cached pointer is left dangling; a failing allocation of the interior node loses the greater part (binary, 751-756).
* Exceptions in `removeMultiples` of KD trees (R, C89): `reportChanges` (KDTree.h:114) is skipped, so `size()` stays too great and the divisor cache may point to an entry that is gone; a leaf with several
  entries (KDEntryArray.h:297-322) is left with some entries twice, entries that were given to the output, or out of order; nodes left in `_tmp` are visited again by the next search.
* Exceptions in `rebuild` of KD trees (R, C90): `reset` clears the tree before it builds the new one (BinaryKDTree.h:331, PackedKDTree.h:301) and the new nodes are linked before their children exist, so the
  entries are lost or the tree is torn; the calculator is changed before the masks are (KDTree.h:248-249), so divisors are not found until a rebuild returns.
* Code that does not compile when it is used, found in reading: with `MATHIC_TRACK_DIV_MASK_HIT_RATIO` defined, DivMask.h:74-108 calls `ColumnPrinter::percent`, which does not exist; `DivList::getMemoryUse`
  (DivList.h:610-613) calls `capacity()` of `std::list` for linked lists; `DivList::const_iterator::getInternal` (DivList.h:189) returns a const iterator as a non-const one. None of this is modelled.
* Failed allocations (R, C91): `TourTree::reallocate` grows the tree before the players (TourTree.h:224-230), so that if `reserve` throws a later `push` relocates the players without correcting the pointers to
  them; `BitTriangle::addColumn` (BitTriangle.h:35-36) leaves a column without bits if the second `resize` throws.
* Masks that tell nothing apart (R, C93): the range of the exponents of a variable is computed starting from the exponent of variable 0 of the first entry (DivMask.h:221, 289), so that all thresholds of the
  variable may lie below all its exponents; and as the width of the pieces is rounded down, the thresholds may end in the middle of the range.
* An insertion that throws has inserted (R, C94): `insert` and `removeMultiples` of KDTree end with a rebuild if enough has changed (KDTree.h:341-347). If that throws, the entry is in the tree and counted, so that a
  client that tries again has it twice; or the rebuild has already thrown away all entries of the tree, which `size()` still counts.
* PairQueue inherits the flaw of TourTree found in C91 (R, C95): after an `addColumnDescending` that failed because the players of the tournament could not grow, the third addition after it is undefined.
* `addBucket` makes the buckets point into the new vector of entries before its last allocations (R, C97): if `_buckets.push_back` (Geobucket.h:548) or `reserveCapacity` (552) throws, the vector is
  destroyed and every bucket points into freed memory; not even `clear()` makes the Geobucket usable again. If the vector itself cannot be allocated nothing is lost, but `size()` counts entries that were not added.
* `StlSet::getMemoryUse` reports what is held at the moment (R, C98), the other queues the most they ever held. pqsim asks after the last event (Simulator.h:94), when all entries have been popped in
  most simulations: the table then shows 0 kb for sets.
* `Geobucket::addBucket` and `push(begin, end)` multiply by `geoBase` and `insertFactor` without a check for overflow (R, C99). With buckets of 2 entries and `geoBase` 2^63 the third push copies the old
  memory beyond the end of the new vector.
* The searches of `BinaryKDTree` and `PackedKDTree` share the member `_tmp`, so that a callback must not search the same tree, not even through a `const` reference (R, C100). If it calls `findDivisor`, the search
  that called it returns after the current node and silently misses the rest. Only debug builds notice (`MATHIC_ASSERT(_tmp.empty())`).
* `PackedKDTree::splitInsert` allocates a node for one more child and leaves the memory of the old children unused until the next rebuild (R, C101). Inserting (n, n), ..., (1, 1) with one entry per leaf
  takes memory quadratic in n; `BinaryKDTree` takes linear memory. Without automatic rebuilds nothing ever gives this memory back.
* `PairQueue` keeps its columns and their row indexes in an arena and gives nothing back before it is destroyed (R, C102): a queue that never holds more than one pair takes one `Column` for each column that
  was ever added. A retired column likewise keeps its memory, also after it has left the tournament.
* A search of a `DivList` with divmasks misses divisors if its callback rebuilds the list (R, C104), although no iterator becomes invalid: the mask of the monomial was computed with the old calculator. One
  insertion into a linked list in the callback is enough if it triggers the automatic rebuild.
