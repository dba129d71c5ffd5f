{"id": "C01", "title": "Heap is a maximum priority queue for every history", "statement": "After any sequence of push, range push, pop, decreaseTop and clear on a mic::Heap whose configuration does not de-duplicate, the heap holds exactly the multiset of pushed and not yet removed entries; top() is one of them and no held entry is greater; pop() returns that entry and removes exactly one occurrence; empty() and size() agree with the multiset. The only undefined calls are top, pop and decreaseTop on an empty heap.", "quantifier": "all entry types, all strict weak orders on them, all finite operation histories", "why_tests_cant": "The number of heap shapes and tie patterns is unbounded; an error in the sift loops shows only for particular shapes.", "anchors": ["src/mathic/Heap.h: push, pop, decreaseTop, top, clear, moveHoleDown, moveValueUp", "src/mathic/ComTree.h: pushBack, popBack"]}
{"id": "C02", "title": "De-duplicating Heap loses and invents nothing", "statement": "With de-duplication on, after any history the multiset of raw pushed entries that are still in the queue is exactly the disjoint union of what the held entries stand for, where an entry produced by deduplicate(a,b) stands for everything a and b stand for; top() is still maximal among held entries and pop() removes exactly one held entry.", "quantifier": "all orders, all deduplicate functions returning an entry equivalent to its arguments, all histories", "why_tests_cant": "De-duplication rewinds a half done sift and restarts it with the last leaf; the rewind touches a path whose length and tie pattern depend on the whole history.", "anchors": ["src/mathic/Heap.h: moveValueUp, Configuration::deduplicate, Configuration::supportDeduplication"]}
{"id": "C03", "title": "Heap structural validity", "statement": "isValid() is true in every state reachable through the public interface of Heap, with and without de-duplication; in particular no entry is greater than its parent.", "quantifier": "all histories, all strict weak orders", "why_tests_cant": "isValid is only asserted in debug builds on the states a test visits.", "anchors": ["src/mathic/Heap.h: isValid"]}
{"id": "C04", "title": "Tournament tree is a maximum priority queue for every history", "statement": "After any sequence of push, range push, pop, decreaseTop and clear, mic::TourTree holds exactly the multiset of pushed and not removed entries; top() is maximal, pop() returns it and removes exactly one occurrence; empty() and forAll() agree. The only undefined calls are top, pop and decreaseTop on an empty tree.", "quantifier": "all entry types, all strict weak orders, all finite histories", "why_tests_cant": "Entries are reached through pointers from tree slots to players which pop() rearranges; correctness depends on ownership of leaves across arbitrary histories.", "anchors": ["src/mathic/TourTree.h: push, pop, decreaseTop, top, clear"]}
{"id": "C05", "title": "Tournament tree pointers stay consistent", "statement": "In every reachable state of TourTree every slot of the tree refers to an existing player, each player's recorded leaf is a leaf slot that refers back to that player, each inner slot refers to the winner of its two child slots, and adding players never relocates the player storage while slots point into it.", "quantifier": "all reachable states, all histories", "why_tests_cant": "A dangling or misdirected pointer may go unnoticed until a particular later history dereferences it.", "anchors": ["src/mathic/TourTree.h: push, pop, reallocate, isValid"]}
{"id": "C06", "title": "Geobucket is a maximum priority queue for every history without clear", "statement": "For every configuration (geometric base at least 2, minimum bucket size and insert factor at least 1, premerge, front tracking and max collecting on or off) without de-duplication, any history of push, non-empty range push, pop, top and decreaseTop leaves exactly the multiset of pushed and not removed entries; top() is maximal and pop() removes exactly one occurrence of what it returns.", "quantifier": "all configurations, all strict weak orders, all histories", "why_tests_cant": "Five independent options and unboundedly many buckets; overflow cascades happen only for particular size patterns.", "anchors": ["src/mathic/Geobucket.h: push, pop, top, decreaseTop, merge, insert, mergeToNonEmpty, mergeToEmpty, moveToEmpty", "src/mathic/GeoFront.h"]}
{"id": "C07", "title": "De-duplicating Geobucket loses and invents nothing", "statement": "With de-duplication on, the held entries of a Geobucket always stand for exactly the pushed and not yet popped raw entries, where deduplicate(a,b) stands for both; top() is maximal.", "quantifier": "all configurations, all deduplicate functions that return an equivalent entry, all histories", "why_tests_cant": "De-duplication happens inside merges and inside the maximum computation of a const-looking top().", "anchors": ["src/mathic/Geobucket.h: merge", "src/mathic/GeoFront.h: computeMax"]}
{"id": "C08", "title": "A cleared Geobucket is a correct empty priority queue", "statement": "After clear() a Geobucket holds nothing and answers every further history as an empty priority queue may.", "quantifier": "all configurations, all histories before and after the clear", "why_tests_cant": "Stale internal positions only matter for special bucket patterns before and after the clear.", "anchors": ["src/mathic/Geobucket.h: clear", "src/mathic/GeoFront.h: clear, insert, swapKeys"]}
{"id": "C09", "title": "StlSet is a maximum priority queue and serves equal entries first come first served", "statement": "StlSet holds exactly the multiset of pushed and not removed entries, top() is maximal, pop removes it, and equivalent entries leave in the order they were pushed.", "quantifier": "all strict weak orders, all histories", "why_tests_cant": "Tie order depends on unbounded histories of insertions and removals.", "anchors": ["src/mathic/StlSet.h"]}
{"id": "C10", "title": "All priority queues agree", "statement": "If no two different entries are equivalent under the order then Heap, TourTree, Geobucket and StlSet return the same sequence of tops, pops, sizes and emptiness answers for the same history, as far as the history uses only calls the queues have in common.", "quantifier": "all linear orders, all histories", "why_tests_cant": "Agreement must hold for every history, each implementation has its own internal shape.", "anchors": ["src/mathic/Heap.h", "src/mathic/TourTree.h", "src/mathic/Geobucket.h", "src/mathic/StlSet.h"]}
{"id": "C11", "title": "Fast tree indexes are the plain tree indexes", "statement": "The tree node type that stores pre-multiplied positions computes parent, left and right child, sibling, left sibling, next, previous, isLeft, isRoot and comparisons exactly as the plain node type does, for entry sizes that are a power of two, as long as the scaled position fits into a word.", "quantifier": "all node indexes, all power of two entry sizes", "why_tests_cant": "The number of indexes is unbounded and wrap-around only shows at sizes a test cannot allocate.", "anchors": ["src/mathic/ComTree.h: Node, parent, left, right, sibling, leftSibling, next, prev"]}
{"id": "C12", "title": "ComTree is an array in heap layout that survives growth, copy, swap and move", "statement": "pushBack, popBack, increaseCapacity, copy and swap keep the entries at all node positions; moving a tree gives the target all entries of the source.", "quantifier": "all histories, all entry values", "why_tests_cant": "Growth happens at unboundedly many sizes.", "anchors": ["src/mathic/ComTree.h: pushBack, popBack, increaseCapacity, swap, ComTree(ComTree&&)", "src/mathic/Heap.h: Heap(Heap&&)"]}
{"id": "C13", "title": "BitTriangle is a map from unordered pairs to bits", "statement": "After any sequence of addColumn and setBit/setBitUnordered calls, bit(c,r) and bitUnordered(x,y) return the last value set for exactly that pair, false if it was never set, and columnCount() is the number of columns added; setting one pair affects no other pair and adding a column affects no existing pair.", "quantifier": "all histories, all pairs row<column", "why_tests_cant": "Aliasing between pairs would show only for particular index combinations.", "anchors": ["src/mathic/BitTriangle.h"]}
{"id": "C14", "title": "PairQueue delivers every pair exactly once, largest first", "statement": "For any history of addColumnDescending and pop, each pair (column,row) handed in is delivered by topPair()/pop() at most once, topPair() is a pair whose data is maximal among all live pairs, empty() holds exactly when no live pair is left.", "quantifier": "all histories, all pair data functions, all strict weak orders on pair data with each column's rows given in non-increasing order of pair data", "why_tests_cant": "Interleavings of additions and pops are unbounded and the order inside columns is only checked lazily.", "anchors": ["src/mathic/PairQueue.h: addColumnDescending, pop, topPair, empty, columnCount, pairCount"]}
{"id": "C15", "title": "PairQueue never delivers a pair that involves a retired index", "statement": "After retireIndex(i), topPair() never again involves i, every live pair not involving a retired index is still delivered, and the queue stays ordered.", "quantifier": "all histories with retirements in any order at any time", "why_tests_cant": "The retirement can hit the top column, a column in the middle of the tournament, or rows in the interior of a column.", "anchors": ["src/mathic/PairQueue.h: retireIndex, SupportRetirement, incrementRowIndex"]}
{"id": "C16", "title": "PairQueue stores row indexes without loss and refuses too many columns", "statement": "Row indexes read back from a column equal the ones handed in whether they were stored in 16 or in 32 bits; adding a column when the index type is exhausted throws overflow_error and leaves the queue unchanged.", "quantifier": "all column indexes and all row lists", "why_tests_cant": "The switch of representation happens at column 65535.", "anchors": ["src/mathic/PairQueue.h: Column::create, rowIndex, big, addColumnDescending"]}
{"id": "C17", "title": "HashTable is a finite map", "statement": "For any history of insert and lookup, lookup(k) finds the value of the first insert of a key equal to k, insert of a present key returns that existing entry and changes nothing, and the number of entries is the number of distinct keys.", "quantifier": "all key types, all equivalences as keysEqual, all hash functions that respect it, all histories", "why_tests_cant": "Collisions and growth steps depend on the hash values of the whole history.", "anchors": ["src/mathic/HashTable.h: insert, lookup, grow, computeNodeCount"]}
{"id": "C18", "title": "Growing a HashTable changes no answer", "statement": "Growing the table keeps every entry findable, keeps the table size a power of two and at least quadruples it exactly when the load limit is exceeded.", "quantifier": "all table sizes and contents", "why_tests_cant": "Each entry moves to one of four bins depending on hash bits.", "anchors": ["src/mathic/HashTable.h: grow, insert"]}
{"id": "C19", "title": "DivMask never rules out a real divisor", "statement": "If monomial a divides monomial b then canDivide(mask(a),mask(b)) is true, for masks computed by the same calculator, however its bits were chosen.", "quantifier": "all monomials, all variable counts, all bit selections made by rebuild or rebuildDefault", "why_tests_cant": "False negatives depend on exact thresholds against exponents.", "anchors": ["src/mathic/DivMask.h: Calculator::compute, canDivide"]}
{"id": "C20", "title": "DivMask calculators choose exactly as many bits as a mask holds", "statement": "For at least one variable, rebuild and rebuildDefault choose exactly 32 bits, all of valid variables, so no bit is shifted out when a mask is computed. Variables that split the entries better get no fewer bits, and the thresholds of a variable cut the range of its exponents in equal pieces.", "quantifier": "all variable counts at least 1, all entry lists", "why_tests_cant": "The distribution of 32 bits over n variables has different rounding for each n.", "anchors": ["src/mathic/DivMask.h: rebuild, rebuildDefault"]}
{"id": "C21", "title": "Testing divisibility through masks gives the plain answer", "statement": "Extender::divides(a,b) returns exactly what the user's divides(a,b) returns, with masks on or off, as long as the masks were computed by the current calculator.", "quantifier": "all entries and calculators", "why_tests_cant": "A wrong mask gives a wrong answer only for specific pairs.", "anchors": ["src/mathic/DivMask.h: Extender, ExtendedEntry"]}
{"id": "C22", "title": "Combining masks keeps a lower bound", "statement": "A mask combined from a set of entries with combineAnd can divide everything that any entry of the set can divide, so skipping a subtree by its combined mask skips no divisor; a mask combined with the maximal mask is unchanged.", "quantifier": "all sets of masks", "why_tests_cant": "Depends on all bits of all masks.", "anchors": ["src/mathic/DivMask.h: combineAnd, getMaxMask, HasDivMask"]}
{"id": "C23", "title": "DivList finds a divisor exactly when there is one", "statement": "For an unsorted DivList (vector or linked list, masks on or off, move-to-front on or off), after any history of insert, removeMultiples, removeElement, searches and rebuild, findDivisor(m) returns an entry that divides m whenever one is held and otherwise nothing.", "quantifier": "all histories, all entry and monomial types with the documented compatibility between divides and exponents, all rebuild schedules", "why_tests_cant": "Unbounded histories, lazily recomputed masks.", "anchors": ["src/mathic/DivList.h: findDivisor, insert, removeMultiples, rebuild"]}
{"id": "C24", "title": "Sorted DivList finds a divisor exactly when there is one", "statement": "With sortOnInsert the search that stops early still finds a divisor whenever one is held.", "quantifier": "all total orders accepted by the documentation of isLessThan", "why_tests_cant": "Early stopping skips a tail that depends on the order.", "anchors": ["src/mathic/DivList.h: findDivisorSorted, insertSort", "src/mathic/DivFinder.h: isLessThan"]}
{"id": "C25", "title": "DivList enumerations are exact", "statement": "findAllDivisors reports exactly the held divisors, findAllMultiples exactly the held multiples and forAll exactly the held entries, each once, stopping right after the callback asks to stop.", "quantifier": "all histories, all callbacks", "why_tests_cant": "Unbounded.", "anchors": ["src/mathic/DivList.h: findAllDivisors, findAllMultiples, forAll"]}
{"id": "C26", "title": "DivList removeMultiples removes exactly the multiples", "statement": "removeMultiples(m) leaves exactly the entries not divisible by m, hands each removed entry to the output once, and returns whether there was one.", "quantifier": "all contents and monomials", "why_tests_cant": "Compaction loops fail only for special patterns.", "anchors": ["src/mathic/DivList.h: removeMultiples"]}
{"id": "C27", "title": "DivList move-to-front changes no answer", "statement": "Turning move-to-front on changes neither the held multiset nor which queries succeed, also in combination with sortOnInsert.", "quantifier": "all histories", "why_tests_cant": "Depends on the history of successful searches.", "anchors": ["src/mathic/DivList.h: moveToFront, findDivisor"]}
{"id": "C28", "title": "Binary KD tree answers are exact", "statement": "For any history of insert and removeMultiples, with any leaf size, masks and packing options, findDivisor finds a divisor exactly when one is held and findAllDivisors, findAllMultiples and forAll report exactly the right entries, each once.", "quantifier": "all leaf sizes at least 1, all variable counts, all histories of pairwise different entries", "why_tests_cant": "The tree shape and the split variables depend on the whole history.", "anchors": ["src/mathic/BinaryKDTree.h", "src/mathic/KDEntryArray.h"]}
{"id": "C29", "title": "Packed KD tree answers are exact", "statement": "The same as C28 for the packed tree.", "quantifier": "all leaf sizes, all variable counts, all histories of pairwise different entries", "why_tests_cant": "As C28; split copies nodes and re-threads children.", "anchors": ["src/mathic/PackedKDTree.h", "src/mathic/KDEntryArray.h"]}
{"id": "C30", "title": "KDTree removeMultiples removes exactly the multiples", "statement": "removeMultiples(m) leaves exactly the entries not divisible by m, outputs each removed one once and returns whether there was one; size() is updated.", "quantifier": "all trees and monomials", "why_tests_cant": "Subtrees are pruned by exponent tests.", "anchors": ["src/mathic/KDTree.h: removeMultiples", "src/mathic/BinaryKDTree.h: removeMultiples", "src/mathic/PackedKDTree.h: removeMultiples"]}
{"id": "C31", "title": "KDTree rebuild keeps the contents", "statement": "Rebuilding the tree, explicitly or by the automatic schedule, keeps exactly the held entries and changes no answer.", "quantifier": "all trees, all rebuild schedules", "why_tests_cant": "Rebuild redistributes all entries over a new tree shape.", "anchors": ["src/mathic/KDTree.h: rebuild, reportChanges", "src/mathic/BinaryKDTree.h: reset", "src/mathic/PackedKDTree.h: reset"]}
{"id": "C32", "title": "KDTree divisor cache is invisible", "statement": "With the divisor cache on, findDivisor still finds a divisor exactly when one is held.", "quantifier": "all histories", "why_tests_cant": "The cache may point at an entry that later moves or is removed.", "anchors": ["src/mathic/KDTree.h: findDivisor, insert, removeMultiples"]}
{"id": "C33", "title": "KDTree removeElement removes one element and updates size", "statement": "removeElement(e) removes one held entry equal to e if there is one, returns whether it did, and size() and later queries reflect it.", "quantifier": "all trees and elements", "why_tests_cant": "Needs histories that mix removal with caching.", "anchors": ["src/mathic/KDTree.h: removeElement"]}
{"id": "C34", "title": "Minimising insertion keeps an antichain", "statement": "A client that inserts an entry only if no held entry divides it, after removing its multiples, always holds exactly the minimal elements under divisibility of everything ever inserted, whatever the divisor finder is.", "quantifier": "all histories, all divisor finders in the library", "why_tests_cant": "Unbounded histories.", "anchors": ["src/divsim/DivListModel.h: insert", "src/divsim/KDTreeModel.h: insert"]}
{"id": "C35", "title": "KDTree insert always inserts or reports", "statement": "insert either adds the entry or throws; it throws only when more equal entries than a leaf can hold are inserted.", "quantifier": "all histories, all leaf sizes", "why_tests_cant": "Needs leaf overflow with special contents.", "anchors": ["src/mathic/KDTree.h: insert", "src/mathic/KDEntryArray.h: split"]}
{"id": "C36", "title": "All divisor finders agree", "statement": "DivList, binary and packed KD trees in all configurations give the same set-level answers after the same history.", "quantifier": "all histories, all configurations", "why_tests_cant": "Unbounded.", "anchors": ["src/mathic/DivList.h", "src/mathic/KDTree.h"]}
{"id": "C37", "title": "NameFactory creates the registered product", "statement": "create(name) calls the function registered under exactly that name and reports an unknown name otherwise; namesWithPrefix returns exactly the registered names with that prefix in sorted order.", "quantifier": "all registrations and names", "why_tests_cant": "All name sets and prefixes.", "anchors": ["src/mathic/NameFactory.h: create, createNullOnUnknown, namesWithPrefix, registerProduct"]}
{"id": "C38", "title": "Unique-prefix lookup", "statement": "uniqueNameWithPrefix returns the exact name if registered, else the single name with the prefix, else reports unknown or ambiguous correctly with all candidates in the message.", "quantifier": "all name sets and prefixes", "why_tests_cant": "All combinations of names that are prefixes of each other.", "anchors": ["src/mathic/NameFactory.h: uniqueNameWithPrefix, createWithPrefix"]}
{"id": "C39", "title": "Command line parsing", "statement": "A command line made of an action, its direct parameters and -option [argument] groups is parsed into exactly those, and any other token sequence is reported as an error.", "quantifier": "all token sequences", "why_tests_cant": "Token sequences are unbounded.", "anchors": ["src/mathic/CliParser.cpp: parse"]}
{"id": "C40", "title": "Integer parameters accept exactly the canonical decimals in the advertised range", "statement": "An integer parameter accepts an argument exactly when it is the canonical decimal of a number in the range the error message states, and then holds that number.", "quantifier": "all argument strings", "why_tests_cant": "All strings.", "anchors": ["src/mathic/IntegerParameter.cpp: processArgument"]}
{"id": "C41", "title": "Boolean parameters", "statement": "A boolean parameter becomes true for on or no argument, false for off, and anything else is an error.", "quantifier": "all argument strings", "why_tests_cant": "All strings.", "anchors": ["src/mathic/BoolParameter.cpp: processArgument"]}
{"id": "C42", "title": "ColumnPrinter aligns columns", "statement": "Every row printed by ColumnPrinter has each cell padded to its column's width on the chosen side, so that cells of a column start and end at the same position, and no cell text is lost.", "quantifier": "all column contents, prefixes and suffixes", "why_tests_cant": "All texts.", "anchors": ["src/mathic/ColumnPrinter.cpp: print"]}
{"id": "C43", "title": "commafy inserts separators without changing the number", "statement": "commafy(n) with the commas removed is the decimal of n, and commas stand exactly between groups of three digits from the right.", "quantifier": "all integers", "why_tests_cant": "All 64-bit values.", "anchors": ["src/mathic/ColumnPrinter.cpp: commafy"]}
{"id": "C44", "title": "Percentages and ratios are correctly rounded", "statement": "ratioInteger and percentInteger print the quotient rounded half up to one decimal as long as the numbers are below 2^46, are within 2^-50 of it for all inputs for which they are defined, and never divide by zero; percentIntegerFixed prints six characters up to 999.9%.", "quantifier": "all unsigned inputs", "why_tests_cant": "Wrap-around at the upper end.", "anchors": ["src/mathic/ColumnPrinter.cpp: percentInteger, ratioInteger"]}
{"id": "C45", "title": "SI prefixes and byte units are in range", "statement": "withSIPrefix and bytesInUnit show the amount rounded half up to one decimal in a unit that makes the number shown less than 1000 (1024), and never read outside the table of units.", "quantifier": "all inputs", "why_tests_cant": "Only extreme inputs trigger it.", "anchors": ["src/mathic/ColumnPrinter.cpp: withSIPrefix, bytesInUnit"]}
{"id": "C46", "title": "display wraps at the console width and loses no word", "statement": "display() prints the same sequence of words, no line exceeds the console width unless it is a single overlong word, and every line starts with the prefix.", "quantifier": "all texts and prefixes", "why_tests_cant": "All texts.", "anchors": ["src/mathic/display.cpp"]}
{"id": "C47", "title": "Timer output denotes the measured time", "statement": "The printed hours, minutes, seconds and milliseconds denote exactly the measured number of milliseconds, each component is in its range, different times print differently, and getMilliseconds is within half a millisecond of the elapsed clock time and never runs backwards.", "quantifier": "all times", "why_tests_cant": "All values.", "anchors": ["src/mathic/Timer.cpp: print"]}
{"id": "C48", "title": "Automatic rebuild schedule", "statement": "An automatic rebuild of DivList or KDTree happens after max(size*ratio, minimum) changes, so n insertions trigger at most logarithmically many rebuilds; with automatic rebuild off none happens.", "quantifier": "all histories and parameters", "why_tests_cant": "Counts over unbounded histories.", "anchors": ["src/mathic/DivList.h: reportChanges, resetNumberOfChangesTillRebuild", "src/mathic/KDTree.h: reportChanges"]}
{"id": "C49", "title": "PairQueue constructs and destroys every column's pair data exactly once", "statement": "constructPairData is only called for a column without pair data, computePairData and destructPairData only for a column that has it; exactly the columns in the queue have it; the destructor leaves none; no pair data is computed for a retired index; destructPairData is told the pair whose data the object holds.", "quantifier": "all legal histories with retirements", "why_tests_cant": "Leaks and double destruction show up only for particular interleavings of pops and retirements.", "anchors": ["src/mathic/PairQueue.h: constructPairData, destructPairData, incrementRowIndex, destruct, ~PairQueue"]}
{"id": "C50", "title": "Heap makes logarithmically many comparisons", "statement": "push compares at most log2(n+1) times and pop at most 2 log2(n-1) times, plus log2 per de-duplication; a history of p pushed entries and q pops or decreaseTop calls makes at most (p+2q) log2 p comparisons, (2p+2q) log2 p with de-duplication.", "quantifier": "all histories, orders and sizes", "why_tests_cant": "A worst case over all histories.", "anchors": ["src/mathic/Heap.h: moveHoleDown, moveValueUp"]}
{"id": "C51", "title": "TourTree makes logarithmically many comparisons", "statement": "push, pop and decreaseTop compare at most as often as the tree is deep; a history of p pushed entries and q pops or decreaseTop calls makes at most (p+q) log2(2p) comparisons.", "quantifier": "all histories, orders and sizes", "why_tests_cant": "A worst case over all histories.", "anchors": ["src/mathic/TourTree.h: push, pop, decreaseTop"]}
{"id": "C52", "title": "PairQueue survives exceptions thrown by the configuration", "statement": "If addColumnDescending throws, the queue is as before and the column count and retirement table are rolled back; if computePairData or compare throws in any call, no PairData is leaked or destructed twice and the queue still answers correctly.", "quantifier": "all histories and all places where an exception may be thrown", "why_tests_cant": "Faults must be injected at every call of the configuration.", "anchors": ["src/mathic/PairQueue.h: addColumnDescending, pop, incrementRowIndex, constructPairData", "src/mathic/TourTree.h: push"]}
{"id": "C53", "title": "KD tree self-checks never fail", "statement": "In a build with MATHIC_DEBUG no assertion in a KD tree fails: after any history debugIsValid holds of the tree, of its nodes and of its leaves, every call passes all assertions on the way, and it returns what it returns in a build without assertions. The tree also remains valid after exceptions.", "quantifier": "all histories and configurations, both trees", "why_tests_cant": "The checks run in tests only on the trees the tests build.", "anchors": ["src/mathic/BinaryKDTree.h: debugIsValid", "src/mathic/PackedKDTree.h: debugIsValid, Node::debugIsValid", "src/mathic/KDEntryArray.h: debugIsValid, allStrictlyGreaterThan, allLessThanOrEqualTo"]}
{"id": "C54", "title": "The help overview lists every action once", "statement": "help without a topic never fails and shows, in alphabetical order, each registered action once with its summary, also if a name is a prefix of another; if the lines fit, each action has a line of its own and the dashes are aligned.", "quantifier": "all parsers, sets of actions and messages", "why_tests_cant": "Every combination of names, lengths and prefixes.", "anchors": ["src/mathic/HelpAction.cpp: performAction", "src/mathic/CliParser.cpp: pushBackRegisteredActionNames, createActionWithPrefix"]}
{"id": "C55", "title": "help about an action describes that action and all its parameters", "statement": "help with a topic describes the action that the topic resolves to, with every parameter once, in alphabetical order, with its type and the value a new action has; a topic that names no action is reported as on the command line; the command line passes at most one topic on.", "quantifier": "all parsers, topics, actions and parameters", "why_tests_cant": "Every combination of names, prefixes and parameters.", "anchors": ["src/mathic/HelpAction.cpp: directOptions, displayActionHelp, performAction"]}
{"id": "C56", "title": "Heap with a deduplicate that has side effects is a priority queue", "statement": "If deduplicate reads and changes the state of the configuration, a Heap is still a priority queue that at any time may replace two entries the client calls equal by what deduplicate returns, and the state is the one these calls lead to, each entry given to deduplicate being in the queue at that moment.", "quantifier": "all histories, orders, states and deduplicate functions", "why_tests_cant": "Which entries meet, and in which order, depends on the whole history.", "anchors": ["src/mathic/Heap.h: moveValueUp, push, pop, decreaseTop", "src/pqsim/Model.h: deduplicate"]}
{"id": "C57", "title": "pop and decreaseTop act on the entry that top shows", "statement": "If top shows an entry, asking again shows the same entry, pop removes and returns this very entry, not just one that compares equal, and decreaseTop replaces it.", "quantifier": "all histories of all four queues", "why_tests_cant": "Differs only among entries that compare equal, after particular histories.", "anchors": ["src/mathic/Heap.h: top, pop, decreaseTop", "src/mathic/TourTree.h: top, pop, decreaseTop", "src/mathic/StlSet.h: top, pop", "src/mathic/Geobucket.h: top, pop, decreaseTop", "src/mathic/GeoFront.h: getMax"]}
{"id": "C58", "title": "The queues of the pq simulation pop each value once", "statement": "On values and on spans, with or without de-duplication, with pop or with decreaseTop, Model::pop returns the largest value that was pushed and not popped since, and removes all its copies; nothing stays pending and no assertion fails.", "quantifier": "all histories of sorted pushes and pops, all queues, all sizes and settings of Geobucket", "why_tests_cant": "The queues differ in when they de-duplicate and in what is pending.", "anchors": ["src/pqsim/Model.h: push, pop, deduplicate", "src/pqsim/Item.h: toNext", "src/pqsim/GeobucketModel.h", "src/pqsim/HeapModel.h", "src/pqsim/TourTreeModel.h", "src/pqsim/StlSetModel.h"]}
{"id": "C59", "title": "The pq simulation never reports a false error", "statement": "Whatever rand returns, a simulation made by dupSpans, orderSpans or randomSpans runs on every queue and for every number of repetitions without printing ERROR and without popping from an empty queue; dupSpans is defined for all sizes.", "quantifier": "all random numbers, sizes, queues and numbers of repetitions", "why_tests_cant": "Tests run with one seed.", "anchors": ["src/pqsim/Simulator.h: run", "src/pqsim/Simulator.cpp: SimBuilder, dupSpans, orderSpans, randomSpans, makeDescription", "src/pqsim/pqMain.cpp: main"]}
{"id": "C60", "title": "The divisor simulation never reports a false error", "statement": "However the finders are configured, a simulation of insertions and queries runs on every DivListModel and every KDTreeModel without stopping at an error or an assertion, with and without DEBUG, asking for one or for all divisors, for any number of repetitions, and every finder ends with the number of monomials that the insertions leave. In particular the program divsim does so on the monomials it draws.", "quantifier": "all sequences of insertions and queries, all configurations, all lists of finders, all numbers of repetitions", "why_tests_cant": "The program runs with one seed and a fixed list of configurations.", "anchors": ["src/divsim/Simulation.h: run, checkInsert, checkQuery", "src/divsim/divMain.cpp: main", "src/divsim/DivListModel.h: insert, findDivisor, findAllDivisors", "src/divsim/KDTreeModel.h: insert, findDivisor, findAllDivisors"]}
{"id": "C61", "title": "The divisor simulation notices finders that disagree", "statement": "Whatever the finders do, if a simulation runs through then each of them answered every insertion and every query as the first one did: with the same number of monomials, and with DEBUG with the same monomials, all of which divide what was asked for.", "quantifier": "all finders, correct or not, and all sequences of insertions and queries", "why_tests_cant": "It is about finders that do not exist.", "anchors": ["src/divsim/Simulation.h: run, checkInsert, checkQuery"]}
{"id": "C62", "title": "makeStandard prepares the number of insertions and queries asked for", "statement": "makeStandard(varCount, inserts, queries) makes inserts insertions followed by queries queries.", "quantifier": "all numbers of insertions and queries", "why_tests_cant": "Nothing in the program depends on the numbers.", "anchors": ["src/divsim/Simulation.cpp: makeStandard"]}
{"id": "C63", "title": "The unit tests of the repository are defined and pass", "statement": "Every assertion in src/test holds, for every implementation of std::hash and of the algorithms of the standard library, and no test runs into undefined behaviour.", "quantifier": "all hash functions and all implementations of the standard algorithms", "why_tests_cant": "A test that passes may have run into undefined behaviour.", "anchors": ["src/test/BitTriangle.cpp", "src/test/HashTable.cpp", "src/test/PairQueue.cpp", "src/test/DivFinder.cpp"]}
{"id": "C64", "title": "Geobucket's pointers into its one array never overlap, dangle or run out", "statement": "Geobucket keeps every bucket, every other buffer and its temporary areas as pointers into one array, merges from one area into another, exchanges buffers, and reallocates everything when it adds a bucket. After any history of calls each of these areas lies in the current array, no two overlap, they take up the array exactly, and the answers are those of a priority queue: no merge overwrites entries it still has to read, no pointer into an old array is followed and no cell is read that was not written.", "quantifier": "all entry types, orders, geoBase, minBucketSize, insertFactor, options and layouts, and all histories of calls", "why_tests_cant": "Which areas are exchanged depends on the history; an overlap of two areas shows only if both are in use at the same time.", "anchors": ["src/mathic/Geobucket.h: addBucket, merge, mergeToNonEmpty, mergeToEmpty, moveToEmpty, insert, Bucket::setBuffer, Bucket::setBufferWithNewEntries, Bucket::switchToOtherBuffer, Bucket::insertAtNotEnd, _tmp, _tmpForNoPremerge"]}
{"id": "C65", "title": "The memory of a Geobucket is linear in the entries it has to hold", "statement": "If at no call more than N entries are held and brought in (an entry of a range counting insertFactor times), the largest bucket has at most max(minBucketSize, geoBase * N) cells and the whole array at most a constant times that, where the constant depends on the layout only.", "quantifier": "all configurations and all histories of calls", "why_tests_cant": "Tests do not look at the memory.", "anchors": ["src/mathic/Geobucket.h: addBucket, insert, push"]}
{"id": "C66", "title": "The pointers of a KD tree always lead to live nodes of the right kind", "statement": "The nodes of a KD tree lie in an arena and are linked by pointers: inserting splits a leaf and relinks its parent, a binary leaf may become the lower half of a new interior node, a rebuild frees everything and builds anew. After any history of calls, also one with caught exceptions, no null, freed or never written pointer is followed, no node is taken for one of the other kind, the answers are those of a correct divisor finder, and the destructor destroys each entry the tree holds exactly once.", "quantifier": "both trees, all configurations and all histories of calls", "why_tests_cant": "A wrong link shows only in later calls that happen to pass it.", "anchors": ["src/mathic/BinaryKDTree.h: insert, splitInsert, reset, clear, findDivisor, findAllDivisors, findAllMultiples, forAll, removeMultiples", "src/mathic/PackedKDTree.h: makeNode, insert, splitInsert, reset, clear, findDivisor, removeElement", "src/mathic/KDTree.h: rebuild"]}
{"id": "C67", "title": "reset of a KD tree can fail without harm", "statement": "BinaryKDTree::reset and PackedKDTree::reset, given any range of entries, either hold exactly these entries afterwards or throw and leave a tree that can be used or at least destroyed.", "quantifier": "both trees, all configurations, all histories of calls and all ranges", "why_tests_cant": "reset throws only for ranges with more equal entries than fit into a leaf.", "anchors": ["src/mathic/BinaryKDTree.h: reset, clear", "src/mathic/PackedKDTree.h: reset, clear", "src/mathic/KDEntryArray.h: split"]}
{"id": "C68", "title": "Geobucket makes amortised logarithmically many comparisons", "statement": "A history of calls with P pushed entries makes at most a constant times log(P) comparisons per pushed entry, pop, top and decreaseTop, where the constant depends only on the configuration; in particular n entries are pushed and popped with O(n log n) comparisons.", "quantifier": "all histories, all entries and orders, all sizes and settings of the configuration", "why_tests_cant": "A bound over unbounded histories; a single push may merge all buckets, so no test of single calls shows it.", "anchors": ["src/mathic/Geobucket.h: push, insert, merge, mergeToNonEmpty, mergeToEmpty, pop, top, decreaseTop", "src/mathic/GeoFront.h: keyIncreased, keyDecreased, computeMax"]}
{"id": "C69", "title": "No assertion of Geobucket fails", "statement": "As long as ranges are sorted as documented, no MATHIC_ASSERT in Geobucket.h and GeoFront.h fails, so that a debug build behaves as a release build, and the compilers that take assertions as facts in release builds (MSVC) are told nothing wrong.", "quantifier": "all configurations with geoBase > 1 and all histories of documented calls", "why_tests_cant": "Assertions are only checked for the histories that a test runs.", "anchors": ["src/mathic/Geobucket.h: insert, mergeToNonEmpty, mergeToEmpty, moveToEmpty, isValid, debugIsValid", "src/mathic/GeoFront.h: insert, remove, debugIsValid", "src/mathic/stdinc.h: MATHIC_ASSERT, MATHIC_ASSUME"]}
{"id": "C70", "title": "The top entry may be changed in place before it is removed", "statement": "PairQueue relies on this: after top(), the user may change the top entry in place (to anything) and then call pop or decreaseTop. The queue removes this entry and goes on as if the change had not happened: all later answers are those of a correct priority queue.", "quantifier": "Heap, TourTree and Geobucket, all configurations, all histories of calls and all values the entries are changed to", "why_tests_cant": "The changed entry breaks the invariant of the queue while it is in there; whether this shows depends on the shape of the queue.", "anchors": ["src/mathic/PairQueue.h: pop (the comment that all mathic queues allow it)", "src/mathic/Heap.h: pop, decreaseTop, moveHoleDown", "src/mathic/TourTree.h: pop, decreaseTop", "src/mathic/Geobucket.h: pop, decreaseTop", "src/mathic/GeoFront.h: getMax, keyDecreased"]}
{"id": "C71", "title": "No assertion of Heap, TourTree and PairQueue fails", "statement": "As long as the documented preconditions are kept, no MATHIC_ASSERT and no MATHIC_SLOW_ASSERT in Heap.h, TourTree.h and PairQueue.h fails, not even while PairQueue::pop changes a column inside the tournament, and no comparison reads a PairData object that was destroyed. A debug build gives the answers of a release build.", "quantifier": "all configurations and all histories of documented calls", "why_tests_cant": "Assertions are only checked for the histories that a test runs; a read of a destroyed object mostly goes unnoticed.", "anchors": ["src/mathic/Heap.h: push, pop, decreaseTop, clear, moveValueUp, isValid", "src/mathic/TourTree.h: push, pop, decreaseTop, top, clear, reallocate, isValid", "src/mathic/PairQueue.h: Column::create, Column::incrementRowIndex, Column::rowIndex, Column::pairData, pop, retireIndex, retired, topPair, topPairData, empty"]}
{"id": "C72", "title": "No assertion of ComTree, BitTriangle, HashTable and DivList fails", "statement": "As long as the documented preconditions are kept, no MATHIC_ASSERT in ComTree.h, BitTriangle.h, HashTable.h, DivList.h and DivMask.h fails: a debug build gives the answers of a release build. The assertions of BitTriangle fail for exactly the calls that are undefined in a release build.", "quantifier": "all configurations and all histories of calls", "why_tests_cant": "Assertions are only checked for the histories that a test runs.", "anchors": ["src/mathic/ComTree.h: ComTree, ~ComTree, swap, pushBack, pushBackWithCapacity, popBack, increaseCapacity, isValid", "src/mathic/BitTriangle.h: bit, bitUnordered, setBit, setBitUnordered", "src/mathic/HashTable.h: insert, lookup, grow, computeNodeCount", "src/mathic/DivList.h: removeMultiples, resetNumberOfChangesTillRebuild", "src/mathic/DivMask.h: rebuild"]}
{"id": "C73", "title": "Client functions that obey no law cannot harm the containers", "statement": "Whatever the comparison, the equality, the de-duplication and the hash answer, even if they are no order at all, every call of Heap, TourTree, Geobucket and HashTable ends, touches only memory the container owns, and neither loses nor invents an entry: what was pushed is what was popped and what is held, up to the merges that de-duplication asked for. Only the order of the answers is lost.", "quantifier": "all functions, all entries, all configurations and all histories of calls", "why_tests_cant": "std::sort and std::set have undefined behaviour for comparisons that are no order; a test shows at most that one bad comparison did no harm in one history.", "anchors": ["src/mathic/Heap.h: push, pop, decreaseTop, moveHoleDown, moveValueUp", "src/mathic/TourTree.h: push, pop, decreaseTop", "src/mathic/Geobucket.h: push, pop, top, decreaseTop, insert, merge", "src/mathic/GeoFront.h: keyIncreased, keyDecreased, computeMax", "src/mathic/HashTable.h: insert, lookup, grow"]}
{"id": "C74", "title": "What an exception thrown by a client function leaves behind", "statement": "If compare, deduplicate, hash, a copy of a key or the allocation throws in the middle of a call, the Heap keeps all entries of the normal call but at most one, in whose place a copy of another one may stand, and pop and decreaseTop keep its order; forAll of a TourTree meets the entries of the normal call; a Geobucket keeps its entries; a HashTable lookup changes nothing and an insert that does not grow the table changes no answer. A container that threw can be used on.", "quantifier": "all entries, all configurations, all states and all points at which a client function may throw", "why_tests_cant": "The point at which an exception strikes and the state it strikes in multiply; tests of mathic never throw from a configuration.", "anchors": ["src/mathic/Heap.h: push, pop, decreaseTop, moveHoleDown, moveValueUp", "src/mathic/TourTree.h: push, pop, decreaseTop", "src/mathic/Geobucket.h: push", "src/mathic/HashTable.h: insert, lookup, makeNode, grow"]}
{"id": "C75", "title": "Entries in the memory of a KD tree leaf are constructed before use and destroyed exactly once", "statement": "KDEntryArray keeps its entries in raw arena memory and constructs and destroys them by hand. Whatever sequence of constructions, push_back, pop_back, insert, removeMultiples, removeElement, clear and splits by either tree is made, no entry is read, assigned to or destroyed where none was constructed and none is constructed over another; each array always holds exactly its entries in its first places and raw memory elsewhere; after clear, every object ever constructed has been destroyed exactly once.", "quantifier": "all sequences of calls on any number of arrays, all leaf sizes and options, all entries, all sorts and partitions the standard allows", "why_tests_cant": "A missed or repeated destructor is invisible with the trivially destructible entries tests use, and reading raw memory usually returns a plausible old value.", "anchors": ["src/mathic/KDEntryArray.h: KDEntryArray, push_back, pop_back, insert, clear, removeMultiples, removeElement, split", "src/mathic/BinaryKDTree.h: splitInsert", "src/mathic/PackedKDTree.h: splitInsert"]}
{"id": "C76", "title": "The name of a data structure determines its configuration", "statement": "getName of each data structure names its options, so that two results printed under one name come from one configuration. Geobuckets with the same name have equal options, as have the queues of pqsim, whatever their kinds; names of DivLists and KDTrees determine all options, including whether and when they are rebuilt; in divsim two finders with the same name behave in the same way. pqMain and divMain never print two rows with the same name.", "quantifier": "all configurations and all pairs of them, all sizes and factors, all texts without space and slash that stand for the rebuild ratio", "why_tests_cant": "Tests never compare names; that two of infinitely many configurations share one is found only by a proof about all pairs.", "anchors": ["src/mathic/Geobucket.h: getName", "src/mathic/Heap.h: getName", "src/mathic/TourTree.h: getName", "src/mathic/StlSet.h: getName", "src/mathic/PairQueue.h: getName", "src/mathic/DivList.h: getName", "src/mathic/KDTree.h: getName", "src/pqsim/Model.h: getName", "src/divsim/DivListModel.h: getName", "src/divsim/KDTreeModel.h: getName", "src/pqsim/pqMain.cpp: main", "src/divsim/divMain.cpp: main"]}
{"id": "C77", "title": "Tournament trees follow no stale pointer and leak nothing", "statement": "TourTree keeps pointers into a std::vector that moves its elements when it grows. In a program with any number of tournament trees that are constructed, used and destroyed in any order, every node always points to a living player of the tree's own vector, each tree answers as a priority queue that is alone in the program, the memory in use is exactly the memory of the trees that are alive, and nothing is left when they are destroyed.", "quantifier": "all strict weak orders, all programs that construct and destroy trees and call them in any order, all numbers and sizes of trees", "why_tests_cant": "A dangling pointer usually reads plausible data; a test sees it only if the memory was reused, and depends on where the vector happens to grow.", "anchors": ["src/mathic/TourTree.h: push", "src/mathic/TourTree.h: reallocate", "src/mathic/TourTree.h: pop", "src/mathic/TourTree.h: decreaseTop", "src/mathic/ComTree.h: increaseCapacity"]}
{"id": "C78", "title": "Copies and moves of queues", "statement": "A copy of a queue is independent of the original, a moved queue holds the entries of its source, and both keep working when the original is gone.", "quantifier": "all strict weak orders, all histories before the copy or move, all later calls", "why_tests_cant": "No test copies or moves a queue; a copy that shares memory with its original works until the original changes or goes.", "anchors": ["src/mathic/TourTree.h: TourTree", "src/mathic/ComTree.h: ComTree(ComTree&&)", "src/mathic/Heap.h: Heap(Heap&&)", "src/mathic/StlSet.h: StlSet", "src/mathic/StlSet.h: Cmp"]}
{"id": "C79", "title": "Printing shows the contents", "statement": "print writes a data structure as text from which its contents can be read: heaps and StlSets determine every entry and its place, heaps level by level; geobuckets the number and room of each bucket and the entries of small ones; KD trees show each entry exactly once, whatever their shape. Braces match, and tournament trees show their entries.", "quantifier": "all contents, sizes and tree shapes, all ways to show entries as words without spaces and line breaks, all ways to show addresses and exponents on one line", "why_tests_cant": "Nobody compares printed trees of every shape; entries that are left out or shown twice go unnoticed in debugging output.", "anchors": ["src/mathic/ComTree.h: print", "src/mathic/Heap.h: print", "src/mathic/TourTree.h: print", "src/mathic/StlSet.h: print", "src/mathic/Geobucket.h: print", "src/mathic/BinaryKDTree.h: print", "src/mathic/PackedKDTree.h: print"]}
{"id": "C80", "title": "Heaps on their array, and the memory queues report", "statement": "Heap is a priority queue when run on the array of its ComTree, which grows, keeps old values and may be absent. getMemoryUse of Heap and TourTree is linear in the most entries held at a time, covers the entries held, takes only the sizes 16 times a power of two and never falls; growing copies at most two entries per entry ever pushed.", "quantifier": "all histories of calls, all entries and comparisons, with and without de-duplication, all entry sizes", "why_tests_cant": "Tests see a few growth steps; a stale slot read as an entry, or an array that grows at every push around a full size, gives right answers at small sizes.", "anchors": ["src/mathic/Heap.h: push, pop, decreaseTop, getMemoryUse", "src/mathic/ComTree.h: pushBack, popBack, increaseCapacity, getMemoryUse", "src/mathic/TourTree.h: reallocate, getMemoryUse"]}
{"id": "C81", "title": "How often a hash table hashes and compares keys, and how many bins it has", "statement": "A history of calls of HashTable computes at most one hash value per insert and lookup plus two per entry held in the end. A lookup or insert compares its key at most once with each entry whose hash value agrees with its own modulo the number of bins and with no other entry. The bins are at most the initial ones or forty per entry.", "quantifier": "all histories of calls, all initial sizes, all hash functions and key comparisons that agree with each other", "why_tests_cant": "A table that rehashes at every insert around a threshold, or that compares keys of other bins, gives right answers in every test.", "anchors": ["src/mathic/HashTable.h: insert, lookup, remove, grow"]}
{"id": "C82", "title": "How often divisor finders call divides and look at exponents", "statement": "Each search or removal of DivList and KDTree calls divides at most once per entry, never for an entry ruled out by its mask, and in a sorted vector never for an entry greater than the monomial; removeMultiples of DivList asks about all others exactly once. findDivisor of a tree asks once more about its cached divisor. On the way through a tree at most one exponent is looked at per interior node, and there are fewer of these than insertions, or than entries if removals are disabled.", "quantifier": "all states of lists, all histories of trees, both trees, all options, all monomials, all callbacks, every entry separately", "why_tests_cant": "Answers do not show how often an entry was asked about; a search that ignores masks, the order or the nodes it may skip passes every test of its results.", "anchors": ["src/mathic/DivList.h: findDivisor, findAllDivisors, findAllMultiples, removeMultiples", "src/mathic/KDTree.h: findDivisor", "src/mathic/BinaryKDTree.h: findDivisor, findAllDivisors, findAllMultiples, removeMultiples", "src/mathic/PackedKDTree.h: findDivisor, findAllDivisors, findAllMultiples, removeMultiples", "src/mathic/KDEntryArray.h: findDivisor", "src/mathic/DivMask.h: Extender::divides"]}
{"id": "C83", "title": "What the pq simulation prints about the events it generated", "statement": "The summary gives the number of pushes, the values per push and the live values before an event on average, the number of values pushed and the percentage of them that were live already; the percentage is below 100. The list of events gives every push sorted and every popped value, and looks different for different events. No push of a simulation has a value twice, and in the end nothing is live: if pops take all copies, there are as many pops as values pushed that were no duplicates.", "quantifier": "all sequences of pushes and pops, both ways to pop, all sequences of random numbers, all parameters of the three simulations", "why_tests_cant": "The numbers depend on random sequences; a summary that is wrong for some of them looks as plausible as a right one, and nothing else computes it.", "anchors": ["src/pqsim/Simulator.cpp: SimBuilder, makeDescription, printEventSummary, printEvents, print, dupSpans, orderSpans, randomSpans"]}
{"id": "C84", "title": "The result tables of the simulation programs", "statement": "Both programs print one row for each result, the fastest first, with the name on the left and the numbers, in groups of three digits, on the right, in columns as wide as their longest entry. Tables that look the same show the same results, and so do the lines printed after each run; the names of all queues and finders allow this. Both functions named commafy agree.", "quantifier": "all lists of results, all sorting functions std::sort may be, all names without line breaks and trailing spaces", "why_tests_cant": "Tests do not look at the tables; widths, padding and ties depend on all results at once.", "anchors": ["src/pqsim/Simulator.cpp: printData, SimData::print, SimData::operator<, commafy", "src/divsim/Simulation.cpp: printData, SimData::print, SimData::operator<", "src/mathic/ColumnPrinter.cpp: print, commafy"]}
{"id": "C85", "title": "What an exception leaves in a Geobucket", "statement": "Whichever call of compare or deduplicate throws, or the allocation of a bucket: a premerging Geobucket with double or same size buffers that does not track the front keeps all it held (a decreaseTop may have removed the top). Without de-duplication the client may catch such exceptions and go on any number of times: all answers are those of a priority queue, except that size() and empty() count the entries of pushes that threw until clear() is called. In the other configurations a throwing push may lose or duplicate entries or leave a wrong top.", "quantifier": "all histories of calls, all calls and all client calls in them that may throw, all configurations named", "why_tests_cant": "There are as many places to throw as client calls in all histories; each leaves another intermediate state of merges between buckets.", "anchors": ["src/mathic/Geobucket.h: push, pop, top, decreaseTop, insert, merge, mergeToNonEmpty, mergeToEmpty, addBucket", "src/mathic/GeoFront.h: insert, keyIncreased, keyDecreased, computeMax"]}
{"id": "C86", "title": "What an exception leaves in a DivList", "statement": "Whichever call of getExponent, divides, isLessThan, push_back or proceed throws, a call on a DivList throws or does what it does without exceptions. Searches and removeElement then leave the list as it was; an insert has happened or not; an insert of a range has inserted a first part of it; a removeMultiples keeps all entries that are not multiples and all multiples not reported yet, and in a linked list the reported ones are gone. A client that catches the exception may go on and gets correct answers, unless it came from a rebuild of the masks, from the insertion of a range into a sorted list or from removeMultiples on a sorted vector. In an unsorted list a rebuild that returns makes all answers right again.", "quantifier": "all configurations, all histories of calls, all client calls in them that may throw, all behaviours of std::sort and std::upper_bound that the standard allows for comparisons that throw", "why_tests_cant": "There are as many places to throw as client calls in all histories; each leaves another intermediate state of the list, its masks and its calculator.", "anchors": ["src/mathic/DivList.h: insert, removeMultiples, removeElement, findDivisor, findAllDivisors, findAllMultiples, forAll, rebuild, reportChanges", "src/mathic/DivMask.h: Calculator::rebuild, Calculator::compute, Extender::divides"]}
{"id": "C87", "title": "What an exception in a search leaves in a KD tree", "statement": "Whichever call of getExponent, divides, isLessThan or proceed, or push_back on the stack of nodes, throws in a search: the entries, size() and the answers of findDivisor are as before, whatever exceptions came before and whatever searches follow. The next enumeration that returns reports all that it should, each entry at least as often as it is held, but it goes on with the nodes left on the stack and so may report entries twice; after it (or a findDivisor that returned from the tree) everything is as if no exception had happened. A search on an empty stack throws or answers as it does without exceptions.", "quantifier": "both trees, all configurations, all reachable trees, all histories of searches, all client calls in them that may throw", "why_tests_cant": "There are as many places to throw as client calls in all searches of all trees, and the stack left behind shows only in a later call.", "anchors": ["src/mathic/KDTree.h: findDivisor, findAllDivisors, findAllMultiples, forAll, rebuild", "src/mathic/BinaryKDTree.h: findDivisor, findAllDivisors, findAllMultiples, forAll, _tmp", "src/mathic/PackedKDTree.h: findDivisor, findAllDivisors, findAllMultiples, forAll, _tmp", "src/mathic/KDEntryArray.h: findDivisor, findAllDivisors, findAllMultiples, forAll"]}
{"id": "C88", "title": "What an exception in insert leaves in a KD tree", "statement": "Whichever call of getExponent or isLessThan, or allocation from the arena, throws in insert or removeElement of a KD tree: the call throws or does what it does without exceptions, and a removeElement that throws has changed nothing. An insert that throws before it has to split a leaf leaves all entries, and searches and later calls work as before. If it throws while splitting a leaf then this still holds if the tree does not sort, has no divisor cache and allows removals, the leaf does not belong to the root and, in the binary tree, no allocation fails. In each of the other cases entries may be lost or later searches may be undefined.", "quantifier": "both trees, all configurations, all reachable trees, all histories of calls in which any insertions and removals throw, all client calls and allocations in them, whatever order std::sort and std::partition leave behind", "why_tests_cant": "Each insertion has dozens of places to throw, and what was left behind shows in later calls; the cases that do harm need a full leaf in the right place.", "anchors": ["src/mathic/KDTree.h: insert, removeElement", "src/mathic/BinaryKDTree.h: insert, splitInsert", "src/mathic/PackedKDTree.h: insert, splitInsert, removeElement", "src/mathic/KDEntryArray.h: insert, split, sort constructor, removeElement"]}
{"id": "C89", "title": "What an exception in removeMultiples leaves in a KD tree", "statement": "Whichever call of getExponent, divides or push_back throws in removeMultiples of a KD tree: the call throws or does what it does without exceptions. If it throws then it has given multiples to the output, each once; all other multiples and all entries that are no multiples are still there, and any further entries are not more than those given to the output, none if leaves have one entry; size() has not changed. A tree that allows removals, has no divisor cache and does not sort leaves of several entries then goes on through any calls: searches find what is there but may report entries twice, and the next removeMultiples that returns is right. Not guaranteed: that size() is the number of entries, that entries given to the output are gone, that no entry is there twice, and with sorted leaves or the divisor cache that later searches are defined.", "quantifier": "both trees, all configurations, all reachable trees, all histories of all calls in which any of them throw, all client calls in them", "why_tests_cant": "The damage of an exception depends on which of the many client calls throws, on the order of the entries in a leaf and on what was left in the stack of nodes by earlier calls that threw.", "anchors": ["src/mathic/KDTree.h: removeMultiples", "src/mathic/BinaryKDTree.h: removeMultiples, _tmp", "src/mathic/PackedKDTree.h: removeMultiples, _tmp", "src/mathic/KDEntryArray.h: removeMultiples"]}
{"id": "C90", "title": "What an exception in rebuild leaves in a KD tree", "statement": "Whichever call of getExponent, isLessThan or push_back, or allocation, throws in rebuild of a KD tree: the call throws or does what it does without exceptions. If it throws then there is the tree of before, perhaps with nodes left in its stack, or the entries of before with another divmask calculator, or no entries at all, or a torn tree, or a new tree with the old entries whose masks have not been computed. With another calculator searches return and report only divisors and multiples that are there, and forAll and size() are exact; as long as size() is the number of entries, another rebuild that returns puts everything right. A client would like the entries to be kept and to be found.", "quantifier": "both trees, all configurations, all reachable trees, every client call and allocation in rebuild", "why_tests_cant": "rebuild records, recalculates, clears and builds; an exception at each of hundreds of points leaves another mixture of old and new state, and tests do not make allocations and client functions fail.", "anchors": ["src/mathic/KDTree.h: rebuild, EntryRecorder", "src/mathic/BinaryKDTree.h: reset", "src/mathic/PackedKDTree.h: reset", "src/mathic/DivMask.h: Calculator::rebuild", "src/mathic/KDEntryArray.h: split"]}
{"id": "C91", "title": "What a failed allocation leaves in a queue or a triangle of bits", "statement": "When an allocation throws in a push onto a tournament tree or a heap, or in the adding of a column to a triangle of bits, and the client catches the exception: a push leaves the contents as they were, a push of a range has pushed the entries before one of the range and no other, a refused column is not counted, and all later calls answer as they should, in any history with any allocations failing.", "quantifier": "all entry types and strict weak orders, all histories of calls, with a number of allocations that succeed for every call", "why_tests_cant": "An allocation fails at each of many points of a history, tests do not make allocations fail, and the damage may show only several calls later when memory is grown again.", "anchors": ["src/mathic/TourTree.h: push, reallocate", "src/mathic/ComTree.h: pushBack, increaseCapacity", "src/mathic/Heap.h: push", "src/mathic/BitTriangle.h: addColumn"]}
{"id": "C92", "title": "How deep a KD tree can get", "statement": "After a rebuild, called for or automatic, no way from the root to a leaf splits a variable more often than the range of its exponents can be halved, so the depth is at most the sum over the variables of the logarithms of the ranges, however many entries there are. Between rebuilds an insertion adds at most one level and no other call changes the depth. In any state a way splits a variable at most as often as there are steps from its least to its greatest exponent.", "quantifier": "all entry types, legal configurations and options of both trees, and all histories of calls; no bound on the number of entries or variables or on the exponents", "why_tests_cant": "How deep a tree gets depends on the order of insertions and the distribution of the exponents, and tests do not look at the nodes.", "anchors": ["src/mathic/KDEntryArray.h: split", "src/mathic/BinaryKDTree.h: reset, insert", "src/mathic/PackedKDTree.h: reset, insert", "src/mathic/KDTree.h: rebuild, reportChanges"]}
{"id": "C93", "title": "How much the masks tell apart", "statement": "For at most 32 variables a rebuilt calculator never takes an entry with the least exponent of a variable for a possible multiple of a monomial with a greater one. A monomial whose exponent exceeds another by at least a piece of the range is told apart from it where the thresholds reach, and if no variable has a range wider than its number of bits then the masks decide divisibility exactly. A new calculator tells zero from all other exponents.", "quantifier": "all entry types, exponents of signed or unbounded type, numbers of variables, sorting functions and non-empty lists of entries, and all pairs of monomials", "why_tests_cant": "A mask that rules out nothing only makes the finders slow: every answer stays right and no test fails.", "anchors": ["src/mathic/DivMask.h: Calculator::rebuild, rebuildDefault, compute"]}
{"id": "C94", "title": "KD trees whose automatic rebuild throws", "statement": "If a client function or an allocation throws in the rebuild at the end of insert or removeMultiples of a KD tree, then the change has been made and counted, the output has received all multiples, and, unless the tree has lost its entries, another rebuild makes all searches work; the next insertion tries it. An insertion that throws has not inserted the entry, and a call that throws loses no entries.", "quantifier": "all legal configurations, both trees, all reachable states, all entries, all points at which a call throws, and all behaviours of std::sort and std::partition", "why_tests_cant": "Only some insertions rebuild, and among the hundreds of calls in a rebuild that may throw each leaves another state behind.", "anchors": ["src/mathic/KDTree.h: KDTree::insert, removeMultiples, reportChanges, reportChangesRebuild, rebuild", "src/mathic/BinaryKDTree.h: BinaryKDTree::reset", "src/mathic/PackedKDTree.h: PackedKDTree::reset"]}
{"id": "C95", "title": "PairQueue survives failed allocations", "statement": "A call of addColumnDescending in which an allocation fails leaves the columns, their number, the retired indexes and the order of the queue as they were, no PairData is leaked or destructed twice, and all calls that do not throw answer as if those that threw had not been made. No allowed call is undefined, whichever allocations failed before.", "quantifier": "all configurations that throw nothing, all histories of allowed calls, and every choice of the allocations that fail", "why_tests_cant": "Tests do not run out of memory, let alone at each of the allocations of a call and at each of the growths of the tournament.", "anchors": ["src/mathic/PairQueue.h: addColumnDescending, Column::create", "src/mathic/TourTree.h: push, reallocate"]}
{"id": "C96", "title": "How often PairQueue compares pairs and computes their data", "statement": "With k columns in the queue, addColumnDescending calls compare at most log2(2k+1) times, and pop at most log2(2k-1) times while no index is retired; pop and retireIndex call it at most log2(2k-1) times for each pair that they take out. A history that adds K columns with rows compares at most log2(2K) times for each of these columns and each pair taken out, whichever indexes are retired. The data of a pair is computed at most as often as the pair was handed in, and not before it is the first pair of its column.", "quantifier": "all configurations whose compare is a strict weak order, all histories of allowed calls, any number of columns and rows", "why_tests_cant": "Tests check answers, not the number of calls of the configuration, and a bound for all histories cannot be tested.", "anchors": ["src/mathic/PairQueue.h: addColumnDescending, pop, retireIndex, Column::incrementRowIndex", "src/mathic/TourTree.h: push, pop, decreaseTop"]}
{"id": "C97", "title": "Geobucket survives failed allocations", "statement": "When an allocation of push, with an entry or a range, or of decreaseTop fails, the entries held stay, size() tells how many these are, and the client that catches the exception may go on: all calls answer as those of a priority queue that lacks what was not added; a decreaseTop that throws has removed the top.", "quantifier": "all configurations, all histories of calls, every choice of the calls in which an allocation fails, and of the one among the three allocations of addBucket", "why_tests_cant": "Tests do not run out of memory, let alone at each of the allocations of addBucket; and reading freed memory often gives the expected entries.", "anchors": ["src/mathic/Geobucket.h: addBucket, push, decreaseTop, insert", "src/mathic/GeoFront.h: reserveCapacity"]}
{"id": "C98", "title": "The memory reported by Geobucket, StlSet and BitTriangle", "statement": "getMemoryUse of a Geobucket depends on the number of buckets only, covers the entries held, never falls, and is bounded by the greatest demand; that of a BitTriangle is given by the number of columns, covers the bits and exceeds them by a constant for each column. That of a StlSet, too, is the most that was in use, as pqsim, which asks when the simulation is over, takes it to be.", "quantifier": "all configurations and all histories of calls, all sizes of the types, all monotone ways in which a vector may grow", "why_tests_cant": "Nothing but pqsim's table shows the numbers, and there is nothing to compare them with.", "anchors": ["src/mathic/Geobucket.h: getMemoryUse, addBucket", "src/mathic/GeoFront.h: getMemoryUse, reserveCapacity", "src/mathic/StlSet.h: getMemoryUse", "src/mathic/BitTriangle.cpp: getMemoryUse", "src/pqsim/Simulator.h: run"]}
{"id": "C99", "title": "The sizes that Geobucket computes do not wrap around", "statement": "The capacity of a new bucket, the cells required, the offsets of the areas and adjCount are computed in size_t. As long as the memory has fewer cells than size_t can count and no range times insertFactor exceeds it, every call does what it would do with numbers without bounds; that is so if the entries to be held, times geoBase and a small constant, stay below the limit. Factors for which it is not so do no harm.", "quantifier": "all configurations, all histories of calls, all widths of size_t", "why_tests_cant": "The limit cannot be reached in a test with 64 bit numbers, except by unusual factors.", "anchors": ["src/mathic/Geobucket.h: addBucket, push, insert"]}
{"id": "C100", "title": "A callback may search the finder that is being searched", "statement": "The function proceed that findAllDivisors, findAllMultiples and forAll call may itself search the same finder: each of these searches answers as it does elsewhere, and so does the search it is called from.", "quantifier": "all configurations of DivList and KDTree (binary and packed), all reachable states, all callbacks that make any number of searches each time they are called", "why_tests_cant": "Whether it goes wrong depends on which node of the tree is being visited when the callback searches; the tests never search in a callback.", "anchors": ["src/mathic/BinaryKDTree.h: findDivisor, findAllDivisors, findAllMultiples, forAll, _tmp", "src/mathic/PackedKDTree.h: findDivisor, findAllDivisors, findAllMultiples, forAll, _tmp", "src/mathic/DivList.h: findAllDivisors, findAllMultiples, forAll"]}
{"id": "C101", "title": "The memory of a KD tree is linear in the entries it has to hold", "statement": "The memory that a KD tree takes for its nodes is at most proportional to the number of entries at the last rebuild plus the number of insertions since.", "quantifier": "all configurations of KDTree (binary and packed), all node sizes, all sequences of calls that respect the preconditions", "why_tests_cant": "The memory a sequence of insertions leaves unused grows with the number of children a node has got, which takes long, adversarial sequences; no test looks at the memory.", "anchors": ["src/mathic/PackedKDTree.h: Node::makeNode, sizeOf, insert, splitInsert, reset, clear, getMemoryUse", "src/mathic/BinaryKDTree.h: insert, splitInsert, reset, clear, getMemoryUse", "src/mathic/KDTree.h: insert, rebuild, reportChanges"]}
{"id": "C102", "title": "The memory of a PairQueue is linear in the pairs it has to hold", "statement": "What getMemoryUse reports for a PairQueue is at most proportional to the number of columns and pairs that were in the queue at a time, and takes 16 bits for each row index of a small column.", "quantifier": "all configurations, orders and sizes of columns, all sequences of calls that respect the preconditions", "why_tests_cant": "Memory that is not given back shows only in long sequences in which columns come and go; no test looks at the memory of the queue.", "anchors": ["src/mathic/PairQueue.h: addColumnDescending, Column::create, pop, retireIndex, getMemoryUse", "src/mathic/TourTree.h: reallocate, getMemoryUse"]}
{"id": "C103", "title": "The memory of HashTable and of DivList on a vector is linear in their entries", "statement": "HashTable::memoryUse reports the nodes of the entries and at most the initial bins or forty per entry; DivList::getMemoryUse for a vector reports at least the entries held and at most twice as many as were held at a time; neither falls.", "quantifier": "all key types, hash functions that respect equality, initial sizes; all configurations of DivList without UseLinkedList and all growth policies of std::vector up to a factor of two; all sequences of calls", "why_tests_cant": "The capacity depends on the history of insertions, removals and rebuilds; tests do not look at what these functions report.", "anchors": ["src/mathic/HashTable.h: memoryUse, makeNode, grow", "src/mathic/DivList.h: getMemoryUse, insert, removeMultiples, removeElement"]}
{"id": "C104", "title": "A callback may change the DivList that is being searched if no iterator becomes invalid", "statement": "If the callback of findAllDivisors, findAllMultiples or forAll rebuilds the list, or inserts into it when it is a linked list, the search still reports exactly the wanted entries.", "quantifier": "all configurations without sortOnInsert, all callbacks that search, rebuild and, for linked lists, insert; all histories before the search", "why_tests_cant": "A rebuild in the middle of a search changes the masks of all entries, automatically after some insertions; no test changes a list in a callback.", "anchors": ["src/mathic/DivList.h: findAllDivisors, findAllMultiples, forAll, insert, rebuild, reportChanges", "src/mathic/DivMask.h: Extender::recalculateDivMask"]}
{"id": "C105", "title": "How often a sorted DivList calls isLessThan", "statement": "With sortOnInsert a vector of n entries is searched and inserted into with at most log2 n + 1 calls of isLessThan. A search of a linked list calls it once for every 35 entries that it passes; an insertion into a linked list calls it at most once with each entry, and this bound is reached. Without sortOnInsert it is never called.", "quantifier": "all configurations, all states, all calls, all histories", "why_tests_cant": "The number of comparisons is visible only as running time and its growth needs lists of unbounded size.", "anchors": ["src/mathic/DivList.h: insertSort, findDivisorSorted, findAllDivisorsSorted, insert, findDivisor, findAllDivisors", "src/mathic/Comparer.h: Comparer"]}
{"id": "C106", "title": "Growing a ComTree costs amortised constant work per push", "statement": "p calls of pushBack, mixed with any other calls except copies and increaseCapacity, cause at most 3p assignments to entries, at most 4p + 16 default-constructed entries and at most log2 p + 1 allocations, whatever the initial capacity. One pushBack moves all entries exactly if the array is full.", "quantifier": "all histories of calls, all initial capacities, all entry types", "why_tests_cant": "Amortised cost is a statement about histories of unbounded length; no test counts assignments or constructions.", "anchors": ["src/mathic/ComTree.h: ComTree::pushBack, increaseCapacity, popBack, clear, ComTree(size_t)"]}
{"id": "C107", "title": "How often Heap assigns entries", "statement": "Without deduplication push assigns at most log2 (size + 1) + 2 entries and pop at most 2 log2 (size - 1) + 2; a history that pushes p entries and takes the top q times assigns O((p + q) log p) entries, also with deduplication, where elements are moved back.", "quantifier": "all histories, all comparison functions, all entry types", "why_tests_cant": "Copies of entries are visible only as running time; moving elements back after a deduplication happens on long paths only.", "anchors": ["src/mathic/Heap.h: Heap::push, pop, decreaseTop, moveHoleDown, moveValueUp"]}
{"id": "C108", "title": "How often TourTree copies entries", "statement": "Unlike a heap, a tournament tree moves pointers and not entries: decreaseTop assigns one entry, pop at most three and push one, however many entries there are. Growing moves all players, and over a history that pushes p entries and takes the top q times at most 3 p + 3 q entries are copied.", "quantifier": "all histories, all comparison functions, all entry types", "why_tests_cant": "Copies of entries are visible only as running time, and growing happens at rare sizes.", "anchors": ["src/mathic/TourTree.h: TourTree::push, pop, decreaseTop, reallocate"]}
{"id": "C109", "title": "How often DivList assigns entries", "statement": "On a vector removeMultiples moves every entry at most once, however many it removes, removeElement moves the entries behind the one it removes, moveToFront those before the one it moves, and an insertion into a sorted list those behind the new entry; in a linked list nothing is moved. A history that inserts n entries and removes or moves to the front q times assigns at most n + q n entries, n n + q n if sorted, and n if linked.", "quantifier": "all histories, all configurations, all orders and divisibility functions", "why_tests_cant": "Assignments are visible only as running time; a loop that erases multiples one at a time gives the same answers.", "anchors": ["src/mathic/DivList.h: DivListHelper::removeMultiples, moveToFront, insertSort, DivList::removeElement, insert"]}
{"id": "C110", "title": "Priority queues look at entries only through the configuration", "statement": "What a priority queue does depends on its entries only through compare and, where supported, deduplicate. If a function on entries preserves both, then in every history the queue of the images holds, answers and enumerates the images of what the queue of the entries does, and is undefined exactly when the other is. So what an entry carries besides its key never influences which keys are popped, when, or in which order they are enumerated.", "quantifier": "all functions that preserve the configuration, all histories, Heap, TourTree, StlSet and all configurations of Geobucket; no law is assumed of the order", "why_tests_cant": "It relates two runs on different entry types; a test sees one run on one type.", "anchors": ["src/mathic/Heap.h: Heap", "src/mathic/TourTree.h: TourTree", "src/mathic/StlSet.h: StlSet", "src/mathic/Geobucket.h: Geobucket"]}
{"id": "C111", "title": "HashTable and DivList look at entries only through the configuration", "statement": "What a HashTable does depends on its keys only through hash and keysEqual, and not at all on its values; what a DivList does depends on its entries only through getExponent, divides and isLessThan. If a function on entries preserves these, then in every history the container of the images answers with the images of the answers, and is undefined exactly when the other is. So values never influence which handle a key gets, and what an entry carries besides its monomial never influences what is found, reported or removed.", "quantifier": "all functions that preserve the configuration, all histories, all numbers of bins, all configurations of DivList, all callbacks that give the same advice; no law is assumed of the client functions", "why_tests_cant": "It relates two runs on different entry types; a test sees one run on one type.", "anchors": ["src/mathic/HashTable.h: HashTable", "src/mathic/DivList.h: DivList", "src/mathic/DivMask.h: DivMask::Calculator"]}
{"id": "C112", "title": "PairQueue looks at pair data only through the configuration", "statement": "Pair data is a cache. If a configuration computes other data for the pairs, but its comparisons of the data computed give the same results, then in every history the queue delivers the same pairs, answers the same, and constructs, computes and destroys pair data for the same pairs in the same order. The data shown by topPairData are the other data of the same pairs.", "quantifier": "all types of pair data, all computations, all comparisons, all histories, with and without support for retirement; no law is assumed of the order", "why_tests_cant": "It relates two configurations with different types of pair data; a test sees one.", "anchors": ["src/mathic/PairQueue.h: PairQueue, Column::create, Column::incrementRowIndex, topPairData"]}
{"id": "C113", "title": "KD trees look at entries only through the configuration", "statement": "What a KD tree does depends on its entries only through getExponent, divides and isLessThan. If a function on entries preserves these, then in every history, with splits, automatic rebuilds, masks and the divisor cache, the tree of the images answers with the images of the answers, throws the same exceptions, and is undefined exactly when the other is. So what an entry carries besides its monomial never influences which monomials are found, reported or removed.", "quantifier": "all functions that preserve the configuration, all histories, all configurations, binary and packed, all callbacks that give the same advice; no law is assumed of the client functions", "why_tests_cant": "It relates two runs on different entry types; a test sees one run on one type.", "anchors": ["src/mathic/KDTree.h: KDTree", "src/mathic/BinaryKDTree.h: BinaryKDTree", "src/mathic/PackedKDTree.h: PackedKDTree", "src/mathic/KDEntryArray.h: KDEntryArray"]}
