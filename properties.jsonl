{"id": "C01", "title": "bssMod and IntDiv are Euclidean modulo and floor division", "statement": "For every signed integer type, every x and every modulus m > 0, bssMod(x,m) lies in [0,m) and differs from x by a multiple of m, and IntDiv(x,m) is the largest integer q with q*m <= x, so x == IntDiv(x,m)*m + bssMod(x,m); no intermediate value overflows the type.", "quantifier": "all widths, all x representable in the type, all positive m representable in the type", "why_tests_cant": "2^128 input pairs for 64-bit types; the interesting inputs (negative multiples, INT_MIN) are a measure-zero set a sampled test misses", "anchors": ["include/bss-util/bss_util.h: bssMod", "include/bss-util/bss_util.h: IntDiv"]}
{"id": "C02", "title": "NextPow2 returns the least power of two not below its argument", "statement": "For each of the 8, 16, 32 and 64 bit overloads and every v with 1 <= v <= 2^(w-1), NextPow2(v) is a power of two, is >= v, and no smaller power of two is >= v. For v = 0 and for every v > 2^(w-1) the result is 0 (wrap-around).", "quantifier": "all v of each unsigned width", "why_tests_cant": "2^64 inputs", "anchors": ["include/bss-util/bss_util.h: NextPow2"]}
{"id": "C03", "title": "BitCount counts the set bits of every unsigned integer", "statement": "For every unsigned type of 8, 16, 32 or 64 bits and every value v, BitCount(v) equals the number of one bits in v.", "quantifier": "all values of each unsigned width", "why_tests_cant": "2^64 inputs; the parallel-sum trick can fail only by carry between lanes for particular bit patterns", "anchors": ["include/bss-util/bss_util.h: BitCount"]}
{"id": "C04", "title": "FlipEndian reverses the bytes and is its own inverse", "statement": "For every memory block of n bytes (0 <= n <= 255 at run time, or sizeof(T)), FlipEndian writes exactly the reversed byte sequence, touches nothing else, never indexes outside the block, and applying it twice restores the block.", "quantifier": "all byte blocks of every length n", "why_tests_cant": "all lengths and contents", "anchors": ["include/bss-util/bss_util.h: FlipEndian"]}
{"id": "C05", "title": "Integer FastSqrt returns the floor of the square root", "statement": "For every n of an unsigned type of w bits the integer FastSqrt/IntFastSqrt returns the r with r*r <= n < (r+1)*(r+1).", "quantifier": "all n of each unsigned width 8, 16, 32, 64", "why_tests_cant": "2^64 inputs; the 64-bit instance goes wrong only at large inputs that a test of small squares never reaches", "anchors": ["include/bss-util/bss_util.h: IntFastSqrt", "include/bss-util/bss_util.h: FastSqrt"]}
{"id": "C06", "title": "MultiplyExtract gives the shifted double width product", "statement": "For operands of any even width w without a native double-width integer, bssMultiplyExtract(x,y,shift) equals floor(x*y / 2^shift) truncated to w bits, for unsigned operands and for signed operands other than the minimum value, for every shift in [1,2w) (a shift of 0 executes an undefined full-width shift in the code).", "quantifier": "all operand pairs and all shifts", "why_tests_cant": "2^128 operand pairs times the shift; carries between partial products are rare", "anchors": ["include/bss-util/bss_util.h: internal::_bssmultiplyextract", "include/bss-util/bss_util.h: bssMultiplyExtract"]}
{"id": "C07", "title": "DaysFromCivil is the proleptic Gregorian day number", "statement": "DaysFromCivil(1970,1,1) is 0, and for every valid civil date (any year, leap years by the Gregorian rule) the day number of the following civil date is exactly one larger; hence it equals the signed count of days since 1970-01-01 and is injective and order preserving on valid dates.", "quantifier": "all years (unbounded integers), all valid months and days", "why_tests_cant": "infinitely many dates; the era arithmetic for negative years is where errors hide", "anchors": ["include/bss-util/bss_util.h: DaysFromCivil"]}
{"id": "C08", "title": "Growth and alignment helpers never shrink and always reach their target", "statement": "For every capacity x that does not wrap the type, fbnext(x)/T_FBNEXT(x) is strictly greater than x (and at most 2x+1); T_NEXTMULTIPLE(x,2^k-1) and AlignSize(x,a) are the least multiple of the alignment that is >= x.", "quantifier": "all x, all alignments that are powers of two (T_NEXTMULTIPLE) or positive (AlignSize)", "why_tests_cant": "unbounded inputs; every container growth loop relies on it", "anchors": ["include/bss-util/defines.h: T_FBNEXT", "include/bss-util/defines.h: T_NEXTMULTIPLE", "include/bss-util/Alloc.h: AlignSize"]}
{"id": "C09", "title": "bssLog2 is the position of the highest set bit", "statement": "For every width and every v > 0, bssLog2(v) is the r with 2^r <= v < 2^(r+1), and bssLog2(0) is 0, for the portable bit-twiddling, and the compiler-intrinsic versions.", "quantifier": "all v of each width", "why_tests_cant": "2^64 inputs", "anchors": ["include/bss-util/bss_util.h: bssLog2", "include/bss-util/bss_util.h: bssLog2_p2"]}
{"id": "C10", "title": "Base64 decoding inverts encoding", "statement": "For every byte string x, Base64Encode with a null output returns exactly the number of characters the real call writes; Base64Decode of those characters writes exactly the bytes of x, reports exactly their number, never reads outside its lookup table or the input, and encoding is injective.", "quantifier": "all byte strings of every length", "why_tests_cant": "all lengths modulo 3 and all byte contents", "anchors": ["include/bss-util/algo.h: Base64Encode", "include/bss-util/algo.h: Base64Decode"]}
{"id": "C11", "title": "Base64Decode is total exactly on its alphabet", "statement": "Base64Decode applied to any text of any length whose characters are in the url-safe alphabet never reads outside its input or its 78-entry table and writes exactly the number of bytes it announces; for a character outside ['-','z'] the table read is out of bounds (undefined behaviour).", "quantifier": "all input texts of every length", "why_tests_cant": "the set of malformed inputs is unbounded; an out-of-bounds table read usually does not crash", "anchors": ["include/bss-util/algo.h: Base64Decode"]}
{"id": "C12", "title": "UTF-32 to UTF-8 and back is the identity", "statement": "For every null-terminated sequence of Unicode scalar values, UTF32toUTF8 into a buffer of the size it announces writes well-formed UTF-8 (shortest form, no surrogates) including the terminator, and UTF8toUTF32 on that output returns the original code points and announces exactly the needed size.", "quantifier": "all code point sequences of every length", "why_tests_cant": "1.1 million code points and unbounded lengths", "anchors": ["bss-util/ConvertUTF.c: UTF32toUTF8", "bss-util/ConvertUTF.c: UTF8toUTF32"]}
{"id": "C13", "title": "UTF-32 to UTF-16 and back is the identity", "statement": "For every null-terminated sequence of Unicode scalar values, UTF32toUTF16 into a buffer of the announced size writes the standard UTF-16 form with correct surrogate pairs, and UTF16toUTF32 recovers the original code points.", "quantifier": "all code point sequences of every length", "why_tests_cant": "all supplementary-plane code points and unbounded lengths", "anchors": ["bss-util/ConvertUTF.c: UTF32toUTF16", "bss-util/ConvertUTF.c: UTF16toUTF32"]}
{"id": "C14", "title": "UTF converters never write outside the output buffer nor read outside the source", "statement": "For arbitrary, possibly malformed, input and any output capacity, UTF8toUTF32, UTF32toUTF8, UTF32toUTF16 and UTF16toUTF32 (with an explicit source length) write at most buflen units, read only source units, terminate, and every code point UTF8toUTF32 produces is a Unicode scalar value.", "quantifier": "all byte/unit sequences, all lengths, all buffer sizes", "why_tests_cant": "malformed inputs are unbounded and overruns are often silent", "anchors": ["bss-util/ConvertUTF.c: UTF8toUTF32", "bss-util/ConvertUTF.c: UTF32toUTF8", "bss-util/ConvertUTF.c: UTF32toUTF16", "bss-util/ConvertUTF.c: UTF16toUTF32", "bss-util/ConvertUTF.c: isLegalUTF8"]}
{"id": "C15", "title": "BitStream returns the bits that were written", "statement": "For every sequence of Write calls of arbitrary bit widths followed by Flush, reading the stream back with Reads of the same widths into zeroed destinations returns the same values in the same order; the bytes emitted are the concatenation of the written bits.", "quantifier": "all sequences of (value,width) writes", "why_tests_cant": "the alignment state depends on the whole history of widths", "anchors": ["include/bss-util/BitStream.h: BitStream::Write", "include/bss-util/BitStream.h: BitStream::Read", "include/bss-util/BitStream.h: BitStream::Flush"]}
{"id": "C16", "title": "UBJSON parse inverts write", "statement": "For every UBJSON value tree (null, booleans, integers of each width, strings, arrays, objects, nested arbitrarily) that does not contain no-op values outside typed containers, UBJSONTuple::Parse applied to the bytes written by UBJSONTuple::Write rebuilds the same tree and consumes exactly those bytes, whenever at least one more byte follows or the tree does not end in zero-width array elements.", "quantifier": "all value trees of any depth and size, all trailing bytes", "why_tests_cant": "unbounded nesting; the optimised typed-container form is chosen from the values themselves", "anchors": ["bss-util/UBJSON.cpp: UBJSONTuple::Write", "bss-util/UBJSON.cpp: UBJSONTuple::ParseTypeCount", "include/bss-util/UBJSON.h: UBJSONTuple::Parse", "include/bss-util/UBJSON.h: GetIntType"]}
{"id": "C17", "title": "itoa_r writes the digits of the number in the given radix", "statement": "For every int val other than INT_MIN, every radix from 2 to 36 and every buffer large enough, itoa_r returns 0 and leaves a null-terminated string whose reading in that radix (with sign) is val; for every buffer size it never writes outside the buffer.", "quantifier": "all 32-bit values, radices and buffer sizes", "why_tests_cant": "2^32 values times radices times sizes", "anchors": ["bss-util/bss_util_c.c: itoa_r"]}
{"id": "C18", "title": "Binary searches return the lower bound, upper bound or an exact match", "statement": "On every array sorted by a total preorder, BinarySearchAfter returns the number of elements strictly below the key, BinarySearchBefore returns (number of elements not above the key) - 1, and BinarySearchExact returns an index holding an equal element if one exists and -1 otherwise; no call reads outside [first,last).", "quantifier": "all arrays, all keys, all comparators that are total preorders with results -1, 0, 1", "why_tests_cant": "all lengths and key positions including absent keys and duplicates", "anchors": ["include/bss-util/algo.h: BinarySearchNear", "include/bss-util/algo.h: BinarySearchBefore", "include/bss-util/algo.h: BinarySearchAfter", "include/bss-util/algo.h: BinarySearchExact"]}
{"id": "C19", "title": "ArraySort stays sorted and loses nothing", "statement": "After any sequence of Insert, Remove, RemoveIndex, ReplaceData and Clear calls an ArraySort is sorted by its comparator and holds exactly the multiset of values the same calls produce on a plain multiset; Find returns an index holding an equal value iff one is present.", "quantifier": "all operation sequences, all comparators that are total preorders", "why_tests_cant": "depends on the history of operations; unbounded", "anchors": ["include/bss-util/ArraySort.h: ArraySort::Insert", "include/bss-util/ArraySort.h: ArraySort::ReplaceData", "include/bss-util/ArraySort.h: ArraySort::Remove", "include/bss-util/ArraySort.h: ArraySort::Find"]}
{"id": "C20", "title": "Map behaves as a sorted association list", "statement": "After any sequence of Insert, Set, Remove, ReplaceKey operations a Map is sorted by key and holds exactly the multiset of (key,data) pairs those operations describe; Get(key) returns an index whose key is equal to the argument iff the key is present, -1 otherwise; and a Map into which no key was inserted twice is a finite map.", "quantifier": "all operation sequences", "why_tests_cant": "history dependent", "anchors": ["include/bss-util/Map.h: Map::Insert", "include/bss-util/Map.h: Map::Get", "include/bss-util/Map.h: Map::Set", "include/bss-util/Map.h: Map::ReplaceKey", "include/bss-util/Map.h: Map::Remove"]}
{"id": "C21", "title": "BinaryHeap and PriorityQueue deliver the maximum", "statement": "After any sequence of Insert, Pop, Set and Remove-of-the-root operations, BinaryHeap::Peek/Pop return an element that no stored element exceeds, and the stored multiset is exactly the inserted minus the removed elements. Popping until empty yields a descending sequence.", "quantifier": "all operation sequences, all comparators that are total preorders", "why_tests_cant": "unbounded histories; heap violations surface only several operations later", "anchors": ["include/bss-util/BinaryHeap.h: BinaryHeap::Insert", "include/bss-util/BinaryHeap.h: BinaryHeap::Pop", "include/bss-util/BinaryHeap.h: BinaryHeap::Set", "include/bss-util/BinaryHeap.h: BinaryHeap::PercolateUp", "include/bss-util/BinaryHeap.h: BinaryHeap::PercolateDown", "include/bss-util/PriorityQueue.h: PriorityQueue"]}
{"id": "C22", "title": "HeapSort sorts", "statement": "BinaryHeap::HeapSort leaves the array a permutation of its input in ascending comparator order, and Heapify turns any array into a heap with the same elements, for every array length.", "quantifier": "all arrays, all total preorders", "why_tests_cant": "n! orderings for every n", "anchors": ["include/bss-util/BinaryHeap.h: BinaryHeap::HeapSort", "include/bss-util/BinaryHeap.h: BinaryHeap::Heapify"]}
{"id": "C23", "title": "BinaryHeap::Remove of an arbitrary index keeps the heap order", "statement": "Removing the element at any valid index from a BinaryHeap (or, through PriorityHeap::Remove, by key) leaves a structure whose Peek is still the maximum and in which every parent is not below its children.", "quantifier": "all heaps, all indices", "why_tests_cant": "needs a particular shape: the moved last element must exceed the parent of the removed slot", "anchors": ["include/bss-util/BinaryHeap.h: BinaryHeap::Remove", "include/bss-util/PriorityQueue.h: PriorityHeap::Remove"]}
{"id": "C24", "title": "PriorityHeap keys keep naming the same element", "statement": "After any sequence of Push, Set, Pop and Remove calls that use only live keys, Get(key) of every live key returns the value last associated with that key, whatever heap moves happened in between, Push hands out a key that is not live, and Pop/Remove retire exactly one live key.", "quantifier": "all operation sequences over live keys", "why_tests_cant": "handle indirection breaks only after specific swap sequences", "anchors": ["include/bss-util/PriorityQueue.h: PriorityHeap::Push", "include/bss-util/PriorityQueue.h: PriorityHeap::Get", "include/bss-util/PriorityQueue.h: PriorityHeap::Set", "include/bss-util/PriorityQueue.h: PriorityHeap::Remove", "include/bss-util/PriorityQueue.h: PriorityHeap::Pop"]}
{"id": "C25", "title": "DynArray behaves as a list", "statement": "For every sequence of Add, Insert(value,index), Remove(index), RemoveLast, SetLength, SetCapacity, Clear and append operations with valid indices, the contents of a DynArray equal those of a mathematical list under the same operations, length never exceeds capacity, and no operation touches storage outside the capacity.", "quantifier": "all operation sequences with in-range indices", "why_tests_cant": "interplay of growth, shifting and previous capacity over unbounded histories", "anchors": ["include/bss-util/DynArray.h: DynArray::Add", "include/bss-util/DynArray.h: DynArray::Insert", "include/bss-util/DynArray.h: DynArray::Remove", "include/bss-util/DynArray.h: DynArray::SetLength", "include/bss-util/DynArray.h: DynArray::SetCapacity", "include/bss-util/Array.h: ArrayBase"]}
{"id": "C26", "title": "DynArray<bool> behaves as a list of booleans", "statement": "For every sequence of Add, Insert, Remove, RemoveLast and element assignments with valid indices, the bits of a DynArray<bool> equal those of a list of booleans under the same operations, and CountBits(i,n) is the number of true elements in [i,i+n).", "quantifier": "all operation sequences with in-range indices, any number of storage words", "why_tests_cant": "a bit crosses a storage word boundary only for particular lengths and indices", "anchors": ["include/bss-util/DynArray.h: DynArray<bool>::Insert", "include/bss-util/DynArray.h: DynArray<bool>::Remove", "include/bss-util/DynArray.h: DynArray<bool>::CountBits"]}
{"id": "C27", "title": "ArrayCircular is a bounded deque and Queue is an unbounded FIFO", "statement": "For every sequence of Push, Pop, PopBack, Clear and SetCapacity calls, an ArrayCircular of capacity c > 0 holds the last at most c pushed and not yet popped elements in order, with index 0 the newest and, when it is full, negative indices counted from the oldest; Queue::Pop returns elements in exactly the order they were pushed, none lost or duplicated, across any number of internal growths.", "quantifier": "all operation sequences, all capacities", "why_tests_cant": "wrap-around positions depend on the entire history", "anchors": ["include/bss-util/ArrayCircular.h: ArrayCircular::Push", "include/bss-util/ArrayCircular.h: ArrayCircular::Pop", "include/bss-util/ArrayCircular.h: ArrayCircular::PopBack", "include/bss-util/ArrayCircular.h: ArrayCircular::SetCapacity", "include/bss-util/Queue.h: Queue::Push", "include/bss-util/Queue.h: Queue::Pop"]}
{"id": "C28", "title": "CompactArray behaves as a list across the inline/heap switch", "statement": "For every sequence of Add, Insert, Remove, SetLength and Clear calls, the contents of a CompactArray equal those of a list under the same operations, in the inline representation, in the heap representation and across transitions.", "quantifier": "all operation sequences with in-range indices", "why_tests_cant": "the representation switches at a size threshold in both directions", "anchors": ["include/bss-util/CompactArray.h: CompactArray::Add", "include/bss-util/CompactArray.h: CompactArray::Insert", "include/bss-util/CompactArray.h: CompactArray::Remove", "include/bss-util/CompactArray.h: CompactArray::SetCapacity"]}
{"id": "C29", "title": "LinkedArray indices are stable handles into an ordered list", "statement": "For every sequence of Add, InsertBefore, InsertAfter, Remove, Clear operations on live indices, following Next from Front enumerates exactly the list those operations describe, following Prev from Back enumerates its reverse, every live index keeps denoting its element until it is removed, no live index is handed out twice and Length is the number of live elements.", "quantifier": "all operation sequences on live indices", "why_tests_cant": "free-list reuse and growth over unbounded histories", "anchors": ["include/bss-util/LinkedArray.h: LinkedArray::Add", "include/bss-util/LinkedArray.h: LinkedArray::InsertBefore", "include/bss-util/LinkedArray.h: LinkedArray::InsertAfter", "include/bss-util/LinkedArray.h: LinkedArray::Remove", "include/bss-util/LinkedArray.h: LinkedArray::_setnext"]}
{"id": "C30", "title": "Intrusive list operations splice exactly one node", "statement": "Starting from a well-formed doubly linked list given by its root (and last) pointers, LLAdd, LLInsert, LLInsertAfter and LLRemove produce a well-formed doubly linked list denoting the old sequence with exactly that node inserted or removed at that position, leave the links of every other list untouched, and keep the root/last pointers correct.", "quantifier": "all heaps, all lists, all positions", "why_tests_cant": "pointer structures of unbounded size; errors at ends and with the last pointer", "anchors": ["include/bss-util/LLBase.h: LLAdd", "include/bss-util/LLBase.h: LLInsert", "include/bss-util/LLBase.h: LLInsertAfter", "include/bss-util/LLBase.h: LLRemove", "include/bss-util/LinkedList.h: LinkedList"]}
{"id": "C31", "title": "AVLTree is a finite map", "statement": "For every sequence of Insert, Remove, ReplaceKey and Clear calls, AVLTree's Get/GetNear/enumeration answer exactly as a finite map ordered by the comparator: an Insert of a present key is refused and changes nothing, Remove of a present key deletes exactly that entry, Get returns the stored data or absent.", "quantifier": "all operation sequences, all comparators that are total orders with results -1, 0, 1", "why_tests_cant": "every sequence of rotations; deletion of two-child nodes swaps data between nodes", "anchors": ["include/bss-util/AVLTree.h: AVLTree::Insert", "include/bss-util/AVLTree.h: AVLTree::Remove", "include/bss-util/AVLTree.h: AVLTree::_find", "include/bss-util/AVLTree.h: AVLTree::_near", "include/bss-util/AVLTree.h: AVLTree::ReplaceKey"]}
{"id": "C32", "title": "AVLTree stays height balanced", "statement": "After any sequence of insertions and removals every node's stored balance equals the height difference of its subtrees and is -1, 0 or 1, hence a tree of n entries has height at most 1.45*log2(n+2).", "quantifier": "all operation sequences", "why_tests_cant": "double rotations with each balance combination arise only from particular histories", "anchors": ["include/bss-util/AVLTree.h: AVLTree::_insert", "include/bss-util/AVLTree.h: AVLTree::_remove", "include/bss-util/AVLTree.h: AVLTree::_rebalance", "include/bss-util/AVLTree.h: AVLTree::_leftRotate", "include/bss-util/AVLTree.h: AVLTree::_rightRotate"]}
{"id": "C33", "title": "AATree is a sorted multiset with AA balance", "statement": "For every sequence of Insert and Remove calls AATree holds exactly the described multiset, Get finds a value iff it is present, and the AA level invariants hold (height at most 2*log2(n+1)+1).", "quantifier": "all operation sequences", "why_tests_cant": "skew/split cascades after deletion", "anchors": ["include/bss-util/AATree.h: AATree::Insert", "include/bss-util/AATree.h: AATree::Remove", "include/bss-util/AATree.h: AATree::Get"]}
{"id": "C34", "title": "TRBtree insertion keeps order, threading and colours", "statement": "After any sequence of insertions and removals into a threaded red-black tree, following next from first enumerates the stored elements in comparator order, prev is its inverse, lookups find an element iff present, no red node has a red child and every path has the same number of black nodes.", "quantifier": "all operation sequences including duplicate keys", "why_tests_cant": "colour fix-up cases are numerous and history dependent", "anchors": ["include/bss-util/TRBtree.h: TRB_NodeBase::InsertNode", "include/bss-util/TRBtree.h: TRB_NodeBase::RemoveNode", "include/bss-util/TRBtree.h: TRB_NodeBase::_fixInsert", "include/bss-util/TRBtree.h: TRB_NodeBase::_fixDelete"]}
{"id": "C35", "title": "Hash is a finite map for every hash function", "statement": "For every hash function, every equality consistent with it and every sequence of Insert, Set, Remove, Clear and SetCapacity calls, Hash behaves as a finite map: Get/Exists/Value return exactly the last value inserted for the key and not removed since, Insert overwrites, Length is the number of keys, and iteration visits each entry exactly once; in particular rehashing (in-place kick-out) loses and duplicates nothing.", "quantifier": "all hash functions, all operation sequences", "why_tests_cant": "collisions, tombstones and in-place rehash interact with the whole history", "anchors": ["include/bss-util/Hash.h: Hash::_put", "include/bss-util/Hash.h: Hash::_get", "include/bss-util/Hash.h: Hash::_delete", "include/bss-util/Hash.h: Hash::_resize", "include/bss-util/khash.h"]}
{"id": "C36", "title": "Every hash table operation terminates and probes every bucket", "statement": "With n a power of two, the triangular probe sequence of Hash visits each of the n buckets exactly once before returning to its start, so lookup, insertion and rehash terminate in every reachable table state, and an insertion always finds a free bucket.", "quantifier": "all power-of-two sizes, all start positions, all reachable tables", "why_tests_cant": "all sizes up to 2^31; a full table would loop forever", "anchors": ["include/bss-util/Hash.h: Hash::_put", "include/bss-util/Hash.h: Hash::_get", "include/bss-util/Hash.h: Hash::_resize"]}
{"id": "C37", "title": "Case-insensitive string hashing agrees with case-insensitive equality", "statement": "For every two ASCII strings that the case-insensitive equality accepts as equal, KH_STR_HASH<char,true> returns the same hash (so a case-insensitive Hash can never miss a present key), and the case-sensitive hash is a function of the characters before the terminator only.", "quantifier": "all pairs of strings of any length", "why_tests_cant": "unbounded strings", "anchors": ["include/bss-util/Hash.h: KH_STR_HASH", "include/bss-util/Hash.h: KH_STR_EQUAL"]}
{"id": "C38", "title": "DisjointSet maintains the partition generated by the unions", "statement": "After any sequence of Union calls (on two different set representatives, or elements through Find) Find(x) == Find(y) iff x and y are connected by the performed unions; Find terminates and path compression never changes any class; NumSets is the number of classes, NumElements(x) the size of x's class and GetElements lists exactly the class.", "quantifier": "all sequences of unions and finds on any number of elements", "why_tests_cant": "path compression mutates on lookup; the class structure depends on the history", "anchors": ["include/bss-util/DisjointSet.h: DisjointSet::Union", "include/bss-util/DisjointSet.h: DisjointSet::Find", "include/bss-util/DisjointSet.h: DisjointSet::NumElements", "include/bss-util/DisjointSet.h: DisjointSet::GetElements"]}
{"id": "C39", "title": "MinSpanningTree returns a spanning forest of minimum weight", "statement": "Given the edges of any graph sorted by weight, DisjointSet::MinSpanningTree outputs an acyclic subset of the edges connecting exactly the vertices that the input connects, and no such subset has smaller total weight.", "quantifier": "all edge lists in weight order, all weights, ties included", "why_tests_cant": "exponentially many spanning trees per graph", "anchors": ["include/bss-util/DisjointSet.h: DisjointSet::MinSpanningTree"]}
{"id": "C40", "title": "RWLock excludes writers and preserves its state word", "statement": "For any number of threads and any interleaving of Lock, AttemptLock, AttemptStrictLock, RLock, AttemptRLock, Upgrade, AttemptUpgrade, Downgrade, Unlock and RUnlock in which each thread releases only what it holds, a thread that holds the write lock is the only holder (no reader and no other writer is inside), and when nobody holds or waits the lock word is zero.", "quantifier": "all thread counts, all interleavings of the atomic steps", "why_tests_cant": "schedules are unbounded; failed attempts perturb the counter transiently", "anchors": ["include/bss-util/RWLock.h: RWLock"]}
{"id": "C41", "title": "The single-producer single-consumer LocklessQueue is FIFO", "statement": "With one producer thread and one consumer thread under any interleaving of their atomic steps, the sequence of values obtained by successful Pops is a prefix of the sequence of values Pushed; a Pop that reports empty happened when every completed Push had been consumed; nodes recycled by the producer are never still readable by the consumer.", "quantifier": "all interleavings, all push/pop histories", "why_tests_cant": "race windows; unbounded schedules", "anchors": ["include/bss-util/LocklessQueue.h: LocklessQueue::Push", "include/bss-util/LocklessQueue.h: LocklessQueue::Pop", "include/bss-util/LocklessQueue.h: LocklessQueue::_produce"]}
{"id": "C42", "title": "The multi-producer multi-consumer MicroLockQueue is a linearizable FIFO", "statement": "For any number of producers and consumers and any interleaving, each pushed value is popped at most once, values are popped in the order in which their pushes took effect, and a Pop fails only when the queue was empty at some instant during the call.", "quantifier": "all thread counts and interleavings", "why_tests_cant": "race windows; unbounded schedules", "anchors": ["include/bss-util/LocklessQueue.h: MicroLockQueue::Push", "include/bss-util/LocklessQueue.h: MicroLockQueue::Pop", "include/bss-util/LocklessQueue.h: MicroLockQueue::_produce"]}
{"id": "C43", "title": "The lock-free block allocator never hands out a live block twice", "statement": "For any number of threads calling allocate and deallocate (each block freed once by its owner) under any interleaving, two blocks that are live at the same time are distinct, every block handed out belongs to a chunk, and no block is lost from the free list (the ABA tag prevents a stale compare-and-swap from succeeding).", "quantifier": "all thread counts and interleavings, unbounded tag", "why_tests_cant": "ABA needs a precise three-thread schedule", "anchors": ["include/bss-util/BlockAllocMT.h: LocklessBlockPolicy::allocate", "include/bss-util/BlockAllocMT.h: LocklessBlockPolicy::deallocate", "include/bss-util/BlockAllocMT.h: LocklessBlockPolicy::_allocChunk"]}
{"id": "C44", "title": "BlockAlloc hands out disjoint aligned blocks and recycles exactly the freed ones", "statement": "For every sequence of Alloc and Dealloc calls (each live block freed at most once) on a BlockAlloc, the blocks live at any moment are pairwise disjoint, inside allocated chunks and spaced by the block size; the number of live plus free blocks equals the number of blocks in the chunks; Clear makes every block free again.", "quantifier": "all operation sequences and chunk growths", "why_tests_cant": "free-list corruption appears only after long histories", "anchors": ["include/bss-util/BlockAlloc.h: BlockAlloc::Alloc", "include/bss-util/BlockAlloc.h: BlockAlloc::Dealloc", "include/bss-util/BlockAlloc.h: BlockAlloc::_allocChunk", "include/bss-util/BlockAlloc.h: BlockAlloc::_initChunk", "include/bss-util/BlockAlloc.h: BlockAlloc::Clear"]}
{"id": "C45", "title": "Greedy allocators return disjoint in-bounds regions", "statement": "For every sequence of allocations since construction or Clear, the regions returned by GreedyBlockPolicy are pairwise disjoint, lie inside the chunk they were carved from and are aligned; for GreedyAlloc the same holds for any number of threads under any interleaving.", "quantifier": "all allocation sequences and sizes, all interleavings", "why_tests_cant": "chunk switches race with position updates", "anchors": ["include/bss-util/GreedyBlockAlloc.h: GreedyBlockPolicy::allocate", "include/bss-util/GreedyBlockAlloc.h: GreedyBlockPolicy::_allocChunk", "include/bss-util/GreedyAlloc.h: GreedyAlloc::Alloc", "include/bss-util/GreedyAlloc.h: GreedyAlloc::_allocChunk"]}
{"id": "C46", "title": "ThreadPool runs every task exactly once and Wait waits for all", "statement": "For any number of workers and any interleaving, every task added to the pool is executed at most once, and when Wait returns every task added before is finished (the counter it observes is zero only then).", "quantifier": "all thread counts and interleavings", "why_tests_cant": "schedules", "anchors": ["include/bss-util/ThreadPool.h: ThreadPool::AddTask", "include/bss-util/ThreadPool.h: ThreadPool::Wait", "include/bss-util/ThreadPool.h: ThreadPool::_run"]}
{"id": "C47", "title": "Trie lookup inverts construction", "statement": "For every set of distinct words without embedded zeros, Trie::Get(words[i]) returns i and Get of any other string returns the not-found value; Get never reads outside the node array.", "quantifier": "all finite word sets, all query strings", "why_tests_cant": "unbounded word sets and queries; prefixes of each other are the hard cases", "anchors": ["include/bss-util/Trie.h: Trie::Get", "include/bss-util/Trie.h: Trie::_init", "include/bss-util/Trie.h: Trie::_construct"]}
{"id": "C48", "title": "StringTable returns the stored strings", "statement": "For every array of strings, GetString(i) of a StringTable constructed from it is the i-th string, concatenation (operator+=) yields the concatenated tables, and TotalWordCapacity is the sum of lengths including terminators.", "quantifier": "all string arrays, all indices", "why_tests_cant": "offset arithmetic over arbitrary lengths including empty strings", "anchors": ["include/bss-util/StringTable.h: StringTable::_construct", "include/bss-util/StringTable.h: StringTable::GetString", "include/bss-util/StringTable.h: StringTable::operator+=", "include/bss-util/StringTable.h: StringTable::AppendString"]}
{"id": "C49", "title": "Rational arithmetic is exact and always in lowest terms", "statement": "For all rationals built from integers (denominator nonzero, no overflow) and every sequence of +,-,*,/ and unary operations, the value of the result is the exact rational result, the denominator is positive and numerator and denominator are coprime, so == decides equality of values.", "quantifier": "all integer fractions and operation sequences", "why_tests_cant": "gcd cancellation cases; sign handling for zero and negative denominators", "anchors": ["include/bss-util/Rational.h: Rational::GCD", "include/bss-util/Rational.h: Rational::Simplify", "include/bss-util/Rational.h: Rational::operator+=", "include/bss-util/Rational.h: Rational::operator-=", "include/bss-util/Rational.h: Rational::operator*=", "include/bss-util/Rational.h: Rational::operator/="]}
{"id": "C50", "title": "Rational comparison with an integer is exact", "statement": "For every rational q in lowest terms and every integer i, the comparison operators <, >, <=, >= between q and i decide the mathematical order of q and i.", "quantifier": "all rationals and integers", "why_tests_cant": "the boundary cases (q equal to i, negative q) are few among infinitely many", "anchors": ["include/bss-util/Rational.h: Rational::operator<(T)", "include/bss-util/Rational.h: Rational::operator>(T)", "include/bss-util/Rational.h: Rational::operator<=(T)", "include/bss-util/Rational.h: Rational::operator>=(T)"]}
{"id": "C51", "title": "ref_ptr keeps an object alive exactly while it is referenced", "statement": "For every sequence of constructions, copies, moves, assignments and destructions of ref_ptr objects over RefCounter objects, an object's count equals the number of ref_ptrs denoting it, it is destroyed exactly when the last one goes away, and no destroyed object is ever referenced.", "quantifier": "all operation sequences over any number of pointers and objects, self-assignment included", "why_tests_cant": "aliasing and self-assignment histories", "anchors": ["include/bss-util/RefCounter.h: ref_ptr::operator=", "include/bss-util/RefCounter.h: RefCounter::Grab", "include/bss-util/RefCounter.h: RefCounter::Drop"]}
{"id": "C52", "title": "OwnerPtr deletes an owned object exactly once", "statement": "For every sequence of constructions, copies, moves, assignments and destructions of OwnerPtr objects, each raw pointer handed to an owner is deleted at most once and only by its owner.", "quantifier": "all operation sequences", "why_tests_cant": "needs particular move/self-assignment histories", "anchors": ["include/bss-util/SmartPtr.h: OwnerPtr::operator=", "include/bss-util/SmartPtr.h: OwnerPtr::_disown"]}
{"id": "C53", "title": "The alias table reproduces the requested distribution", "statement": "With exact arithmetic, for every list of probabilities with sum 1, the table built by AliasTable assigns to each index i total weight exactly prob[i] when a column is drawn uniformly and kept with its stored probability, all stored probabilities are in [0,1] and every alias used is a valid index.", "quantifier": "all finite distributions over exact rationals", "why_tests_cant": "statistical tests cannot distinguish exact from approximate; all list lengths", "anchors": ["include/bss-util/AliasTable.h: AliasTable::AliasTable", "include/bss-util/AliasTable.h: AliasTable::Get"]}
{"id": "C54", "title": "The xorshift generators never get stuck at zero and lose no state", "statement": "The 64-bit xorshift state transition is a bijection on 64-bit values and maps nonzero states to nonzero states; seeding from a nonzero value gives a nonzero 1024-bit state, and every step of xorshift1024star keeps the state nonzero and its index below 16.", "quantifier": "all 2^64 states, all 2^1024 states", "why_tests_cant": "state space", "anchors": ["include/bss-util/XorshiftEngine.h: xorshift64star", "include/bss-util/XorshiftEngine.h: xorshift1024star", "include/bss-util/XorshiftEngine.h: GenXor1024Seed"]}
{"id": "C55", "title": "Shuffle and RandomQueue permute without loss", "statement": "For every array and every outcome of the random source, Shuffle leaves a permutation of the array (each permutation reachable), and RandomQueue::Pop removes exactly one stored element and returns it.", "quantifier": "all arrays, all random choices", "why_tests_cant": "random outcomes are sampled by tests, never exhausted", "anchors": ["include/bss-util/algo.h: Shuffle", "include/bss-util/RandomQueue.h: RandomQueue::Pop", "include/bss-util/RandomQueue.h: RandomQueue::Remove"]}
{"id": "C56", "title": "KDTree queries report exactly the intersecting items", "statement": "After any sequence of Insert and Remove calls on a KDTree that triggers no rebalance, TraverseAction(rect) visits exactly the stored items whose rectangle intersects rect, each once.", "quantifier": "all histories, all rectangles (exact arithmetic)", "why_tests_cant": "geometric configurations are unbounded", "anchors": ["include/bss-util/KDTree.h: KDTree::Insert", "include/bss-util/KDTree.h: KDTree::Remove", "include/bss-util/KDTree.h: KDTree::_traverseAction", "include/bss-util/KDTree.h: KDTree::_rebalance"]}
{"id": "C57", "title": "Scheduler fires every event that is due, in time order, and keeps the others", "statement": "Scheduler::Update(delta) calls exactly the events whose time has been reached, in time order, reschedules or removes them according to their return value, and leaves later events untouched.", "quantifier": "all event sets and update sequences", "why_tests_cant": "history dependent", "anchors": ["include/bss-util/Scheduler.h: Scheduler::Update", "include/bss-util/Scheduler.h: Scheduler::Add"]}
{"id": "C58", "title": "Graph adjacency matrix conversion round-trips", "statement": "For every adjacency matrix, the Graph built from it has exactly the edges of the matrix, and ToMatrix of that graph reproduces it; RemoveEdge/RemoveNode delete exactly the edges concerned and NumEdges stays exact.", "quantifier": "all matrices, all operation sequences", "why_tests_cant": "unbounded graphs", "anchors": ["include/bss-util/Graph.h: Graph::_construct", "include/bss-util/Graph.h: Graph::ToMatrix", "include/bss-util/Graph.h: Graph::AddEdge", "include/bss-util/Graph.h: Graph::RemoveEdge", "include/bss-util/Graph.h: Graph::RemoveNode"]}
{"id": "C59", "title": "Fixed point arithmetic is correctly scaled", "statement": "For fixed point numbers that do not overflow, addition, subtraction and comparison are exact, multiplication is the floor of the exact product at the left operand's scale, division (32-bit) is the exact quotient truncated toward zero.", "quantifier": "all operands, all scales", "why_tests_cant": "2^64 operand pairs per scale", "anchors": ["include/bss-util/FixedPt.h: fixedpt_mul", "include/bss-util/FixedPt.h: fixedpt_div", "include/bss-util/FixedPt.h: fixedpt_add"]}
{"id": "C60", "title": "INI line parsing recovers key, value and section", "statement": "For every INI line of the form key=value;comment with a printable key, the parser reports the key and value trimmed of blanks and without the comment; for [section] lines it reports the trimmed section name; comment lines are ignored.", "quantifier": "all lines shorter than the line buffer", "why_tests_cant": "unbounded texts", "anchors": ["bss-util/INIParser.c: bssParseLine", "bss-util/INIParser.c: _savestr", "bss-util/INIParser.c: _trimrstr"]}
{"id": "C61", "title": "ByteSearch finds the first occurrence", "statement": "ByteSearch returns the address of the first occurrence of the pattern in the buffer, or null iff the pattern does not occur (or either is empty), never reading outside the two blocks.", "quantifier": "all buffers and patterns", "why_tests_cant": "all lengths and overlaps", "anchors": ["include/bss-util/bss_util.h: ByteSearch"]}
{"id": "C62", "title": "OutputUnicode appends the UTF-8 encoding of a code point", "statement": "For every Unicode scalar value c, OutputUnicode appends exactly the UTF-8 encoding of c.", "quantifier": "all code points 0..0x10FFFF without surrogates", "why_tests_cant": "finite but boundary-sensitive: exactly one of 1,112,064 values fails", "anchors": ["include/bss-util/bss_util.h: OutputUnicode"]}
{"id": "C63", "title": "UTF-8 decoding of arbitrary bytes yields the longest well-formed prefix", "statement": "For every byte sequence, well-formed or not, UTF8toUTF32 into a buffer of the announced size yields exactly the code points of the longest prefix of the source that is well-formed UTF-8 (no overlong forms, surrogates, truncated sequences or values above U+10FFFF); a smaller buffer yields a beginning of them. It accepts the whole source if and only if the source is well-formed.", "quantifier": "all byte sequences, with and without terminator, all buffer sizes", "why_tests_cant": "ill-formed inputs are unbounded and each of the many boundary cases of the encoding needs its own test", "anchors": ["bss-util/ConvertUTF.c: UTF8toUTF32", "bss-util/ConvertUTF.c: isLegalUTF8"]}
{"id": "C64", "title": "Encoding arbitrary 32-bit values replaces exactly the invalid ones by U+FFFD", "statement": "For every sequence of 32-bit values, UTF32toUTF16 and UTF32toUTF8 into a buffer of the announced size write the standard encoding of the sequence in which each value that is not a Unicode scalar value (a surrogate or above U+10FFFF) is replaced by U+FFFD; the output is always well-formed.", "quantifier": "all sequences of 32-bit values of every length", "why_tests_cant": "2^32 values per element and unbounded lengths", "anchors": ["bss-util/ConvertUTF.c: UTF32toUTF16", "bss-util/ConvertUTF.c: UTF32toUTF8"]}
{"id": "C65", "title": "UTF-16 decoding of arbitrary units loses nothing", "statement": "For every sequence of 16-bit units, UTF16toUTF32 joins exactly the surrogate pairs and passes unpaired surrogates through, so the result re-encodes to the source; only a high surrogate that is the last unit of an explicitly counted source is dropped.", "quantifier": "all unit sequences of every length", "why_tests_cant": "unbounded sequences with arbitrary placement of surrogates", "anchors": ["bss-util/ConvertUTF.c: UTF16toUTF32"]}
{"id": "C66", "title": "Dual numbers carry exact derivatives", "statement": "For every expression built from one variable, constants, + - * /, negation, powers, Abs, sin, cos, exp, log and log10, and every point where each operation is defined and differentiable, evaluating it in Dual<T, O> on the variable Dual(a, 1) makes operator()(k) the k-th derivative of the function at a, for every k up to O (exact arithmetic; rounding aside).", "quantifier": "all expressions, all points, all orders of differentiation", "why_tests_cant": "unbounded expressions and orders; tests check a few points with tolerances", "anchors": ["include/bss-util/Dual.h: Dual"]}
{"id": "C67", "title": "JSON values survive writing and reading back", "statement": "For every JSONValue built of strings of arbitrary bytes, 64-bit integers, booleans, doubles whose printed text has a decimal point, arrays and objects nested to any depth, with no empty value inside and with keys free of NUL, quote and backslash: WriteJSON in compact form followed by ParseJSON gives an equal value, with the same order of array elements and of object members.", "quantifier": "all such values, of any size and depth", "why_tests_cant": "unbounded nesting and arbitrary string contents (every escape, every control character); tests use a few documents", "anchors": ["include/bss-util/JSON.h: WriteJSON", "include/bss-util/JSON.h: ParseJSON"]}
{"id": "C68", "title": "ParseJSON ends on every input", "statement": "ParseJSON into a JSONValue terminates on every finite sequence of bytes, however malformed or truncated, and its result depends on the bytes only.", "quantifier": "all byte sequences", "why_tests_cant": "every malformed input of every length; fuzzing only samples", "anchors": ["include/bss-util/JSON.h: ParseJSON"]}
{"id": "C69", "title": "Indented JSON is read back too", "statement": "For the values of C67, writing with any indentation level (pretty > 0) and reading back also gives an equal value.", "quantifier": "all such values, all indentation levels", "why_tests_cant": "unbounded nesting", "anchors": ["include/bss-util/JSON.h: WriteJSON", "include/bss-util/JSON.h: ParseJSON"]}
{"id": "C70", "title": "JSON string escapes are decoded as RFC 8259 says", "statement": "Reading a quoted string literal yields the bytes it denotes: ordinary bytes stand for themselves, the eight two-character escapes for their characters, and the escape of a Unicode character (including pairs of surrogate escapes) for the UTF-8 encoding of that character.", "quantifier": "all string literals", "why_tests_cant": "every sequence of escapes and every code point", "anchors": ["include/bss-util/JSON.h: ParseJSONEatCharacter", "include/bss-util/bss_util.h: OutputUnicode"]}
{"id": "C71", "title": "BreadthFirstTree visits every node level by level", "statement": "BreadthFirstTree called with the root of a binary tree and its number of nodes calls the callback on the nodes in breadth-first order (level after level, each level from left to right), every node once, and stops right after the first call that returns true; it never reads an unset queue slot or passes a null pointer to the callback.", "quantifier": "all binary trees and all callbacks", "why_tests_cant": "every tree shape; the fixed-size circular queue can only fail for shapes a test happens not to use", "anchors": ["include/bss-util/algo.h: BreadthFirstTree"]}
{"id": "C72", "title": "Splitting a Bezier curve reproduces it", "statement": "SplitCubic and SplitQuadratic at parameter t return the control points of two curves of the same degree; for every s, the first curve at s is the original curve at t*s and the second curve at s is the original curve at t + s(1-t), in every coordinate (real arithmetic).", "quantifier": "all control points, all split parameters and all curve parameters", "why_tests_cant": "an identity between polynomials; points on a few curves cannot establish it", "anchors": ["include/bss-util/algo.h: SplitCubic", "include/bss-util/algo.h: SplitQuadratic", "include/bss-util/bss_util.h: lerp"]}
{"id": "C73", "title": "ApproxCubic stays within the error bound", "statement": "For every cubic Bezier curve in the plane and every positive error bound, ApproxCubic returns, and the quadratic curves it reports form a connected chain from the first to the last control point, whose joints are points of the cubic at increasing parameters, and no point of a piece is farther from the corresponding point of the cubic than the bound; this holds even if FastSqrt is off by half of the root (real arithmetic).", "quantifier": "all control points and all positive error bounds", "why_tests_cant": "unbounded recursion depth and a continuum of curve points", "anchors": ["include/bss-util/algo.h: ApproxCubic", "include/bss-util/algo.h: ApproxCubicR", "include/bss-util/algo.h: ApproxCubicError"]}
{"id": "C74", "title": "Quadratic equations and inflection points", "statement": "SolveQuadratic with a non-zero leading coefficient and a non-negative discriminant returns exactly the roots (with an inexact square root d the residual is (d*d - discriminant)/(4a)); CubicInflectionPoints returns exactly the parameters at which the first and second derivative of the curve are parallel, if there are any (real arithmetic).", "quantifier": "all coefficients, all cubic Bezier curves", "why_tests_cant": "all real inputs; completeness of the set of roots", "anchors": ["include/bss-util/algo.h: SolveQuadratic", "include/bss-util/algo.h: CubicInflectionPoints"]}
{"id": "C75", "title": "solveCubic returns all real roots", "statement": "For a non-zero leading coefficient, solveCubic returns all the distinct real roots of the cubic: each returned value is a root and each root is returned; the second and third of three roots may be off by 1e-9 times sqrt((b/3a)^2 - c/3a) because sqrt(3) is a nine-digit constant (real arithmetic, exact FastSqrt, cbrt, acos, cos and sin).", "quantifier": "all coefficients", "why_tests_cant": "all real inputs, including the boundary where roots coincide", "anchors": ["include/bss-util/algo.h: solveCubic"]}
{"id": "C76", "title": "Spline formulas have the documented shape", "statement": "BezierCurve and QuadraticBezierCurve are the Bernstein forms; the uniform B-splines are convex combinations of their control points for t in [0,1]; consecutive segments of the cubic B-spline join with equal value, first and second derivative, those of the quadratic B-spline and of the interpolating CubicBSpline with equal value and first derivative, and CubicBSpline goes through its two middle points (real arithmetic).", "quantifier": "all control points and all parameters", "why_tests_cant": "polynomial identities and derivatives", "anchors": ["include/bss-util/algo.h: BezierCurve", "include/bss-util/algo.h: StaticGenericSpline", "include/bss-util/algo.h: UniformCubicBSpline", "include/bss-util/algo.h: UniformQuadraticBSpline", "include/bss-util/algo.h: CubicBSpline", "include/bss-util/algo.h: QuadraticBezierCurve"]}
{"id": "C77", "title": "Newton iteration results", "statement": "When NewtonRaphson returns true, the absolute value of F at the result is at most epsilon. NewtonRaphsonBisection started in [min,max] returns a value in [min,max] whatever F and dF are; both find the root of a linear function in two rounds; and when no Newton step is usable the result after n rounds is within (max-min)/2^(n+1) of the root or F is small there (real arithmetic).", "quantifier": "all functions, derivatives, tolerances, iteration counts and starting points", "why_tests_cant": "quantifies over functions and over the number of iterations", "anchors": ["include/bss-util/algo.h: NewtonRaphson", "include/bss-util/algo.h: NewtonRaphsonBisection"]}
{"id": "C78", "title": "QuadraticCanonicalFit passes through its three points", "statement": "QuadraticCanonicalFit(t, x1, x2, x3) is a quadratic function of t passing through (x1, 0), (x2, 0.5) and (x3, 1) (real arithmetic).", "quantifier": "all distinct x1, x2, x3", "why_tests_cant": "all real inputs", "anchors": ["include/bss-util/algo.h: QuadraticCanonicalFit"]}
{"id": "C79", "title": "Determinant is the determinant", "statement": "Matrix<T,N,N>::Determinant returns, for N = 2, 3 and 4 and both in the general and in the float (SSE) version, the sum over all column permutations of the signed products of entries (real arithmetic); the determinant of a product is the product of the determinants, and Transpose exchanges rows and columns and keeps the determinant.", "quantifier": "all matrices of the three sizes, general and SSE versions", "why_tests_cant": "a polynomial identity in up to 32 unknowns; tests sample single matrices and the SSE shuffles can be right for symmetric samples only", "anchors": ["include/bss-util/vector.h: __MatrixDeterminant", "include/bss-util/vector.h: MatrixDeterminant", "include/bss-util/vector.h: Matrix::Transpose"]}
{"id": "C80", "title": "Inverse inverts", "statement": "If the determinant of M is not zero, M * M.Inverse() and M.Inverse() * M are the identity, for 2x2, 3x3 and 4x4 matrices and both the general and the SSE float version; and Determinant() is zero exactly when M has no inverse at all (real arithmetic).", "quantifier": "all matrices of the three sizes", "why_tests_cant": "quantifies over all invertible matrices; the SSE version goes through 2x2 blocks and shuffles", "anchors": ["include/bss-util/vector.h: MatrixInvert4x4", "include/bss-util/vector.h: Matrix<T,2,2>::Inverse", "include/bss-util/vector.h: Matrix<T,3,3>::Inverse"]}
{"id": "C81", "title": "MatrixMultiply multiplies, also in place", "statement": "MatrixMultiply(l, r, out) leaves in out the product of the matrices that l and r held before the call and changes nothing else, for all sizes, and even if out is the same matrix as l, as r, or as both (real arithmetic).", "quantifier": "all sizes, all contents, all ways the three arguments can coincide", "why_tests_cant": "aliasing of the arguments and unbounded sizes", "anchors": ["include/bss-util/vector.h: MatrixMultiply", "include/bss-util/vector.h: operator *=(Matrix, Matrix)"]}
{"id": "C82", "title": "Rotation and affine matrices do what their names say", "statement": "Rotation, RotationX/Y/Z and AffineRotationX/Y/Z turn column vectors (and their _T versions row vectors) by the angle about the axis, keep lengths and dot products, have determinant 1, and compose by adding angles; AffineTransform turns a point about (cx, cy) by r and then moves it by (x, y), and the _T version is the matrix product (M_rc)^-1 * M_r * M_rc * M_t given in the comment; RotatePoint is the same turn (real arithmetic).", "quantifier": "all angles, centres, offsets and points", "why_tests_cant": "trigonometric identities for all angles", "anchors": ["include/bss-util/vector.h: Matrix<T,2,2>::Rotation", "include/bss-util/vector.h: Matrix<T,3,3>::AffineTransform", "include/bss-util/vector.h: Matrix<T,4,4>::AffineTransform", "include/bss-util/vector.h: RotationX", "include/bss-util/vector.h: Vector<T,2>::RotatePoint"]}
{"id": "C83", "title": "Vector lengths, areas and cross products", "statement": "NVectorDot and NVectorDistanceSq are the sum of products and the squared distance in any dimension (the SSE float version included); NVectorNormalize scales any non-zero vector by a positive number to length 1; NTriangleArea is half the area of the parallelogram spanned by two sides, in any dimension and for degenerate triangles too; Cross is perpendicular to both arguments, right-handed and as long as the parallelogram is large (real arithmetic, exact square root).", "quantifier": "all dimensions, all vectors", "why_tests_cant": "quantifies over dimensions and all vectors", "anchors": ["include/bss-util/vector.h: NVectorDot", "include/bss-util/vector.h: NVectorDistanceSq", "include/bss-util/vector.h: NVectorNormalize", "include/bss-util/vector.h: NTriangleArea", "include/bss-util/vector.h: Vector<T,3>::Cross", "include/bss-util/vector.h: Vector<T,2>::Cross"]}
{"id": "C84", "title": "Vectors are ordered lexicographically", "statement": "For vectors of any dimension l < r holds exactly when the first coordinate in which they differ is smaller in l; < is a strict total order consistent with ==, > is its converse and <=, >= are the negations.", "quantifier": "all dimensions, all vectors of comparable (non-NaN) numbers", "why_tests_cant": "order laws range over triples of vectors of any length", "anchors": ["include/bss-util/vector.h: operator <(Vector, Vector)", "include/bss-util/vector.h: operator ==(Vector, Vector)", "include/bss-util/compare.h: SGNCOMPARE"]}
{"id": "C85", "title": "FromQuaternion gives the rotation matrix", "statement": "For a unit quaternion q, FromQuaternion(q, out) makes out the matrix that turns column vectors as q does: out * v = q v q^-1 (real arithmetic).", "quantifier": "all unit quaternions and all vectors", "why_tests_cant": "a family of identities on the unit sphere", "anchors": ["include/bss-util/vector.h: FromQuaternion<float,4>"]}
{"id": "C86", "title": "GenericBSpline evaluates the spline of its matrix", "statement": "GenericBSpline(t, p, m) is (t^3, t^2, t, 1) * m * p (real arithmetic).", "quantifier": "all t, control points and matrices", "why_tests_cant": "all real inputs", "anchors": ["include/bss-util/vector.h: GenericBSpline"]}
{"id": "C87", "title": "Sphere and circle tests", "statement": "SphereContainsPoint is true exactly when the point is nearer to the centre than the radius, SphereContainsSphere exactly when every point of the closed inner sphere is in the open outer one, SphereSphereCollide exactly when some point is in both open spheres, in any dimension; the circle functions and the methods of Circle say the same in the plane, and CircleNearestPoint gives the point of the circle nearest to a point other than the centre (real arithmetic).", "quantifier": "all dimensions, centres, radii and points", "why_tests_cant": "equivalence with a statement about all points of two continuous sets", "anchors": ["include/bss-util/Collision.h: SphereContainsPoint", "include/bss-util/Collision.h: SphereContainsSphere", "include/bss-util/Collision.h: SphereSphereCollide", "include/bss-util/Collision.h: CircleNearestPoint", "include/bss-util/Geometry.h: Circle::CircleCollide"]}
{"id": "C88", "title": "Intersections of two circles", "statement": "CircleRadiusIntersect and CircleCircleIntersect return exactly the set of points common to two non-concentric circles (real arithmetic).", "quantifier": "all pairs of non-concentric circles", "why_tests_cant": "soundness and completeness over all real inputs, tangency included", "anchors": ["include/bss-util/Collision.h: CircleRadiusIntersect", "include/bss-util/Collision.h: CircleCircleIntersect"]}
{"id": "C89", "title": "Lines, rays and segments against a circle", "statement": "LineRadiusIntersect, RayRadiusIntersect and LineSegmentRadiusIntersect return exactly the points of the line, ray or segment on the circle; LineRadiusCollide, RayRadiusCollide and LineSegmentRadiusCollide are true exactly when the line, ray or segment meets the disc (real arithmetic).", "quantifier": "all lines given by two different points, all radii", "why_tests_cant": "soundness and completeness over all real inputs", "anchors": ["include/bss-util/Collision.h: LineRadiusParametricIntersect", "include/bss-util/Collision.h: LineRadiusCollide", "include/bss-util/Collision.h: RayRadiusCollide", "include/bss-util/Collision.h: LineSegmentRadiusCollide"]}
{"id": "C90", "title": "Nearest points and distances of lines", "statement": "LineNearestPoint, RayNearestPoint and LineSegmentNearestPoint return the point of the line, ray or segment nearest to the given point; LinePointDistanceSqr and LineSegmentPointDistanceSqr return the square of that distance and LinePointDistance and LineSegmentPointDistance the distance (real arithmetic).", "quantifier": "all lines given by two different points, all points", "why_tests_cant": "minimality over a continuum of points", "anchors": ["include/bss-util/Collision.h: LineNearestPoint", "include/bss-util/Collision.h: RayNearestPoint", "include/bss-util/Collision.h: LineSegmentNearestPoint", "include/bss-util/Collision.h: LinePointDistance", "include/bss-util/Collision.h: LineSegmentPointDistance"]}
{"id": "C91", "title": "Segment against segment", "statement": "LineSegmentLineSegmentCollide and its vertical and horizontal versions are true exactly when the segments have a point in common; LineSegmentLineSegmentIntersect and LineLineIntersect return the common point (real arithmetic).", "quantifier": "all pairs of segments and lines", "why_tests_cant": "soundness and completeness over all real inputs", "anchors": ["include/bss-util/Collision.h: LineSegmentLineSegmentCollide", "include/bss-util/Collision.h: LineSegmentLineVertCollide", "include/bss-util/Collision.h: LineSegmentLineSegmentIntersect", "include/bss-util/Collision.h: LineLineIntersect"]}
{"id": "C92", "title": "Rectangle and ellipse tests", "statement": "RectRectCollide is true exactly when the rectangles share a point, RectContainsRect exactly when each point of one is in the other, RectCircleCollide and EllipseRectCollide exactly when rectangle and disc or ellipse share a point; RectContainsPoint is true of interior points, false of outside points, and of the rectangles of a tiling exactly one contains each point of the whole (real arithmetic).", "quantifier": "all rectangles, circles, axis-aligned ellipses and points", "why_tests_cant": "equivalence with the existence of a common point in two continuous sets", "anchors": ["include/bss-util/Collision.h: RectRectCollide", "include/bss-util/Collision.h: RectContainsRect", "include/bss-util/Collision.h: RectCircleCollide", "include/bss-util/Collision.h: EllipseRectCollide", "include/bss-util/Collision.h: RectContainsPoint"]}
{"id": "C93", "title": "Rectangle operations are smallest enclosures", "statement": "ExpandTo, Union and PolygonAABB give the smallest rectangle around their arguments; Intersection gives exactly the common points of rectangles that meet and an empty rectangle otherwise; BoundingCircle gives the smallest circle around a rectangle (real arithmetic).", "quantifier": "all rectangles and non-empty point lists", "why_tests_cant": "minimality among all rectangles and circles", "anchors": ["include/bss-util/Geometry.h: Rect::ExpandTo", "include/bss-util/Geometry.h: Rect::Union", "include/bss-util/Geometry.h: Rect::Intersection", "include/bss-util/Geometry.h: Rect::BoundingCircle", "include/bss-util/Geometry.h: PolygonAABB"]}
{"id": "C94", "title": "Rectangle against segment", "statement": "RectLineCollide is true exactly when the segment and the rectangle have a point in common (real arithmetic).", "quantifier": "all rectangles and segments", "why_tests_cant": "equivalence with the existence of a common point", "anchors": ["include/bss-util/Collision.h: RectLineCollide"]}
{"id": "C95", "title": "Point in triangle and polygon", "statement": "TriangleContainsPoint is true exactly of the strict convex combinations of the corners; PolygonContainsPoint is the even-odd rule: for a point on no edge or diagonal of the fan from the first vertex it is true exactly when the point is in an odd number of the triangles of the fan; the answer does not depend on the starting vertex or the direction, and of two polygons that a diagonal cuts a polygon into, each point of the whole is in exactly one (real arithmetic).", "quantifier": "all polygons (self-intersecting ones included) with any number of vertices, all points", "why_tests_cant": "quantifies over polygons of any length", "anchors": ["include/bss-util/Collision.h: TriangleContainsPoint", "include/bss-util/Collision.h: PolygonContainsPoint"]}
{"id": "C96", "title": "Polygon area and centroid", "statement": "PolygonArea is the signed area, the sum over the triangles of a fan; it does not change under rotation of the vertex list or translation, changes sign on reversal, and adds up when a polygon is cut along a diagonal; PolygonCentroid is the centre of mass of a polygon of non-zero area (real arithmetic).", "quantifier": "all polygons with any number of vertices", "why_tests_cant": "quantifies over polygons of any length", "anchors": ["include/bss-util/Collision.h: PolygonArea", "include/bss-util/Collision.h: PolygonCentroid"]}
{"id": "C97", "title": "Convex polygons", "statement": "PolygonIsConvex is true exactly when each edge has the whole polygon on one side, the same for all edges; ConvexPolygonContainsPoint is true of the points strictly inside a convex polygon (real arithmetic).", "quantifier": "all polygons with any number of vertices, all points", "why_tests_cant": "quantifies over polygons of any length", "anchors": ["include/bss-util/Collision.h: PolygonIsConvex", "include/bss-util/Collision.h: ConvexPolygonContainsPoint"]}
{"id": "C98", "title": "Angles and circle sectors", "statement": "AngleDist(a, b) is the smallest distance between angles that differ from a and b by whole turns, at most pi and symmetric; AngleDistSigned(a, b) is in [-pi, pi), leads from a to b up to whole turns and has absolute value AngleDist(a, b); bssFMod(x, m) is in [0, m) and differs from x by a multiple of m for negative x too; CircleSectorContainsPoint is true exactly of the points whose distance is between the radii and whose angle is, up to whole turns, between min and min + range (real arithmetic).", "quantifier": "all angles, sectors and points other than the centre", "why_tests_cant": "minimality over all whole turns; all real inputs", "anchors": ["include/bss-util/bss_util.h: AngleDist", "include/bss-util/bss_util.h: AngleDistSigned", "include/bss-util/bss_util.h: bssFMod", "include/bss-util/Collision.h: CircleSectorContainsPoint"]}
{"id": "C99", "title": "The ring allocator hands out disjoint pieces under any interleaving", "statement": "For any number of threads calling Alloc and Dealloc of a RingAllocVoid with any sizes (each piece given back once) under any interleaving, two pieces live at the same time have no byte in common, every live piece lies inside a bucket that is in use and has the size asked for, no freed bucket is accessed, and no other thread is inside the allocator while a new bucket is made.", "quantifier": "all thread counts, sizes, histories and interleavings; unbounded numbers", "why_tests_cant": "overlap needs a precise schedule of the reservation and its reversal", "anchors": ["include/bss-util/RingAlloc.h: RingAllocVoid::Alloc", "include/bss-util/RingAlloc.h: RingAllocVoid::Dealloc", "include/bss-util/RingAlloc.h: RingAllocVoid::_genBucket", "include/bss-util/RingAlloc.h: RingAllocVoid::_checkRecycle", "include/bss-util/RingAlloc.h: RingAllocVoid::_recycle"]}
{"id": "C100", "title": "The ring allocator uses memory given back again", "statement": "When all pieces of a bucket have been given back, the bucket is used again: it is the current bucket with nothing reserved, or it is in the list from which new buckets are taken; and Alloc always returns when no other thread is inside a call (the current bucket is never left locked).", "quantifier": "all thread counts, histories and interleavings", "why_tests_cant": "leaked buckets and stuck locks are visible only after particular histories", "anchors": ["include/bss-util/RingAlloc.h: RingAllocVoid::Alloc", "include/bss-util/RingAlloc.h: RingAllocVoid::Dealloc", "include/bss-util/RingAlloc.h: RingAllocVoid::_checkRecycle"]}
{"id": "C101", "title": "XML trees survive writing and reading", "statement": "For every tree of nodes with names, attributes and values, reading the text that XMLFile::Write makes of it (without pretty printing) gives the same tree: the same nodes in the same order with the same names, attributes and values.", "quantifier": "all trees of any depth and width, all characters", "why_tests_cant": "all trees and all strings; escaping errors depend on rare characters and positions", "anchors": ["bss-util/XML.cpp: XMLFile::Write", "bss-util/XML.cpp: XMLFile::Read", "bss-util/XML.cpp: XMLNode::_write", "bss-util/XML.cpp: XMLNode::_parse", "bss-util/XML.cpp: XMLNode::_match"]}
{"id": "C102", "title": "Pretty printing of XML changes only white space", "statement": "Reading the text that XMLFile::Write makes with pretty printing gives the same tree, up to line ends and tabs after the values of nodes that have child nodes.", "quantifier": "all trees of any depth and width", "why_tests_cant": "all trees; the indentation depends on the depth", "anchors": ["bss-util/XML.cpp: XMLNode::_write", "bss-util/XML.cpp: XMLNode::_parseInner"]}
{"id": "C103", "title": "Reading XML always ends", "statement": "XMLFile::Read returns for every text, however malformed: no loop of the reader runs for ever, although end tags that do not match make it go back in the text.", "quantifier": "all texts", "why_tests_cant": "termination for all inputs; the reader seeks backwards", "anchors": ["bss-util/XML.cpp: XMLNode::_parse", "bss-util/XML.cpp: XMLNode::_parseInner", "bss-util/XML.cpp: XMLNode::_parseAttribute", "bss-util/XML.cpp: XMLNode::_match"]}
{"id": "C104", "title": "XML entities are decoded", "statement": "Text made of characters, the entities lt, gt, amp, apos, quot and decimal or hexadecimal character references reads as the characters it stands for, character references in UTF-8; comments between them are skipped.", "quantifier": "all texts, all Unicode scalar values, all ways to write the numbers", "why_tests_cant": "all code points and all spellings", "anchors": ["bss-util/XML.cpp: XMLNode::_parseEntity", "include/bss-util/bss_util.h: OutputUnicode"]}
{"id": "C105", "title": "XML integers survive writing and reading", "statement": "A 64-bit integer stored with SetValue, written and read back is the same integer, for every node.", "quantifier": "all 64-bit integers, all nodes", "why_tests_cant": "2^64 values", "anchors": ["bss-util/XML.cpp: XMLNode::SetValue", "bss-util/XML.cpp: XMLNode::_evalValue"]}
{"id": "C106", "title": "Child nodes are found by name", "statement": "After any sequence of AddNode and RemoveNode, GetNode(name) is the newest node with that name, following next from it gives the older ones with that name, and GetNode is null when there is none.", "quantifier": "all histories, all names", "why_tests_cant": "the hash and the linked lists get out of step only after particular histories", "anchors": ["bss-util/XML.cpp: XMLNode::_addNode", "bss-util/XML.cpp: XMLNode::RemoveNode", "include/bss-util/XML.h: XMLNode::GetNode"]}
{"id": "C107", "title": "Attributes are found by name", "statement": "After any sequence of AddAttribute and RemoveAttribute, there is at most one attribute of each name, GetAttribute(name) is the one added last, and null after it was removed.", "quantifier": "all histories, all names", "why_tests_cant": "all histories", "anchors": ["bss-util/XML.cpp: XMLNode::_addAttribute", "bss-util/XML.cpp: XMLNode::RemoveAttribute", "include/bss-util/XML.h: XMLNode::GetAttribute"]}
{"id": "C108", "title": "An animation hands out every frame once, whatever the step sizes", "statement": "A discrete track of an AniState calls its function for exactly the frames whose time has been passed, in order, each once per pass: after any sequence of Interpolate, SetTime and Reset the calls are those of a player that shows the times the clock goes through. Without looping, after steps d1..dn exactly the frames with time at most d1+...+dn have been called, however the time is cut into steps.", "quantifier": "all tracks, all frame lists in order, all histories of Interpolate, SetTime and Reset, all cuts of the time into steps", "why_tests_cant": "step sizes come from frame timings and are unbounded in number and value; a frame called twice or missed depends on where the steps fall", "anchors": ["include/bss-util/Animation.h: AniState::Interpolate", "include/bss-util/Animation.h: AniStateDiscrete::Interpolate", "include/bss-util/Animation.h: AniState::Interpolate", "include/bss-util/Animation.h: AniStateBase::SetTime", "include/bss-util/Animation.h: AniState::Reset"]}
{"id": "C109", "title": "The time of an animation", "statement": "AniState::Interpolate(d) adds d to the time; without a loop the time stops once the end is reached and the result says whether it has not been; with a loop point the time stays below the length, whole turns of length minus loop point are taken off, and the result is true.", "quantifier": "all reachable states, all steps", "why_tests_cant": "all histories and steps, including steps over several turns", "anchors": ["include/bss-util/Animation.h: AniState::Interpolate", "include/bss-util/Animation.h: AniStateBase::SetTime"]}
{"id": "C110", "title": "A looping animation", "statement": "When an Interpolate passes the end of a looping animation, a discrete track calls the frames left up to the end, and then the frames from the loop point to the new time.", "quantifier": "all reachable states, all steps", "why_tests_cant": "depends on where the step ends relative to every frame and to the loop point", "anchors": ["include/bss-util/Animation.h: AniState::Interpolate", "include/bss-util/Animation.h: AniStateDiscrete::Interpolate"]}
{"id": "C111", "title": "A smooth track shows the interpolated value at each time", "statement": "At every time t shown by Interpolate, a smooth track with at least two frames calls its setter once, with the value of the curve at t: the interpolation between the two frames around t with the progress (t - previous)/(next - previous), from the initial value before the first frame, and the last frame after it. With LerpInterpolate on numbers the value at a frame's time is the frame's value and between two frames lies between theirs; with NoInterpolate it is the value of the last frame up to t. A track with one frame sets nothing once the frame is passed.", "quantifier": "all frame lists in order, all histories of calls, all interpolation functions", "why_tests_cant": "all times and all histories of steps, rewinds and loops", "anchors": ["include/bss-util/Animation.h: AniStateSmooth::Interpolate", "include/bss-util/Animation.h: AniDataSmooth::LerpInterpolate", "include/bss-util/Animation.h: AniDataSmooth::NoInterpolate", "include/bss-util/bss_util.h: lerp"]}
{"id": "C112", "title": "Intervals are begun and ended in pairs", "statement": "An interval track begins exactly the intervals whose frames are due, each with a new handle; it only ends handles that were begun and not ended, each once; after Reset (and so after the destructor) none is left open.", "quantifier": "all frame lists in order, all histories of calls", "why_tests_cant": "all histories: a handle ended twice or lost shows only for particular overlaps", "anchors": ["include/bss-util/Animation.h: AniStateInterval::Interpolate", "include/bss-util/Animation.h: AniStateInterval::_addToQueue", "include/bss-util/Animation.h: AniStateInterval::_clearQueue"]}
{"id": "C113", "title": "Intervals end when they are over", "statement": "An interval with time a and length d is open at the times from a to a + d and ended by the first Interpolate from a + d on.", "quantifier": "all frame lists, all histories of calls", "why_tests_cant": "depends on all overlaps between intervals", "anchors": ["include/bss-util/Animation.h: AniStateInterval::Interpolate", "include/bss-util/Animation.h: AniDataInterval"]}
{"id": "C114", "title": "The length of an animation", "statement": "After any sequence of Add, Remove and SetLength, GetLength is the length set last if that was not negative, and otherwise the latest end over all frames: the time of a frame, or the time and length of an interval; 0 without frames.", "quantifier": "all histories, all numbers of tracks, all frames with times and lengths that are not negative", "why_tests_cant": "the length is kept incrementally; all histories of insertions and removals", "anchors": ["include/bss-util/Animation.h: Animation::GetLength", "include/bss-util/Animation.h: Animation::SetLength", "include/bss-util/Animation.h: Animation::Add", "include/bss-util/Animation.h: Animation::Remove", "include/bss-util/Animation.h: AniDataInterval::_recalcLength", "include/bss-util/Animation.h: AniDataInterval::_checkIndex"]}
{"id": "C115", "title": "A LinkedList is the sequence its calls describe", "statement": "After any sequence of Add, Insert, Insert in front, Remove and Clear that names only nodes in the list, Front, Back, the length and the links are those of the sequence of items so described: Add appends to the end, Insert puts the item before the node given (or at the end), Remove takes out that node only and gives its neighbour. Nodes stay at their address until removed, no node is leaked or freed twice.", "quantifier": "all histories, all list lengths, all item types", "why_tests_cant": "all histories: a stale neighbour, _root or _last pointer only matters for particular later calls", "anchors": ["include/bss-util/LinkedList.h: Add", "include/bss-util/LinkedList.h: Insert", "include/bss-util/LinkedList.h: Remove", "include/bss-util/LinkedList.h: Clear"]}
{"id": "C116", "title": "Copying a LinkedList", "statement": "Assigning a list to another makes the items of the copy those of the original in the same order, in new nodes, and frees the old ones; l += r appends the items of r and leaves the nodes of l where they are; also when r is l.", "quantifier": "all lists of all lengths", "why_tests_cant": "all lengths", "anchors": ["include/bss-util/LinkedList.h: operator =", "include/bss-util/LinkedList.h: operator +="]}
{"id": "C117", "title": "Item searches a LinkedList all round", "statement": "On a list that is not empty Item(x, from) gives the first node holding x in the order from `from` to the end and on from the front to the node before `from`; backwards the same in the other direction; null if no node holds x; it always ends.", "quantifier": "all lists, all items, all starting nodes", "why_tests_cant": "termination and completeness for all lists and starting nodes", "anchors": ["include/bss-util/LinkedList.h: Item"]}
{"id": "C118", "title": "Sections and keys with several instances", "statement": "After any sequence of adding, removing the i-th and changing the i-th entry of a name, the number of entries of a name (ignoring case), the i-th of them and whether there is one are those of the list of named values so described; walking the linked list from either end gives every entry once, those of one name beside each other in their order.", "quantifier": "all histories, all names, all instance numbers, all numbers of entries", "why_tests_cant": "the hash, the array of instances and the linked list are kept apart; a stale one of them shows only after particular removals", "anchors": ["bss-util/INIsection.cpp: _addEntry", "bss-util/INIsection.cpp: GetEntryNode", "bss-util/INIstorage.cpp: _addSection", "bss-util/INIstorage.cpp: RemoveSection", "bss-util/INIstorage.cpp: EditEntry"]}
{"id": "C119", "title": "INIstorage: memory, file text and document agree", "statement": "After any sequence of AddSection, RemoveSection and EditEntry (insert, change, delete) on a new file, the results of the calls, what GetSection, GetEntryPtr and the counts report, and what the lines of the text to be saved say are all those of the document so edited.", "quantifier": "all histories of edits, all numbers of sections and keys of the same name, all instance numbers", "why_tests_cant": "the text is edited in place by searching it again, memory by the instance lists: they must find the same place in every history", "anchors": ["bss-util/INIstorage.cpp: AddSection", "bss-util/INIstorage.cpp: RemoveSection", "bss-util/INIstorage.cpp: EditEntry", "bss-util/INIParser.c: bssFindINISection", "bss-util/INIParser.c: bssFindINIEntry"]}
{"id": "C120", "title": "Loading an INI file", "statement": "Loading a file gives the sections and keys that its lines say, in order, with all instances, pairs before the first section in a section without a name; later edits keep memory and text in agreement.", "quantifier": "all files, all histories of edits after loading", "why_tests_cant": "all files and all line endings; the content of uninitialised buffers", "anchors": ["bss-util/INIstorage.cpp: _loadINI", "bss-util/INIstorage.cpp: EditEntry"]}
{"id": "C121", "title": "Replacing, counting and stripping characters", "statement": "strreplace and ReplaceChar replace every occurrence of a character and change nothing else; strccount returns the number of occurrences, with a length among the first characters up to the end of the string; StripChar gives the text without the occurrences, in order.", "quantifier": "all strings, all characters, all contents of the memory behind the string", "why_tests_cant": "all contents behind the terminating zero, all lengths", "anchors": ["include/bss-util/bss_util.h: strreplace", "include/bss-util/bss_util.h: strccount", "include/bss-util/Str.h: ReplaceChar", "include/bss-util/Str.h: StripChar"]}
{"id": "C122", "title": "Trimming strings", "statement": "strltrim returns the position of the first character that is not white space; strtrim gives the string without white space at both ends, leaves the rest of the buffer alone and accepts every string.", "quantifier": "all strings, all buffers around them", "why_tests_cant": "all strings, in particular blank ones and bytes above 127; writing behind the buffer need not show", "anchors": ["include/bss-util/bss_util.h: strltrim", "include/bss-util/bss_util.h: strrtrim", "include/bss-util/bss_util.h: strtrim"]}
{"id": "C123", "title": "Splitting a command line", "statement": "ToArgV of a line of words and quoted texts separated by blanks returns exactly those arguments; for every line the first call, with a null array, changes nothing and returns the number of entries that the second call writes, and neither touches memory outside the line.", "quantifier": "all lines, all numbers of arguments, all positions of quotes and blanks", "why_tests_cant": "all lines with unbalanced quotes; the second call writes zeros that it could read again", "anchors": ["include/bss-util/bss_util.h: ToArgV"]}
{"id": "C124", "title": "Grouping command line arguments", "statement": "ProcessCmdArgs calls the function with consecutive groups which together are all arguments in order; each group but the first begins with an argument that starts with the delimiter, and no other argument of a group does.", "quantifier": "all argument lists, all delimiters", "why_tests_cant": "all arrangements of marked and unmarked arguments, empty ones included", "anchors": ["include/bss-util/bss_util.h: ProcessCmdArgs"]}
{"id": "C125", "title": "SafeFormat", "statement": "SafeFormat writes the format with each {n} and {nn} replaced by the argument of that number, or by an error text if there is none, and everything else unchanged; every string is such a format.", "quantifier": "all format strings, all numbers of arguments", "why_tests_cant": "all arrangements of braces and digits, in particular broken ones at the end", "anchors": ["include/bss-util/bss_util.h: SafeFormat", "include/bss-util/bss_util.h: __safeFormat"]}
{"id": "C126", "title": "Splitting a string at a delimiter", "statement": "Explode gives the non-empty pieces of the text between delimiters in order, also for zero-separated lists; StrT(index, text, delim) gives the index-th piece, empty ones counted, or nothing. This holds for every character type.", "quantifier": "all texts, all delimiters, all indices", "why_tests_cant": "all arrangements of delimiters; non-termination", "anchors": ["include/bss-util/Str.h: Explode", "include/bss-util/Str.h: ExplodeNull", "include/bss-util/Str.h: StrT"]}
{"id": "C127", "title": "Running average and variance", "statement": "Called for each of a sequence of values with the counter incremented, bssAvg keeps the mean of the values so far, and bssVariance the mean and the sum of the squared differences from it.", "quantifier": "all sequences of values", "why_tests_cant": "all sequences; a wrong divisor gives plausible numbers", "anchors": ["include/bss-util/bss_util.h: bssAvg", "include/bss-util/bss_util.h: bssVariance"]}
{"id": "C128", "title": "The profiler measures every stack of zones", "statement": "After any properly nested run of profiled zones, the node of every stack of zone ids shows the number of visits, the mean time of a visit and the mean time of a visit without the zones directly inside; stacks that were not visited show nothing.", "quantifier": "all runs: all nestings, recursions, repetitions and times; all ids of 16 bits", "why_tests_cant": "all runs; two stacks that share a node give a plausible mean", "anchors": ["include/bss-util/Profiler.h: StartProfile", "include/bss-util/Profiler.h: EndProfile", "include/bss-util/Profiler.h: ProfilerBlock"]}
{"id": "C129", "title": "The tree report of the profiler", "statement": "The tree report has exactly one line for each visited stack, a stack before those inside it and otherwise by id, indented by its depth, with the name of the innermost zone, the mean time and the number of visits.", "quantifier": "all runs", "why_tests_cant": "all shapes of the tree; ids of several digits", "anchors": ["bss-util/profiler.cpp: _treeOut"]}
{"id": "C130", "title": "The flat report of the profiler", "statement": "The flat report has one line for each zone, from the greatest to the least mean time, with its name, the mean time over all visits wherever it was entered, and their number.", "quantifier": "all runs, all numbers of zones", "why_tests_cant": "whether the name beside a number is the right one shows only if the order changes", "anchors": ["bss-util/profiler.cpp: _flatOut", "bss-util/profiler.cpp: WriteToStream"]}
{"id": "C131", "title": "The heat map of the profiler", "statement": "The heat map has a node for each visited stack, below the node of the stack around it, with the id and the mean time, and in each node with zones inside one for the mean time outside of them.", "quantifier": "all runs", "why_tests_cant": "all shapes of the tree; ids of several digits", "anchors": ["bss-util/profiler.cpp: _heatOut"]}
{"id": "C132", "title": "HighPrecisionTimer adds up", "statement": "After any sequence of operations GetTimeNS is the sum of the increments reported since ResetTime and GetTime the same in milliseconds; updates at any readings of the clock, also decreasing ones, give the time from the start to the latest reading, never a negative increment; the increments in milliseconds and in nanoseconds agree, also with a time warp.", "quantifier": "all sequences of operations, all readings of the clock", "why_tests_cant": "a clock that goes back; all sequences", "anchors": ["bss-util/HighPrecisionTimer.cpp: Update", "bss-util/HighPrecisionTimer.cpp: Override", "include/bss-util/HighPrecisionTimer.h: ResetTime"]}
{"id": "C133", "title": "Reading bytes from an array with StreamBufArray", "statement": "Reading, peeking, putting back, asking how much is left, reading blocks and seeking on a StreamBufArray answer what a reader standing at a position of the byte sequence answers; putting a byte back succeeds exactly if it is the one before the position; nothing outside of the array is touched.", "quantifier": "all contents, all sequences of operations", "why_tests_cant": "all sequences of operations on all contents", "anchors": ["include/bss-util/stream.h: StreamBufArray"]}
{"id": "C134", "title": "Writing into a dynamic array with StreamBufDynArray", "statement": "After any writes of blocks and of single characters through a StreamBufDynArray the array holds its former bytes followed by all the bytes written, in order, rounded down to whole elements; the write returns the number of bytes written; reads between the writes deliver the bytes in order.", "quantifier": "all contents, all blocks, all capacities, all sizes of elements", "why_tests_cant": "the behaviour depends on where the capacity ends", "anchors": ["include/bss-util/stream.h: StreamBufDynArray"]}
{"id": "C135", "title": "StreamSplitter delivers everything to every target", "statement": "Each target of a StreamSplitter receives, in order and once, all text written from the time it is added until the targets are cleared; what is not delivered yet is the text written since the last flush, addition or clearing, and after a flush nothing is missing.", "quantifier": "all sequences of writes, flushes, additions and clearings, any number of targets", "why_tests_cant": "all interleavings of the operations", "anchors": ["include/bss-util/stream.h: StreamSplitter"]}
{"id": "C136", "title": "A log entry reaches every target", "statement": "Each target of a Logger receives, in order and once, a line for every entry whose level is below the maximum, and the text of assimilated streams, from the time it is added until the targets are cleared. The line is the format for entries with or without a source, with the source, the name of the file without its directory, the line number, the text of the level and the time put in place of the parameters, followed by the message. An entry has arrived when the call returns.", "quantifier": "all sequences of calls, all formats, all numbers of targets and assimilated streams that are not targets", "why_tests_cant": "all interleavings of entries, assimilated text and changes of the targets; all formats", "anchors": ["include/bss-util/Logger.h: Log", "include/bss-util/Logger.h: LogHeader", "bss-util/Logger.cpp: _logHeader", "bss-util/Logger.cpp: _trimPath", "bss-util/Logger.cpp: Assimilate", "bss-util/Logger.cpp: AddTarget"]}
{"id": "C137", "title": "Destroying a logger loses nothing and gives the streams back", "statement": "When a Logger is destroyed, every target has received all its text and every stream that was assimilated writes to its own buffer again.", "quantifier": "all sequences of calls before the destruction", "why_tests_cant": "all sequences of calls; use after destruction shows only by accident", "anchors": ["bss-util/Logger.cpp: ~Logger", "bss-util/Logger.cpp: Assimilate"]}
{"id": "C138", "title": "Setting the text of a level", "statement": "A new Logger has the six documented levels. SetLevel sets the text of one level and leaves all other levels as they were.", "quantifier": "all tables of levels, all levels", "why_tests_cant": "all tables and levels", "anchors": ["bss-util/Logger.cpp: SetLevel", "bss-util/Logger.cpp: _levelDefaults"]}
{"id": "C139", "title": "Date and time of an entry", "statement": "The time of an entry is the time of day in the time zone of the logger, the minutes and seconds with two digits; with the date it is preceded by the year, month and day of that time.", "quantifier": "all times, all time zones", "why_tests_cant": "all times near midnight", "anchors": ["bss-util/Logger.cpp: _writeDateTime"]}
{"id": "C140", "title": "Moving a logger", "statement": "A logger moved to or assigned from another has the settings, targets and assimilated streams of the other; destroying the other then changes nothing, and the streams that the assigned logger had assimilated get their buffers back.", "quantifier": "all loggers", "why_tests_cant": "all states of both loggers", "anchors": ["bss-util/Logger.cpp: Logger(Logger&&)", "bss-util/Logger.cpp: operator="]}
{"id": "C141", "title": "A string written to TOML is read back", "statement": "Any sequence of bytes, written as a quoted TOML string and read as a key or a value, comes back unchanged, and reading stops right behind the closing quote.", "quantifier": "all byte strings, whatever follows", "why_tests_cant": "strings are unbounded and the escapes interact", "anchors": ["include/bss-util/TOML.h: ParseTOMLString", "include/bss-util/TOML.h: Serialize"]}
{"id": "C142", "title": "Literal and multi-line TOML strings", "statement": "In single quotes every character stands for itself. Between three quotes line feeds and one or two quotes may stand, and the line feed right behind the opening quotes is not part of the string. A string that is not closed ends at the end of the document; a backslash at the end of a line drops all white space up to the next character.", "quantifier": "all strings", "why_tests_cant": "strings are unbounded, and quotes may stand anywhere", "anchors": ["include/bss-util/TOML.h: ParseTOMLString", "include/bss-util/TOML.h: ParseTOMLCharacter"]}
{"id": "C143", "title": "A structure written to TOML is read back", "statement": "A structure of strings, booleans, numbers, arrays and tables nested to any depth, written with WriteTOML and read with ParseTOML into a new structure of the same type, is the same as before; tables become sections under the whole path, tables in arrays are written inline.", "quantifier": "all structures", "why_tests_cant": "structures are unbounded in depth and width", "anchors": ["include/bss-util/TOML.h: WriteTOML", "include/bss-util/TOML.h: ParseTOML", "include/bss-util/TOML.h: ParseTOMLRoot", "include/bss-util/TOML.h: ParseTOMLPairs", "include/bss-util/TOML.h: ParseArray", "include/bss-util/TOML.h: ParseMany"]}
{"id": "C144", "title": "Arrays of tables in TOML", "statement": "Every [[name]] of a document appends one element to the array of that name, with the fields of the lines below it, in the order of the document.", "quantifier": "all documents of such entries", "why_tests_cant": "any number of entries with any fields", "anchors": ["include/bss-util/TOML.h: ParseTOMLRoot", "include/bss-util/TOML.h: ParseArray", "include/bss-util/TOML.h: ParseMany"]}
{"id": "C145", "title": "Maximum flow", "statement": "MaxFlow_PushRelabel, on a graph without flow, ends and leaves a maximal flow from s to t: every edge carries between zero and its capacity, every other vertex sends what it receives, and no flow brings more to t.", "quantifier": "all graphs with non-negative capacities, all vertices s and t", "why_tests_cant": "any graph, any schedule of pushes and relabels", "anchors": ["include/bss-util/Graph.h: MaxFlow_PushRelabel"]}
{"id": "C146", "title": "Circulation with demands", "statement": "Circulation_MaxFlow adds a source and a sink such that the circulations that meet the demands are exactly what the flows that fill all edges at the new source and the new sink put on the old edges; it returns the sum of the demands, and there is no circulation unless that is zero.", "quantifier": "all graphs and demands", "why_tests_cant": "both directions, for every circulation and every flow", "anchors": ["include/bss-util/Graph.h: Circulation_MaxFlow"]}
{"id": "C147", "title": "Circulation with lower bounds", "statement": "LowerBound_Circulation sets all lower bounds to zero and adjusts capacities and demands such that f is a circulation of the graph before exactly when f less the lower bounds is one of the graph after.", "quantifier": "all graphs, capacities, lower bounds and demands", "why_tests_cant": "every flow on every graph", "anchors": ["include/bss-util/Graph.h: LowerBound_Circulation"]}
{"id": "C148", "title": "Breadth-first search of a graph", "statement": "BreadthFirstGraph calls the action for the root and then for every vertex that can be reached from it, exactly once and never before all vertices nearer to the root, until the action returns true; a queue with one element per vertex is enough.", "quantifier": "all graphs, roots and actions", "why_tests_cant": "unbounded graphs, cycles and several ways to the same vertex", "anchors": ["include/bss-util/Graph.h: BreadthFirstGraph"]}
{"id": "C149", "title": "Variants hold what they were given", "statement": "After any program of constructions, copies, moves, assignments, typeset and destructions, tag, is, get and convert of a Variant tell the value it was last given; no object is destroyed twice, used as another type or lost without its destructor, and a Variant that was written and parsed back is the same.", "quantifier": "all lists of types, programs and values", "why_tests_cant": "every sequence of operations on any number of variants", "anchors": ["include/bss-util/Variant.h: Variant", "include/bss-util/Serializer.h: ActionVariantRef"]}
{"id": "C150", "title": "The storage of a variant", "statement": "The storage inside a Variant is large enough for, and aligned for, every one of its types.", "quantifier": "all lists of types, with their sizes and alignments, and all addresses", "why_tests_cant": "misalignment works on most machines in most tests", "anchors": ["include/bss-util/Variant.h: max_sizeof, max_alignof, _store"]}
{"id": "C151", "title": "The instance of a singleton", "statement": "The instance of a Singleton is null or an object that lives: the one constructed last, or the one that was moved into, until it is destroyed.", "quantifier": "all sequences of constructions, moves and destructions", "why_tests_cant": "dangling pointers arise only in some orders of destruction", "anchors": ["include/bss-util/Singleton.h: Singleton"]}
{"id": "C152", "title": "Blocks of the cache allocator are exclusive, whatever the threads do", "statement": "Whatever any number of threads do with a CacheAlloc, two blocks handed out and not given back never overlap, each block of a size kept in lists lies in memory obtained from the greedy allocator and has the size asked for, no call touches memory that is not the allocator's, and no call writes to a block in use.", "quantifier": "all numbers of threads, all interleavings of allocations, deallocations, shrinking and writes by the users, all sizes and all addresses obtained", "why_tests_cant": "the interleavings in which a block is taken off a list, given back and taken again by others cannot be enumerated by tests", "anchors": ["include/bss-util/CacheAlloc.h: Alloc, Dealloc, _setFreeList, CachePolicy::allocate"]}
{"id": "C153", "title": "The cache allocator uses again what is given back", "statement": "Memory given back to a CacheAlloc is used again: the next request for its size gets it, no memory is obtained for that request, and whenever no call is under way all memory obtained is in use or in a list.", "quantifier": "all numbers of threads and all their interleavings, all sizes", "why_tests_cant": "a leak shows only in rare interleavings, and then as nothing but memory growing", "anchors": ["include/bss-util/CacheAlloc.h: Alloc, Dealloc, _setFreeList", "include/bss-util/Hash.h: Insert"]}
{"id": "C154", "title": "Signs and smallness of floating-point numbers", "statement": "fsign is 1.0 or -1.0 after the sign bit of its argument, for every bit pattern; fSmall(f, eps), for eps not negative and not NaN, is true exactly if f is not NaN and |f| <= eps.", "quantifier": "all 2^32 floats and 2^64 doubles, all bounds", "why_tests_cant": "2^64 and 2^128 cases", "anchors": ["include/bss-util/bss_util.h: fsign, fSmall"]}
{"id": "C155", "title": "Comparing floating-point numbers in steps", "statement": "fCompare(a, b, k), for finite a and b and 0 <= k <= 2^23 (2^52 for double), is true exactly if b can be reached from a in at most k steps from a number to one next to it; fCompareSmall compares with eps instead if one of the two is zero.", "quantifier": "all finite a and b, all k", "why_tests_cant": "2^64 and 2^128 pairs", "anchors": ["include/bss-util/bss_util.h: fCompare, fCompareSmall"]}
{"id": "C156", "title": "The wide comparison of floats", "statement": "fWideCompare is true of numbers that differ in the last seven bits only, and false of numbers further apart than the next block of 128.", "quantifier": "all pairs of floats", "why_tests_cant": "2^64 pairs", "anchors": ["include/bss-util/bss_util.h: fWideCompare"]}
{"id": "C157", "title": "The fast square roots", "statement": "For every finite normal positive number, fFastSqrt differs from the square root by at most 6 millionths of it and dFastSqrt by at most 5/10^11 of it, whatever the rounding of the operations, to 24 or 53 bits.", "quantifier": "all normal positive floats and doubles, all roundings with a relative error of at most 2^-24 and 2^-53", "why_tests_cant": "all 2^63 doubles", "anchors": ["include/bss-util/bss_util.h: fFastSqrt, dFastSqrt"]}
{"id": "C158", "title": "The fast length", "statement": "fLength(x, y) is between 0.855 and 0.927 times the length of (x, y).", "quantifier": "all x and y, all roundings with a relative error of at most 2^-24", "why_tests_cant": "all pairs of floats", "anchors": ["include/bss-util/bss_util.h: fLength"]}
{"id": "C159", "title": "Circles and circle sectors", "statement": "CircleSector::CircleCollide(X, Y, R) is true if some point of the sector is closer than R to (X, Y), and only if some point is at most R away: a ring segment of any size, hole and range of angles, also when the circle only reaches it across one of its straight edges or lies in the hole. The constructor brings the first angle into [0, 2 PI) without changing the region. Area and the arc lengths are the integrals over the region and its arcs.", "quantifier": "all sectors with 0 <= inner < outer and range >= 0, all circles", "why_tests_cant": "whether the nearest point is on an arc, on an edge or at a corner depends on real-valued positions; tests try a few", "anchors": ["include/bss-util/Geometry.h: CircleSector::CircleCollide, _intersectAngleCircle, CircleSector, Area, ArcLengthInner, ArcLengthOuter"]}
{"id": "C160", "title": "Points, segments and polygons against circle sectors", "statement": "CircleSector::ContainsPoint is true exactly for the points of the region. IntersectLine is true exactly if the segment has a point in the region, and IntersectPolygon exactly if the outline of the polygon has one.", "quantifier": "all sectors with 0 <= inner < outer and range > 0, all points, segments and polygons", "why_tests_cant": "the segment can enter through either arc or either edge, tangentially or along an edge", "anchors": ["include/bss-util/Geometry.h: CircleSector::ContainsPoint, IntersectLine, IntersectPolygon, _intersectLine, _lineRayIntersect, _checkAngles"]}
{"id": "C161", "title": "Two circle sectors", "statement": "CircleSector::CircleSectorCollide is true exactly if the two regions have a point in common.", "quantifier": "all pairs of sectors", "why_tests_cant": "a dozen boundary pairs in general position, each with its own conditions on the angles", "anchors": ["include/bss-util/Geometry.h: CircleSector::CircleSectorCollide, _checkBothAngles, _rayRayIntersect, _intersectRayCircle"]}
{"id": "C162", "title": "Array behaves as a list", "statement": "After any constructions and operations on an Array<T>, its elements are those of the list that the same operations give: Add, Insert, Remove, SetLength, copying, moving, + and +=; every element is constructed once and destroyed once.", "quantifier": "all histories, element types and array modes", "why_tests_cant": "each operation allocates a new block and moves the elements by hand; a leak or a double destruction shows only for types that count", "anchors": ["include/bss-util/Array.h: Array"]}
{"id": "C163", "title": "An array as its own argument", "statement": "Assigning an Array to itself, appending it to itself and adding it to itself give the array, the array twice, and the array twice.", "quantifier": "all arrays", "why_tests_cant": "the argument is changed while it is read; a test sees stale memory that may still hold the old values", "anchors": ["include/bss-util/Array.h: Array::operator=, operator+=, operator+"]}
{"id": "C164", "title": "A bit field is a set of independent flags", "statement": "Each operation of BitField (set, add, remove, masked set, assignment through a reference to some bits) changes exactly the flags it names, and the read operations report exactly the flags that are set.", "quantifier": "all widths, values, flags and masks", "why_tests_cant": "2^w values times 2^w masks", "anchors": ["include/bss-util/BitField.h: BitField, BitRef"]}
{"id": "C165", "title": "Walking over the bits of memory", "statement": "The bit iterator visits every bit once in order, ++ and -- are inverse to each other, two iterators are equal exactly at the same bit, and reading and writing through it touches only that bit.", "quantifier": "all word widths and positions", "why_tests_cant": "word boundaries for each word type; undefined shifts that a compiler may hide", "anchors": ["include/bss-util/BitField.h: _BIT_REF, _BIT_ITER"]}
{"id": "C166", "title": "Index of a multidimensional array", "statement": "ArrayMultiRef maps the index tuples of an array one to one onto the numbers below its size, in row-major order, and fixing the first indices leaves a contiguous block of memory.", "quantifier": "all dimensions, sizes and indices", "why_tests_cant": "the number of dimensions is unbounded", "anchors": ["include/bss-util/Array.h: ArrayMultiRef"]}
{"id": "C167", "title": "Sub-slices stay in the slice", "statement": "Slice::operator()(start, end) is the part of the slice from start to before end, negative positions counting from the end, and never reaches outside the slice; element access counts in the same way.", "quantifier": "all slices and positions", "why_tests_cant": "the four sign cases for every length", "anchors": ["include/bss-util/Array.h: Slice"]}
{"id": "C168", "title": "Inserting and removing ranges", "statement": "InsertRangeSimple puts the given elements at the given place and RemoveRangeSimple takes out exactly the given range; all other elements keep their order.", "quantifier": "all arrays, places and ranges", "why_tests_cant": "overlapping moves of every length", "anchors": ["include/bss-util/bss_util.h: InsertRangeSimple, RemoveRangeSimple"]}
{"id": "C169", "title": "FNV-1a", "statement": "hash_fnv1a and hash64_fnv1a are the published FNV-1a hashes with 32 and 64 bits of the bytes of the string.", "quantifier": "all strings", "why_tests_cant": "infinitely many strings; the published test vectors for 32 bits are all below 128", "anchors": ["include/bss-util/bss_util.h: hash_fnv1a, hash64_fnv1a"]}
{"id": "C170", "title": "Cutting a string into tokens", "statement": "Calling strtok_r (wcstok_r) until it returns null gives the tokens of the string, the longest runs without a delimiter, in order; each stays readable, nothing outside the string is touched and only delimiters are overwritten.", "quantifier": "all strings, sets of delimiters and surrounding memory", "why_tests_cant": "reading one character too many is invisible in a test", "anchors": ["bss-util/bss_util_c.c: strtok_r, wcstok_r"]}
{"id": "C171", "title": "Serialised values are read back", "statement": "Numbers of any size and texts written with bssSerialize are read back by bssDeserialize in the same order, whatever follows them and whatever the variables held before; the bytes written do not depend on the byte order of the machine.", "quantifier": "all sequences of values, both byte orders", "why_tests_cant": "needs a machine of each byte order, and all sequences", "anchors": ["include/bss-util/BitStream.h: bssSerialize, bssDeserialize"]}
{"id": "C172", "title": "Handing a BitStream to another object", "statement": "Going on with another BitStream object, got by moving, copying or assigning, or calling Flush in between, writes the same bytes as one object that writes everything, once all objects are destroyed.", "quantifier": "all writes before and after", "why_tests_cant": "depends on how many bits are waiting when the object is handed over", "anchors": ["include/bss-util/BitStream.h: BitStream constructors, operator=, ~BitStream, Flush"]}
{"id": "C173", "title": "Stack is last in, first out", "statement": "After any sequence of Push, Pop, Peek, Discard, Clear, truncation and indexing that does not take from an empty stack, a Stack answers like a pile, holds the elements of the pile, and destroys each of them exactly once.", "quantifier": "all sequences, element types and array modes", "why_tests_cant": "sequences are unbounded, and Pop moves out of the element it then removes", "anchors": ["include/bss-util/Stack.h: Stack"]}
{"id": "C174", "title": "Numbers in INI entries", "statement": "An INIentry whose text is a number gives that number as integer (towards zero) and as nearest double; the conversion operators give the integer whenever it fits the type.", "quantifier": "all texts of integers, hexadecimal numbers and decimal fractions", "why_tests_cant": "three formats with unbounded digits; rounding", "anchors": ["bss-util/INIentry.cpp: Set", "include/bss-util/INIentry.h: INIentry"]}
{"id": "C175", "title": "INI values survive saving and loading", "statement": "Setting an entry from the text that SetInt or SetFloat stored gives the same integer and the same double.", "quantifier": "all 64 bit integers and all finite doubles", "why_tests_cant": "2^64 values of each type", "anchors": ["bss-util/INIentry.cpp: SetInt, SetFloat, Set"]}
{"id": "C176", "title": "Poisson disk samples keep their distance", "statement": "PoissonDiskSample ends, gives at least one point, all points lie in the rectangle, any two are at least mindist apart, and each but the first is less than twice mindist from an earlier one; it reads and writes only its own grid.", "quantifier": "all rectangles, distances, numbers of attempts and sequences of random numbers", "why_tests_cant": "the sequence of random numbers is unbounded, and a point is too near only by chance", "anchors": ["include/bss-util/RandomQueue.h: PoissonDiskSample"]}
{"id": "C177", "title": "Integer vectors work element by element", "statement": "On sseVeci8, sseVeci16, sseVeci and sseVeci64, + and - give each sum and difference modulo the width, & | ^ ~ act on each bit, and the comparisons give an element of ones where the signed elements stand in the relation and zeros elsewhere.", "quantifier": "all vectors of 128 bits and all elements", "why_tests_cant": "2^256 pairs of vectors", "anchors": ["include/bss-util/sseVec.h: sseVecT<char>, sseVecT<int16_t>, sseVecT<int32_t>, sseVecT<int64_t>"]}
{"id": "C178", "title": "Product, extrema, choice and sum of integer vectors", "statement": "On sseVeci, * gives each product modulo 2^32, min and max the smaller and larger signed elements, Shuffle the chosen elements, and Sum the sum modulo 2^32; on sseVeci64, Swap exchanges the elements and Sum adds them modulo 2^64.", "quantifier": "all vectors", "why_tests_cant": "the product is put together from two instructions that multiply every other element", "anchors": ["include/bss-util/sseVec.h: bss_mm_mul_epi32, bss_mm_min_epi32, bss_mm_max_epi32, Shuffle, Sum, Swap"]}
{"id": "C179", "title": "Shifts of integer vectors", "statement": "<< by n multiplies each element by 2^n modulo its width, >> by n divides each signed element by 2^n and rounds down, and shifting by a vector shifts each element by the element beside it.", "quantifier": "all vectors and amounts", "why_tests_cant": "tests with positive numbers and one amount do not see the sign or the elements mixed", "anchors": ["include/bss-util/sseVec.h: operator<<, operator>>"]}
{"id": "C180", "title": "floor and ceil of float vectors", "statement": "floor and ceil of a vector of floats give the largest whole number not above and the smallest not below each finite element.", "quantifier": "all finite floats", "why_tests_cant": "2^32 floats; whether a result is exact depends on the exponent", "anchors": ["include/bss-util/sseVec.h: bss_mm_floor_ps, bss_mm_ceil_ps"]}
{"id": "C181", "title": "Extrema, comparisons and sums of float and double vectors", "statement": "min and max give the smaller and larger of two numbers and the second operand if one is a NaN; comparisons give ones where they hold, and with a NaN only != holds; Sum of four floats is the rounded sum of the rounded sums of the first and last two, Sum of two doubles their rounded sum; Swap exchanges two doubles.", "quantifier": "all bit patterns of floats and doubles (sums: that do not overflow)", "why_tests_cant": "2^64 pairs of floats in each lane", "anchors": ["include/bss-util/sseVec.h: sseVecT<float>, sseVecT<double>, bss_mm_min_ps, bss_mm_max_ps, bss_mm_min_pd, bss_mm_max_pd"]}
{"id": "C182", "title": "Vectors without vector instructions", "statement": "Built without vector instructions, sseVeci8, sseVeci16, sseVeci and sseVeci64 give the results they give with them: for + - *, min and max, the comparisons, the operations on bits, shifts by a number, and shuffles.", "quantifier": "all vectors, widths and amounts", "why_tests_cant": "a test runs one of the two branches, never both in one program", "anchors": ["include/bss-util/sseVec.h: lines 17-262"]}
{"id": "C183", "title": "Copying and moving INI sections and storages", "statement": "A copy of an INIsection or an INIstorage finds the same values under the same names and instance numbers and in the same order, in nodes of its own, and the source is not changed; a storage that is moved by assignment has what the source had.", "quantifier": "all chains made by adding and removing, all values, whatever new memory holds", "why_tests_cant": "needs several instances of one name; the content of new memory is not under the control of a test", "anchors": ["bss-util/INIstorage.cpp: _copy, operator=", "bss-util/INIsection.cpp: _copy"]}
{"id": "C184", "title": "Path and name of an INI file", "statement": "An INIstorage splits the file name it is given so that path and name together are what was given, the name holds no / and no \\, and the path is empty or ends in one of these.", "quantifier": "all file names", "why_tests_cant": "the two separators can come in any order and number", "anchors": ["bss-util/INIstorage.cpp: _setFilePath"]}
{"id": "C185", "title": "Random subdivision of a rectangle", "statement": "StochasticSubdivider calls the function it is given with proper rectangles that tile the rectangle: each of its points lies in exactly one. It ends with at most 2^D of them when every branch ends at depth D.", "quantifier": "all rectangles, random engines and functions that choose a place in [0,1]", "why_tests_cant": "the tiling depends on the random numbers; integer coordinates go wrong for few of them", "anchors": ["include/bss-util/algo.h: StochasticSubdivider", "include/bss-util/bss_util.h: lerp"]}
{"id": "C186", "title": "Conversion between strings of char and char32_t", "statement": "A Str made from a text of char32_t holds its UTF-8 form, and a string of char32_t made from UTF-8 the characters, with and without a count of characters; bytes that are not UTF-8 do not make it throw.", "quantifier": "all texts, whatever spare capacity the string library keeps", "why_tests_cant": "unbounded texts; spare capacity is the choice of the string library", "anchors": ["include/bss-util/Str.h: _convStr, _convStr2, StrT constructors"]}
{"id": "C187", "title": "Circles with a centre", "statement": "The methods of a Circle answer for the circle around its centre: which points and circles it contains, whether it meets a circle, rect, line, ray or segment; the points reported by NearestPoint and the Intersect methods lie on the circle and are the nearest and the common points; Diameter is the largest distance within it.", "quantifier": "all circles with a positive radius, and all points, rects and lines", "why_tests_cant": "continuous; tests with a circle at the origin do not see that the centre is not added back", "anchors": ["include/bss-util/Geometry.h: NSphere<T, 2>"]}
{"id": "C188", "title": "Easing and interpolation of key frames", "statement": "With control points in the unit square the easing curve runs from 0 to 1 without turning back and takes every value; progress is 0 at the start, 1 at the end and in between otherwise; linear interpolation gives the values of the two frames at the ends and something between them otherwise. The derivatives and lengths given to the root search are those of the curves.", "quantifier": "all control points in the unit square, times in [0,1], frames", "why_tests_cant": "continuous; the search stops within a tolerance and its bracket hides a wrong derivative", "anchors": ["include/bss-util/Animation.h: AniCubicEasing, AniLinearData, AniQuadData, AniCubicData", "include/bss-util/algo.h: NewtonRaphsonBisection"]}
{"id": "C189", "title": "Stream buffers made from a function", "statement": "Characters written to a StreamBufFunction reach the derived class in order, none lost or doubled, and a block write reports how many were written; characters read come in the order the derived class supplies them, end of file comes exactly at their end, and a block read gives as many as asked for if there are that many.", "quantifier": "all texts, sequences of single and block writes and reads, and all derived classes that make room or supply more when asked", "why_tests_cant": "the derived class, its buffer size and the block sizes are arbitrary", "anchors": ["include/bss-util/stream.h: StreamBufFunction"]}
{"id": "C190", "title": "Fixed point numbers and floating point", "statement": "A fixed point number converts to the nearest float or double, and back to itself if it has few enough digits; a float or double in range converts to the next fixed point number towards zero.", "quantifier": "all fixed point formats, all values, every floating point precision, rounding to nearest even", "why_tests_cant": "the rounding of the two conversions and of the division meets only for particular digits", "anchors": ["include/bss-util/FixedPt.h: FixedPt constructors, operator float, operator double"]}
{"id": "C191", "title": "Checking, moving and destroying a red-black tree", "statement": "DEBUGVERIFY is positive exactly when the tree is red-black with its nodes linked both ways, and every tree passes it, also after a move; the destructor gives back every node once to the allocator it came from; after a move the target holds the elements, and the source is empty and can be used and destroyed.", "quantifier": "all trees built by any sequence of operations, all comparators that are total preorders, allocators with and without a policy", "why_tests_cant": "undefined behaviour of the moved-from tree need not show; needs allocators that check", "anchors": ["include/bss-util/TRBtree.h: DEBUGVERIFY, constructors, operator=, Clear, destructor", "include/bss-util/Alloc.h: PolymorphicAllocator"]}
{"id": "C192", "title": "Length of the lock-free queues", "statement": "When no push or pop is under way the length is the number of queued items; while some are, it is off by at most their number.", "quantifier": "all schedules of any number of threads", "why_tests_cant": "needs a pop between two instructions of a push", "anchors": ["include/bss-util/LocklessQueue.h: LocklessQueue_Length, Push, Pop"]}
{"id": "C193", "title": "Bit masks and integer limits", "statement": "GetBitMask gives the mask of the bits from low to high, positions below 0 counting from the left end; bssSetBit changes the bits of the mask only; bssGetBit reads one bit of an array; tsign and bssNegate give signs and negation; BitLimit gives the range of integers of any number of bits.", "quantifier": "all positions, words and arrays, types of 8, 16, 32 and 64 bits, 1 to 128 bits for the limits", "why_tests_cant": "the wrong positions and widths are few", "anchors": ["include/bss-util/bss_util.h: GetBitMask, bssSetBit, bssGetBit, tsign, tsignzero, bssNegate, BitLimit", "include/bss-util/defines.h: T_GETBIT, T_GETBITRANGE, T_CHARGETMSB"]}
{"id": "C194", "title": "Arrays with an element size chosen at run time", "statement": "An ArbitraryArray is the list of its elements: Add appends, Remove removes one, SetElement with data replaces them, SetElement with a size cuts each or fills it up with zeros, SetLength keeps the first ones, copies are equal; Get reads an element. No call within the bounds touches memory outside of the array.", "quantifier": "all element sizes above 0, all contents, all sequences of operations", "why_tests_cant": "needs an element size that does not divide the memory left by another one", "anchors": ["include/bss-util/DynArray.h: ArbitraryArray"]}
{"id": "C195", "title": "Copying and moving alias tables", "statement": "A copy of an AliasTable draws the same numbers as the table, and so does the target of a move; assigning a table to itself changes nothing.", "quantifier": "all tables, all sizes of the index type and of the probabilities, all draws", "why_tests_cant": "with 32-bit indices and float the sizes agree by accident; reading memory that was not written need not show", "anchors": ["include/bss-util/AliasTable.h: constructors, operator="]}
{"id": "C196", "title": "Copying and moving XML nodes", "statement": "A copy of an XMLNode has the name, the value, the attributes and the children of the node; an assignment makes the target such a copy; a move gives the target the tree and leaves the source without attributes and children; every node can be destroyed.", "quantifier": "all trees of nodes", "why_tests_cant": "a debug build stops at an assertion, a release build reads memory that holds no object", "anchors": ["bss-util/XML.cpp: XMLNode constructors, operator=, AddNode", "include/bss-util/Array.h: ArrayBase::_copy for ARRAY_MOVE"]}
{"id": "C197", "title": "Joining a thread with a timeout, and semaphores", "statement": "Thread::join with a timeout returns the value of the thread as soon as it ends, or reports the timeout after that many milliseconds and not before; the destructor waits for the thread. A Semaphore lets as many waits pass as there were notifications, and loses none.", "quantifier": "all times of the clock, all timeouts, all threads; all sequences of notifications and waits", "why_tests_cant": "whether it fails depends on the nanoseconds of the clock at the call", "anchors": ["include/bss-util/Thread.h: Thread::join, ~Thread, Semaphore"]}
{"id": "C198", "title": "Delegates and deferred calls", "statement": "A Delegate calls the function it was made from with its object and the arguments, and so does a copy; IsEmpty says exactly whether it cannot be called; deferred calls are made once each at the end of the block, the last one first.", "quantifier": "all functions, objects, arguments and numbers of deferred calls", "why_tests_cant": "quantifies over the functions that are called", "anchors": ["include/bss-util/Delegate.h: Delegate, StoreFunction, StoreDelegate, DeferFunction, defer"]}
{"id": "C199", "title": "Destroying and moving thread pools; futures", "statement": "The destructor of a ThreadPool returns, after its workers have ended; a pool can be moved, and the tasks of the new pool are then run and it can be destroyed; a Future has no result before its function has run.", "quantifier": "all numbers of threads, tasks and all schedules", "why_tests_cant": "needs every schedule, and a pool that moves while its workers refer to it", "anchors": ["include/bss-util/ThreadPool.h: ThreadPool constructors, ~ThreadPool, Future"]}
{"id": "C200", "title": "Moving and assigning allocators", "statement": "However block, greedy and ring allocators are created, used, cleared, moved, assigned and destroyed, every chunk of memory is held by one allocator, none is given back twice, and when the last allocator is destroyed all are given back; a move or assignment hands all chunks over; an allocator that was moved from can be used.", "quantifier": "all sequences of operations on any number of allocators", "why_tests_cant": "a leak does not show, and needs an assignment to an allocator in use", "anchors": ["include/bss-util/BlockAlloc.h: BlockAlloc constructors, operator=, Clear", "include/bss-util/BlockAllocMT.h: LocklessBlockPolicy constructors, operator=", "include/bss-util/GreedyAlloc.h: GreedyAlloc constructors, operator=, Clear", "include/bss-util/RingAlloc.h: RingAllocVoid constructors, operator=, Clear"]}
{"id": "C201", "title": "The standard hash and equality of keys", "statement": "Keys that are equal have the same hash, for integers, floating point numbers, strings and tuples of them, with and without regard to case; keys are equal exactly if they have the same value; different integers of up to 32 bits have different hashes.", "quantifier": "all keys of all nested tuple types", "why_tests_cant": "an unequal hash of equal keys shows only for particular values; injectivity needs all pairs", "anchors": ["include/bss-util/Hash.h: KH_INT_HASH, KH_MULTI_HASH, KH_MULTI_EQUAL, KH_AUTO_HASH, KH_AUTO_EQUAL", "include/bss-util/khash.h: kh_int64_hash_func, __ac_Wang_hash"]}
{"id": "C202", "title": "Measures of polygons, triangles, lines and spheres", "statement": "Centring a polygon moves it as a whole so that its centre of mass is at the origin, keeping its area, its convexity and the points inside; the area of a triangle does not depend on which corner comes first or where it lies; the point at s of a line in any number of dimensions is at |s| times its length from one end and |1-s| times from the other; the volume of a sphere is the integral of its sections and its surface the derivative of the volume.", "quantifier": "all polygons with an area, triangles, lines of all dimensions, parameters and radii", "why_tests_cant": "geometric identities over all reals; the centre depends on memory the function never sets", "anchors": ["include/bss-util/Geometry.h: Polygon::CenterPolygon, Triangle::Area, LineN::Length, LineN::ParametricPoint, Sphere::Volume, Sphere::SurfaceArea"]}
{"id": "C203", "title": "Queues that are moved and destroyed", "statement": "Whatever a program does with MicroLockQueue objects that it creates, fills, empties, moves into new or existing ones and destroys: items come out of the queue they were moved to in the order they were pushed, lengths are right, no node is touched after it was freed, and every node is freed when all queues are gone.", "quantifier": "all sequences of operations on any number of queues with any items", "why_tests_cant": "leaks and uses after a free show no difference in values; the interleavings of moves and pushes are unbounded", "anchors": ["include/bss-util/LocklessQueue.h: MicroLockQueue (constructors, destructor, Push, Pop, Peek, operator=), LocklessQueue_Length"]}
{"id": "C204", "title": "Division, reciprocal and shifts of fixed point numbers", "statement": "The quotient of two 64-bit fixed point numbers is right up to two units in the last place; the reciprocal up to four; shifts multiply and divide by powers of two.", "quantifier": "all numbers, all positions of the point, all widths", "why_tests_cant": "the error depends on the sizes of both operands; 2^128 pairs", "anchors": ["include/bss-util/FixedPt.h: fixedpt_recip, fixedpt_div<int64_t>, Fixed::Reciprocal, Fixed::operator<<, Fixed::operator>>"]}
{"id": "C205", "title": "Iterators of linked lists", "statement": "An iterator of a LinkedList visits every item from its place to the end in order, and backwards by --; a loop that removes items with Remove(iter++) looks at every item once and leaves exactly the others in their order; the end can be decremented, and an iterator is usable after Remove was given it.", "quantifier": "all lists, all starting places, all tests on the items", "why_tests_cant": "which nodes are removed around the iterator has exponentially many cases; a use after a free may go unnoticed", "anchors": ["include/bss-util/LinkedList.h: LLIter, LinkedList::begin, LinkedList::end, LinkedList::Front, LinkedList::Back, LinkedList::Remove"]}
{"id": "C206", "title": "The nearest point of an ellipse", "statement": "The nearest point of an ellipse to a point of it is that point; to any other point it is a point of the border that no point of the ellipse is nearer than. An ellipse and a circle collide exactly if a point of the ellipse is inside the circle. The member of an ellipse gives a point of that ellipse, wherever its centre is.", "quantifier": "all half axes, centres, points and radii, as real numbers", "why_tests_cant": "the quantities are continuous, and where Newton's method converges is not visible in samples", "anchors": ["include/bss-util/Collision.h: EllipseNearestPoint, EllipseCircleCollide", "include/bss-util/Geometry.h: Ellipse::NearestPoint, Ellipse::CircleCollide"]}
{"id": "C207", "title": "Iterators and moves of linked arrays", "statement": "An iterator of a LinkedArray visits every item from its place to the end in order, and backwards by --; a loop that removes items with (i++).Remove() looks at every item once and leaves exactly the others with their indices; the end can be decremented. The move assignment gives the array the items and indices of the other one, which is empty or usable after.", "quantifier": "all arrays any operations lead to, all starting places, all tests on the items", "why_tests_cant": "which nodes are removed around the iterator has exponentially many cases; an index into memory that was given away may go unnoticed", "anchors": ["include/bss-util/LinkedArray.h: LinkedArray::cLAIter, LinkedArray::begin, LinkedArray::end, LinkedArray::operator="]}
{"id": "C208", "title": "Iterators, serialisation and moves of circular arrays", "statement": "The iterators of an ArrayCircular visit every item once, the newest first, and backwards from the end the oldest first. Pairs that are read are pushed in their order; an array written and read again is the same. The move constructor gives the new array the items and capacity, and the other is empty and can be used again.", "quantifier": "all arrays any operations lead to, all kinds of items, all capacities", "why_tests_cant": "where the items wrap around the end of the memory has many cases; that an order is turned around is not seen with one item or equal items", "anchors": ["include/bss-util/ArrayCircular.h: ArrayCircular::CircularIterator, ArrayCircular::begin, ArrayCircular::end, ArrayCircular::Serialize, ArrayCircular::_serializeInsert", "include/bss-util/Serializer.h: Serializer::EvaluateKeyValue"]}
{"id": "C209", "title": "Nodes of a graph by index", "statement": "The nodes a Graph is built from get the indices 0, 1, 2, ... in order. GetNode gives the node of every index that AddNode or the constructor gave out and that was not removed, and null for every other index; its result is always within the memory of the graph.", "quantifier": "all graphs any additions and removals lead to, all indices", "why_tests_cant": "the indices in use depend on the whole history of additions and removals", "anchors": ["include/bss-util/Graph.h: Graph::GetNode, Graph::AddNode, Graph::RemoveNode, Graph::NumNodes, Graph::Graph", "include/bss-util/LinkedArray.h: LinkedArray::Length"]}
{"id": "C210", "title": "Clearing, destroying and traversing an AA tree", "statement": "Destroying an AATree releases each of its nodes and the sentinel exactly once and nothing else. Clear releases each node exactly once, after which the tree is empty and can be used and destroyed. Get gives a node whose item equals the one looked for, and null exactly if there is none. Traverse visits the items of all nodes from left to right and ends.", "quantifier": "all trees with distinct nodes, all comparisons", "why_tests_cant": "a node that is released twice or read after its release goes unnoticed with a block allocator", "anchors": ["include/bss-util/AATree.h: AATree::Clear, AATree::~AATree, AATree::IsEmpty, AATree::GetRoot, AATree::Get, AATree::Traverse"]}
{"id": "C211", "title": "Arrays of variable length", "statement": "VARARRAY(T, a, n) makes an array of n elements: its length is n, all elements lie within its memory, and each of them is constructed. It is on the heap exactly if it takes more than 65535 bytes. At the end of its scope every element is destroyed exactly once, and its memory is freed exactly if it is on the heap. A number of elements that cannot be had is refused.", "quantifier": "all lengths, all element sizes, trivial and other types, whether malloc succeeds or not", "why_tests_cant": "the size wraps around only for lengths no test uses, and malloc does not fail in tests", "anchors": ["include/bss-util/Array.h: VARARRAY, internal::VariableArray"]}
