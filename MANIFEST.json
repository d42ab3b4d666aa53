{
 "claims": [
  {
   "property": "C01",
   "status": "proved",
   "theorems": [
    "C01_bssMod_euclidean",
    "C01_IntDiv_floor"
   ],
   "note": "All signed widths, all x, all positive moduli; no overflow."
  },
  {
   "property": "C02",
   "status": "proved",
   "theorems": [
    "C02_NextPow2"
   ],
   "note": "8, 16, 32 and 64 bit overloads, every argument."
  },
  {
   "property": "C03",
   "status": "proved",
   "theorems": [
    "C03_BitCount"
   ],
   "note": "Unsigned 8 to 128 bits."
  },
  {
   "property": "C04",
   "status": "proved",
   "theorems": [
    "C04_FlipEndian_reverses",
    "C04_FlipEndianT_reverses",
    "C04_FlipEndian_involutive"
   ],
   "note": "Any block up to 255 bytes inside any memory."
  },
  {
   "property": "C05",
   "status": "partial",
   "theorems": [
    "C05_IntFastSqrt_partial",
    "C05_IntFastSqrt_refuted"
   ],
   "note": "Holds for 8/16/32 bits and 64-bit arguments below 2^60; false for larger 64-bit arguments because 2<<i is computed in int."
  },
  {
   "property": "C06",
   "status": "proved",
   "theorems": [
    "C06_MultiplyExtract_unsigned",
    "C06_MultiplyExtract_signed",
    "C06_shift_zero_undefined"
   ],
   "note": "Any even width; shift 0 executes an undefined full-width shift and the minimum signed value overflows in bssAbs, both excluded in the property."
  },
  {
   "property": "C07",
   "status": "proved",
   "theorems": [
    "C07_DaysFromCivil_calendar",
    "C07_DaysFromCivil_order",
    "C07_DaysFromCivil_onto"
   ],
   "note": "All years over unbounded integers."
  },
  {
   "property": "C08",
   "status": "proved",
   "theorems": [
    "C08_fbnext_grows",
    "C08_nextmultiple_least",
    "C08_AlignSize_least"
   ],
   "note": "Absent wrap-around, stated as a hypothesis."
  },
  {
   "property": "C09",
   "status": "partial",
   "theorems": [
    "C09_bssLog2_partial",
    "C09_bssLog2_gcc64_refuted"
   ],
   "note": "All portable versions and the 32-bit GCC version are correct; the 64-bit GCC version is wrong (uses the 32-bit builtin)."
  },
  {
   "property": "C61",
   "status": "proved",
   "theorems": [
    "C61_ByteSearch_first"
   ],
   "note": ""
  },
  {
   "property": "C62",
   "status": "partial",
   "theorems": [
    "C62_OutputUnicode_partial",
    "C62_OutputUnicode_refuted"
   ],
   "note": "Correct for every scalar value except U+10FFFF, which is dropped."
  },
  {
   "property": "C10",
   "status": "proved",
   "theorems": [
    "C10_Base64_roundtrip",
    "C10_Base64_injective",
    "C10_Base64_standard"
   ],
   "note": "All byte strings; also that the text is the standard url-safe base-64 form."
  },
  {
   "property": "C11",
   "status": "proved",
   "theorems": [
    "C11_Base64Decode_total",
    "C11_Base64Decode_exact"
   ],
   "note": "All texts of all lengths."
  },
  {
   "property": "C18",
   "status": "proved",
   "theorems": [
    "C18_BinarySearchAfter_lower_bound",
    "C18_BinarySearchBefore_upper_bound",
    "C18_BinarySearchExact_found_iff"
   ],
   "note": "Any subrange of any array, any total preorder returning -1/0/1."
  },
  {
   "property": "C19",
   "status": "proved",
   "theorems": [
    "C19_ArraySort_sorted_multiset",
    "C19_ArraySort_total",
    "C19_ArraySort_reported_index",
    "C19_ArraySort_Find_iff"
   ],
   "note": "All operation histories."
  },
  {
   "property": "C20",
   "status": "proved",
   "theorems": [
    "C20_Map_sorted_pairs",
    "C20_Map_total",
    "C20_Map_Get_iff",
    "C20_Map_finite_map"
   ],
   "note": "All operation histories."
  },
  {
   "property": "C21",
   "status": "proved",
   "theorems": [
    "C21_BinaryHeap_histories",
    "C21_BinaryHeap_total",
    "C21_BinaryHeap_peek_max",
    "C21_BinaryHeap_drain"
   ],
   "note": "All operation histories (Remove of the root only; other indices are C23), any total preorder."
  },
  {
   "property": "C22",
   "status": "proved",
   "theorems": [
    "C22_HeapSort_sorts",
    "C22_Heapify_heap"
   ],
   "note": ""
  },
  {
   "property": "C23",
   "status": "partial",
   "theorems": [
    "C23_Remove_multiset",
    "C23_Remove_order_partial",
    "C23_Remove_order_refuted"
   ],
   "note": "The right element is always removed; the heap order can break because Remove never percolates up (witness given)."
  },
  {
   "property": "C24",
   "status": "proved",
   "theorems": [
    "C24_PriorityHeap_Get",
    "C24_PriorityHeap_total",
    "C24_PriorityHeap_order",
    "C24_stale_key_aliases"
   ],
   "note": "All histories over live keys; C24_stale_key_aliases shows why liveness is needed."
  },
  {
   "property": "C12",
   "status": "proved",
   "theorems": [
    "C12_UTF8_roundtrip"
   ],
   "note": "All texts, negative or explicit length reaching the terminator, any memory behind it."
  },
  {
   "property": "C13",
   "status": "proved",
   "theorems": [
    "C13_UTF16_roundtrip"
   ],
   "note": "The size announced by UTF16toUTF32 is the number of 16-bit units, an upper bound on the code points."
  },
  {
   "property": "C14",
   "status": "partial",
   "theorems": [
    "C14_UTF8toUTF32_safe_partial",
    "C14_UTF32toUTF8_safe_partial",
    "C14_UTF32toUTF16_safe_partial",
    "C14_UTF16toUTF32_safe",
    "C14_overread_refuted"
   ],
   "note": "Termination, buffer bounds and scalar output hold for every input; read bounds hold for UTF16toUTF32, and for the other three only when a terminator or one further readable unit exists: their counting loop always reads one unit past an unterminated source."
  },
  {
   "property": "C15",
   "status": "proved",
   "theorems": [
    "C15_Write_concatenation",
    "C15_roundtrip",
    "C15_roundtrip_values",
    "C15_dirty_destination"
   ],
   "note": "All write sequences of all widths; the zeroed destination is shown to be needed."
  },
  {
   "property": "C17",
   "status": "proved",
   "theorems": [
    "C17_itoa_r_reads_back",
    "C17_itoa_r_in_bounds",
    "C17_int_min_undefined"
   ],
   "note": "All ints but INT_MIN (whose negation overflows), radix 2 to 36, all buffer sizes."
  },
  {
   "property": "C25",
   "status": "proved",
   "theorems": [
    "C25_DynArray_list",
    "C25_DynArray_access",
    "C25_DynArray_Add_index",
    "C25_DynArray_plus_copy_destroy"
   ],
   "note": "All four storage modes, with object lifetimes; items passed by value, self-assignment excluded."
  },
  {
   "property": "C26",
   "status": "partial",
   "theorems": [
    "C26_DynArrayBool_list_partial",
    "C26_DynArrayBool_read",
    "C26_CountBits",
    "C26_Insert_refuted",
    "C26_AddConstruct_refuted"
   ],
   "note": "Everything but Insert more than one byte before the end, whose carry is wrong in the code (refuted); AddConstruct writes out of bounds (refuted)."
  },
  {
   "property": "C27",
   "status": "proved",
   "theorems": [
    "C27_ArrayCircular_deque",
    "C27_ArrayCircular_destructor",
    "C27_Queue_total",
    "C27_Queue_fifo"
   ],
   "note": "All storage modes with object lifetimes, all capacities and histories; assignment between distinct objects; Queue::Discard for plain data only."
  },
  {
   "property": "C28",
   "status": "proved",
   "theorems": [
    "C28_CompactArray_list",
    "C28_initializer_list_refuted",
    "C28_SetCapacity_refuted"
   ],
   "note": "Any inline size; also copy and move assignment, Set and element assignment. The initializer-list constructor and an explicit SetCapacity below the length, outside the statement, are shown to be wrong."
  },
  {
   "property": "C29",
   "status": "proved",
   "theorems": [
    "C29_LinkedArray_list",
    "C29_LinkedArray_new",
    "C29_LinkedArray_reuse"
   ],
   "note": "Also Put, SetCapacity and copy assignment. Indices are unbounded, so the sentinel (CT_)-1 is never a node. Move construction and move assignment are not modelled (the move constructor does not compile when instantiated)."
  },
  {
   "property": "C30",
   "status": "proved",
   "theorems": [
    "C30_LLInsert",
    "C30_LLInsertAfter",
    "C30_LLAdd",
    "C30_LLAddAfter",
    "C30_LLRemove"
   ],
   "note": "Every overload in LLBase.h. No pointer other than those of the list and the node changes, and every other well-formed list of the heap is kept."
  },
  {
   "property": "C31",
   "status": "proved",
   "theorems": [
    "C31_AVLTree_map",
    "C31_ReplaceKey_refuted"
   ],
   "note": "Any comparator with results -1, 0, 1 that is a total preorder. Enumeration is in descending comparator order (smaller comparisons go left). ReplaceKey is specified as the code behaves; that it is not a pure renaming (existing target, absent source) is shown separately."
  },
  {
   "property": "C32",
   "status": "proved",
   "theorems": [
    "C32_AVLTree_balanced",
    "C32_AVLTree_height"
   ],
   "note": "Height bound stated as 2^(20 h) <= (n+1)^29, i.e. h <= 1.45 log2(n+1), slightly stronger than the claim."
  },
  {
   "property": "C33",
   "status": "partial",
   "theorems": [
    "C33_AATree_multiset_partial",
    "C33_AATree_levels",
    "C33_Remove_refuted"
   ],
   "note": "The level invariants and the height bound hold in every reachable state. The multiset theorem excludes one call: a Remove below every stored element before any Remove that met an element at or below its argument, which reads the uninitialised _deleted (refuted)."
  },
  {
   "property": "C34",
   "status": "proved",
   "theorems": [
    "C34_TRBtree_sorted_sequence",
    "C34_TRBtree_red_black",
    "C34_GetNear_before",
    "C34_GetNear_after_refuted"
   ],
   "note": "Insert, Remove and RemoveNode with duplicates. Parent pointers and the shared NIL node are represented by a zipper. GetNear(x, before) is proved; GetNear(x, after) is refuted when duplicates exist (not part of the property)."
  },
  {
   "property": "C35",
   "status": "proved",
   "theorems": [
    "C35_Hash_map",
    "C35_Hash_copy"
   ],
   "note": "keys and vals are modelled as one array of slots; allocation does not fail; Insert is covered while Length < 2^30 (above that kroundup32 wraps to 0). Self-assignment and the move operations are not modelled."
  },
  {
   "property": "C36",
   "status": "proved",
   "theorems": [
    "C36_probe_permutation",
    "C36_Hash_terminates"
   ],
   "note": "n_buckets is 2^k with 2 <= k <= 31 in every reachable table and one bucket is always empty."
  },
  {
   "property": "C37",
   "status": "proved",
   "theorems": [
    "C37_hash_value",
    "C37_insensitive",
    "C37_sensitive",
    "C37_consistent"
   ],
   "note": "strcmp and strcasecmp are modelled by their documented behaviour (C locale); the wchar_t variants are not modelled."
  },
  {
   "property": "C38",
   "status": "proved",
   "theorems": [
    "C38_DisjointSet",
    "C38_Union_self_refuted",
    "C38_AddSets_refuted"
   ],
   "note": "Any sequence of Union (of different arguments; refused if not set names), Find, NumElements, GetElements and Reset. Union(x,x) and AddSets, outside the statement, are shown to break the structure."
  },
  {
   "property": "C39",
   "status": "proved",
   "theorems": [
    "C39_MinSpanningTree"
   ],
   "note": "Weights are any integers; parallel edges and loops allowed; unconnected graphs give a forest."
  },
  {
   "property": "C49",
   "status": "proved",
   "theorems": [
    "C49_exact",
    "C49_equality"
   ],
   "note": "Unbounded integers (no overflow). Expressions over every arithmetic operator, ++, --, Abs, with Rational or integer operands on either side; a Rational aliasing its own operand is covered since the operands are copied first."
  },
  {
   "property": "C50",
   "status": "proved",
   "theorems": [
    "C50_compare"
   ],
   "note": "Both argument orders. The comparisons between two Rationals go through double and are not claimed."
  },
  {
   "property": "C51",
   "status": "partial",
   "theorems": [
    "C51_ref_ptr_partial",
    "C51_self_assignment_refuted"
   ],
   "note": "All operations except assigning to the only ref_ptr of an object that same object (self-assignment), where the code drops before it grabs and touches the destroyed object (refuted). Objects that hold ref_ptrs themselves are not modelled."
  },
  {
   "property": "C52",
   "status": "partial",
   "theorems": [
    "C52_OwnerPtr_partial",
    "C52_move_assign_refuted"
   ],
   "note": "All operations except move assignment from another OwnerPtr that is not an owner: the code makes the target an owner and the object is deleted twice (refuted)."
  },
  {
   "property": "C54",
   "status": "proved",
   "theorems": [
    "C54_xorshift64",
    "C54_xorshift1024",
    "C54_xorshift1024_bijective",
    "C54_zero_seed_refuted"
   ],
   "note": "Every state, not a bounded run. The precondition (a state not all zero) can be missed by the library itself: seeding from 0, which seed() from random_device may draw, and an unseeded XorshiftRand give zeros for ever; shown separately as a refuted corner."
  },
  {
   "property": "C55",
   "status": "proved",
   "theorems": [
    "C55_Shuffle",
    "C55_RandomQueue"
   ],
   "note": "The random source is any function returning an index below its bound; that bssrand does so is not claimed."
  },
  {
   "property": "C53",
   "status": "proved",
   "theorems": [
    "C53_AliasTable"
   ],
   "note": "Rational arithmetic in place of double; the copy operations (which copy too few bytes of the probabilities) are not modelled."
  },
  {
   "property": "C59",
   "status": "partial",
   "theorems": [
    "C59_add_sub",
    "C59_same_scale",
    "C59_mul",
    "C59_div",
    "C59_int",
    "C59_add_exact_refuted",
    "C59_convert_refuted"
   ],
   "note": "Every width and scale. Same-scale addition, subtraction and comparison are exact, * is the floor and / truncates, as claimed. Between scales + and - give the floor at the left scale, which is exact exactly when the result is representable there; exactness as stated in full is refuted. Separately, converting between scales is shown to shift in the wrong direction. 64-bit division is not modelled."
  },
  {
   "property": "C48",
   "status": "partial",
   "theorems": [
    "C48_StringTable_partial",
    "C48_self_add_refuted",
    "C48_stream_first_empty_refuted",
    "C48_append_to_empty_refuted"
   ],
   "note": "Construction, GetString, AppendString, += of another table, and writing out and reading back. Missing: t += t, which writes past the buffer (refuted). Also refuted: reading back a table whose first string is empty, and appending to an empty table."
  },
  {
   "property": "C47",
   "status": "partial",
   "theorems": [
    "C47_Trie_partial",
    "C47_stored_word_found_partial",
    "C47_high_bytes_refuted",
    "C47_no_words_refuted"
   ],
   "note": "Proved for all non-empty lists of distinct words of 7-bit characters, both values of IGNORECASE, Get with and without a length. The statement fails for words with bytes of 128 and more: _construct sorts with strcmp (unsigned characters) but _CompTNode compares signed characters, so the binary search misses stored words; and an empty list of words reads str[0] out of bounds. Both are refuted by witnesses."
  },
  {
   "property": "C57",
   "status": "partial",
   "theorems": [
    "C57_Scheduler_partial",
    "C57_calls_in_time_order",
    "C57_last_event_refuted",
    "C57_negative_refuted"
   ],
   "note": "Any sequence of Add and Update, with events that return 0 or a positive delay and act on an arbitrary world. Update does what is stated until one leaves no event pending: its loop then peeks into the empty heap (refuted). An event that returns a negative number is called for ever by the same Update (refuted). Times are integers; events that call their own scheduler are not modelled."
  },
  {
   "property": "C58",
   "status": "partial",
   "theorems": [
    "C58_operations",
    "C58_ToMatrix_partial",
    "C58_from_matrix_partial",
    "C58_round_trip_partial",
    "C58_garbage_refuted",
    "C58_vertices_refuted"
   ],
   "note": "AddNode, AddEdge, RemoveEdge, RemoveNode and the destructor change exactly the nodes and edges concerned, NumEdges is exact (C58_operations). A graph made from a matrix has exactly its edges, and ToMatrix reproduces the matrix in an array that agrees with it where there is no edge. In general ToMatrix does not: entries without an edge keep what the array held (C58_garbage_refuted), and after RemoveNode vertex data goes to the raw index, past the end of an array with one element per node (C58_vertices_refuted). Not modelled: the flow and search algorithms of Graph.h."
  },
  {
   "property": "C44",
   "status": "proved",
   "theorems": [
    "C44_blocks",
    "C44_Alloc",
    "C44_recycle",
    "C44_Clear"
   ],
   "note": "BlockAlloc with the free list stored inside the blocks. The corner where Clear itself cannot get memory and a later Alloc dereferences a null root (C44_clear_without_memory_refuted) is outside the statement, which assumes the system allocator succeeds."
  },
  {
   "property": "C40",
   "status": "proved",
   "theorems": [
    "C40_exclusion",
    "C40_word_zero",
    "C40_word"
   ],
   "note": "Any number n < 2^63 of threads, any interleaving of the atomic accesses; sequential consistency is assumed (memory orders are not modelled)."
  },
  {
   "property": "C45",
   "status": "proved",
   "theorems": [
    "C45_GreedyBlockPolicy",
    "C45_GreedyAlloc",
    "C45_GreedyAlloc_size"
   ],
   "note": "GreedyAlloc: any number of threads (< 2^63), any interleaving of the atomic accesses of Alloc, Clear and the lock, under sequential consistency; regions are those chosen since the last Clear. Sizes are unbounded numbers: a request near 2^64 bytes, whose position would wrap around, is outside the model."
  },
  {
   "property": "C43",
   "status": "proved",
   "theorems": [
    "C43_partition",
    "C43_live",
    "C43_allocate",
    "C43_none_lost",
    "C43_safe"
   ],
   "note": "Any number of threads, any interleaving of the accesses to the free list, the flag and the blocks, with arbitrary writes by the owners to live blocks and a stale read of a live block's first word allowed; the tag is unbounded as stated and sequential consistency is assumed. A chunk has at least one block: the constructor with init = 0 writes past the end of its chunk (C43_empty_refuted)."
  },
  {
   "property": "C41",
   "status": "proved",
   "theorems": [
    "C41_fifo",
    "C41_empty",
    "C41_pop",
    "C41_safe"
   ],
   "note": "Any interleaving of the accesses of one producer and one consumer, any addresses from the allocator; the node memory is modelled, with access to an unallocated node and reuse of a moved-from item as undefined behaviour. Sequential consistency is assumed: the relaxed loads of _last (line 80) and _div (line 114) are modelled as ordinary loads. The optional length counter, the destructor and the move operations are not modelled."
  },
  {
   "property": "C42",
   "status": "partial",
   "theorems": [
    "C42_fifo",
    "C42_once",
    "C42_pop",
    "C42_safe",
    "C42_fail_locked",
    "C42_fail_partial",
    "C42_fail_one_consumer_partial",
    "C42_spurious_failure_refuted"
   ],
   "note": "Any number of threads and any interleaving: popped values are a prefix of the pushed ones, none is returned twice, invented or lost, no undefined behaviour, a Pop that fails under the lock saw an empty queue, and with one consumer every failing Pop did. The remaining part of the statement is false of the code: with two consumers, the unlocked test at line 171 can read the free-list link of a node another thread has just freed and report an empty queue although it always held values (C42_spurious_failure_refuted). Sequential consistency is assumed; allocate and deallocate are one step each (C43)."
  },
  {
   "property": "C46",
   "status": "proved",
   "theorems": [
    "C46_once",
    "C46_zero",
    "C46_wait",
    "C46_counted_kept",
    "C46_push_counted",
    "C46_destructor"
   ],
   "note": "Any number of users and workers, any interleaving of the accesses to the queue, the counters and the semaphore, tasks that add tasks, AddThreads and the destructor; Pop may fail at any time, which covers C42. Also proved: when the destructor returns every worker has left its loop. A Wait with an unfinished task and no worker never returns (C46_wait_without_workers_refuted), which the statement does not exclude. Not modelled: Wait called by a task, the move constructor, AddFunc and its allocator."
  },
  {
   "property": "C60",
   "status": "partial",
   "theorems": [
    "C60_pair_partial",
    "C60_section_partial",
    "C60_comment",
    "C60_ends",
    "C60_file_partial",
    "C60_blank_value_refuted",
    "C60_high_byte_refuted",
    "C60_last_section_refuted"
   ],
   "note": "Proved for ASCII texts: keys, values and section names with a printable character (blank values too when the value buffer has two bytes), any comment, lines shorter than the buffer, single lines and whole files. The rest is false of the code: a blank value makes a new parser write one byte past its buffer, trailing bytes above 127 are trimmed from keys, values and names, and a section on the last, newline-terminated line is reported twice."
  },
  {
   "property": "C16",
   "status": "proved",
   "theorems": [
    "C16_roundtrip",
    "C16_injective",
    "C16_sequence",
    "C16_zero_width_at_end_refuted",
    "C16_noop_refuted"
   ],
   "note": "UBJSONTuple Write and Parse over a byte stream with end-of-file and failure. The two corners the statement excludes are shown to fail by the two _refuted theorems. Floats are bit patterns."
  },
  {
   "property": "C56",
   "status": "proved",
   "theorems": [
    "C56_query",
    "C56_safe",
    "C56_sound",
    "C56_inserts",
    "C56_rebalance_refuted"
   ],
   "note": "KDTree Insert, Remove, Rebalance and the traversals, with an arbitrary rounding of the dividing lines. C56_query is the statement (histories without a rebalance); C56_safe and C56_sound hold with rebalancing too, and C56_inserts shows that a threshold of 100 or more never rebalances on insertion. After a rebalance a stored item can be missed (C56_rebalance_refuted): the 'else continue' of lines 242-246 belongs to the last test only."
  },
  {
   "property": "C63",
   "status": "proved",
   "theorems": [
    "C63_UTF8_longest_prefix",
    "C63_UTF8_accepts_exactly_well_formed"
   ],
   "note": "UTF8toUTF32 on arbitrary bytes. With an explicit length and no terminator inside it one more unit behind the source must be readable (see C14)."
  },
  {
   "property": "C64",
   "status": "partial",
   "theorems": [
    "C64_UTF32toUTF16_replaces",
    "C64_UTF32toUTF8_replaces_partial",
    "C64_UTF32toUTF8_surrogate_refuted"
   ],
   "note": "Proved in full for UTF32toUTF16. UTF32toUTF8 replaces values above U+10FFFF but encodes surrogates as three-byte sequences: on every source with a surrogate its output is not well-formed (the _refuted theorem); without surrogates the statement is proved."
  },
  {
   "property": "C65",
   "status": "proved",
   "theorems": [
    "C65_UTF16_lossless"
   ],
   "note": "UTF16toUTF32 on arbitrary 16-bit units, negative or explicit length."
  },
  {
   "property": "C66",
   "status": "proved",
   "theorems": [
    "C66_Dual_derivatives",
    "C66_derivative_unique"
   ],
   "note": "All operators of Dual over the real numbers of the standard library (whose axioms Print Assumptions lists); floating point rounding is not modelled."
  },
  {
   "property": "C67",
   "status": "proved",
   "theorems": [
    "C67_JSON_round_trip",
    "C67_unrestricted_refuted"
   ],
   "note": "A double is represented by its printed text (the loss of precision in printing is not modelled). C67_unrestricted_refuted shows that each condition of the statement is needed: keys are not escaped, empty values vanish, and doubles without a decimal point come back as integers."
  },
  {
   "property": "C68",
   "status": "proved",
   "theorems": [
    "C68_ParseJSON_total"
   ],
   "note": "With an explicit bound, linear in the length of the input, on nested calls and loop rounds."
  },
  {
   "property": "C69",
   "status": "partial",
   "theorems": [
    "C69_JSON_pretty_round_trip_partial",
    "C69_last_bool_refuted"
   ],
   "note": "The full claim is false of the code: a boolean that is the last member of an object comes back as a string from indented text (C69_last_bool_refuted). Proved for all values in which no object ends with a boolean."
  },
  {
   "property": "C70",
   "status": "partial",
   "theorems": [
    "C70_JSON_string_literals_partial",
    "C70_surrogate_pair_refuted"
   ],
   "note": "Proved for all literals without surrogate escapes. Surrogate pairs are encoded as two separate three-byte sequences, which is ill-formed UTF-8 (C70_surrogate_pair_refuted)."
  },
  {
   "property": "C71",
   "status": "partial",
   "theorems": [
    "C71_BreadthFirst_partial",
    "C71_BreadthFirst_even_partial",
    "C71_BreadthFirst_overcount_partial",
    "C71_perfect_tree_refuted"
   ],
   "note": "Proved for every tree in which some node has exactly one child (in particular every tree with an even number of nodes), and for every tree when the count passed is larger than the number of nodes. With the exact count the queue has room for n/2 pending nodes only and perfect trees are abandoned early: C71_perfect_tree_refuted."
  },
  {
   "property": "C72",
   "status": "proved",
   "theorems": [
    "C72_SplitCubic",
    "C72_SplitQuadratic"
   ],
   "note": "Over the real numbers (rounding not modelled). "
  },
  {
   "property": "C73",
   "status": "proved",
   "theorems": [
    "C73_ApproxCubic"
   ],
   "note": "Over the real numbers (rounding not modelled). Includes termination. Any FastSqrt with relative error at most 1/2 is allowed."
  },
  {
   "property": "C74",
   "status": "proved",
   "theorems": [
    "C74_SolveQuadratic",
    "C74_residual",
    "C74_CubicInflectionPoints"
   ],
   "note": "Over the real numbers (rounding not modelled). "
  },
  {
   "property": "C75",
   "status": "partial",
   "theorems": [
    "C75_first_root",
    "C75_single_root_partial",
    "C75_three_roots_partial",
    "C75_double_root_refuted"
   ],
   "note": "Over the real numbers (rounding not modelled). Proved for a non-zero discriminant. With discriminant zero only one of two distinct roots is returned (C75_double_root_refuted); the value returned is a root (C75_first_root)."
  },
  {
   "property": "C76",
   "status": "proved",
   "theorems": [
    "C76_BezierCurve",
    "C76_BSpline_hull",
    "C76_segments_join"
   ],
   "note": "Over the real numbers (rounding not modelled). "
  },
  {
   "property": "C77",
   "status": "proved",
   "theorems": [
    "C77_NewtonRaphson",
    "C77_NewtonRaphson_linear",
    "C77_stays_in_range",
    "C77_bisection_linear",
    "C77_bisection_converges"
   ],
   "note": "Over the real numbers (rounding not modelled). Convergence of the hybrid method for general functions is not part of the claim."
  },
  {
   "property": "C78",
   "status": "partial",
   "theorems": [
    "C78_QuadraticCanonicalFit_partial",
    "C78_documented_points_refuted"
   ],
   "note": "Over the real numbers (rounding not modelled). The curve passes through (x1,x1), (x2,(x1+x3)/2), (x3,x3): the documented curve scaled to [x1,x3]. The documented points are refuted."
  },
  {
   "property": "C79",
   "status": "proved",
   "theorems": [
    "C79_Determinant",
    "C79_product",
    "C79_Transpose"
   ],
   "note": "Over the real numbers (rounding not modelled). "
  },
  {
   "property": "C80",
   "status": "proved",
   "theorems": [
    "C80_Inverse",
    "C80_singular"
   ],
   "note": "Over the real numbers (rounding not modelled). "
  },
  {
   "property": "C81",
   "status": "proved",
   "theorems": [
    "C81_MatrixMultiply",
    "C81_MatrixMultiply_sse"
   ],
   "note": "Over the real numbers (rounding not modelled). The general branch is right for any overlap; the SSE branch when l equals out or does not meet it, whatever r is."
  },
  {
   "property": "C82",
   "status": "proved",
   "theorems": [
    "C82_Rotation",
    "C82_axis_rotations",
    "C82_orthogonal",
    "C82_lengths",
    "C82_AffineTransform",
    "C82_AffineTransform4"
   ],
   "note": "Over the real numbers (rounding not modelled). "
  },
  {
   "property": "C83",
   "status": "proved",
   "theorems": [
    "C83_Dot_Distance",
    "C83_Normalize",
    "C83_NTriangleArea",
    "C83_Cross"
   ],
   "note": "Over the real numbers (rounding not modelled). FastSqrt is taken to be exact."
  },
  {
   "property": "C84",
   "status": "proved",
   "theorems": [
    "C84_order",
    "C84_total_order"
   ],
   "note": "Coordinates are real numbers: NaN is not modelled."
  },
  {
   "property": "C85",
   "status": "partial",
   "theorems": [
    "C85_FromQuaternion_partial",
    "C85_rotation_refuted"
   ],
   "note": "Over the real numbers (rounding not modelled). The float version returns half the off-diagonal entries and (1 - e)/2 on the diagonal, so the claim is refuted; the general template does not compile (SetSubMatrix has no member MM)."
  },
  {
   "property": "C86",
   "status": "partial",
   "theorems": [
    "C86_GenericBSpline_partial",
    "C86_spline_refuted"
   ],
   "note": "Over the real numbers (rounding not modelled). The results of the two Shuffle calls are dropped, so three times the first term is returned; the claim is refuted."
  },
  {
   "property": "C87",
   "status": "partial",
   "theorems": [
    "C87_spheres",
    "C87_circles",
    "C87_CircleNearestPoint",
    "C87_CircleCollide_vector_refuted"
   ],
   "note": "Over the real numbers (rounding not modelled). Everything is proved except for Circle::CircleCollide(Vector, R), which computes C.x - y and is refuted."
  },
  {
   "property": "C88",
   "status": "partial",
   "theorems": [
    "C88_CircleRadiusIntersect",
    "C88_CircleCircleIntersect_partial",
    "C88_CircleCircleIntersect_refuted"
   ],
   "note": "Over the real numbers (rounding not modelled). CircleRadiusIntersect is proved. CircleCircleIntersect returns the right points relative to the first centre: as absolute points they are refuted."
  },
  {
   "property": "C89",
   "status": "partial",
   "theorems": [
    "C89_intersections",
    "C89_collide",
    "C89_LineSegmentRadiusCollide_partial",
    "C89_LineSegmentRadiusCollide_refuted"
   ],
   "note": "Over the real numbers (rounding not modelled). LineSegmentRadiusCollide is true exactly when the segment meets the circle line: segments inside the disc are missed."
  },
  {
   "property": "C90",
   "status": "partial",
   "theorems": [
    "C90_nearest",
    "C90_distance",
    "C90_LinePointDistance_partial",
    "C90_LinePointDistance_refuted"
   ],
   "note": "Over the real numbers (rounding not modelled). Nearest points and squared distances are proved. LinePointDistance returns the squared distance times the length and LineSegmentPointDistance the squared distance: refuted."
  },
  {
   "property": "C91",
   "status": "partial",
   "theorems": [
    "C91_LineSegmentLineSegmentCollide_partial",
    "C91_LineSegmentLineSegmentCollide_refuted",
    "C91_axis_segments",
    "C91_LineLineIntersect_partial",
    "C91_LineLineIntersect_refuted",
    "C91_LineSegmentLineSegmentIntersect_partial",
    "C91_LineSegmentLineSegmentIntersect_refuted"
   ],
   "note": "Over the real numbers (rounding not modelled). Collide is right for segments that are not parallel, false for parallel ones even when they overlap. The Intersect functions return the mirror image of the common point and give up when the cross product is in [-1, 0]."
  },
  {
   "property": "C92",
   "status": "proved",
   "theorems": [
    "C92_RectRect",
    "C92_RectContainsPoint",
    "C92_RectCircleCollide",
    "C92_Ellipse"
   ],
   "note": "Over the real numbers (rounding not modelled). "
  },
  {
   "property": "C93",
   "status": "proved",
   "theorems": [
    "C93_rect_operations",
    "C93_BoundingCircle"
   ],
   "note": "Over the real numbers (rounding not modelled). "
  },
  {
   "property": "C94",
   "status": "partial",
   "theorems": [
    "C94_RectLineCollide_partial",
    "C94_RectLineCollide_refuted"
   ],
   "note": "Over the real numbers (rounding not modelled). Right for segments that are neither vertical nor horizontal, up to touching the left or right side. Refuted in both directions for vertical and horizontal segments."
  },
  {
   "property": "C95",
   "status": "proved",
   "theorems": [
    "C95_TriangleContainsPoint",
    "C95_PolygonContainsPoint",
    "C95_cut"
   ],
   "note": "Over the real numbers (rounding not modelled). TriangleContainsPoint as written calls a one-argument DotProduct that does not exist; it is modelled as the dot product meant."
  },
  {
   "property": "C96",
   "status": "partial",
   "theorems": [
    "C96_PolygonArea",
    "C96_PolygonCentroid_partial",
    "C96_PolygonCentroid_refuted"
   ],
   "note": "Over the real numbers (rounding not modelled). PolygonArea is proved. PolygonCentroid accumulates into an uninitialised vector: right exactly when that memory was zero."
  },
  {
   "property": "C97",
   "status": "partial",
   "theorems": [
    "C97_PolygonIsConvex_partial",
    "C97_PolygonIsConvex_refuted",
    "C97_ConvexPolygonContainsPoint_refuted"
   ],
   "note": "Over the real numbers (rounding not modelled). PolygonIsConvex tests that all turns go the same way: true of every convex polygon, and of the pentagram too. ConvexPolygonContainsPoint is false of every point strictly inside."
  },
  {
   "property": "C98",
   "status": "proved",
   "theorems": [
    "C98_AngleDist",
    "C98_AngleDistSigned",
    "C98_bssFMod",
    "C98_CircleSectorContainsPoint"
   ],
   "note": "Over the real numbers (rounding not modelled). "
  },
  {
   "property": "C99",
   "status": "partial",
   "theorems": [
    "C99_RingAlloc_partial",
    "C99_RingAlloc_refuted"
   ],
   "note": "Any number of threads and any interleaving of the atomic accesses. Proved when there is one thread or all requests have one size. The rest is false of the code: with different sizes a reservation that is too large makes a smaller one fail, and when that one is reversed after the larger, two later pieces get the same place (C99_RingAlloc_refuted, three threads). Sequential consistency is assumed; Clear, moving and the destructor are not modelled; that _genBucket can be one step is part of the theorem."
  },
  {
   "property": "C100",
   "status": "partial",
   "theorems": [
    "C100_RingAlloc_reuse_partial",
    "C100_RingAlloc_first_refuted",
    "C100_RingAlloc_race_refuted"
   ],
   "note": "Proved (under the condition of C99) for calls made while the other threads are idle, from any reachable state: Alloc returns a piece, and Dealloc of the last piece of a bucket makes it reusable. The full statement is false of the code: a bucket that is too small for the first piece is replaced without being kept, and a bucket whose last piece is given back while another thread is reversing a reservation is lost."
  },
  {
   "property": "C101",
   "status": "partial",
   "theorems": [
    "C101_XML_roundtrip_partial",
    "C101_XML_quote_refuted",
    "C101_XML_greater_refuted"
   ],
   "note": "Proved for all trees whose names, attributes and values avoid the characters listed in XMLSpec.v (the theorem is about trees of any size). False in general: quotation marks in attributes are written as &quot; and not decoded, a greater-than sign in an attribute ends the tag, values of white space only are dropped, names ending with a byte from 128 on lose it."
  },
  {
   "property": "C102",
   "status": "proved",
   "theorems": [
    "C102_XML_pretty"
   ],
   "note": "For the trees of C101."
  },
  {
   "property": "C103",
   "status": "proved",
   "theorems": [
    "C103_XML_read_ends"
   ],
   "note": "String streams. The fuel of the model is the length of the text and 4."
  },
  {
   "property": "C104",
   "status": "partial",
   "theorems": [
    "C104_XML_entities_partial",
    "C104_XML_entities_refuted"
   ],
   "note": "Proved for all but U+10FFFF; refuted for that one, which OutputUnicode rejects (C62)."
  },
  {
   "property": "C105",
   "status": "proved",
   "theorems": [
    "C105_XML_integer"
   ],
   "note": "For the nodes of C101."
  },
  {
   "property": "C106",
   "status": "partial",
   "theorems": [
    "C106_XML_nodes_partial",
    "C106_XML_RemoveNode_refuted"
   ],
   "note": "Proved for all sequences of AddNode and RemoveNode of the last node. RemoveNode of another node leaves wrong positions in the hash: refuted, including an access out of bounds in a later AddNode."
  },
  {
   "property": "C107",
   "status": "partial",
   "theorems": [
    "C107_XML_attributes_partial",
    "C107_XML_RemoveAttribute_refuted"
   ],
   "note": "Proved without RemoveAttribute, which removes a child node instead of the attribute: refuted."
  },
  {
   "property": "C108",
   "status": "proved",
   "theorems": [
    "C108_Animation_discrete",
    "C108_Animation_steps"
   ],
   "note": "Times are integers (the code uses double; only comparisons, sums and fmod are used)."
  },
  {
   "property": "C109",
   "status": "proved",
   "theorems": [
    "C109_Animation_time"
   ],
   "note": "Times are integers; loop point below the length (otherwise fmod by 0 or a negative number)."
  },
  {
   "property": "C110",
   "status": "partial",
   "theorems": [
    "C110_Animation_loop_partial",
    "C110_Animation_loop_refuted"
   ],
   "note": "Proved when no frame is before the loop point. Otherwise false of the code: the tracks are reset at a turn, so the frames before the loop point are called again."
  },
  {
   "property": "C111",
   "status": "proved",
   "theorems": [
    "C111_Animation_smooth",
    "C111_Animation_steps",
    "C111_Animation_line"
   ],
   "note": "Times are integers; values of any type with any interpolation of the form of LerpInterpolate, and the reals. CubicInterpolate and the relative variants are not modelled. C111_Animation_line uses the real numbers of the standard library."
  },
  {
   "property": "C112",
   "status": "proved",
   "theorems": [
    "C112_Animation_intervals"
   ],
   "note": "Times are integers; handles are numbers."
  },
  {
   "property": "C113",
   "status": "partial",
   "theorems": [
    "C113_Animation_interval_ends_partial",
    "C113_Animation_interval_ends_refuted"
   ],
   "note": "False of the code: the queue of open intervals is ordered by the length alone, is compared with the time as if it were an end time, and has the largest on top. Proved: what it does instead: all open intervals end together at the first time shown that is not less than all their lengths."
  },
  {
   "property": "C114",
   "status": "proved",
   "theorems": [
    "C114_Animation_length"
   ],
   "note": "Adding to a track that does not exist does not compile."
  },
  {
   "property": "C115",
   "status": "partial",
   "theorems": [
    "C115_LinkedList_partial",
    "C115_LinkedList_small_partial",
    "C115_LinkedList_remove_partial",
    "C115_LinkedList_refuted"
   ],
   "note": "Proved with useLast. Without it (the default) Add puts the item at the front although it is documented to append: refuted; everything else is proved with that reading of Add."
  },
  {
   "property": "C116",
   "status": "partial",
   "theorems": [
    "C116_LinkedList_copy_partial",
    "C116_LinkedList_reversed_partial",
    "C116_LinkedList_copy_refuted",
    "C116_LinkedList_self_refuted"
   ],
   "note": "Proved with useLast from another list. Without useLast (the default) the copy is reversed, and l += l with useLast never ends: refuted."
  },
  {
   "property": "C117",
   "status": "proved",
   "theorems": [
    "C117_Item",
    "C117_Item_finds"
   ],
   "note": "From null it starts at the front, backwards too. On an empty list Item dereferences null."
  },
  {
   "property": "C118",
   "status": "proved",
   "theorems": [
    "C118_instances"
   ],
   "note": "The hash is the map that C33 and C37 prove; its keys are names by content (in the source they point into the node, which is a dangling pointer after the first of several instances is moved)."
  },
  {
   "property": "C119",
   "status": "partial",
   "theorems": [
    "C119_INIstorage_partial",
    "C119_prefix_refuted"
   ],
   "note": "Proved for names of which none is the begin of another one, keys likewise, without blanks at the ends and without the chars of the syntax. Without that it is false of the code: the search in the text compares only the begin of a name, so the line of another key is edited."
  },
  {
   "property": "C120",
   "status": "partial",
   "theorems": [
    "C120_load_partial",
    "C120_load_edit_partial",
    "C120_last_section_refuted",
    "C120_empty_file_refuted"
   ],
   "note": "Proved for files of lines that fit the buffer, with values that are not blank, that are not empty and do not end in a section and a new line. False of the code for those two: the last section is loaded twice, and an empty file loads what the uninitialised buffer holds."
  },
  {
   "property": "C121",
   "status": "partial",
   "theorems": [
    "C121_strreplace",
    "C121_ReplaceChar",
    "C121_strccount",
    "C121_strccount_length_partial",
    "C121_strccount_length_refuted",
    "C121_StripChar"
   ],
   "note": "Proved except for strccount with a length greater than the string: its loop tests the first character instead of the current one, so it reads past the end."
  },
  {
   "property": "C122",
   "status": "partial",
   "theorems": [
    "C122_strltrim",
    "C122_strtrim_partial",
    "C122_blank_refuted",
    "C122_rtrim_refuted"
   ],
   "note": "Proved for strings whose last character that is not white space is ASCII. For a blank string strtrim writes behind the buffer; strrtrim leaves one blank and removes bytes above 127."
  },
  {
   "property": "C123",
   "status": "proved",
   "theorems": [
    "C123_ToArgV_arguments",
    "C123_ToArgV_two_calls"
   ],
   "note": "The buffer is a list of chars, argv the list of positions."
  },
  {
   "property": "C124",
   "status": "proved",
   "theorems": [
    "C124_ProcessCmdArgs"
   ],
   "note": ""
  },
  {
   "property": "C125",
   "status": "proved",
   "theorems": [
    "C125_SafeFormat",
    "C125_every_format"
   ],
   "note": "Arguments are the texts that operator<< writes."
  },
  {
   "property": "C126",
   "status": "partial",
   "theorems": [
    "C126_Explode",
    "C126_Explode_zero",
    "C126_Explode32_refuted",
    "C126_field"
   ],
   "note": "Proved for char. For char32_t Explode never ends: its strtok finds the delimiter it has just restored."
  },
  {
   "property": "C127",
   "status": "partial",
   "theorems": [
    "C127_bssAvg",
    "C127_bssVariance_partial",
    "C127_bssVariance_refuted"
   ],
   "note": "Exact rationals. bssAvg proved; bssVariance divides by the value instead of the number of values, so it is right only where they are equal."
  },
  {
   "property": "C128",
   "status": "partial",
   "theorems": [
    "C128_profile_partial",
    "C128_sixteen_zones",
    "C128_profile_refuted"
   ],
   "note": "Exact rationals, counters without overflow. Proved for programs with up to 16 zones, and for any set of ids of which none begins with the digits of another. With 17 zones it is false of the code: zone 17 has the node of zone 1 directly inside zone 1."
  },
  {
   "property": "C129",
   "status": "partial",
   "theorems": [
    "C129_tree_partial",
    "C129_tree_refuted"
   ],
   "note": "Proved for ids of one hexadecimal digit. Zone 16 is indented one level too far."
  },
  {
   "property": "C130",
   "status": "partial",
   "theorems": [
    "C130_flat_partial",
    "C130_flat_refuted"
   ],
   "note": "Proved for ids of one digit: the numbers are right and in order, and beside the right names if the zones are in that order already. In general the averages are sorted but the names are not."
  },
  {
   "property": "C131",
   "status": "partial",
   "theorems": [
    "C131_heat_partial",
    "C131_heat_refuted"
   ],
   "note": "Proved for ids of one digit; the order of the children by time is not modelled. An id of several digits inside another zone is put together wrongly."
  },
  {
   "property": "C132",
   "status": "partial",
   "theorems": [
    "C132_time",
    "C132_updates",
    "C132_override",
    "C132_warp_refuted"
   ],
   "note": "Exact rationals. Proved except for the time warp: milliseconds are divided by it, nanoseconds multiplied."
  },
  {
   "property": "C133",
   "status": "partial",
   "theorems": [
    "C133_reader_partial",
    "C133_reader_refuted"
   ],
   "note": "std::streambuf functions that are not overridden follow the C++ standard. Proved for putting back bytes below 128 and seeking inside; a byte above 127 cannot be put back (sign extension), and seeking outside the array is not checked."
  },
  {
   "property": "C134",
   "status": "partial",
   "theorems": [
    "C134_write_partial",
    "C134_readwrite_partial",
    "C134_count_partial",
    "C134_stream_refuted"
   ],
   "note": "Proved for blocks from the end of the array, any capacity and size of element: the array holds everything. The return value is only the last part of the block when the array grows; single characters are lost; writing from a position before the end truncates; reading positions are scaled by the size of the element."
  },
  {
   "property": "C135",
   "status": "proved",
   "theorems": [
    "C135_splitter",
    "C135_flushed"
   ],
   "note": "A target is added once between clearings."
  },
  {
   "property": "C136",
   "status": "proved",
   "theorems": [
    "C136_delivery",
    "C136_new"
   ],
   "note": "Assimilated streams are not targets at the same time (see C137). Messages are the text that operator<< writes; SafeFormat is C125. Characters below 128."
  },
  {
   "property": "C137",
   "status": "partial",
   "theorems": [
    "C137_destroy_partial",
    "C137_destroy_refuted"
   ],
   "note": "Proved if each stream is assimilated once and is not a target. A stream assimilated twice is left with the deleted buffer; an assimilated target makes logging recurse for ever."
  },
  {
   "property": "C138",
   "status": "partial",
   "theorems": [
    "C138_SetLevel_partial",
    "C138_defaults",
    "C138_SetLevel_refuted"
   ],
   "note": "Proved for the highest level and the one after it. The test of the capacity is the wrong way round, so that a lower level cuts off the higher ones, and a level beyond the next is written outside."
  },
  {
   "property": "C139",
   "status": "partial",
   "theorems": [
    "C139_time",
    "C139_date_partial",
    "C139_date_refuted"
   ],
   "note": "The time is proved for all zones; the date is that of UTC and so wrong if the zone is on another day."
  },
  {
   "property": "C140",
   "status": "partial",
   "theorems": [
    "C140_move_partial",
    "C140_move_refuted"
   ],
   "note": "Proved for the move constructor. Move assignment keeps the old levels, maximum and formats, and forgets the streams that were assimilated."
  },
  {
   "property": "C141",
   "status": "proved",
   "theorems": [
    "C141_string"
   ],
   "note": ""
  },
  {
   "property": "C142",
   "status": "partial",
   "theorems": [
    "C142_literal",
    "C142_multi",
    "C142_multi_refuted"
   ],
   "note": "Proved for closed strings; in double quotes without backslashes. Without closing quotes the end of the document adds the byte 255, and a backslash at the end of a line drops one line feed and the blanks behind it."
  },
  {
   "property": "C143",
   "status": "partial",
   "theorems": [
    "C143_roundtrip_partial",
    "C143_roundtrip_refuted"
   ],
   "note": "Proved for structures with bare keys and non-empty tables in which no array holds arrays. Of an array of arrays only the first is read, behind an empty inline table the comma is missing, and keys are never quoted. Floating-point numbers, date-times and tuples are not modelled."
  },
  {
   "property": "C144",
   "status": "proved",
   "theorems": [
    "C144_table_array"
   ],
   "note": "For elements whose fields are not sections of their own."
  },
  {
   "property": "C145",
   "status": "partial",
   "theorems": [
    "C145_preflow_partial",
    "C145_maxflow_refuted"
   ],
   "note": "Proved: whenever the function ends, every edge carries between zero and its capacity and no vertex but the source sends more than it receives; no access outside the arrays (for graphs without parallel edges from the source). Refuted: it may never end, may leave flow in a vertex, may end with less than the maximum, forgets parallel edges from the source, and reads an unwritten variable when there are only s and t. int is unbounded in the model."
  },
  {
   "property": "C146",
   "status": "proved",
   "theorems": [
    "C146_circulation"
   ],
   "note": ""
  },
  {
   "property": "C147",
   "status": "proved",
   "theorems": [
    "C147_lower"
   ],
   "note": ""
  },
  {
   "property": "C148",
   "status": "partial",
   "theorems": [
    "C148_bfs_partial",
    "C148_bfs_forest_partial",
    "C148_bfs_refuted"
   ],
   "note": "Proved: it always ends, visits only what can be reached and, unless stopped, all of it, never a vertex before a nearer one, and stops at the first true; each vertex once and within a queue of one element per vertex where no vertex but the root is entered by two edges. Refuted otherwise: a vertex with two ways to it is visited twice, and with three the queue overflows."
  },
  {
   "property": "C149",
   "status": "partial",
   "theorems": [
    "C149_variant_partial",
    "C149_serialize_partial",
    "C149_variant_refuted"
   ],
   "note": "Proved for programs that do not assign an empty variant to an empty variant (where an assertion fails), and for parsing into an empty variant. Refuted: parsing into a variant that holds something loses the object, and a document with the tag alone makes the storage an object of another type."
  },
  {
   "property": "C150",
   "status": "partial",
   "theorems": [
    "C150_layout_partial",
    "C150_layout_refuted"
   ],
   "note": "The size is always right; the alignment is right for a single type or when no type needs more than 4 bytes. Refuted otherwise: the member that should force the alignment has the type std::conditional itself, whose alignment is 1."
  },
  {
   "property": "C151",
   "status": "proved",
   "theorems": [
    "C151_singleton"
   ],
   "note": ""
  },
  {
   "property": "C152",
   "status": "proved",
   "theorems": [
    "C152_cache"
   ],
   "note": "For maxsize at least the size of a pointer (needed only where CachePolicy::allocate gives a large block back as a small one). The lock is taken at its word (C40), GreedyAlloc::Alloc is one step (C45)."
  },
  {
   "property": "C153",
   "status": "partial",
   "theorems": [
    "C153_reuse_partial",
    "C153_kept_partial",
    "C153_kept_refuted"
   ],
   "note": "Proved: a block given back is what the next request for its size gets, in every reachable state, if no other thread interferes between; with one thread nothing is lost. Refuted for two threads: both find no list, the second replaces the list of the first and loses what was given back in between."
  },
  {
   "property": "C154",
   "status": "proved",
   "theorems": [
    "C154_values",
    "C154_sign",
    "C154_small"
   ],
   "note": "C154_values: the bits are read as Flocq reads them. C154_small says also that a negative eps accepts every number."
  },
  {
   "property": "C155",
   "status": "partial",
   "theorems": [
    "C155_same_partial",
    "C155_below_partial",
    "C155_wraparound",
    "C155_small_partial",
    "C155_compare_refuted"
   ],
   "note": "Proved where signed overflow wraps around, and by the letter of C++ for numbers of one sign and for a below zero and b not (as long as their distance is below 2^31, 2^63). Refuted by the letter of C++: for a above and b below zero the subtraction overflows, which is undefined."
  },
  {
   "property": "C156",
   "status": "partial",
   "theorems": [
    "C156_wide_partial",
    "C156_wide_refuted"
   ],
   "note": "Proved for numbers with the same sign and exponent, for exponents that differ by two or more and across a power of two. Refuted: the sign is ignored, and so is which of two exponents is the larger (1.0 equals -1.0 and 3.9999998)."
  },
  {
   "property": "C157",
   "status": "proved",
   "theorems": [
    "C157_float",
    "C157_double",
    "C157_subnormal_refuted"
   ],
   "note": "No overflow and no underflow in the operations. C157_subnormal_refuted: the restriction to normal numbers is needed."
  },
  {
   "property": "C158",
   "status": "proved",
   "theorems": [
    "C158_length"
   ],
   "note": "No overflow and no underflow in the operations."
  },
  {
   "property": "C159",
   "status": "proved",
   "theorems": [
    "C159_circle",
    "C159_constructor",
    "C159_measure"
   ],
   "note": "Over the reals. Whether a circle that only touches counts is left open between the two directions."
  },
  {
   "property": "C160",
   "status": "partial",
   "theorems": [
    "C160_contains_partial",
    "C160_contains_refuted",
    "C160_segment_partial",
    "C160_segment_refuted",
    "C160_polygon_partial",
    "C160_polygon_around"
   ],
   "note": "Proved for points other than the centre of the sector, segments that do not start there and polygons whose first vertex is not there. Refuted there: without a hole, the centre is only found if the angle zero is in the range, and a segment from the centre along the straight edge of a half disc is missed. A polygon around the sector is not reported, as the statement says (C160_polygon_around)."
  },
  {
   "property": "C161",
   "status": "partial",
   "theorems": [
    "C161_sound_partial",
    "C161_sound_refuted",
    "C161_complete_refuted"
   ],
   "note": "Proved: if the other sector has no hole, or the two circles compared by mistake do not cross, a pair reported has a common point. Refuted in both directions: the check of the other inner circle against the own outer one exchanges the two circles, so sectors apart are reported; and for the same centre the angles are compared without whole turns, so sectors that overlap across the angle zero are missed. Missing: that every overlap is found for sectors with different centres."
  },
  {
   "property": "C162",
   "status": "proved",
   "theorems": [
    "C162_Array_list",
    "C162_Array_life"
   ],
   "note": "The arguments are other arrays and values held outside the array (see C163)."
  },
  {
   "property": "C163",
   "status": "partial",
   "theorems": [
    "C163_own_argument_partial",
    "C163_own_argument_refuted"
   ],
   "note": "Proved: a + a is the array twice, and moving an array onto itself empties it without a fault. Refuted for every array that is not empty: a = a reads elements already destroyed, and a += a reads beyond the old block."
  },
  {
   "property": "C164",
   "status": "partial",
   "theorems": [
    "C164_flags_partial",
    "C164_flags_refuted",
    "C164_read"
   ],
   "note": "Proved, for Set(bits, mask) if bits lies inside mask. Refuted without: bits outside the mask are flipped."
  },
  {
   "property": "C165",
   "status": "partial",
   "theorems": [
    "C165_iterator_partial",
    "C165_iterator_refuted",
    "C165_walk"
   ],
   "note": "Proved for words of up to 32 bits. Refuted for 64 bits: -- across a word boundary shifts an int by 63."
  },
  {
   "property": "C166",
   "status": "proved",
   "theorems": [
    "C166_bijection",
    "C166_contiguous"
   ],
   "note": "No overflow of the index type."
  },
  {
   "property": "C167",
   "status": "partial",
   "theorems": [
    "C167_sub_partial",
    "C167_access",
    "C167_sub_refuted",
    "C167_const_refuted"
   ],
   "note": "Proved for ends that are zero (the end of the slice) or positive. Refuted: a negative end gives a slice that runs past the end by as much as it should be shorter, and the const operator() calls itself for ever."
  },
  {
   "property": "C168",
   "status": "proved",
   "theorems": [
    "C168_insert_range",
    "C168_remove_range"
   ],
   "note": "The inserted elements do not lie in the array."
  },
  {
   "property": "C169",
   "status": "partial",
   "theorems": [
    "C169_fnv_partial",
    "C169_fnv_refuted"
   ],
   "note": "Proved for 7 bit strings: the 32 bit hash is FNV-1a, the 64 bit hash is the low half of FNV-1a with 64 bits. Refuted: bytes above 127 are sign extended, and the 64 bit hash is cut to 32 bits in each step."
  },
  {
   "property": "C170",
   "status": "proved",
   "theorems": [
    "C170_strtok",
    "C170_tokens"
   ],
   "note": "The string of delimiters does not overlap the string. wcstok_r is the same text over wchar_t."
  },
  {
   "property": "C171",
   "status": "proved",
   "theorems": [
    "C171_serialize"
   ],
   "note": "The stream holds all that was written: with less, the length of a text is read from uninitialised memory. size_t has eight bytes."
  },
  {
   "property": "C172",
   "status": "partial",
   "theorems": [
    "C172_handover_partial",
    "C172_handover_refuted"
   ],
   "note": "Proved for moving, and for all ways at the end of a byte. Refuted in the middle of a byte, for all writes before: a copy and a Flush write the waiting bits twice, assignment mixes up the order, and moving assignment loses them."
  },
  {
   "property": "C173",
   "status": "proved",
   "theorems": [
    "C173_Stack",
    "C173_empty"
   ],
   "note": "The copy and move constructors do not compile and are not modelled."
  },
  {
   "property": "C174",
   "status": "partial",
   "theorems": [
    "C174_text_partial",
    "C174_text_refuted",
    "C174_conversions"
   ],
   "note": "Proved for decimal integers in the range of int64_t, hexadecimal numbers below 2^64 (modulo 2^64 as integer), and digits with a point in the range of int64_t. Refuted: 1e3 is 1, -0x10 is 0, and a number with a point beyond the range of int64_t is undefined."
  },
  {
   "property": "C175",
   "status": "partial",
   "theorems": [
    "C175_reload_partial",
    "C175_reload_refuted"
   ],
   "note": "Proved for all integers, and for doubles with at most six digits behind the point. Refuted: the text has six digits only, so 2^-30 is loaded as 0; SetFloat of 2^63 is undefined."
  },
  {
   "property": "C176",
   "status": "partial",
   "theorems": [
    "C176_poisson_partial",
    "C176_poisson_refuted"
   ],
   "note": "Proved with float coordinates (real arithmetic, without rounding). Refuted with double: the words of the grid are taken for cells, so wrong cells are checked and the same point can be given twice."
  },
  {
   "property": "C177",
   "status": "proved",
   "theorems": [
    "C177_elements",
    "C177_compare"
   ],
   "note": "With the instructions of the processor; the 64 bit vectors have no comparisons."
  },
  {
   "property": "C178",
   "status": "proved",
   "theorems": [
    "C178_multiply_min_max",
    "C178_shuffle_sum"
   ],
   "note": "With the instructions of the processor."
  },
  {
   "property": "C179",
   "status": "partial",
   "theorems": [
    "C179_shifts_partial",
    "C179_shifts_refuted"
   ],
   "note": "Proved: << by a number, >> by a number for int32; for the other widths >> divides the unsigned elements. Refuted: >> of negative int16 and int64 elements gives positive numbers; the amount in a vector is its whole lower half, so a shift by a vector of ones empties the vector."
  },
  {
   "property": "C180",
   "status": "partial",
   "theorems": [
    "C180_rounding_partial",
    "C180_rounding_refuted"
   ],
   "note": "Proved for -2^31 <= x < 2^31. Refuted: 2147483648.0f and a NaN give -2147483648. The sign of a zero is not claimed."
  },
  {
   "property": "C181",
   "status": "proved",
   "theorems": [
    "C181_min_max",
    "C181_compare",
    "C181_sum"
   ],
   "note": "With the instructions of the processor; comparisons and extrema of infinities are not stated."
  },
  {
   "property": "C182",
   "status": "partial",
   "theorems": [
    "C182_add_sub_partial",
    "C182_multiply_min_max_partial",
    "C182_compare",
    "C182_bits",
    "C182_shift_partial",
    "C182_shuffle",
    "C182_portable_refuted"
   ],
   "note": "Proved: min, max, comparisons, operations on bits, shuffles and >> by less than the width always; + - with less than 32 bits always, otherwise without overflow; * without overflow; << of elements that are not negative and lose no bit. Refuted: overflow, << of a negative element and shifts from the width on are undefined without the instructions; _sse_array_shuffle2 with 2 picks the wrong elements."
  },
  {
   "property": "C183",
   "status": "partial",
   "theorems": [
    "C183_copy_partial",
    "C183_copy_refuted",
    "C183_move_refuted"
   ],
   "note": "Proved for chains in which no name occurs twice. Refuted, for all values: with two sections of a name the copy finds only the second, and with three the source finds a node of the copy; a storage moved by assignment has lost every section, and its table of names leads to freed nodes."
  },
  {
   "property": "C184",
   "status": "proved",
   "theorems": [
    "C184_path"
   ],
   "note": "A null pointer, the default of the constructor, is undefined in strrchr."
  },
  {
   "property": "C185",
   "status": "partial",
   "theorems": [
    "C185_tiles_partial",
    "C185_ends",
    "C185_integers_refuted"
   ],
   "note": "Proved with exact coordinates. Refuted with integers: lerp cuts off each summand, so that every rect of one column right of 0 can be divided so that a part reaches left of it. Not covered: rounding of floats."
  },
  {
   "property": "C186",
   "status": "partial",
   "theorems": [
    "C186_convert_partial",
    "C186_count_refuted",
    "C186_invalid_refuted"
   ],
   "note": "Proved up to a terminator and from a whole string. Refuted: with a count the last byte or character is lost, for every text that is not empty, and a count of 0 throws length_error; bytes that begin with 0x80-0xBF or 0xF8-0xFF throw length_error."
  },
  {
   "property": "C187",
   "status": "partial",
   "theorems": [
    "C187_tests_partial",
    "C187_points_partial",
    "C187_points_refuted",
    "C187_Diameter"
   ],
   "note": "Proved: the answers yes or no (for a segment: whether it meets the edge, as in C89), and that the points reported are right relative to the centre. Refuted, for every circle not around the origin: the points as reported do not all lie on it. The overload of CircleCollide with a vector is refuted in C87; EllipseCollide is not covered."
  },
  {
   "property": "C188",
   "status": "partial",
   "theorems": [
    "C188_curve",
    "C188_progress",
    "C188_linear_partial",
    "C188_quadratic",
    "C188_TimeBezierD_refuted",
    "C188_cubic_refuted",
    "C188_Length_refuted"
   ],
   "note": "Proved over the reals for the curve, progress and linear interpolation. Refuted: TimeBezierD and BezierD of AniCubicData are not the derivatives, Length is the square root of the last coordinate. Not shown: that the search reaches its tolerance in 50 rounds with the default points."
  },
  {
   "property": "C189",
   "status": "partial",
   "theorems": [
    "C189_write_partial",
    "C189_write_refuted",
    "C189_read_partial",
    "C189_read_refuted"
   ],
   "note": "Proved: order, nothing lost or doubled, end of file. Refuted: a block write longer than the room left (which is not empty) reports fewer characters than it wrote, and never ends if onwrite makes no room; a block read that asks for more than the buffer holds stops there although more follows."
  },
  {
   "property": "C190",
   "status": "partial",
   "theorems": [
    "C190_to_float_partial",
    "C190_round_trip_partial",
    "C190_from_float",
    "C190_to_float_refuted"
   ],
   "note": "Proved: nearest if neither the fraction nor the integer part has more bits than the significand; exact and back if the number has at most that many bits. Refuted otherwise: with more fraction bits the smallest number becomes 0, and rounding the two parts apart gives the second nearest. NaN and infinities are not covered."
  },
  {
   "property": "C191",
   "status": "partial",
   "theorems": [
    "C191_verify",
    "C191_lifetime",
    "C191_move_assign_partial",
    "C191_move_assign_refuted",
    "C191_move_construct_partial",
    "C191_move_construct_refuted"
   ],
   "note": "Proved for DEBUGVERIFY (parent links are positions in the model), construction, Insert, Remove, destruction and move assignment with one policy. Refuted: after move construction, checking or destroying the source is undefined behaviour for every tree, as its sentinel is constructed in the wrong place; after move assignment between different policies, neither tree can be destroyed."
  },
  {
   "property": "C192",
   "status": "partial",
   "theorems": [
    "C192_length_exact",
    "C192_length_close_partial",
    "C192_length_close_refuted"
   ],
   "note": "Proved as a formula at every moment, exact when nothing is under way, and close if the queue holds at least as many items as there are threads. Refuted: the length of an empty queue can be 2^w-1."
  },
  {
   "property": "C193",
   "status": "partial",
   "theorems": [
    "C193_mask_bit",
    "C193_mask_range_partial",
    "C193_mask_range_refuted",
    "C193_set_bit",
    "C193_get_bit_partial",
    "C193_get_bit_refuted",
    "C193_signs",
    "C193_limits_partial",
    "C193_limits_refuted"
   ],
   "note": "Refuted where int is too small: ranges of more than 30 bits, 64-bit masks and bits from position 31 on. BitLimit is refuted for the multiples of 8 that are no power of two (24 gives 16 bits, the others do not compile)."
  },
  {
   "property": "C194",
   "status": "partial",
   "theorems": [
    "C194_operations_partial",
    "C194_runs_partial",
    "C194_Add_refuted",
    "C194_assign_refuted"
   ],
   "note": "Proved for every call within the bounds, as long as the memory is a whole number of elements. Refuted: SetElement with data that fits the old memory, which its elements do not divide, then Add, writes past the end; an array assigned to itself loses its elements; a source that was moved from keeps its length."
  },
  {
   "property": "C195",
   "status": "partial",
   "theorems": [
    "C195_copy_partial",
    "C195_copy_refuted",
    "C195_self_assign_refuted",
    "C195_move_partial",
    "C195_move_refuted"
   ],
   "note": "Proved if index type and probability type have the same size. Refuted: otherwise the copy leaves entries unwritten, or writes past the end; a table assigned to itself loses everything; the source of a move keeps its count. The copy constructor does not compile."
  },
  {
   "property": "C196",
   "status": "partial",
   "theorems": [
    "C196_copy_partial",
    "C196_copy_refuted",
    "C196_assign_refuted",
    "C196_move"
   ],
   "note": "Moves are proved right. Refuted: a copy of any node with attributes or children cannot be destroyed; an assignment keeps the children that were there; a node with children assigned to itself never ends."
  },
  {
   "property": "C197",
   "status": "partial",
   "theorems": [
    "C197_join_partial",
    "C197_join_refuted",
    "C197_join_seconds",
    "C197_semaphore"
   ],
   "note": "Proved for timeouts that do not carry the clock over to the next second, and for whole seconds; semaphores in full. Refuted: otherwise join reports a timeout at once. POSIX branch only; the system calls are modelled from their manual pages."
  },
  {
   "property": "C198",
   "status": "partial",
   "theorems": [
    "C198_call",
    "C198_empty_partial",
    "C198_empty_refuted",
    "C198_defer",
    "C198_defer_copy_refuted"
   ],
   "note": "Calls and deferred calls are proved. Refuted: delegates of functions without an object say that they are empty; a deferred call that is copied is made twice."
  },
  {
   "property": "C199",
   "status": "partial",
   "theorems": [
    "C199_destructor",
    "C199_move_refuted",
    "C199_move_partial",
    "C199_future_partial",
    "C199_future_refuted"
   ],
   "note": "The destructor is proved to return. Refuted: the destructor of a pool with threads that was moved never returns, and its tasks are not run by a worker; the flag of a Future is never initialised."
  },
  {
   "property": "C200",
   "status": "partial",
   "theorems": [
    "C200_ownership_partial",
    "C200_assign_refuted",
    "C200_moved_refuted",
    "C200_transfer",
    "C200_self_refuted"
   ],
   "note": "Proved for block and ring allocators in full, except that an allocator that was moved from can only be assigned to, destroyed or (those two) cleared. Refuted: the chunks a GreedyAlloc or LocklessBlockPolicy holds are lost when it is assigned another, or itself; an allocation from an allocator that was moved from is undefined; a ring allocator assigned to itself gives back the memory in use."
  },
  {
   "property": "C201",
   "status": "partial",
   "theorems": [
    "C201_consistent_partial",
    "C201_zero_refuted",
    "C201_equal_partial",
    "C201_equal_refuted",
    "C201_spread"
   ],
   "note": "Proved except for -0; the 32-bit hash is proved to be a permutation. Refuted: 0.0 and -0.0 are equal with different hashes; C strings in a tuple are compared by address but hashed by their characters; std::strings with a character 0 are cut there; a NaN is never found. Also proved: bit 32 of a 64-bit key has no influence. Wide strings are not covered."
  },
  {
   "property": "C202",
   "status": "partial",
   "theorems": [
    "C202_center_partial",
    "C202_center_refuted",
    "C202_triangle_partial",
    "C202_triangle_refuted",
    "C202_line",
    "C202_sphere"
   ],
   "note": "Over exact reals. Proved if the memory of the result of PolygonCentroid happens to be zero, and refuted for anything else in it (it is never initialised). The area of a triangle is signed: it is negative for corners in clockwise order."
  },
  {
   "property": "C203",
   "status": "partial",
   "theorems": [
    "C203_contents",
    "C203_no_leak_partial",
    "C203_assign_refuted",
    "C203_moved_refuted",
    "C203_self_refuted"
   ],
   "note": "Refinement to lists of items for one thread at a time, with an exact count of the nodes that are lost. Refuted: assigning to a queue leaks its nodes; a queue that was moved from is undefined to use and keeps its length; assigning a queue to itself empties it. The moves of LocklessQueue copy atomics and cannot be instantiated, so only MicroLockQueue is modelled."
  },
  {
   "property": "C204",
   "status": "partial",
   "theorems": [
    "C204_div_partial",
    "C204_div_refuted",
    "C204_div_scale_refuted",
    "C204_reciprocal_partial",
    "C204_reciprocal_refuted",
    "C204_shift"
   ],
   "note": "The error of the division is bounded for all operands whose quotient fits, and is two units if the dividend has at most 62 - B bits (B: the bits of the divisor behind the point). Refuted: large numbers divided by themselves give 0; with 63 bits behind the point the division is undefined; the reciprocals of the two smallest numbers overflow."
  },
  {
   "property": "C205",
   "status": "partial",
   "theorems": [
    "C205_walk",
    "C205_prune",
    "C205_end_refuted",
    "C205_removed_refuted"
   ],
   "note": "Walking and removing are proved for lists with and without the pointer to the last node. Refuted: decrementing the end is undefined, although the category of the iterator is bidirectional; Remove leaves the iterator at the deleted node."
  },
  {
   "property": "C206",
   "status": "partial",
   "theorems": [
    "C206_border",
    "C206_sound",
    "C206_newton",
    "C206_circle_partial",
    "C206_circle_collide_partial",
    "C206_axis_partial",
    "C206_axis_collide_partial",
    "C206_member_refuted",
    "C206_member_partial"
   ],
   "note": "The result is always a point of the ellipse and on its border if the point is outside, and a reported collision is one. For circles and for points on the axes it is the nearest point. In general it is what four rounds of Newton's method give, and that this is the nearest point is not proved. Refuted: Ellipse::NearestPoint gives the point relative to the centre, not a point of the ellipse."
  },
  {
   "property": "C207",
   "status": "partial",
   "theorems": [
    "C207_walk",
    "C207_prune",
    "C207_end_refuted",
    "C207_move",
    "C207_moved_refuted",
    "C207_moved_partial"
   ],
   "note": "Walking, removing and the target of the move are proved. Refuted: decrementing the end is undefined; an array moved from keeps its length and its lists of nodes it no longer has, and adding to it is undefined. After Clear it is an empty array."
  },
  {
   "property": "C208",
   "status": "partial",
   "theorems": [
    "C208_walk",
    "C208_read",
    "C208_roundtrip_refuted",
    "C208_roundtrip_partial",
    "C208_default_refuted",
    "C208_move",
    "C208_moved_refuted"
   ],
   "note": "Walking, reading and the target of the move are proved. Refuted: the items are written the newest first but pushed in that order when read, so the order is turned around (twice gives the same again); an array of capacity 0, the default, cannot be read into; an array moved from has no capacity, so pushing to it is undefined until it is given one."
  },
  {
   "property": "C209",
   "status": "partial",
   "theorems": [
    "C209_built",
    "C209_right_partial",
    "C209_bounds",
    "C209_removed_refuted"
   ],
   "note": "The indices of a graph that is built and the bounds are proved, and GetNode is right exactly if the indices in use are those below the number of nodes. Refuted: after a node is removed, GetNode gives null for live nodes with an index not below NumNodes, and a node for indices that were removed."
  },
  {
   "property": "C210",
   "status": "partial",
   "theorems": [
    "C210_clear_partial",
    "C210_destroy",
    "C210_get",
    "C210_clear_refuted",
    "C210_traverse_refuted"
   ],
   "note": "The destructor and Get are proved for every (ordered) tree, and Clear for the release of the nodes and for empty trees. Refuted: Clear does not reset the root, so that a tree that had nodes is not empty after it and every Get, Clear and destructor reads or releases a node that was released; and Traverse does not stop at the sentinel, so that it never ends."
  },
  {
   "property": "C211",
   "status": "partial",
   "theorems": [
    "C211_lifetime_partial",
    "C211_overflow_refuted",
    "C211_malloc_refuted"
   ],
   "note": "Proved for sizes below 2^63 bytes if malloc succeeds. Refuted: if the size in bytes does not fit in 64 bits it wraps around, and the array has the length asked for and elements outside of its memory; and if malloc fails the elements are constructed through null."
  }
 ]
}