# Formal model of bss-util in Rocq/Coq 8.16.1 — design

Source: `/repo` (Black-Sphere-Studios/bss-util at the pinned commit), read as text only.
Paths below are relative to `/repo`; header names without a directory are in `include/bss-util/`.

## 1. Method

* One *model* file per component, `rocq/theories/<Mod>.v`: total computable Gallina
  functions written statement by statement after the C++ code.  Every definition cites
  file and lines.  Simplifications are stated in that comment.
* One *proof* file `<Mod>Proofs.v`: lemmas.
* One *property* file `<Mod>Props.v`: the specification vocabulary (small, independent of the
  model's helpers), the theorems (`Proof. exact lemma. Qed.`), `Print Assumptions` for each,
  and beside each theorem an `Example` showing that its hypotheses are met by a concrete
  non-trivial case.
* Undefined behaviour (out-of-bounds access, null dereference, division by zero, shift past the
  width) is a distinct outcome `UB` of the model; loops without an evident bound carry fuel and
  exhaustion is a distinct outcome `OutOfFuel`.  Theorems state that neither outcome occurs.
* Machine integers: unbounded `Z`/`N`/`nat` unless the property is about overflow or wrap-around;
  then `mod 2^w` is written explicitly, for every width `w` the code instantiates.
* Templates: the element type is an arbitrary type, the comparator an arbitrary function with the
  algebraic hypotheses spelled out in the theorem (total preorder, results in {-1,0,1}).
* Concurrency: interleaving semantics, one transition per atomic access, sequentially consistent;
  any number of threads; invariants by induction over reachable states.
* Where the code does not satisfy the natural claim, a `..._refuted` theorem gives a concrete
  counterexample evaluated in the model, and the part that does hold is proved beside it with the
  suffix `_partial` (status `partial` in `MANIFEST.json`).

## 2. Trusted base

* The Coq 8.16.1 kernel (including the `vm_compute` conversion machine).
* The axioms listed by `Print Assumptions`: section 5 gives them for every theorem.  Theorems over the
  real numbers use the axioms of the standard library's `Reals`; all others are closed under the global
  context.  (The constants of `Coq.ssr.ssrunder` that appear in a listing of all loaded modules come with the
  standard library's `ssreflect` and are used by no theorem.)
* The faithfulness of the hand-written model to the C++ text (cited line by line), and the
  C++ semantics assumed: two's-complement arithmetic, usual arithmetic conversions on an LP64
  platform with GCC, `memmove`/`memcpy`/`malloc` as documented, element copy/move/destroy
  operations that behave as value copies, sequentially consistent atomics (the code uses mostly
  default or acquire/release orders; weaker-memory behaviours are not modelled).

## 3. Plan per property

| id | what is modelled | how proved |
|----|------------------|-----------|
| C01 | `bssMod`, `IntDiv` over signed w-bit integers with truncating `/`,`%` and two's-complement `&` | arithmetic (`Z.quot/rem`), range side conditions |
| C02 | `NextPow2` 8/16/32/64 with explicit shifts/ors and wrap | bit-level lemma: or-smearing gives ones(log2+1) |
| C03 | `BitCount` generic formula at widths 8..64 | byte-lane decomposition; finite byte table lifted through lane lemma |
| C04 | `FlipEndian` swap loop on arrays | loop invariant |
| C05 | `IntFastSqrt` loop with C++ int/unsigned conversions | invariant for 8/16/32 bits; witness refuting 64 bits |
| C06 | `_bssmultiplyextract` partial products | ring + division lemmas |
| C07 | `DaysFromCivil` | independent successor-date spec, case analysis + linear arithmetic |
| C08 | `T_FBNEXT`, `T_NEXTMULTIPLE`, `AlignSize` | arithmetic |
| C09 | `bssLog2` variants | smearing / binary search, witness refuting the 64-bit GCC builtin variant |
| C10,C11 | `Base64Encode/Decode` loops with table | induction on 3-byte groups |
| C12–C14 | `ConvertUTF.c` four converters on unit arrays with explicit cursor/bounds | per code point lemma (arithmetic), induction over the sequence |
| C15 | `BitStream` Write/Read/Flush state machine | refinement to bit lists |
| C16 | `UBJSONTuple` Write/Parse on byte lists | mutual induction on value trees |
| C17 | `itoa_r` loop with buffer | digit invariant |
| C18 | binary searches as index loops with bounds-checked reads | loop invariant on sorted arrays |
| C19,C20 | `ArraySort`, `Map` on top of C18 and array shift | refinement to sorted multiset |
| C21–C23 | `BinaryHeap` percolations as index loops | heap-with-hole invariant, permutation; witness for Remove |
| C24 | `PriorityHeap` handle tables | invariant relating heap, subarray and free list |
| C25 | `DynArray` capacity/length/storage | refinement to lists |
| C26 | `DynArray<bool>` words and shifts | refinement to bool lists (+ witness for Insert over three words) |
| C27 | `ArrayCircular`, `Queue` | refinement to lists modulo capacity |
| C28 | `CompactArray` inline/heap | refinement to lists |
| C29 | `LinkedArray` slots | doubly linked segment invariant |
| C30 | `LLBase` on a heap of nodes | doubly linked segment invariant |
| C31,C32 | `AVLTree` functional pointer trees, stored balances | structural induction; balance = height difference |
| C33 | `AATree` insert/skew/split and remove | structural induction |
| C34 | `TRBtree` | heap-level model is large; threading and BST part first |
| C35,C36 | `Hash` `_put/_get/_delete/_resize` on flag/key/value arrays | probe-sequence permutation lemma, table invariant |
| C37 | `KH_STR_HASH` | induction on strings |
| C38,C39 | `DisjointSet`, Kruskal | forest invariant; exchange argument |
| C40 | `RWLock` transition system | counting invariant |
| C41 | SPSC queue transition system | invariant over list segments |
| C42 | `MicroLockQueue` transition system | invariant |
| C43 | lock-free free list with tag | invariant |
| C44,C45 | block and greedy allocators | invariants over address intervals |
| C46 | `ThreadPool` counters | invariant |
| C47 | `Trie` construction and lookup | refinement to the word list |
| C48 | `StringTable` | offset lemma |
| C49,C50 | `Rational` | gcd algebra |
| C51,C52 | `ref_ptr`, `OwnerPtr` op histories | counting invariant; witnesses |
| C53 | `AliasTable` over exact rationals | weight invariant of the two-stack loop |
| C54 | xorshift steps | linear algebra over bits: explicit inverse |
| C55 | `Shuffle`, `RandomQueue` | permutation |
| C56 | `KDTree` | bounding box invariant |
| C57 | `Scheduler::Update` | refinement; witness for the empty heap |
| C58 | `Graph` matrix conversion | induction; witness |
| C59 | `FixedPt` | arithmetic |
| C60 | INI line splitting | string functions |
| C61 | `ByteSearch` | loop invariant |
| C62 | `OutputUnicode` | arithmetic; witness U+10FFFF |
| C63-C65 | UTF converters on ill-formed input | well-formedness grammar; loop invariants |
| C66 | `Dual` | derivatives over the reals (Coquelicot-free, stdlib Reals) |
| C67, C69 | JSON writer and reader | structural induction, fuel-independent evaluation |
| C68 | JSON reader | measure on the bytes left |
| C70 | JSON string literals | induction over the grammar; witness surrogate pair |
| C71 | `BreadthFirstTree` | circular window refines a list queue; leaves bound the pending nodes; witness perfect tree |
| C72, C74-C78 | splines and equation solvers of `algo.h` | stdlib Reals, polynomial identities, Cardano and trigonometric roots |
| C73 | `ApproxCubic` | invariant: control points of an arc; termination by the third difference |
| C79, C80 | determinants and inverses of `vector.h` | Leibniz formula and adjugate, ring identities; registers as functions from lanes |
| C81 | `MatrixMultiply` | one memory for all arguments; loop invariant over the rows stored |
| C82-C84 | rotations, affine transforms, vectors, order of vectors | stdlib Reals; induction over the dimension |
| C85, C86 | `FromQuaternion<float,4>`, `GenericBSpline` | exact result proved, claim refuted |
| C87-C91 | spheres, circles, lines and segments of `Collision.h` | sets of points as predicates; stdlib Reals, Cauchy-Schwarz, discriminants |
| C92-C94 | rectangles and ellipses of `Collision.h`, `Geometry.h` | clamping gives the nearest point; minimality |
| C95-C97 | polygons | induction over the vertex list: a cyclic sum splits along a diagonal |
| C98 | `AngleDist`, sectors | reduction modulo a turn; polar form of `atan2` |
| C99, C100 | `RingAlloc.h` | threads as a list of program counters; each atomic access is a step; per-bucket invariant that the reservations are disjoint, the pending excess and the lock words are the counts of the threads |
| C101, C102 | `XML.cpp` writer and reader | the reader on the text of a tree, by induction on the size of the tree; one lemma for both modes, with the white space added as a function of the tree |
| C103 | termination of the XML reader | measure: the characters left; an end tag gives back less than was read |
| C104, C105 | entities and numbers in XML | the pattern matcher on each entity; digits |
| C106, C107 | child nodes and attributes of `XMLNode` | hash, array and linked lists in step: invariant about all splits of the array |
| C108–C110 | `AniState`: discrete tracks, time, looping | invariant: the position in a track is the number of frames up to the last time shown; refinement to a player of clock times |
| C111 | smooth tracks | the position in the track is the number of frames up to the time; curve given by splits of the frame list |
| C112, C113 | interval tracks | invariant: the queue holds the open handles with the data of their frames; the root of the heap is the largest |
| C114 | length of an animation | invariant: the length is an upper bound of all ends, and attained |
| C115–C117 | `LinkedList` | the lemmas of C30 on the intrusive list; invariant: allocated nodes are exactly those of the list; refinement to a list of (address, item) |
| C118 | nodes with instances (`INIsection`, `INIstorage`) | invariant: the list is the concatenation of the groups of one name; hash, instance arrays and values given by the groups |
| C119 | `INIstorage` edits | a text is the join of understood lines; each search is a scan of the lines, each edit replaces, inserts or removes whole lines; simulation of memory and text by one document |
| C120 | `INIstorage` loading | C60 line by line; invariant: the current section is the last one |
| C121 | string utilities | induction over the string in its buffer |
| C122 | trimming | loops by position, white space and ASCII bounds |
| C123 | `ToArgV` | induction over the arguments of the line; for the two calls: every position read is inside, the zeros written are behind the position |
| C124 | `ProcessCmdArgs` | induction over the arguments |
| C125 | `SafeFormat` | a format is a list of pieces; the loop writes one piece after the other; every string parses into pieces |
| C126 | `Explode`, `StrT` | strtok by pieces; the text is the join of its pieces |
| C127 | `bssAvg`, `bssVariance` | algebra of the recurrence |
| C128 | `Profiler` | invariant: each node is named by its path of digits and holds the means of the visits with that path; induction over the nested run; paths determine stacks if the ids are prefix-free |
| C129–C131 | reports of the profiler | the nodes are the visited stacks; each walk of the trie follows the ordered enumeration of the stacks |
| C132 | `HighPrecisionTimer` | induction over the operations |
| C133–C135 | `stream.h` | refinement to a reader standing in a byte list; invariant: the bytes written are a prefix of the memory; per target an accounting of delivered and pending text |
| C136–C137 | `Logger` | simulation of each call by events of the splitter (C135), induction over the calls; the header by C125 |
| C138–C140 | `Logger` levels, time, moves | arithmetic of the time of day; case analysis |
| C141–C144 | `TOML.h` | computations that end with enough fuel, composed; the text of a value by induction over it; sections by induction over the structure with the way from the root as a list of frames |
| C145–C147 | `Graph.h` flows | invariant of the push and relabel steps (excess is what flows in less what flows out); a set of states closed under steps for the loop without end; double counting; a quantity every step preserves |
| C148 | `Graph.h` BreadthFirstGraph | the queue with the number of steps to each entry is sorted, and the successors of what was taken are in it |
| C149–C150 | `Variant.h` | refinement to optional typed values, with the objects lost as ghost state; arithmetic of alignments |
| C151 | `Singleton.h` | induction over the operations, from the last |
| C152–C153 | `CacheAlloc.h` | every region has one owner (ghost state), lists are disjoint chains, tags grow; preserved by each step of each thread |
| C154–C156 | `bss_util.h` fsign, fSmall, fCompare, fWideCompare | the bits as sign and number of steps from zero; Flocq's `b32_of_bits` as specification |
| C157–C158 | `bss_util.h` fFastSqrt, dFastSqrt, fLength | the estimate from the bits by cases on the parity of the exponent and the borrow, a cubic each; Newton's iteration with relative errors |
| C159–C161 | `Geometry.h` CircleSector | polar coordinates; over less than a turn the cosine is largest at an end; the angle range as sides of two lines, intermediate values for entering the region |
| C162–C163 | `Array.h` Array | over the element model of DynArray: each operation as a list function, lifetimes in the cells |
| C164–C165 | `BitField.h` | bit by bit with `Z.testbit`; an iterator is a number, division by the width |
| C166–C168 | `Array.h` ArrayMultiRef, Slice, range helpers of `bss_util.h` | mixed radix numbers; lists cut with firstn and skipn |
| C169 | `bss_util.h` fnv1a | low halves depend on low halves only |
| C170 | `bss_util_c.c` strtok_r | memory before, token, rest; induction over the length of the rest |
| C171 | `BitStream.h` bssSerialize | bytes of a number, FlipEndian reverses |
| C172 | `BitStream.h` constructors and assignments | C15's content of a writer; the number of waiting bits |
| C173 | `Stack.h` | refinement of a pile over the element model of DynArray |
| C174–C175 | `INIentry.*` | digits in a base; Flocq's rounding as specification of double |
| C176 | `RandomQueue.h` PoissonDiskSample | invariant of grid, queue and points; geometry of the cells around a point |
| C177–C179 | `sseVec.h` integer vectors | lanes of a number of 128 bits; bits |
| C180–C181 | `sseVec.h` float and double vectors | Flocq's binary32 and binary64; floats from 2^24 on are whole |
| C182 | `sseVec.h` without vector instructions | agreement, element by element, with the model of the instructions |
| C183–C184 | `INIstorage`, `INIsection` copying and moving, `_setFilePath` | the copy loop adds a group at a time; counterexamples for all values |
| C185 | `algo.h` `StochasticSubdivider` | induction over the recursion, with an arbitrary random engine and arbitrary functions |
| C186 | `Str.h` conversions between `char` and `char32_t` strings | the converters of C12 run twice, as `_convStr` does |
| C187 | `Geometry.h` `NSphere<T,2>` | shift by the centre, then C87–C89 and C92 |
| C188 | `Animation.h` easing and key frame curves | monotonicity at the corners of the square of control points; derivatives with Coquelicot |
| C189 | `stream.h` `StreamBufFunction` | the derived class as a state machine; induction over the text |
| C190 | `FixedPt.h` conversions to and from floating point | Flocq rounding in FLT; the two parts are exact |
| C191 | `TRBtree.h` DEBUGVERIFY, moves, destructor | objects with their sentinel and policy; invariant over operations |
| C192 | `LocklessQueue.h` length | counter invariant over all schedules |
| C193 | `bss_util.h`, `defines.h` bit masks, signs, limits | bitwise extensionality; the finitely many bit counts by computation |
| C194 | `DynArray.h` `ArbitraryArray` | bytes and offsets; refinement to a list of elements |
| C195 | `AliasTable.h` copies and moves | bytes copied against bytes held |
| C196 | `XML.cpp` copies and moves | trees; elements that hold no object |
| C197 | `Thread.h` join, semaphores | exact arithmetic of the clock; induction over events |
| C198 | `Delegate.h` | the functions called are parameters |
| C199 | `ThreadPool.h` destructor, moves, futures | measure over worker steps; invariant over all schedules |
| C200 | `BlockAlloc.h`, `BlockAllocMT.h`, `GreedyAlloc.h`, `RingAlloc.h` moves | multiset of chunks held against chunks given out |
| C201 | `Hash.h` `KH_AUTO_HASH`, `KH_AUTO_EQUAL`, `khash.h` integer hashes | structural induction over keys; every line of the integer hash is inverted |
| C202 | `Geometry.h` centring, areas, lines, spheres | algebra over reals, fan of triangles of C96, integral and derivative |
| C203 | `LocklessQueue.h` `MicroLockQueue` objects | refinement to lists with a heap of nodes, ownership by object, count of live nodes |
| C204 | `FixedPt.h` 64-bit division, reciprocal, shifts | error bounds over reals from the integer remainders |
| C205 | `LinkedList.h` `LLIter` and loops with it | induction over the rest of the list, with `holds` of C115 |
| C206 | `Collision.h` `EllipseNearestPoint`, `EllipseCircleCollide`; `Geometry.h` `Ellipse::NearestPoint` | the border by its angle; Newton's method stands still where the slope is zero; inequalities of squares |
| C207 | `LinkedArray.h` `cLAIter`, loops with it, the move assignment | induction over the rest of the list, with `shows` and `reachable` of C29 |
| C208 | `ArrayCircular.h` `CircularIterator`, pairs in `Serialize`, the move constructor | induction over the items, with `holds` and `reachable` of C27 |
| C209 | `Graph.h` `GetNode`, `AddNode`, `RemoveNode`, the constructor | the free list of the `LinkedArray` of C29 is 0, 1, 2, ... |
| C210 | `AATree.h` `Clear`, destructor, `IsEmpty`, `GetRoot`, `Get`, `Traverse` | induction on the tree over a heap of nodes |
| C211 | `Array.h` `VARARRAY`, `internal::VariableArray` | loop invariants on the elements that live, bit masks |

## 4. Exactly what is modelled, and what is not

"Modelled" means: a Gallina definition follows the cited lines statement by statement, with the
simplifications named in the comment above it.  Everything not listed in 4.2 is not modelled.

### 4.1 Source that is not modelled

| file | not modelled |
|------|--------------|
| `Alloc.h` | the polymorphic allocator wrappers; every model takes allocation to succeed unless its theorem says otherwise (C44 models failure) |
| `Animation.h` | the copying of animations and states, `QuadraticInterpolate` and `CubicInterpolate` (do not compile), `std::get` by type, smart-pointer handling |
| `TOML.h` | `TOMLValue`, floating-point numbers, date-times, tuples, files; the stream is a string stream |
| `Variant.h` | constructors and assignments that throw; `convertP` |
| `literals.h`, `os.h`, `lockless.h` | everything, except where a row of 4.2 cites lines |
| `Thread.h`, `Delegate.h` | the Windows branch, thread names and priorities, sleeping; argument forwarding and packing (arguments are one value) |
| `CacheAlloc.h` | `BSS_DEBUG`, `VERIFY`, moves, copying of the contents by `allocate` |
| `INIentry.*`, `INIsection.*`, `INIstorage.*` | paths and files of the operating system (`_openINI` reads the file as given, `EndINIEdit` is not modelled), logging, the move constructors; the hash keys are names by content |
| `Array.h`, `DynArray.h`, `ArrayCircular.h`, `CompactArray.h`, `LinkedArray.h` | iterators, `Serialize`, streams; elements whose copy constructor throws; items passed by reference to the array that is being changed |
| `Stack.h`, `BitStream.h` | the copy and move constructors of `Stack` (do not compile), serialisation; reading through several `BitStream` objects |
| `AATree.h`, `AVLTree.h`, `TRBtree.h` | iterators, allocators, the move and copy operations other than those cited |
| `Hash.h` | iterators, serialisation; the hash function is a parameter, except for strings (C37) |
| `BlockAllocMT.h`, `LocklessQueue.h`, `RWLock.h`, `RingAlloc.h`, `ThreadPool.h` | memory orders weaker than sequential consistency; destruction and moving while other threads run; the ABA counter is a natural number |
| `Collision.h`, `Geometry.h`, `algo.h` (curves and solvers), `vector.h`, `Dual.h`, `AliasTable.h`, `Rational.h` | rounding, overflow, infinities and NaN of floating-point types: scalars are exact reals or rationals; `FastSqrt` is exact or a parameter; the convergence of the iteration in `EllipseNearestPoint`; `sseVec` except the lanes used by the cited functions |
| `algo.h` | `GaussianQuadrature` (does not compile), `QuadraticFit` (does not compile), `_PriComp` helpers, random number generation (a sequence of numbers is a parameter) |
| `bss_util.h` (floating point) | overflow and underflow of the operations in `fFastSqrt`, `dFastSqrt` and `fLength`; negative arguments of the roots |
| `BitField.h`, `bss_util_c.c` | `wcstok_r` (the same text as `strtok_r`), streams of flags, and all that is not cited, in particular the functions reading the processor and the operating system |
| `ConvertUTF.c` | the Windows-only converters |
| `JSON.h`, `UBJSON.*`, `XML.*`, `Serializer.h` | the engine classes that walk user structures; number formatting of floating-point values is an abstract bijection (JSON, UBJSON) or an uninterpreted result (XML) |
| `KDTree.h` | `InsertRoot`, `Solve`, `Clear`, the destructor; rounding of coordinates |
| `Profiler.*` | registering names, the text around the numbers, the bars of the heat map and the order of its children, rounding and overflow of the counters |
| `Scheduler.h` | reading the clock: the time of each update is an input |
| `HighPrecisionTimer.*` | the Windows branch; reading the clock: its readings are an input of the model |
| `StringTable.h`, `Str.h` | wide-character variants (except `Explode` of `char32_t`), `ParseTokens` beyond the loop shared with `Explode`, the conversions with `wchar_t` (C12 and C186 model the others) |
| `stream.h` | wide streams; the functions of `std::streambuf` that are not overridden follow the C++ standard |
| `Logger.*` | log files (a file is a target like another), `PrintLogV` after its header, reading the clock (the time of each entry is an input), the Windows variants |
| `RandomQueue.h` | rounding of the coordinates in `PoissonDiskSample` (C176 is over real numbers), the stack space of its grid |
| `sseVec.h` | the branch without the instructions of the processor for float and double; + - * / of float and double vectors, which are single instructions; aligned loads and stores; conversions between vectors |

### 4.2 Lines cited by each model file

Generated from the comments of the definitions; line numbers refer to the pinned commit.

* `AAClear.v` — AATree.h 11-18, 38-42, 46-85, 168-169
* `AATree.v` — AATree.h 11-18, 25-37, 43-44, 46-61, 86-164, 166-169
* `AVLTree.v` — AVLTree.h 11-26, 100, 103-117, 123-162, 167-176, 189-200, 202-245, 247-262, 264-319, 321-375
* `AliasCopy.v` — AliasTable.h 21-23, 108-127
* `AliasTable.v` — AliasTable.h 26-85, 93-99, 129-132
* `AllocMove.v` — BlockAlloc.h 21-41, 54-56, 79-93, 95-103; BlockAllocMT.h 17-43, 52-58, 93-101; GreedyAlloc.h 25-47, 66-77, 100-123, 125-134; RingAlloc.h 32-44, 54-80, 112-118, 120-130, 135-152
* `Animation.v` — Animation.h 13-33, 61, 63-68, 77, 86, 88-111, 121-122, 150, 156-177, 179-220, 222-254, 256-305, 315, 339, 341, 347-419, 424, 430, 453-455, 465, 469-473, 478-502, 539-540; bss_util.h 1001-1006; compare.h 11, 16, 34
* `ArbitraryArray.v` — Array.h 109-113, 123-132, 135-146, 180-189, 257-258; DynArray.h 339-449; defines.h 57
* `ArrayCircular.v` — Array.h 99-263; ArrayCircular.h 19-20, 33-34, 37-53, 60-131, 187-200, 202-203; Queue.h 29, 31-33, 50-56; bss_util.h 178-185
* `ArraySort.v` — ArraySort.h 13-144; DynArray.h 45-49, 150-155; Map.h 13-95; compare.h 44-45
* `AutoHash.v` — Hash.h 17-35, 85-138; khash.h 387, 425-436
* `BFSGraph.v` — Graph.h 399-441
* `Base64.v` — algo.h 605-696
* `BitField.v` — BitField.h 18-25, 48-57, 76, 81, 85-102, 104-105, 118-119, 122, 132-133; DynArray.h 295; defines.h 56
* `BitHandover.v` — BitStream.h 17-47, 79-82, 89-90, 94-97
* `BitMask.v` — bss_util.h 74-84, 86-91, 103-108, 110-111, 377-384, 386-391, 919-924; defines.h 45-46, 49, 53
* `BitUtil.v` — Alloc.h 31; bss_util.h 156-163, 178-185, 328-336, 339-350, 352-366, 369-375, 642-651, 654-658, 701-714, 722-731, 770-811, 822, 825-884, 889-906, 908-917, 928-962, 964-969, 977-988; defines.h 55, 57
* `BlockAlloc.v` — Alloc.h 31; BlockAlloc.h 16-20, 27-32, 47-93, 120-144, 146-150
* `BreadthFirst.v` — algo.h 295-323
* `CacheAlloc.v` — CacheAlloc.h 12-156; Hash.h 439-448
* `CircIter.v` — Array.h 110-114; ArrayCircular.h 26-30, 133-158, 172-178; Serializer.h 289-301
* `CircleClass.v` — Geometry.h 46-99
* `Collision.v` — Collision.h 12-16, 18-25, 27-32, 37-60, 64-78, 81-87, 89-93, 95-101, 103-104, 109-127, 129-144, 190-196, 198-206, 208-216, 218-381, 384-399, 401-440, 442-446, 448-452, 454-458, 462-486, 490-496, 539-544, 548-553, 555-574, 579-591, 594-609, 611-626, 628-638, 640-652; Geometry.h 69, 256-369, 371-378, 671-679; bss_util.h 187-193, 408-414, 416-422, 604-664; defines.h 15-16
* `CompactArray.v` — Array.h 78-84, 86-91; CompactArray.h 40-50, 56-62, 64-68, 70-74, 76-109, 111, 116-119, 121-137, 159-168
* `Curves.v` — algo.h 237-242, 249-255, 262-268, 271-280, 287-293, 326-330, 346-363, 367-381, 384-393, 396-402, 405-420, 423-442, 444-482, 484-491, 494-524, 527-543, 546-571; bss_util.h 562-577, 604-664, 1002-1004
* `Delegate.v` — Delegate.h 17, 20-26, 30-39, 41-53, 56-57, 60-71, 73-84, 86-98, 100-103
* `DisjointSet.v` — DisjointSet.h 13-197
* `Dual.v` — Dual.h 13-14, 18, 24-32, 34, 39-43, 50-51, 59-66, 68-69, 71-75; compare.h 11
* `DynArray.v` — Array.h 93-97, 99-263; DynArray.h 13-164
* `DynArrayBool.v` — Array.h 136-141; BitField.h 13-42; DynArray.h 166-337; defines.h 56
* `Easing.v` — Animation.h 19-25, 543-723; algo.h 547; bss_util.h 1002-1006
* `EllipseNear.v` — Collision.h 498-537; Geometry.h 411, 413, 416-417
* `FixedArray.v` — Array.h 101-263, 266-402
* `FixedDiv.v` — FixedPt.h 22-23, 30-31, 80-83, 87-88, 109-110
* `FixedFloat.v` — FixedPt.h 10-15, 68-69, 73-74
* `FixedPt.v` — FixedPt.h 17-20, 24-29, 64-66, 72, 77-78, 84, 86, 89-98, 108, 111-120, 130-135; bss_util.h 166-175
* `FloatBits.v` — bss_util.h 394-406, 524-532, 535-559, 562-577, 579-591, 594-601, 604-614, 617-633
* `Flow.v` — Graph.h 26, 186, 200-323, 335-368, 380-397
* `Fnv.v` — bss_util.h 1009-1015
* `Graph.v` — Graph.h 26, 30, 51, 72-79, 81-83, 94-125, 128-150, 169-183, 186-187
* `GraphNode.v` — Graph.h 79-82, 85, 94-95, 112-118
* `GreedyAlloc.v` — GreedyAlloc.h 32-36, 160-165; GreedyBlockAlloc.h 17-24, 31-34, 46-64, 84-103, 105-116, 128-129
* `Growth.v` — bss_util.h 369-375; defines.h 57
* `Hash.v` — Hash.h 158-640; khash.h 167-173, 178, 194
* `Heap.v` — BinaryHeap.h 14-16, 19-199; PriorityQueue.h 28-37, 48-128
* `INIChain.v` — Array.h 294-298; INIsection.cpp 26-28, 76-97, 125-131, 133-137, 139-145; INIsection.h 22-27, 82; INIstorage.cpp 62, 84-101, 136-162, 173-198, 276; INIstorage.h 76, 81-82
* `INICopy.v` — Array.h 312-319; Hash.h 438-447; INIentry.h 22; INIsection.cpp 12-15, 51-73; INIsection.h 29-34, 63; INIstorage.cpp 49-53, 326-350, 358-384, 400-416; INIstorage.h 38-39
* `INIEntry.v` — INIentry.cpp 12-60; INIentry.h 34-45, 57-60
* `INIParser.v` — INIParser.c 26-179; INIparse.h 18-28
* `INIStorage.v` — INIParser.c 54-58, 181-296; INIentry.cpp 31; INIentry.h 50-51; INIsection.cpp 76-97, 125-145; INIsection.h 77-82; INIstorage.cpp 24-29, 62-76, 91-111, 113-134, 165-203, 205-285, 305-325; INIstorage.h 76-82
* `JSON.v` — DynArray.h 126-133, 137-143, 145-149; JSON.h 18-474; Serializer.h 29-39; Variant.h 59
* `KDTree.v` — KDTree.h 14-355
* `LArrIter.v` — Array.h 124-132; LinkedArray.h 81, 88-125
* `LLBase.v` — LLBase.h 14-18, 22-29, 33-39, 43-49, 52-59, 63-70, 74-80, 84-90, 93-100, 104-110, 114-119, 123-127, 131-137
* `LinkedArray.v` — LinkedArray.h 12-18, 30, 37-38, 43-56, 59-77, 80, 82-86, 129-183, 185-191
* `LinkedList.v` — LinkedList.h 54, 63-75, 78, 80-81, 84-85, 103, 105-106, 109, 127, 138-145, 147, 149-161, 163-192, 201, 215-221, 230-237, 239
* `ListIter.v` — LinkedList.h 18-41, 62, 162, 194-198
* `LocklessBlock.v` — BlockAlloc.h 15-19; BlockAllocMT.h 24-33, 130-139, 158-160
* `LocklessQueue.v` — LocklessQueue.h 11-18, 59-64, 123-125
* `Logger.v` — Array.h 312-319; Logger.cpp 13-14, 16-27, 46-113, 115-194, 196-201; Logger.h 72-91, 106-115; bss_util.cpp 157-180; stream.h 48-57
* `Matrix.v` — bss_util.h 604-664; compare.h 11; sseVec.h 389, 510, 512, 515-522, 525, 544-546, 548; vector.h 17-24, 26-30, 39-52, 54-61, 63-68, 84-92, 144-185, 187-267, 271-374, 377-382, 384-431, 438-443, 445-450, 452-466, 468-486, 491-529, 550-581, 645-652, 691, 867, 871, 877-879, 889, 914, 918-925, 937-943, 948-949, 952-954, 970, 974, 977, 999, 1013-1018, 1023-1026, 1049, 1097, 1100-1103, 1197-1208
* `MicroLockQueue.v` — BlockAllocMT.h 130-141, 153; LocklessQueue.h 16, 151-157, 216-219
* `OwnerPtr.v` — SmartPtr.h 13-76
* `Poisson.v` — RandomQueue.h 30-36, 60-138; algo.h 122-126; bss_util.h 668-673
* `PoolMove.v` — ThreadPool.h 26-35, 41-60, 71-91, 101-114, 123-128, 131-150
* `PriorityHeap.v` — BinaryHeap.h 64; PriorityQueue.h 48-128; compare.h 38-39
* `Profiler.v` — HighPrecisionTimer.h 77-87; Profiler.h 19-22, 38-46, 61-87, 111-112, 132-138; bss_util.h 681-687, 690-698; profiler.cpp 13-44, 55, 81, 84-99, 103-104, 109-148, 193-211, 231-238
* `QueueLength.v` — LocklessQueue.h 20-40, 54-64, 105-111, 144-150, 211
* `QueueMove.v` — LocklessQueue.h 12-18, 22-34, 128-220
* `RWLock.v` — RWLock.h 21-29, 33-131, 133, 136-139, 141
* `Rational.v` — Rational.h 13-151, 153-160
* `RefPtr.v` — RefCounter.h 11-87
* `RingAlloc.v` — RingAlloc.h 16-23, 38-43, 155-204, 233-241
* `Scheduler.v` — BinaryHeap.h 54; HighPrecisionTimer.cpp 16-19, 21-37; Scheduler.h 13, 21, 27, 29-30, 32-45; compare.h 19, 34
* `Search.v` — algo.h 21-102; compare.h 29
* `Sector.v` — Geometry.h 445-446, 448-451, 457-474, 476-495, 497-506, 508-537, 539-606, 609-623, 625-634, 636-660, 662-668; bss_util.h 562-578
* `Serialize.v` — BitStream.h 100-140
* `Shapes.v` — Geometry.h 103-143, 148-252, 381-396, 684-750; vector.h 645, 652
* `Shuffle.v` — RandomQueue.h 14-19, 26-28, 30-36, 38, 40; algo.h 131-136
* `Slices.v` — Array.h 16-91, 404-446; bss_util.h 181
* `Sse.v` — sseVec.h 330, 333-334, 338-351, 354-359, 363-372, 376-382, 385-387, 390, 407-413, 482-487, 491, 604, 611-620, 626-633, 658, 663-671, 686-693, 721, 728, 732-735, 738, 747-754, 760-761, 773-774, 777-778, 792, 801-804, 819, 832
* `SseFloat.v` — sseVec.h 276-277, 284-289, 306, 314-319, 388, 392, 396, 423-429, 455-466, 470-473, 533-534, 548
* `SsePortable.v` — bss_util.h 991-998; defines.h 15-16; sseVec.h 18-36, 56-72, 74-83, 85-94, 105-124, 188-196, 198, 200, 202-205, 210-214, 219-220, 222, 224-227, 232-233, 235, 237, 243
* `Stack.v` — DynArray.h 77-80; Stack.h 10-57
* `Str.v` — Str.h 180, 310-311
* `StrConv.v` — Str.h 124-125, 128-131, 163-164, 283-308
* `StrHash.v` — Hash.h 38-83
* `StrUtil.v` — Str.h 34, 84-95, 132-150, 181-191, 193-219, 242-255; bss_util.h 114-126, 134-141, 144-152, 197-203, 206-215, 218-222, 224-250, 253-272, 277-286, 288-318, 322-326
* `Stream.v` — Array.h 165-178; DynArray.h 71; stream.h 25-61, 77, 92-128, 130-132, 137-227
* `StreamFn.v` — stream.h 228-317
* `StringTable.v` — Array.h 311-318, 359-365; Str.h 33; StringTable.h 26, 28, 30-53, 57, 59, 61-72, 76, 92-103, 108-133, 135-136; bss_util.h 145-152
* `Strtok.v` — bss_util_c.c 290-332
* `Subdivide.v` — algo.h 126, 216-237; bss_util.h 1002-1006
* `TOML.v` — Serializer.h 71-88, 142-163, 269-287, 328-359; TOML.h 32-55, 65-74, 76-96, 108-118, 138, 144-188, 190-272, 279-293, 301-313, 322-341, 371-388, 550-565, 567-592, 667-668, 697-698, 740-741, 756-775
* `TRBMove.v` — Alloc.h 35-91, 113-142; TRBtree.h 168-187, 386, 401-446, 452-474, 481-494, 536-541
* `TRBtree.v` — TRBtree.h 52-62, 69-104, 120-135, 190-378, 420-427, 450-456, 458, 496-533, 537-540
* `ThreadJoin.v` — Thread.h 47-54, 66-70, 72-104
* `ThreadPool.v` — ThreadPool.h 32-39, 123-128
* `Timer.v` — HighPrecisionTimer.cpp 16-19, 21-37, 39-73; HighPrecisionTimer.h 38-60, 64, 91-95
* `Trie.v` — Trie.h 15-21, 33, 49-51, 53-101, 108, 111-174; compare.h 46-56
* `UBJSON.v` — UBJSON.cpp 74-208; UBJSON.h 18-230, 236-250
* `Utf.v` — ConvertUTF.c 75-84, 91-92, 101, 113-183, 185-245, 249-334, 350-376, 395-472
* `VarArray.v` — Array.h 446-501
* `Variant.v` — Serializer.h 199-220; Singleton.h 9-26; Variant.h 24-270
* `XML.v` — XML.cpp 16, 27-38, 46-56, 135, 161-175, 178-227, 229-245, 247-271, 273-310, 312-324, 326-344, 346-356, 358-381, 383-415; XML.h 16-24, 108-113
* `XMLCopy.v` — Array.h 206-222; DynArray.h 27, 40, 100-108; XML.cpp 12-13, 58-97, 145-160; XML.h 108-128
* `XMLTree.v` — Hash.h 228-238; LLBase.h 16-17, 33-39; XML.cpp 97-175; XML.h 48, 51-59, 108-111
* `Xorshift.v` — XorshiftEngine.h 14-31, 34-40, 95-105

## 5. `Print Assumptions`

Generated from the build, for every theorem named in `MANIFEST.json`.

**Closed under the global context** (497 theorems): `C01_bssMod_euclidean`, `C01_IntDiv_floor`, `C02_NextPow2`, `C03_BitCount`, `C04_FlipEndian_reverses`, `C04_FlipEndianT_reverses`, `C04_FlipEndian_involutive`, `C05_IntFastSqrt_partial`, `C05_IntFastSqrt_refuted`, `C06_MultiplyExtract_unsigned`, `C06_MultiplyExtract_signed`, `C06_shift_zero_undefined`, `C07_DaysFromCivil_calendar`, `C07_DaysFromCivil_order`, `C07_DaysFromCivil_onto`, `C08_fbnext_grows`, `C08_nextmultiple_least`, `C08_AlignSize_least`, `C09_bssLog2_partial`, `C09_bssLog2_gcc64_refuted`, `C61_ByteSearch_first`, `C62_OutputUnicode_partial`, `C62_OutputUnicode_refuted`, `C10_Base64_roundtrip`, `C10_Base64_injective`, `C10_Base64_standard`, `C11_Base64Decode_total`, `C11_Base64Decode_exact`, `C18_BinarySearchAfter_lower_bound`, `C18_BinarySearchBefore_upper_bound`, `C18_BinarySearchExact_found_iff`, `C19_ArraySort_sorted_multiset`, `C19_ArraySort_total`, `C19_ArraySort_reported_index`, `C19_ArraySort_Find_iff`, `C20_Map_sorted_pairs`, `C20_Map_total`, `C20_Map_Get_iff`, `C20_Map_finite_map`, `C21_BinaryHeap_histories`, `C21_BinaryHeap_total`, `C21_BinaryHeap_peek_max`, `C21_BinaryHeap_drain`, `C22_HeapSort_sorts`, `C22_Heapify_heap`, `C23_Remove_multiset`, `C23_Remove_order_partial`, `C23_Remove_order_refuted`, `C24_PriorityHeap_Get`, `C24_PriorityHeap_total`, `C24_PriorityHeap_order`, `C24_stale_key_aliases`, `C12_UTF8_roundtrip`, `C13_UTF16_roundtrip`, `C14_UTF8toUTF32_safe_partial`, `C14_UTF32toUTF8_safe_partial`, `C14_UTF32toUTF16_safe_partial`, `C14_UTF16toUTF32_safe`, `C14_overread_refuted`, `C15_Write_concatenation`, `C15_roundtrip`, `C15_roundtrip_values`, `C15_dirty_destination`, `C17_itoa_r_reads_back`, `C17_itoa_r_in_bounds`, `C17_int_min_undefined`, `C25_DynArray_list`, `C25_DynArray_access`, `C25_DynArray_Add_index`, `C25_DynArray_plus_copy_destroy`, `C26_DynArrayBool_list_partial`, `C26_DynArrayBool_read`, `C26_CountBits`, `C26_Insert_refuted`, `C26_AddConstruct_refuted`, `C27_ArrayCircular_deque`, `C27_ArrayCircular_destructor`, `C27_Queue_total`, `C27_Queue_fifo`, `C28_CompactArray_list`, `C28_initializer_list_refuted`, `C28_SetCapacity_refuted`, `C29_LinkedArray_list`, `C29_LinkedArray_new`, `C29_LinkedArray_reuse`, `C30_LLInsert`, `C30_LLInsertAfter`, `C30_LLAdd`, `C30_LLAddAfter`, `C30_LLRemove`, `C31_AVLTree_map`, `C31_ReplaceKey_refuted`, `C32_AVLTree_balanced`, `C32_AVLTree_height`, `C33_AATree_multiset_partial`, `C33_AATree_levels`, `C33_Remove_refuted`, `C34_TRBtree_sorted_sequence`, `C34_TRBtree_red_black`, `C34_GetNear_before`, `C34_GetNear_after_refuted`, `C35_Hash_map`, `C35_Hash_copy`, `C36_probe_permutation`, `C36_Hash_terminates`, `C37_hash_value`, `C37_insensitive`, `C37_sensitive`, `C37_consistent`, `C38_DisjointSet`, `C38_Union_self_refuted`, `C38_AddSets_refuted`, `C39_MinSpanningTree`, `C49_exact`, `C49_equality`, `C50_compare`, `C51_ref_ptr_partial`, `C51_self_assignment_refuted`, `C52_OwnerPtr_partial`, `C52_move_assign_refuted`, `C54_xorshift64`, `C54_xorshift1024`, `C54_xorshift1024_bijective`, `C54_zero_seed_refuted`, `C55_Shuffle`, `C55_RandomQueue`, `C53_AliasTable`, `C59_add_sub`, `C59_same_scale`, `C59_mul`, `C59_div`, `C59_int`, `C59_add_exact_refuted`, `C59_convert_refuted`, `C48_StringTable_partial`, `C48_self_add_refuted`, `C48_stream_first_empty_refuted`, `C48_append_to_empty_refuted`, `C47_Trie_partial`, `C47_stored_word_found_partial`, `C47_high_bytes_refuted`, `C47_no_words_refuted`, `C57_Scheduler_partial`, `C57_calls_in_time_order`, `C57_last_event_refuted`, `C57_negative_refuted`, `C58_operations`, `C58_ToMatrix_partial`, `C58_from_matrix_partial`, `C58_round_trip_partial`, `C58_garbage_refuted`, `C58_vertices_refuted`, `C44_blocks`, `C44_Alloc`, `C44_recycle`, `C44_Clear`, `C40_exclusion`, `C40_word_zero`, `C40_word`, `C45_GreedyBlockPolicy`, `C45_GreedyAlloc`, `C45_GreedyAlloc_size`, `C43_partition`, `C43_live`, `C43_allocate`, `C43_none_lost`, `C43_safe`, `C41_fifo`, `C41_empty`, `C41_pop`, `C41_safe`, `C42_fifo`, `C42_once`, `C42_pop`, `C42_safe`, `C42_fail_locked`, `C42_fail_partial`, `C42_fail_one_consumer_partial`, `C42_spurious_failure_refuted`, `C46_once`, `C46_zero`, `C46_wait`, `C46_counted_kept`, `C46_push_counted`, `C46_destructor`, `C60_pair_partial`, `C60_section_partial`, `C60_comment`, `C60_ends`, `C60_file_partial`, `C60_blank_value_refuted`, `C60_high_byte_refuted`, `C60_last_section_refuted`, `C16_roundtrip`, `C16_injective`, `C16_sequence`, `C16_zero_width_at_end_refuted`, `C16_noop_refuted`, `C56_query`, `C56_safe`, `C56_sound`, `C56_inserts`, `C56_rebalance_refuted`, `C63_UTF8_longest_prefix`, `C63_UTF8_accepts_exactly_well_formed`, `C64_UTF32toUTF16_replaces`, `C64_UTF32toUTF8_replaces_partial`, `C64_UTF32toUTF8_surrogate_refuted`, `C65_UTF16_lossless`, `C67_JSON_round_trip`, `C67_unrestricted_refuted`, `C68_ParseJSON_total`, `C69_JSON_pretty_round_trip_partial`, `C69_last_bool_refuted`, `C70_JSON_string_literals_partial`, `C70_surrogate_pair_refuted`, `C71_BreadthFirst_partial`, `C71_BreadthFirst_even_partial`, `C71_BreadthFirst_overcount_partial`, `C71_perfect_tree_refuted`, `C99_RingAlloc_partial`, `C99_RingAlloc_refuted`, `C100_RingAlloc_reuse_partial`, `C100_RingAlloc_first_refuted`, `C100_RingAlloc_race_refuted`, `C101_XML_roundtrip_partial`, `C101_XML_quote_refuted`, `C101_XML_greater_refuted`, `C102_XML_pretty`, `C103_XML_read_ends`, `C104_XML_entities_partial`, `C104_XML_entities_refuted`, `C105_XML_integer`, `C106_XML_nodes_partial`, `C106_XML_RemoveNode_refuted`, `C107_XML_attributes_partial`, `C107_XML_RemoveAttribute_refuted`, `C108_Animation_discrete`, `C108_Animation_steps`, `C109_Animation_time`, `C110_Animation_loop_partial`, `C110_Animation_loop_refuted`, `C111_Animation_smooth`, `C111_Animation_steps`, `C112_Animation_intervals`, `C113_Animation_interval_ends_partial`, `C113_Animation_interval_ends_refuted`, `C114_Animation_length`, `C115_LinkedList_partial`, `C115_LinkedList_small_partial`, `C115_LinkedList_remove_partial`, `C115_LinkedList_refuted`, `C116_LinkedList_copy_partial`, `C116_LinkedList_reversed_partial`, `C116_LinkedList_copy_refuted`, `C116_LinkedList_self_refuted`, `C117_Item`, `C117_Item_finds`, `C118_instances`, `C119_INIstorage_partial`, `C119_prefix_refuted`, `C120_load_partial`, `C120_load_edit_partial`, `C120_last_section_refuted`, `C120_empty_file_refuted`, `C121_strreplace`, `C121_ReplaceChar`, `C121_strccount`, `C121_strccount_length_partial`, `C121_strccount_length_refuted`, `C121_StripChar`, `C122_strltrim`, `C122_strtrim_partial`, `C122_blank_refuted`, `C122_rtrim_refuted`, `C123_ToArgV_arguments`, `C123_ToArgV_two_calls`, `C124_ProcessCmdArgs`, `C125_SafeFormat`, `C125_every_format`, `C126_Explode`, `C126_Explode_zero`, `C126_Explode32_refuted`, `C126_field`, `C127_bssAvg`, `C127_bssVariance_partial`, `C127_bssVariance_refuted`, `C128_profile_partial`, `C128_sixteen_zones`, `C128_profile_refuted`, `C129_tree_partial`, `C129_tree_refuted`, `C130_flat_partial`, `C130_flat_refuted`, `C131_heat_partial`, `C131_heat_refuted`, `C132_time`, `C132_updates`, `C132_override`, `C132_warp_refuted`, `C133_reader_partial`, `C133_reader_refuted`, `C134_write_partial`, `C134_readwrite_partial`, `C134_count_partial`, `C134_stream_refuted`, `C135_splitter`, `C135_flushed`, `C136_delivery`, `C136_new`, `C137_destroy_partial`, `C137_destroy_refuted`, `C138_SetLevel_partial`, `C138_defaults`, `C138_SetLevel_refuted`, `C139_time`, `C139_date_partial`, `C139_date_refuted`, `C140_move_partial`, `C140_move_refuted`, `C141_string`, `C142_literal`, `C142_multi`, `C142_multi_refuted`, `C143_roundtrip_partial`, `C143_roundtrip_refuted`, `C144_table_array`, `C145_preflow_partial`, `C145_maxflow_refuted`, `C146_circulation`, `C147_lower`, `C148_bfs_partial`, `C148_bfs_forest_partial`, `C148_bfs_refuted`, `C149_variant_partial`, `C149_serialize_partial`, `C149_variant_refuted`, `C150_layout_partial`, `C150_layout_refuted`, `C151_singleton`, `C152_cache`, `C153_reuse_partial`, `C153_kept_partial`, `C153_kept_refuted`, `C155_same_partial`, `C155_below_partial`, `C155_wraparound`, `C155_small_partial`, `C155_compare_refuted`, `C156_wide_partial`, `C162_Array_list`, `C162_Array_life`, `C163_own_argument_partial`, `C163_own_argument_refuted`, `C164_flags_partial`, `C164_flags_refuted`, `C164_read`, `C165_iterator_partial`, `C165_iterator_refuted`, `C165_walk`, `C166_bijection`, `C166_contiguous`, `C167_sub_partial`, `C167_access`, `C167_sub_refuted`, `C167_const_refuted`, `C168_insert_range`, `C168_remove_range`, `C169_fnv_partial`, `C169_fnv_refuted`, `C170_strtok`, `C170_tokens`, `C171_serialize`, `C172_handover_partial`, `C172_handover_refuted`, `C173_Stack`, `C173_empty`, `C174_conversions`, `C177_elements`, `C177_compare`, `C178_multiply_min_max`, `C178_shuffle_sum`, `C179_shifts_partial`, `C179_shifts_refuted`, `C182_add_sub_partial`, `C182_multiply_min_max_partial`, `C182_compare`, `C182_bits`, `C182_shift_partial`, `C182_shuffle`, `C182_portable_refuted`, `C183_copy_partial`, `C183_copy_refuted`, `C183_move_refuted`, `C184_path`, `C185_tiles_partial`, `C185_ends`, `C185_integers_refuted`, `C186_convert_partial`, `C186_count_refuted`, `C186_invalid_refuted`, `C189_write_partial`, `C189_write_refuted`, `C189_read_partial`, `C189_read_refuted`, `C191_verify`, `C191_lifetime`, `C191_move_assign_partial`, `C191_move_assign_refuted`, `C191_move_construct_partial`, `C191_move_construct_refuted`, `C192_length_exact`, `C192_length_close_partial`, `C192_length_close_refuted`, `C193_mask_bit`, `C193_mask_range_partial`, `C193_mask_range_refuted`, `C193_set_bit`, `C193_get_bit_partial`, `C193_get_bit_refuted`, `C193_signs`, `C193_limits_partial`, `C193_limits_refuted`, `C194_operations_partial`, `C194_runs_partial`, `C194_Add_refuted`, `C194_assign_refuted`, `C195_copy_partial`, `C195_copy_refuted`, `C195_self_assign_refuted`, `C195_move_partial`, `C195_move_refuted`, `C196_copy_partial`, `C196_copy_refuted`, `C196_assign_refuted`, `C196_move`, `C197_join_partial`, `C197_join_refuted`, `C197_join_seconds`, `C197_semaphore`, `C198_call`, `C198_empty_partial`, `C198_empty_refuted`, `C198_defer`, `C198_defer_copy_refuted`, `C199_destructor`, `C199_move_refuted`, `C199_move_partial`, `C199_future_partial`, `C199_future_refuted`, `C200_ownership_partial`, `C200_assign_refuted`, `C200_moved_refuted`, `C200_transfer`, `C200_self_refuted`, `C201_consistent_partial`, `C201_zero_refuted`, `C201_equal_partial`, `C201_equal_refuted`, `C201_spread`, `C203_contents`, `C203_no_leak_partial`, `C203_assign_refuted`, `C203_moved_refuted`, `C203_self_refuted`, `C204_div_refuted`, `C204_div_scale_refuted`, `C204_reciprocal_refuted`, `C205_walk`, `C205_prune`, `C205_end_refuted`, `C205_removed_refuted`, `C207_walk`, `C207_prune`, `C207_end_refuted`, `C207_move`, `C207_moved_refuted`, `C207_moved_partial`, `C208_walk`, `C208_read`, `C208_roundtrip_refuted`, `C208_roundtrip_partial`, `C208_default_refuted`, `C208_move`, `C208_moved_refuted`, `C209_built`, `C209_right_partial`, `C209_bounds`, `C209_removed_refuted`, `C210_clear_partial`, `C210_destroy`, `C210_get`, `C210_clear_refuted`, `C210_traverse_refuted`, `C211_lifetime_partial`, `C211_overflow_refuted`, `C211_malloc_refuted`.

**`ClassicalDedekindReals.sig_forall_dec`, `FunctionalExtensionality.functional_extensionality_dep`** (65 theorems): `C66_derivative_unique`, `C72_SplitCubic`, `C72_SplitQuadratic`, `C74_residual`, `C76_BezierCurve`, `C76_BSpline_hull`, `C76_segments_join`, `C77_NewtonRaphson`, `C77_NewtonRaphson_linear`, `C77_stays_in_range`, `C77_bisection_linear`, `C77_bisection_converges`, `C78_QuadraticCanonicalFit_partial`, `C78_documented_points_refuted`, `C79_Determinant`, `C79_product`, `C79_Transpose`, `C80_Inverse`, `C80_singular`, `C81_MatrixMultiply`, `C81_MatrixMultiply_sse`, `C82_lengths`, `C83_Cross`, `C84_order`, `C84_total_order`, `C85_FromQuaternion_partial`, `C85_rotation_refuted`, `C86_GenericBSpline_partial`, `C86_spline_refuted`, `C90_nearest`, `C90_distance`, `C91_LineSegmentLineSegmentCollide_partial`, `C91_LineSegmentLineSegmentCollide_refuted`, `C91_axis_segments`, `C91_LineLineIntersect_partial`, `C91_LineLineIntersect_refuted`, `C91_LineSegmentLineSegmentIntersect_partial`, `C91_LineSegmentLineSegmentIntersect_refuted`, `C92_RectRect`, `C92_RectContainsPoint`, `C92_RectCircleCollide`, `C92_Ellipse`, `C93_rect_operations`, `C94_RectLineCollide_partial`, `C94_RectLineCollide_refuted`, `C95_TriangleContainsPoint`, `C95_PolygonContainsPoint`, `C95_cut`, `C96_PolygonArea`, `C96_PolygonCentroid_partial`, `C96_PolygonCentroid_refuted`, `C97_PolygonIsConvex_partial`, `C97_PolygonIsConvex_refuted`, `C97_ConvexPolygonContainsPoint_refuted`, `C98_bssFMod`, `C111_Animation_line`, `C188_progress`, `C188_linear_partial`, `C202_center_partial`, `C202_center_refuted`, `C202_triangle_partial`, `C202_triangle_refuted`, `C204_div_partial`, `C204_reciprocal_partial`, `C204_shift`.

**`ClassicalDedekindReals.sig_forall_dec`, `ClassicalDedekindReals.sig_not_dec`, `FunctionalExtensionality.functional_extensionality_dep`** (38 theorems): `C73_ApproxCubic`, `C74_SolveQuadratic`, `C74_CubicInflectionPoints`, `C82_Rotation`, `C82_axis_rotations`, `C82_orthogonal`, `C82_AffineTransform`, `C82_AffineTransform4`, `C83_Dot_Distance`, `C83_Normalize`, `C83_NTriangleArea`, `C87_spheres`, `C87_circles`, `C87_CircleNearestPoint`, `C87_CircleCollide_vector_refuted`, `C88_CircleRadiusIntersect`, `C88_CircleCircleIntersect_partial`, `C88_CircleCircleIntersect_refuted`, `C89_intersections`, `C89_collide`, `C89_LineSegmentRadiusCollide_partial`, `C89_LineSegmentRadiusCollide_refuted`, `C90_LinePointDistance_partial`, `C90_LinePointDistance_refuted`, `C93_BoundingCircle`, `C98_AngleDist`, `C98_AngleDistSigned`, `C158_length`, `C159_constructor`, `C176_poisson_partial`, `C176_poisson_refuted`, `C187_tests_partial`, `C187_points_partial`, `C187_points_refuted`, `C187_Diameter`, `C188_curve`, `C188_Length_refuted`, `C202_line`.

**`ClassicalDedekindReals.sig_forall_dec`, `ClassicalDedekindReals.sig_not_dec`, `Classical_Prop.classic`, `FunctionalExtensionality.functional_extensionality_dep`** (50 theorems): `C66_Dual_derivatives`, `C75_first_root`, `C75_single_root_partial`, `C75_three_roots_partial`, `C75_double_root_refuted`, `C98_CircleSectorContainsPoint`, `C154_values`, `C154_sign`, `C154_small`, `C156_wide_refuted`, `C157_float`, `C157_double`, `C157_subnormal_refuted`, `C159_circle`, `C159_measure`, `C160_contains_partial`, `C160_contains_refuted`, `C160_segment_partial`, `C160_segment_refuted`, `C160_polygon_partial`, `C160_polygon_around`, `C161_sound_partial`, `C161_sound_refuted`, `C161_complete_refuted`, `C174_text_partial`, `C174_text_refuted`, `C175_reload_partial`, `C175_reload_refuted`, `C180_rounding_partial`, `C180_rounding_refuted`, `C181_min_max`, `C181_compare`, `C181_sum`, `C188_quadratic`, `C188_TimeBezierD_refuted`, `C188_cubic_refuted`, `C190_to_float_partial`, `C190_round_trip_partial`, `C190_from_float`, `C190_to_float_refuted`, `C202_sphere`, `C206_border`, `C206_sound`, `C206_newton`, `C206_circle_partial`, `C206_circle_collide_partial`, `C206_axis_partial`, `C206_axis_collide_partial`, `C206_member_refuted`, `C206_member_partial`.

All listed axioms are those of the standard library (`Coq.Reals`, functional extensionality, and what they use); the development adds none.

## 6. Behaviour of the code found while modelling

Those with a theorem are refuted claims in `MANIFEST.json`; the others were seen in the text and are
outside the models.

**With a machine-checked counterexample** (`..._refuted` / `..._undefined`):
64-bit `IntFastSqrt` and GCC `bssLog2`; `MultiplyExtract` with shift 0; `OutputUnicode` on U+10FFFF; the
counting loops of `ConvertUTF.c` read one unit past the end; `UTF32toUTF8` encodes surrogates;
`itoa_r` on the least integer; `BinaryHeap::Remove` can break the heap order; stale `PriorityHeap` keys
alias new ones; `DynArray<bool>::Insert` over three words and `AddConstruct`; `CompactArray` from an
initializer list and `SetCapacity` below the length; `AVLTree::ReplaceKey` corner case; `AATree::Remove`;
`TRBtree::GetNear(after)` with equal keys; `DisjointSet::Union(x,x)` and `AddSets`; `MicroLockQueue::Pop`
can fail though the queue is not empty; `LocklessBlockPolicy(0)`; `BlockPolicy::Clear` without memory;
`ThreadPool::Wait` without workers; `Trie` with bytes above 127 and with no words; `StringTable` `t += t`,
`AppendString` on an empty table, streams starting with an empty string; `ref_ptr` self-assignment;
`OwnerPtr` move assignment; xorshift with seed 0; `KDTree` rebalancing in a query; `Scheduler::Update` on the
last event and on negative delays; `Graph::ToMatrix` on uninitialised matrices; `FixedPt` mixed scales and
conversion; INI blank values, bytes above 127 and the last section reported twice; UBJSON zero-width typed
arrays at the end of the stream and no-ops; JSON unescaped ids, trailing `true`/`false` in pretty mode, surrogate
pairs; `BreadthFirstTree` on perfect trees; `QuadraticCanonicalFit`; `solveCubic` on a double root;
`FromQuaternion<float,4>`; `GenericBSpline`; `CircleCircleIntersect`, `Circle::CircleCollide(Vector)`,
`LineSegmentRadiusCollide`, `LinePointDistance`, `LineLineIntersect`, `LineSegmentLineSegmentIntersect`,
`LineSegmentLineSegmentCollide`, `RectLineCollide`, `PolygonIsConvex`, `ConvexPolygonContainsPoint`,
`PolygonCentroid`; `RingAlloc` pieces of different sizes overlap, the first bucket is lost when the first piece
is too large, a bucket is lost when its last release races with a reservation; XML attribute values with
quotation marks or `>`; `XMLNode::RemoveNode` and `RemoveAttribute`.

**Seen in the text, not proved here**: `LocklessQueue` relaxed loads of `_last` and `_div` (80, 114);
`RWLock.h` inline `lock bts` without a size suffix; `KDTree` dangling `else continue` (242-246); `AliasTable`
copy uses `sizeof(UINT)` for `_prob`; `Hash` self-assignment empties the table; `DynArray` self-assignment
destroys first; `operator=(Array&&)` reads `mov._capacity` after it was cleared; `ArrayCircular` self-assignment
empties; `Queue::Discard` leaks; `LinkedArray` move constructor does not compile; `PriorityHeap::operator=`
does not copy the subarray; `bssVariance` (690-698); `hash64_fnv1a` truncates; `BitField::Set` (119);
`GaussianQuadrature` `static_assert(N < 1)` always fails and `128/225` is 0; `QuadraticFit` does not compile;
`TriangleContainsPoint` calls a function that does not exist; `Circle::NearestPoint`, `CircleIntersect`,
`LineIntersect` results are not shifted back to the centre; `LineN::operator=` returns nothing;
`Matrix::Transpose()` returns an MxN matrix; `Vector *= Matrix` returns `Matrix&`; the INI parser's `_trimrstr`
writes one past an empty string; `ThreadPool` move constructor leaves workers referring to the old object; XML copy
constructor copies an array of `unique_ptr`; `INIstorage::_copy` writes to the source; `CacheAlloc::allocate`
frees with the wrong size; `CacheAlloc` move constructor does not move `_cache`.

Animation: `SetTime` to the length or beyond and then `Interpolate` does nothing when the animation does not loop, so
the frames in between are never called; a loop resets the tracks and calls the frames before the loop point again
(C110); open intervals are kept in a heap ordered by length with the largest on top and compared with the time (C113);
a loop point at or beyond the length gives `fmod` by zero or endless recursion; `Animation::Set<T>` calls
`std::get<T>()` without an argument; the array constructor of `AniDataInterval` leaves `_end` uninitialised;
`NoInterpolateRel` reads index -1 at the first frame.

LinkedList: without `useLast` (the default) `Add` puts the item at the front although the comment says it appends, so a
copy is reversed (C115, C116); `l += l` with `useLast` never ends (C116); `Item` on an empty list dereferences null;
`operator=` is only a template, so for two lists of the same type the implicitly deleted copy assignment is chosen and
the copy constructor does not compile; `Clear` fills the whole object with zeros, a policy pointer of the allocator
included.

INI storage: the text is searched by comparing only the begin of a name, so editing key `a` changes the line of `ab` if
that comes first (C119); deleting the only pair of the last section leaves a file that loads with that section twice, and
an empty file loads what the uninitialised line buffer holds (C120); the hash keys point into the strings of the nodes and
dangle when the first of several instances is removed; `INIsection::operator=(&&)` leaks the old entries;
`INIstorage::operator=(&&)` takes the nodes of the source and then destroys them; `_copy` of both classes writes the
instances into the source; inserting with a null value leaves the numbers of the entry uninitialised; a section `[ ]`
matches any name in the search; the section without a name cannot be edited.

String utilities: `strccount` with a length tests `string[0]` instead of `string[i]` (C121); `strtrim` of a blank string
writes the terminating zero one behind the buffer, `strrtrim` compares with a signed `char` and so removes UTF-8 bytes, and
never removes the first character (C122); `Explode` of `char32_t` never ends (C126).

Profiler: an id is walked digit by digit without a separator, so with more than 16 zones different stacks share a node
(C128); ids with low digit 0 are indented wrongly (C129); the flat report sorts the numbers but not the names (C130); the
heat map passes digit level 0 instead of 1 (C131); `_timeFormat` writes a wide literal to a narrow stream, which prints a
pointer.  `bssVariance` divides by the value (C127).  `HighPrecisionTimer::Update(timewarp)` divides milliseconds and
multiplies nanoseconds (C132).

Streams and logger: `StreamBufArray::pbackfail` compares a sign-extended byte (C133); `StreamBufDynArray::xsputn` returns the
count of the last part, `overflow` does not advance the write pointer, so single characters are lost, and positions are
scaled by the element size (C134); `Logger::SetLevel` tests the capacity the wrong way round (C138); the date is the UTC date
beside the local time (C139); assimilating a stream twice leaves it with a deleted buffer, and an assimilated target makes
`sync` recurse for ever (C137); move assignment takes over only the targets (C140).

TOML: `ParseArray` leaves its `]` unread, so of an array of arrays only the first is read; `false` leaves `alse` behind; `first`
stays set behind an empty inline table, so the comma is missing; keys are written without quotes (C143); an unclosed multi-line
string gets the byte 255 (C142).

Flows: `MaxFlow_PushRelabel` looks at edges into a vertex only when no edge out of it has capacity left, so excess that cannot reach
the sink may travel back and forth for ever; it pushes to any lower vertex, so excess may stay in a vertex already passed, and the
result may be less than the maximum; `excess[edge->to] = capacity` forgets all but one of several edges from the source to one
vertex; `root` is not initialised when there is no third vertex; `seen[k]` is initialised by position instead of by vertex, which is
harmless because a vertex of height zero never pushes (all C145).

Search: `BreadthFirstGraph` marks a vertex when it is taken from the queue instead of when it is put there, so a vertex with two ways
to it is visited twice, and the queue of one element per vertex overflows when there are three (C148).

Variant: `max_alignof::type` lacks `::type`, so the storage of two or more types is aligned to 4 only (C150); assigning an empty
variant to an empty one fails an assertion; parsing sets `_tag` before it looks at the object, and then constructs over the object that was
there (C149); `convert() const` calls a member that is not const and does not compile.

CacheAlloc: two threads that both find no list for a size insert one after the other, and the second insertion replaces the list with an
empty one: blocks given back in between are lost (C153). `CachePolicy::allocate` gives a block that shrinks back with the new size: a
block of malloc is then never freed, and if `maxsize` is below the size of a pointer, the link is written past its end.

Floating-point helpers: `fCompare(a, b)` with a above and b below zero overflows a signed integer (for all but very large numbers), also
with a = -0.0 and b positive; it gives the right answer if overflow wraps around (C155). `fWideCompare` ignores signs and calls 1.0 and
3.9999998 equal (C156). `fSmall` with a negative bound accepts every number (C154). `fFastSqrt` of a subnormal number is a fraction of the
root (C157). `fLength` is always at least 7.3 % too short: the factor 0.927 should be 1.04 for an error of 4 % (C158).

Circle sectors: `CircleSector::ContainsPoint` misses the centre of a sector without a hole unless the angle zero is in its range, and
`IntersectLine` a segment from there along the edge of a half disc (C160). `CircleSectorCollide` intersects the other inner circle, moved to
the own centre, with the own outer circle, moved to the other centre, and reports sectors that are apart (C161); for sectors with the same
centre it compares the angles as numbers and misses an overlap across the angle zero (C161).

Arrays and bits: assigning a non-empty `Array` to itself and appending it to itself read memory that is destroyed or too short (C163); the
constructor of `Array` from a `Slice` names `slice.begin` without calling it and does not compile; `Insert` and `Set` with a reference to an
element of the same array dangle. `BitField::Set(bits, mask)` flips flags outside the mask (C164). `--` of the bit iterator over 64 bit words
shifts an int by 63 (C165). `Slice` with a negative end reaches past the slice and its const operator() recurses without end (C167); its
assertion compares an int with a pointer, and with the default index type `size_t` the call of `bssMod` does not compile. The const
operator() of `ArrayMultiRef` calls a function that is not const, and the form with one axis does not compile.

Hashes: `hash64_fnv1a` never uses its upper 32 bits, and both FNV hashes sign-extend bytes above 127 (C169).

Streams, stacks and INI values: copying, assigning or flushing a `BitStream` in the middle of a byte writes bits twice or loses them, since
`Flush` does not reset the buffer and the assignments copy only the pointer (C172). `bssSerialize` of a `std::string` writes the object itself
while `bssDeserialize` expects a length and characters; on a big endian machine neither compiles (the pointer has the wrong type). The copy
and move constructors of `Stack` do not compile. INI values: an exponent without a point is ignored, a sign before 0x gives zero, and a value
beyond int64_t is undefined as soon as it has a point (C174); `SetFloat` stores six digits behind the point (C175).

Vectors and samples: `PoissonDiskSample<double>` indexes 16-byte cells by 8-byte words, so it checks the wrong cells and may give the same
point twice (C176). `>>` of `sseVeci16` and `sseVeci64` does not copy the sign, and a shift by a vector takes the lower 64 bits of that vector
as one amount, so that `x << sseVeci(1)` is zero (C179). `floor` and `ceil` of a float vector give -2147483648 for numbers from 2^31 on and
for a NaN (C180).
Without vector instructions (C182): overflow of + and -, `<<` of negative elements and shifts from the width on are undefined, and
`_sse_array_shuffle2` tests the whole immediate for its first element and bit 2 for the second. Not modelled: `_sse_array_cvt` from two doubles
leaves two elements unset, and the conversion from float truncates where the instruction rounds.

Copying of INI chains (C183): `_copy` writes the instances of the copy into the node of the source (`last = t`, INIstorage.cpp 372,
INIsection.cpp 64) and one place too early, so the copy of a storage with two sections of a name finds only the second, and three corrupt the
source. `INIstorage::operator=(INIstorage&&)` takes over the list, then destroys it. Not modelled: copied sections keep the original storage
as parent; the default file name of the constructor is a null pointer given to `strrchr`.

C185: `lerp` of integers converts each summand by itself, so that the dividing line of `StochasticSubdivider` can lie outside of the
rectangle. C186: `_convStr` takes one off the length for a terminator, which is not there when a count is given. C187: the methods of
`Circle` that report points subtract the centre and never add it back. C188: `TimeBezierD` has a summand `inv*s*s*p2` too much, `BezierD`
of `AniCubicData` a factor `inv` too much in its last summand, and `Length` takes the root of `r` where the sum is in `a`. Not modelled:
`QuadraticInterpolate` and `CubicInterpolate` cannot be instantiated (`v[cur].cp` is not a member of a frame, `LENGTH` is called with one
argument too many, and `GaussianQuadrature` has a false assertion).

**C189.** `StreamBufFunction::xsputn` returns the count of its last recursive call only, so a block that does not fit the room left is
reported short (and `std::ostream` sets `badbit`); it recurses for ever if `onwrite` makes no room. `xsgetn` stops at the end of the
current buffer.

**C190.** `FixedPt` converts the integer and the fraction apart and adds them: two roundings. With more fraction bits than the significand,
the mask converted to floating point rounds up and the fraction of the smallest number is 0.

**C191.** The move constructor of `TRBtree` runs `new (NIL) TRB_Node<T>(0)` where `mov.NIL` is meant. The sentinel given to the source is
never constructed (its colour is indeterminate, its destructor runs on raw memory) and the one of the new tree is constructed twice. With
a `PolymorphicAllocator` the source also loses its policy, so its destructor calls through a null pointer. The move assignment
exchanges nodes but not policies.

**C192.** The length is counted after a push or pop is published, so that a pop between can make it wrap to the largest number.

**C193.** `T_GETBITRANGE` and `bssGetBit` compute in `int`. `BitLimit<24>` has `BYTES` 2, since the rounding up is skipped for multiples
of 8; 40, 48, 56 and so on do not compile.

**C194.** `ArbitraryArray::Add` grows only if `_length * _element >= _capacity`; after `SetElement` with data in a larger memory whose size
is no multiple of the new element size, the element written last runs past the end. The copy assignment has no check for itself. Moves
leave `_length` as it was, with a null array.

**C195.** `AliasTable` copies `sizeof(UINT) * count` bytes of the probabilities too. For `UINT` of 4 bytes and `double` half of the entries
of the copy are indeterminate; for 8 bytes and `float` it is a buffer overrun. The copy constructor gives `unique_ptr`s to `memcpy`.

**C196.** `ArrayBase::_copy` is empty for `ARRAY_MOVE` (with an assertion), but the copy constructors and assignments of `XMLNode` use it:
the copy has the length of the source and no objects. `XMLNode::operator=` does not remove the old children before it adds the new ones.

**C197.** `Thread::join` adds the milliseconds to `tv_nsec` without a carry; from 10^9 on `pthread_timedjoin_np` gives `EINVAL`, which is
returned as a timeout.

**C198.** `Delegate::IsEmpty` is true if either the object or the stub is null; `FromC` without an object always has a null object.

**C199.** The workers of a `ThreadPool` hold a reference to the pool that started them, and the move constructor moves the threads; the
destructor of the target waits for workers that look at the source. `Future::_finished` has no initial value.

**C200.** The move assignments of `GreedyAlloc` and `LocklessBlockPolicy` overwrite the root without freeing the chunks.

**C201.** `KH_INT_HASH` hashes the bits of a `float` or `double` while `==` compares values: a map keyed by `double` holds 0.0 and -0.0 as
two keys or one, depending on the table size. `KH_MULTI_EQUAL` uses `==` on the elements, which compares addresses of C strings.
`kh_int64_hash_func` shifts by 33, so bit 32 of a key is lost, and with it the lowest bit of the hash of every tuple element but the first.

**C202.** `CenterPolygon` uses `PolygonCentroid`, whose result starts from uninitialised memory. `Triangle::Area` is negative for clockwise corners.
`LineN::operator=` has no return statement, and the constructor of `Ellipse` from a circle uses a member `pos` that circles do not have.

**C203.** The move assignment of `MicroLockQueue` overwrites its nodes without freeing them, and a self-assignment loses all items. A queue that
was moved from has null pointers that `Push`, `Pop` and `Peek` follow, while its `Length` still counts the items that have moved.
The moves of `LocklessQueue` initialise and assign a `std::atomic` from another one, which does not compile.

**C204.** The comment on the 64-bit `fixedpt_div` says that it sacrifices just two bits of precision. The reciprocal of a divisor of n bits has only
62 - n bits, so that the error grows with the dividend, and any divisor above 2^62 gives 0. `Reciprocal` overflows for the bits 1 and 2.

**C205.** `LLIter` is declared bidirectional, but `--end()` follows a null pointer. The idiom given in the comment, `Remove(iter++)`, does not compile, since
`Remove` takes an `LLIter&` that cannot bind to the result of `iter++`; the loop is modelled with a copy.

**C206.** `Ellipse::NearestPoint` subtracts the centre from the point given but does not add it to the result.

**C207.** The move assignment of `LinkedArray` leaves `_length`, `_start`, `_end` and `_freelist` of the array moved from as they were, but takes its nodes. The move
constructor does not compile (`-1 = mov._freelist`). `--end()` reads outside the array.

**C208.** `ArrayCircular::Serialize` writes the newest item first and pushes what it reads in the same order, so the order is turned around. `_push` divides by the
capacity, which is 0 by default and after a move. For items that are not pairs `_serializeAdd` is static but calls the member `Push` without `obj`: it does not compile.

**C209.** `Graph::GetNode` compares the index with the number of nodes, but the indices in use after removals can be any below the capacity. (It also returns a pointer to a
node that is not const from a const member, which does not compile when it is used.)

**C210.** `AATree::Clear` leaves the root at a node it released, so that the destructor of a tree that was cleared releases its nodes twice. `AATree::Traverse` has no test for the
sentinel, which points to itself, and never ends. (The calls within it also leave out the function, so that it does not compile when it is used.)

**C211.** `VARARRAY` multiplies the length with the size of an element without a check. A product beyond 64 bits that wraps to a small number gives an array on the stack that is far
too small. The result of `malloc` is not checked.
