-Q theories Verif
theories/AAClear.v
theories/AAClearProps.v
theories/AATree.v
theories/AATreeProps.v
theories/AVLTree.v
theories/AVLTreeProps.v
theories/AliasCopy.v
theories/AliasCopyProps.v
theories/AliasTable.v
theories/AliasTableProps.v
theories/AllocMove.v
theories/AllocMoveProps.v
theories/AngleProps.v
theories/Animation.v
theories/AnimationProofs.v
theories/AnimationProps.v
theories/AnimationProps2.v
theories/AnimationSpec.v
theories/AnimationSpec2.v
theories/ApproxCubicProps.v
theories/ArbitraryArray.v
theories/ArbitraryArrayProps.v
theories/ArrayCircular.v
theories/ArrayCircularProps.v
theories/ArraySort.v
theories/ArraySortProofs.v
theories/ArraySortProps.v
theories/AutoHash.v
theories/AutoHashProps.v
theories/BFSGraph.v
theories/BFSGraphProps.v
theories/Base64.v
theories/Base64Proofs.v
theories/Base64Props.v
theories/Base64Spec.v
theories/BitCountProofs.v
theories/BitField.v
theories/BitFieldProps.v
theories/BitHandover.v
theories/BitHandoverProps.v
theories/BitMask.v
theories/BitMaskProps.v
theories/BitStream.v
theories/BitStreamProofs.v
theories/BitStreamProps.v
theories/BitStreamSpec.v
theories/BitUtil.v
theories/BitUtilProofs.v
theories/BitUtilProps.v
theories/BitUtilSpec.v
theories/BlockAlloc.v
theories/BlockAllocProps.v
theories/BreadthFirst.v
theories/BreadthFirstProps.v
theories/CacheAlloc.v
theories/CacheAllocProps.v
theories/CircIter.v
theories/CircIterProps.v
theories/CircleClass.v
theories/CircleClassProps.v
theories/CircleProps.v
theories/Collision.v
theories/Common.v
theories/CompactArray.v
theories/CompactArrayProps.v
theories/Curves.v
theories/CurvesProps.v
theories/Delegate.v
theories/DelegateProps.v
theories/DeterminantProps.v
theories/DisjointSet.v
theories/DisjointSetProps.v
theories/Dll.v
theories/Dual.v
theories/DualProps.v
theories/DynArray.v
theories/DynArrayBool.v
theories/DynArrayBoolProps.v
theories/DynArrayProps.v
theories/Easing.v
theories/EasingProps.v
theories/EllipseNear.v
theories/EllipseNearProps.v
theories/FastSqrtProps.v
theories/FixedArray.v
theories/FixedArrayProps.v
theories/FixedDiv.v
theories/FixedDivProps.v
theories/FixedFloat.v
theories/FixedFloatProps.v
theories/FixedPt.v
theories/FixedPtProps.v
theories/FloatBits.v
theories/FloatBitsProps.v
theories/Flow.v
theories/FlowProps.v
theories/Fnv.v
theories/FnvProps.v
theories/Graph.v
theories/GraphNode.v
theories/GraphNodeProps.v
theories/GraphProps.v
theories/GreedyAlloc.v
theories/GreedyAllocProps.v
theories/Growth.v
theories/Hash.v
theories/HashProofs.v
theories/HashProps.v
theories/Heap.v
theories/HeapOpsProofs.v
theories/HeapProofs.v
theories/HeapProps.v
theories/HeapSpec.v
theories/INIChain.v
theories/INIChainProofs.v
theories/INICopy.v
theories/INICopyProps.v
theories/INIDoc.v
theories/INIEntry.v
theories/INIEntryProps.v
theories/INILoadProofs.v
theories/INIParser.v
theories/INIParserProps.v
theories/INIStorage.v
theories/INIStorageProofs.v
theories/INIStorageProps.v
theories/INITextProofs.v
theories/INITextProofs2.v
theories/INITextProofs3.v
theories/INITextProofs4.v
theories/Itoa.v
theories/ItoaProps.v
theories/ItoaSpec.v
theories/JSON.v
theories/JSONProofs.v
theories/JSONProps.v
theories/KDTree.v
theories/KDTreeProps.v
theories/LArrIter.v
theories/LArrIterProps.v
theories/LLBase.v
theories/LLBaseProps.v
theories/LineProps.v
theories/LinkedArray.v
theories/LinkedArrayProps.v
theories/LinkedList.v
theories/LinkedListProps.v
theories/ListIter.v
theories/ListIterProps.v
theories/LocklessBlock.v
theories/LocklessBlockProps.v
theories/LocklessQueue.v
theories/LocklessQueueProps.v
theories/Logger.v
theories/LoggerProps.v
theories/Matrix.v
theories/MatrixProps.v
theories/MicroLockQueue.v
theories/MicroLockQueueProps.v
theories/MiscBitProofs.v
theories/MulExtractProofs.v
theories/OrderProofs.v
theories/OrderSpec.v
theories/OwnerPtr.v
theories/OwnerPtrProps.v
theories/Poisson.v
theories/PoissonProps.v
theories/PolygonProps.v
theories/PoolMove.v
theories/PoolMoveProps.v
theories/PriorityHeap.v
theories/PriorityHeapProofs.v
theories/PriorityHeapProps.v
theories/Profiler.v
theories/ProfilerFlatProps.v
theories/ProfilerOutProps.v
theories/ProfilerProps.v
theories/QueueLength.v
theories/QueueLengthProps.v
theories/QueueMove.v
theories/QueueMoveProps.v
theories/RWLock.v
theories/RWLockProps.v
theories/Rational.v
theories/RationalProps.v
theories/RectProps.v
theories/RefPtr.v
theories/RefPtrProps.v
theories/RingAlloc.v
theories/RingAllocProofs.v
theories/RingAllocProps.v
theories/Scheduler.v
theories/SchedulerProps.v
theories/Search.v
theories/SearchProofs.v
theories/SearchProps.v
theories/Sector.v
theories/SectorAreaProps.v
theories/SectorLineProps.v
theories/SectorPairProps.v
theories/SectorProps.v
theories/Serialize.v
theories/SerializeProps.v
theories/Shapes.v
theories/ShapesProps.v
theories/Shuffle.v
theories/ShuffleProps.v
theories/Slices.v
theories/SlicesProps.v
theories/SolverProps.v
theories/SpanningTreeProps.v
theories/SphereProps.v
theories/Sse.v
theories/SseFloat.v
theories/SseFloatProps.v
theories/SsePortable.v
theories/SsePortableProps.v
theories/SseProps.v
theories/Stack.v
theories/StackProps.v
theories/Str.v
theories/StrConv.v
theories/StrConvProps.v
theories/StrHash.v
theories/StrHashProps.v
theories/StrUtil.v
theories/StrUtilProps.v
theories/Stream.v
theories/StreamFn.v
theories/StreamFnProps.v
theories/StreamProps.v
theories/StringTable.v
theories/StringTableProps.v
theories/Strtok.v
theories/StrtokProps.v
theories/Subdivide.v
theories/SubdivideProps.v
theories/TOML.v
theories/TOMLProps.v
theories/TRBMove.v
theories/TRBMoveProps.v
theories/TRBtree.v
theories/TRBtreeProps.v
theories/ThreadJoin.v
theories/ThreadJoinProps.v
theories/ThreadPool.v
theories/ThreadPoolProps.v
theories/Threads.v
theories/Timer.v
theories/TimerProps.v
theories/Trie.v
theories/TrieProps.v
theories/UBJSON.v
theories/UBJSONProps.v
theories/Utf.v
theories/UtfDecodeProps.v
theories/UtfProofs.v
theories/UtfProps.v
theories/UtfSpec.v
theories/VarArray.v
theories/VarArrayProps.v
theories/Variant.v
theories/VariantProps.v
theories/VectorProps.v
theories/XML.v
theories/XMLCopy.v
theories/XMLCopyProps.v
theories/XMLEntityProps.v
theories/XMLProofs.v
theories/XMLProps.v
theories/XMLRound.v
theories/XMLSpec.v
theories/XMLTree.v
theories/XMLTreeProps.v
theories/Xorshift.v
theories/XorshiftProps.v
