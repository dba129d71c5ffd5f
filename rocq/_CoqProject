-Q theories Verif
theories/Base/Arr.v
theories/Base/Count.v
theories/Base/Double.v
theories/Base/Fault.v
theories/Base/FaultFacts.v
theories/Base/Lists.v
theories/Base/Order.v
theories/Base/Res.v
theories/Base/ResList.v
theories/Base/Sort.v
theories/Base/StdAlg.v
theories/Base/Text.v
theories/BitTriangle/Alloc.v
theories/BitTriangle/AllocProofs.v
theories/BitTriangle/Debug.v
theories/BitTriangle/DebugProofs.v
theories/BitTriangle/Model.v
theories/BitTriangle/Proofs.v
theories/BitTriangle/Properties.v
theories/Bytes/Model.v
theories/Bytes/Proofs.v
theories/Bytes/Properties.v
theories/Cli/Error.v
theories/Cli/Help.v
theories/Cli/HelpProofs.v
theories/Cli/HelpProperties.v
theories/Cli/Names.v
theories/Cli/Params.v
theories/Cli/Parser.v
theories/Cli/Proofs.v
theories/Cli/Properties.v
theories/ComTree/Debug.v
theories/ComTree/DebugProofs.v
theories/ComTree/Model.v
theories/ComTree/Moved.v
theories/ComTree/MovedProofs.v
theories/ComTree/MovedProperties.v
theories/ComTree/Proofs.v
theories/ComTree/Properties.v
theories/DivList/Bytes.v
theories/DivList/BytesProofs.v
theories/DivList/BytesProperties.v
theories/DivList/CaughtProofs.v
theories/DivList/Counted.v
theories/DivList/CountedProofs.v
theories/DivList/Debug.v
theories/DivList/DebugProofs.v
theories/DivList/LeftProofs.v
theories/DivList/Model.v
theories/DivList/Nested.v
theories/DivList/NestedProofs.v
theories/DivList/NestedProperties.v
theories/DivList/Ordered.v
theories/DivList/OrderedProofs.v
theories/DivList/OrderedProperties.v
theories/DivList/Proofs.v
theories/DivList/Properties.v
theories/DivList/Rebuilding.v
theories/DivList/RebuildingProofs.v
theories/DivList/RebuildingProperties.v
theories/DivList/RecoverProofs.v
theories/DivList/RelabelProofs.v
theories/DivList/RelabelProperties.v
theories/DivList/ScheduleProofs.v
theories/DivList/Shifted.v
theories/DivList/ShiftedProofs.v
theories/DivList/ShiftedProperties.v
theories/DivList/Throws.v
theories/DivList/ThrowsProofs.v
theories/DivList/ThrowsProperties.v
theories/DivMask/Defined.v
theories/DivMask/Model.v
theories/DivMask/PrecisionProofs.v
theories/DivMask/PrecisionProperties.v
theories/DivMask/Proofs.v
theories/DivMask/Properties.v
theories/DivMask/SplitProofs.v
theories/DivSim/ClientProofs.v
theories/DivSim/Detect.v
theories/DivSim/MainProofs.v
theories/DivSim/Model.v
theories/DivSim/Proofs.v
theories/DivSim/Properties.v
theories/Finders/DebugProperties.v
theories/Finders/Model.v
theories/Finders/Proofs.v
theories/Finders/Properties.v
theories/GeoMem/Alloc.v
theories/GeoMem/AllocProofs.v
theories/GeoMem/AllocProperties.v
theories/GeoMem/Areas.v
theories/GeoMem/BoundProofs.v
theories/GeoMem/GrowProofs.v
theories/GeoMem/MemProofs.v
theories/GeoMem/Model.v
theories/GeoMem/Proofs.v
theories/GeoMem/Properties.v
theories/GeoMem/RepProofs.v
theories/GeoMem/SizeProofs.v
theories/GeoMem/Sizes.v
theories/GeoMem/SizesProofs.v
theories/GeoMem/SizesProperties.v
theories/GeoMem/StepProofs.v
theories/Geobucket/AnyOrderProofs.v
theories/Geobucket/CmpListProofs.v
theories/Geobucket/CmpProofs.v
theories/Geobucket/CostProofs.v
theories/Geobucket/CostProperties.v
theories/Geobucket/CostRun.v
theories/Geobucket/Counted.v
theories/Geobucket/CountedProofs.v
theories/Geobucket/Debug.v
theories/Geobucket/DebugProofs.v
theories/Geobucket/DebugProperties.v
theories/Geobucket/Faults.v
theories/Geobucket/FaultsProofs.v
theories/Geobucket/FrontProofs.v
theories/Geobucket/HistoryProofs.v
theories/Geobucket/KeepProofs.v
theories/Geobucket/ListProofs.v
theories/Geobucket/Model.v
theories/Geobucket/Proofs.v
theories/Geobucket/Properties.v
theories/Geobucket/Throws.v
theories/Geobucket/ThrowsProofs.v
theories/Geobucket/ThrowsProperties.v
theories/Geobucket/TotalProofs.v
theories/HashTable/AnyEqualProofs.v
theories/HashTable/Bytes.v
theories/HashTable/BytesProofs.v
theories/HashTable/Counted.v
theories/HashTable/CountedProofs.v
theories/HashTable/CountedProperties.v
theories/HashTable/Debug.v
theories/HashTable/DebugProofs.v
theories/HashTable/Faults.v
theories/HashTable/FaultsProofs.v
theories/HashTable/Model.v
theories/HashTable/Proofs.v
theories/HashTable/Properties.v
theories/HashTable/RelabelProofs.v
theories/HashTable/RelabelProperties.v
theories/Heap/AnyOrderProofs.v
theories/Heap/Assigned.v
theories/Heap/AssignedProofs.v
theories/Heap/AssignedProperties.v
theories/Heap/Counted.v
theories/Heap/CountedProofs.v
theories/Heap/CountedProperties.v
theories/Heap/Debug.v
theories/Heap/DebugProofs.v
theories/Heap/Faults.v
theories/Heap/FaultsProofs.v
theories/Heap/Model.v
theories/Heap/Moves.v
theories/Heap/Proofs.v
theories/Heap/Properties.v
theories/Heap/Stateful.v
theories/Heap/StatefulProofs.v
theories/Heap/StatefulProperties.v
theories/HeapMem/Alloc.v
theories/HeapMem/AllocProofs.v
theories/HeapMem/Memory.v
theories/HeapMem/Model.v
theories/HeapMem/Proofs.v
theories/HeapMem/Properties.v
theories/KD/ArrayProofs.v
theories/KD/AutoThrows.v
theories/KD/AutoThrowsProofs.v
theories/KD/AutoThrowsProperties.v
theories/KD/Counted.v
theories/KD/CountedProofs.v
theories/KD/CountedProperties.v
theories/KD/Debug.v
theories/KD/DebugProofs.v
theories/KD/DebugProperties.v
theories/KD/Depth.v
theories/KD/DepthProofs.v
theories/KD/DepthProperties.v
theories/KD/EntryArray.v
theories/KD/InsertThrows.v
theories/KD/InsertThrowsProofs.v
theories/KD/InsertThrowsProperties.v
theories/KD/Legal.v
theories/KD/Model.v
theories/KD/Nested.v
theories/KD/NestedProofs.v
theories/KD/NestedProperties.v
theories/KD/Proofs.v
theories/KD/Properties.v
theories/KD/RebuildThrows.v
theories/KD/RebuildThrowsProofs.v
theories/KD/RebuildThrowsProperties.v
theories/KD/RelabelProofs.v
theories/KD/RelabelProperties.v
theories/KD/RemoveThrows.v
theories/KD/RemoveThrowsProofs.v
theories/KD/RemoveThrowsProperties.v
theories/KD/ScheduleProofs.v
theories/KD/Throws.v
theories/KD/ThrowsLeft.v
theories/KD/ThrowsProofs.v
theories/KD/ThrowsProperties.v
theories/KD/ThrowsSearch.v
theories/KD/Tree.v
theories/KD/TreeProofs.v
theories/KDMem/Arena.v
theories/KDMem/ArenaFacts.v
theories/KDMem/Binary.v
theories/KDMem/BinaryInsert.v
theories/KDMem/BinaryProofs.v
theories/KDMem/BinaryReset.v
theories/KDMem/Bytes.v
theories/KDMem/BytesFalling.v
theories/KDMem/BytesPacked.v
theories/KDMem/BytesProofs.v
theories/KDMem/BytesProperties.v
theories/KDMem/Faithful.v
theories/KDMem/Model.v
theories/KDMem/Packed.v
theories/KDMem/PackedInsert.v
theories/KDMem/PackedProofs.v
theories/KDMem/PackedReset.v
theories/KDMem/Proofs.v
theories/KDMem/Properties.v
theories/KDMem/Raw.v
theories/KDMem/RawProofs.v
theories/KDMem/RawProperties.v
theories/Output/Columns.v
theories/Output/ColumnsProofs.v
theories/Output/ColumnsProperties.v
theories/Output/Display.v
theories/Output/DisplayFits.v
theories/Output/DisplayProofs.v
theories/Output/DisplayProperties.v
theories/Output/Numbers.v
theories/Output/NumbersProofs.v
theories/Output/NumbersProperties.v
theories/Output/PercentProofs.v
theories/Output/RatioProofs.v
theories/Output/Timer.v
theories/Output/TimerProofs.v
theories/Output/UnitsProofs.v
theories/PairQueue/Alloc.v
theories/PairQueue/AllocProofs.v
theories/PairQueue/AllocProperties.v
theories/PairQueue/Bytes.v
theories/PairQueue/BytesProofs.v
theories/PairQueue/BytesProperties.v
theories/PairQueue/Counted.v
theories/PairQueue/CountedProofs.v
theories/PairQueue/CountedProperties.v
theories/PairQueue/Debug.v
theories/PairQueue/DebugProofs.v
theories/PairQueue/Faults.v
theories/PairQueue/FaultsProofs.v
theories/PairQueue/FaultsProperties.v
theories/PairQueue/Model.v
theories/PairQueue/Proofs.v
theories/PairQueue/Properties.v
theories/PairQueue/RelabelProofs.v
theories/PairQueue/RelabelProperties.v
theories/PqSim/BuilderProofs.v
theories/PqSim/Calls.v
theories/PqSim/ClientProofs.v
theories/PqSim/Instances.v
theories/PqSim/Model.v
theories/PqSim/Properties.v
theories/PqSim/SubjectProofs.v
theories/PqSim/Summary.v
theories/PqSim/SummaryProofs.v
theories/PqSim/SummaryProperties.v
theories/Queues/AnyOrderProofs.v
theories/Queues/AnyOrderProperties.v
theories/Queues/DebugProperties.v
theories/Queues/FaultsProperties.v
theories/Queues/InPlace.v
theories/Queues/InPlaceProofs.v
theories/Queues/InPlaceProperties.v
theories/Queues/Properties.v
theories/Queues/RelabelGeoProofs.v
theories/Queues/RelabelProofs.v
theories/Queues/RelabelProperties.v
theories/Queues/TopProofs.v
theories/Queues/TopProperties.v
theories/Report/Names.v
theories/Report/NamesProofs.v
theories/Report/NamesProperties.v
theories/Report/Outcome.v
theories/Report/OutcomeProofs.v
theories/Report/OutcomeProperties.v
theories/Report/Print.v
theories/Report/PrintProofs.v
theories/Report/PrintProperties.v
theories/Spec/Agree.v
theories/Spec/AgreeFacts.v
theories/Spec/Caught.v
theories/Spec/CommandLine.v
theories/Spec/DivAgree.v
theories/Spec/DivAgreeFacts.v
theories/Spec/DivCaught.v
theories/Spec/DivClient.v
theories/Spec/DivFinder.v
theories/Spec/DivFinderFacts.v
theories/Spec/DivHonest.v
theories/Spec/DivHurt.v
theories/Spec/DivInvisible.v
theories/Spec/DivStale.v
theories/Spec/Elapsed.v
theories/Spec/Fifo.v
theories/Spec/HLoose.v
theories/Spec/HMap.v
theories/Spec/Lines.v
theories/Spec/PQ.v
theories/Spec/PQFacts.v
theories/Spec/PQState.v
theories/Spec/PQStateFacts.v
theories/Spec/Pairs.v
theories/Spec/PairsFacts.v
theories/Spec/Reach.v
theories/Spec/Refused.v
theories/Spec/Rounding.v
theories/Spec/Schedule.v
theories/Spec/Seq.v
theories/Spec/Split.v
theories/Spec/Table.v
theories/Spec/TopAgree.v
theories/Spec/Triangle.v
theories/Spec/TriangleHurt.v
theories/Spec/Wrap.v
theories/StlSet/Copies.v
theories/StlSet/CopiesProofs.v
theories/StlSet/Model.v
theories/StlSet/Proofs.v
theories/StlSet/Properties.v
theories/Tests/Model.v
theories/Tests/Properties.v
theories/TourMem/Alloc.v
theories/TourMem/AllocProofs.v
theories/TourMem/AllocProperties.v
theories/TourMem/CopyProofs.v
theories/TourMem/CopyProperties.v
theories/TourMem/Model.v
theories/TourMem/Proofs.v
theories/TourMem/Properties.v
theories/TourMem/WorldProofs.v
theories/TourTree/AnyOrderProofs.v
theories/TourTree/Budget.v
theories/TourTree/BudgetProofs.v
theories/TourTree/Copied.v
theories/TourTree/CopiedProofs.v
theories/TourTree/CopiedProperties.v
theories/TourTree/Counted.v
theories/TourTree/CountedProofs.v
theories/TourTree/CountedProperties.v
theories/TourTree/Debug.v
theories/TourTree/DebugProofs.v
theories/TourTree/Faults.v
theories/TourTree/FaultsProofs.v
theories/TourTree/Model.v
theories/TourTree/PartialProofs.v
theories/TourTree/Proofs.v
theories/TourTree/Properties.v
