-Q theories Verif
theories/Base.v
theories/Prog.v
theories/BaseLemmas.v
theories/Bufio.v
theories/BufioProof.v
theories/GoBinary.v
theories/Wire.v
theories/BufioW.v
theories/Binary.v
theories/Compact.v
theories/GoBinaryProof.v
theories/WireProof.v
theories/Spec.v
theories/Clients.v
theories/Reads.v
theories/BinaryProof.v
theories/CompactProof.v
theories/Layers.v
theories/BufioWProof.v
theories/RoundTrip.v
theories/EndToEnd.v
theories/Properties_Values.v
theories/Fuel.v
theories/Robust.v
theories/RobustWire.v
theories/Safety.v
theories/Properties_Robust.v
theories/Messages.v
theories/Fragment.v
theories/Codec.v
theories/Ideal.v
theories/Faults.v
theories/Objects.v
theories/ObjectsProof.v
theories/WireThms.v
theories/Properties_Wire.v
theories/GoFloat.v
theories/Utf8.v
theories/GoType.v
theories/Fields.v
theories/Arshal.v
theories/GoTypeProof.v
theories/FieldsProof.v
theories/FloatProof.v
theories/ArshalSpec.v
theories/ArshalEnc.v
theories/ArshalDec.v
theories/ArshalTrip.v
theories/ArshalTotal.v
theories/ArshalThms.v
theories/ArshalSafe.v
theories/ArshalInput.v
theories/ArshalErr.v
theories/ArshalCalls.v
theories/ArshalReads.v
theories/ArshalGives.v
theories/TagProof.v
theories/ArshalMismatch.v
theories/ArshalStrict.v
theories/ArshalExample.v
theories/ArshalRefute.v
theories/Properties_Arshal.v
theories/Tokens.v
theories/Scan.v
theories/LexSpec.v
theories/LexProof.v
theories/ScanProof.v
theories/Parse.v
theories/GrammarSpec.v
theories/ParseProof.v
theories/ParseComplete.v
theories/ScanRun.v
theories/Properties_File.v
theories/Memo.v
theories/MemoProof.v
theories/Properties_Memo.v
theories/Names.v
theories/Properties_Text.v
theories/Cache.v
theories/CacheProof.v
theories/Properties_Cache.v
theories/Choices.v
theories/Loud.v
theories/Properties_More.v
theories/PosSpec.v
theories/PosProof.v
theories/BadDefs.v
theories/Properties_Places.v
theories/Shift.v
theories/Recover.v
theories/Properties_Recovery.v
theories/MapSpec.v
theories/MapProof.v
theories/Properties_Map.v
theories/StoreSpec.v
theories/StoreProof.v
theories/Properties_Store.v
theories/Pipeline.v
theories/PipelineProof.v
theories/Properties_Pipeline.v
theories/RemarshalSpec.v
theories/RemarshalProof.v
theories/Properties_Remarshal.v
theories/Heap.v
theories/HeapSpec.v
theories/HeapProof.v
theories/HeapUnmarshal.v
theories/HeapMarshal.v
theories/Properties_Heap.v
theories/Mirror.v
theories/MirrorRun.v
theories/Properties_Mirror.v
theories/ThriftCalm.v
theories/ThriftTest.v
theories/ThriftTestSpec.v
theories/ThriftTestProof.v
theories/ThriftTestTable.v
theories/ThriftTestSound.v
theories/Properties_ThriftTest.v
theories/MemorySpec.v
theories/MemoryProof.v
theories/Properties_Memory.v
theories/ParseText.v
theories/Properties_ParseText.v
theories/Shared.v
theories/SharedProof.v
theories/SharedW.v
theories/SharedReach.v
theories/SharedWProof.v
theories/SharedTurns.v
theories/Properties_Shared.v
theories/Duplicates.v
theories/Properties_Duplicates.v
theories/WaitSpec.v
theories/Waits.v
theories/Properties_Waits.v
theories/Protocols.v
theories/ProtocolsSpec.v
theories/ProtocolsProof.v
theories/ProtocolsTest.v
theories/Properties_Protocols.v
theories/FloatSpec.v
theories/FloatNearest.v
theories/Properties_Float.v
theories/ZeroSpec.v
theories/ZeroProof.v
theories/Properties_Zero.v
theories/Wraps.v
theories/Properties_Wraps.v
theories/MarshalEnds.v
theories/Properties_Ends.v
theories/ResetExact.v
theories/Properties_Reset.v
theories/Relay.v
theories/EndSpec.v
theories/Ends.v
theories/EndClients.v
theories/Properties_End.v
theories/StructTag.v
theories/StructTagSpec.v
theories/StructTagProof.v
theories/Properties_Tag.v
theories/Depth.v
theories/FileSet.v
theories/FileSetProof.v
theories/Properties_FileSet.v
theories/LayoutSpec.v
theories/LayoutProof.v
theories/Properties_Layout.v
theories/Properties_Headers.v
theories/Properties_Collections.v
theories/TraceSpec.v
theories/TraceProof.v
theories/Properties_Trace.v
theories/PartsSpec.v
theories/PartsRun.v
theories/PartsProof.v
theories/PartsMsg.v
theories/PartsCmp.v
theories/Properties_Cut.v
theories/LeftSpec.v
theories/LeftProof.v
theories/LeftBin.v
theories/LeftCmp.v
theories/Properties_Left.v
theories/CrashSpec.v
theories/CrashProof.v
theories/Properties_Crash.v
theories/AnySpec.v
theories/AnyProof.v
theories/Properties_Any.v
theories/CycleSpec.v
theories/CycleProof.v
theories/CycleEnds.v
theories/Properties_Cycle.v
theories/HeapStep.v
theories/StepProof.v
theories/StepRun.v
theories/StepSafe.v
theories/UnmStep.v
theories/UnmAlone.v
theories/MarAlone.v
theories/Properties_Step.v
theories/UnmSafe.v
theories/UnmRun.v
theories/Properties_Ustep.v
