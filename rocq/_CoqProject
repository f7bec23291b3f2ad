-Q theories Verif
theories/Base.v
theories/BaseFacts.v
theories/Varint.v
theories/SpecVarint.v
theories/VarintFacts.v
theories/GoMem.v
theories/Tags.v
theories/Decode.v
theories/TagsCache.v
theories/Encode.v
theories/Codecs.v
theories/Compress.v
theories/Header.v
theories/Document.v
theories/DecodeSafe.v
theories/Spec.v
theories/DecodeSpec.v
theories/SpecValue.v
theories/SpecDoc.v
theories/GrammarFacts.v
theories/JsonFacts.v
theories/EncodeSpec.v
theories/ValueFacts.v
theories/DocFacts.v
theories/EncodeTerm.v
theories/SpecOptions.v
theories/MarshalFacts.v
theories/Roundtrip.v
theories/Sim.v
theories/SpecOutcome.v
theories/OutcomeFacts.v
theories/RoundtripFacts.v
theories/WireFacts.v
theories/Cases.v
theories/SpecObserve.v
theories/SpecHeader.v
theories/HeaderFacts.v
theories/ApiFacts.v
theories/ApiSafe.v
theories/Props_Varint.v
theories/Props_Roundtrip.v
theories/ApiProps.v
theories/HeaderRound.v
theories/LooksFacts.v
theories/Props_Decode.v
theories/GoSlice.v
theories/Redocument.v
theories/RedocFacts.v
theories/RedocProps.v
theories/Props_Documents.v
theories/Merge.v
theories/SpecMerge.v
theories/MergeFacts.v
theories/MergeItems.v
theories/MergeRun.v
theories/MergeSafe.v
theories/MergeProps.v
theories/MergeFinish.v
theories/MergeSim.v
theories/MergeCrash.v
theories/MergeApi.v
theories/Props_Merge.v
theories/Cache.v
theories/SpecCache.v
theories/CacheFacts.v
theories/Props_Cache.v
theories/GoTypes.v
theories/Typed.v
theories/SpecTyped.v
theories/TypedSpec.v
theories/TypedDoc.v
theories/TypedRound.v
theories/Props_Typed.v
theories/SpecStore.v
theories/TypedStore.v
theories/Props_Store.v
theories/SpecShare.v
theories/ShareDecode.v
theories/ShareFacts.v
theories/SpecGraph.v
theories/Props_Share.v
theories/GrammarDet.v
theories/ShareEncode.v
theories/ShareMarshal.v
theories/GraphFacts.v
theories/ShareRoundtrip.v
theories/FrameFacts.v
theories/SpecShape.v
theories/ShapeFacts.v
theories/TypedShape.v
theories/TypedSafe.v
theories/Props_Accept.v
theories/Props_Graph.v
theories/SpecRewrite.v
theories/RewriteFacts.v
theories/Props_Rewrite.v
theories/Props_TypedSafe.v
theories/AllocCost.v
theories/AllocApi.v
theories/Props_Alloc.v
theories/SpecSeen.v
theories/SeenFacts.v
theories/Props_Seen.v
theories/SpecAccept.v
theories/MergeAccept.v
theories/MergeTotal.v
theories/Props_MergeAccept.v
theories/SpecPlain.v
theories/MarshalLaid.v
theories/MarshalMerge.v
theories/Props_MarshalMerge.v
theories/SpecCycle.v
theories/CycleDecode.v
theories/CycleFacts.v
theories/Props_Cycle.v
theories/SpecKnot.v
theories/KnotEncode.v
theories/KnotFacts.v
theories/KnotTame.v
theories/KnotMarshal.v
theories/Props_Knot.v
theories/TypedMem.v
theories/SpecMem.v
theories/TypedMemFacts.v
theories/TypedMemTree.v
theories/TypedMemSafe.v
theories/TypedMemFrame.v
theories/Props_TypedMem.v
theories/SpecTypedGraph.v
theories/TypedGraph.v
theories/TypedGraphDoc.v
theories/Props_TypedGraph.v
theories/SpecTypedKnot.v
theories/TypedKnot.v
theories/TypedKnotDoc.v
theories/Props_TypedKnot.v
theories/SpecMemType.v
theories/HeapInts.v
theories/TypedMemType.v
theories/MemTypeTop.v
theories/Props_MemType.v
theories/TypedMemShape.v
theories/Props_AcceptMem.v
theories/SpecTaken.v
theories/SpecCut.v
theories/MergeShape.v
theories/Props_MergeShape.v
theories/Reloc.v
theories/Session.v
theories/SpecSession.v
theories/RelocApi.v
theories/Props_Session.v
theories/SpecKeys.v
theories/KeysFacts.v
theories/Props_Keys.v
theories/SpecPerlRewrite.v
theories/DecodeOwn.v
theories/PerlApart.v
theories/PerlRewrite.v
theories/Props_PerlRewrite.v
theories/DecodeProper.v
theories/Props_RewriteAny.v
theories/NoCrash.v
theories/Props_NoCrash.v
theories/SpecReuse.v
theories/ReuseFacts.v
theories/Props_Reuse.v
theories/SpecThreshold.v
theories/ThresholdFacts.v
theories/Props_Threshold.v
theories/SpecPlaces.v
theories/PlaceFacts.v
theories/Props_Places.v
theories/SpecAlike.v
theories/AlikeFacts.v
theories/Props_Alike.v
theories/SpecOrder.v
theories/OrderFacts.v
theories/Props_Order.v
theories/SpecSize.v
theories/SizeFacts.v
theories/Props_Size.v
theories/JudgeFacts.v
theories/Props_Judge.v
theories/RemergeFacts.v
theories/Props_Remerge.v
