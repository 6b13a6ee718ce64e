-Q theories Verif
theories/Base.v
theories/Strconv.v
theories/StrconvFacts.v
theories/SpecFloat.v
theories/RoundFacts.v
theories/FloatText.v
theories/RoundUnique.v
theories/SortedMap.v
theories/SortedMapFacts.v
theories/Utf8.v
theories/Json.v
theories/SpecJson.v
theories/SpecRFC.v
theories/SpecText.v
theories/Printer.v
theories/Parser.v
theories/ParserFacts.v
theories/ParserFacts2.v
theories/Gram.v
theories/RfcFacts.v
theories/SpecPrint.v
theories/PrintFacts.v
theories/PrintFacts2.v
theories/TextFacts.v
theories/TruncFacts.v
theories/StreamFacts.v
theories/ParseInv.v
theories/PropRoundtrip.v
theories/PropParse.v
theories/Access.v
theories/Equals.v
theories/JErrors.v
theories/SpecDict.v
theories/AccessFacts.v
theories/SpecEquals.v
theories/EqualsFacts.v
theories/SpecScalar.v
theories/ScalarFacts.v
theories/PropDict.v
theories/PropEquals.v
theories/PropScalar.v
theories/Query.v
theories/SpecQuery.v
theories/QueryFacts.v
theories/QueryFacts2.v
theories/QueryFacts3.v
theories/PropQuery.v
theories/SpecQueryText.v
theories/PropQueryText.v
theories/Heap.v
theories/SpecHeap.v
theories/HeapFacts.v
theories/HeapFacts2.v
theories/PropHeap.v
theories/Gotypes.v
theories/Marshal.v
theories/SpecMarshal.v
theories/SpecEncode.v
theories/MarshalFacts.v
theories/DepFacts.v
theories/MarshalTerm.v
theories/MarshalEnc.v
theories/MarshalEnc2.v
theories/MarshalRefs.v
theories/MarshalFinal.v
theories/PropMarshal.v
theories/Native.v
theories/SpecNative.v
theories/PropNative.v
theories/Unmarshal.v
theories/FloatWidth.v
theories/SpecUnmarshal.v
theories/UnmFacts.v
theories/UnmTotal.v
theories/UnmMono.v
theories/PropUnmarshal.v
theories/UnmFrame.v
theories/UnmAlike.v
theories/UnmTwin.v
theories/PropUnmarshal2.v
theories/SpecRestore.v
theories/RestoreMem.v
theories/MarshalOrder.v
theories/MarshalPlain.v
theories/MapKeys.v
theories/SpecMapKeys.v
theories/PropMapKeys.v
theories/HeapRead.v
theories/SpecNil.v
theories/HeapReadFacts.v
theories/EqualsNil.v
theories/PropNil.v
theories/SpecQueryParse.v
theories/QueryParseFacts.v
theories/PropQueryParse.v
theories/TextScalars.v
theories/Restore.v
theories/PropRestore.v
theories/SpecMethods.v
theories/PropMethods.v
theories/SpecUtf8.v
theories/PropUtf8.v
theories/SpecSize.v
theories/PropSize.v
theories/SpecQueryCarry.v
theories/QueryRestore.v
theories/PropQueryPersist.v
theories/SpecSession.v
theories/UnmPlain.v
theories/UnmHistory.v
theories/PropSession.v
theories/SpecConvert.v
theories/ConvertFacts.v
theories/ZeroFacts.v
theories/PropConvert.v
theories/PropConvert2.v
theories/SpecContain.v
theories/PropContain.v
theories/SpecTime.v
theories/Time.v
theories/TimeFacts.v
theories/PropTime.v
theories/Yaml.v
theories/PropYaml.v
theories/Construct.v
theories/PropConstruct.v
theories/Deserialize.v
theories/PropDeserialize.v
theories/Alias.v
theories/PropAlias.v
theories/Linked.v
theories/SpecLinked.v
theories/PropLinked.v
theories/SpecWritable.v
theories/TextRestore.v
theories/PropPersist.v
theories/Update.v
theories/SpecUpdate.v
theories/PropUpdate.v
theories/PropStringTag.v
theories/Shortest.v
theories/PropShortest.v
theories/Concur.v
theories/SpecConcur.v
theories/ConcurFacts.v
theories/PropConcur.v
theories/SpecShare.v
theories/ShareFacts.v
theories/PropShare.v
theories/Hooks.v
theories/SpecHooks.v
theories/HooksFacts.v
theories/PropHooks.v
theories/UnmHook.v
theories/SpecHookRun.v
theories/PropHookRun.v
theories/SpecFloatText.v
theories/FloatSyntax.v
theories/PropFloatSyntax.v
theories/SpecLenient.v
theories/LenientFacts.v
theories/PropLenient.v
theories/SpecRefuse.v
theories/RefuseFacts.v
theories/PropRefuse.v
theories/PropStreams.v
theories/MarshalX.v
theories/SpecMarshalPanic.v
theories/MarshalXFacts.v
theories/MarshalXEnd.v
theories/PropMarshalPanic.v
theories/ByValue.v
theories/SpecByValue.v
theories/PropByValue.v
theories/LinkedUnm.v
theories/PropPart.v
theories/SpecSame.v
theories/UnmSame.v
theories/PropSame.v
theories/PropSer.v
theories/Embedded.v
theories/EmbFacts.v
theories/SpecEmbedded.v
theories/PropEmbedded.v
theories/CaseText.v
theories/CaseDict.v
theories/CaseScalar.v
theories/CaseQuery.v
theories/CaseHeap.v
theories/CaseMarshal.v
theories/SpecPass.v
theories/PropPass.v
theories/SpecMarshalSame.v
theories/PropMarshalSame.v
theories/NullId.v
theories/PropNullId.v
theories/SpecIface.v
theories/UnmIface.v
theories/UnmIfaceFacts.v
theories/PropIface.v
