-Q theories Verif
theories/Base.v
theories/Varint.v
theories/Utf8.v
theories/Serde.v
theories/Typing.v
theories/Big.v
theories/Time.v
theories/Header.v
theories/Body.v
theories/Io.v
theories/SpecVarint.v
theories/SpecUtf8.v
theories/SpecDecode.v
theories/BaseFacts.v
theories/VarintFacts.v
theories/VarintBuf.v
theories/VarintBufFacts.v
theories/PropBuf.v
theories/ZigZagFacts.v
theories/Utf8Facts.v
theories/PrimFacts.v
theories/SerdeFacts.v
theories/WireFacts.v
theories/PropVarint.v
theories/SpecRequest.v
theories/SerdeMore.v
theories/Consume.v
theories/SerdeSize.v
theories/WidthFacts.v
theories/SpecDty.v
theories/SerdeSafe.v
theories/TextFacts.v
theories/PropText.v
theories/SpecMap.v
theories/MapFacts.v
theories/SerdeProps.v
theories/SpecEvolve.v
theories/EvolveFacts.v
theories/EvolveWire.v
theories/SpecSize.v
theories/SizeFacts.v
theories/PropSize.v
theories/Rec.v
theories/SpecRec.v
theories/RecFacts.v
theories/PropRecDe.v
theories/Eq.v
theories/SpecEq.v
theories/EqFacts.v
theories/PropEq.v
theories/ExSerde.v
theories/PropSerde.v
theories/PropSafe.v
theories/SpecHeader.v
theories/HeaderFacts.v
theories/PropHeader.v
theories/SpecBody.v
theories/BodyFacts.v
theories/WireBytes.v
theories/PropBody.v
theories/SpecBig.v
theories/BigFacts.v
theories/SpecTime.v
theories/TimeFacts.v
theories/PropBig.v
theories/PropTime.v
theories/TimeSizeFacts.v
theories/PropTimeSize.v
theories/SpecIo.v
theories/Derive.v
theories/SpecDerive.v
theories/DeriveFacts.v
theories/DeriveRec.v
theories/DeriveBody.v
theories/PropDerive.v
theories/PropRec.v
theories/Conform.v
theories/IoFacts.v
theories/PropIo.v
theories/ArchFacts.v
theories/PropArch.v
theories/PropEvolve.v
theories/DeriveDe.v
theories/SpecDeriveDe.v
theories/DeriveDeFacts.v
theories/ExDeriveDe.v
theories/PropDeriveDe.v
theories/SpecAccept.v
theories/AcceptFacts.v
theories/PropAccept.v
theories/Keys.v
theories/SpecKeys.v
theories/KeysFacts.v
theories/PropKeys.v
theories/SpecReject.v
theories/RejectFacts.v
theories/PropReject.v
theories/SpecOutput.v
theories/OutputFacts.v
theories/PropOutput.v
theories/SpecReads.v
theories/ReadsFacts.v
theories/PropReads.v
theories/SpecPortable.v
theories/PortableFacts.v
theories/PropPortable.v
theories/SpecFormat.v
theories/FormatFacts.v
theories/PropFormat.v
theories/FinalFacts.v
theories/PropFinal.v
theories/Stack.v
theories/SpecStack.v
theories/StackFacts.v
theories/PropStack.v
theories/SpecHeap.v
theories/HeapFacts.v
theories/PropHeap.v
theories/SpecUpgrade.v
theories/SpecUpgradeBody.v
theories/ExUpgrade.v
theories/UpgradeFacts.v
theories/UpgradeBodyFacts.v
theories/PropUpgrade.v
theories/SpecDerived.v
theories/DerivedFacts.v
theories/PropDerived.v
theories/SpecCut.v
theories/CutFacts.v
theories/PropCut.v
theories/SpecWritten.v
theories/WrittenFacts.v
theories/PropWritten.v
theories/SpecStop.v
theories/StopFacts.v
theories/PropStop.v
theories/Flatten.v
theories/SpecFlatten.v
theories/FlattenFacts.v
theories/ExFlatten.v
theories/PropFlatten.v
theories/BuildFacts.v
theories/PropBuild.v
theories/SpecPortableType.v
theories/PortableTypeFacts.v
theories/PropPortableType.v
theories/Std.v
theories/SpecStd.v
theories/StdFacts.v
theories/ExStd.v
theories/PropStd.v
theories/SpecCalls.v
theories/CallsFacts.v
theories/PropCalls.v
theories/AlikeFacts.v
theories/SpecAlike.v
theories/PropAlike.v
theories/SpecAgain.v
theories/AgainFacts.v
theories/AgainStdFacts.v
theories/PropAgain.v
theories/Alias.v
theories/SpecAlias.v
theories/AliasFacts.v
theories/ExAlias.v
theories/PropAlias.v
theories/Grow.v
theories/SpecGrow.v
theories/ExGrow.v
theories/GrowFacts.v
theories/HeldFacts.v
theories/PropGrow.v
theories/Conv.v
theories/SpecConv.v
theories/ConvFacts.v
theories/ExConv.v
theories/PropConv.v
theories/Tagged.v
theories/SpecTagged.v
theories/TaggedFacts.v
theories/ExTagged.v
theories/PropTagged.v
theories/SpecHash.v
theories/HashFacts.v
theories/ExHash.v
theories/PropHash.v
theories/SpecUndo.v
theories/AgainConvFacts.v
theories/AlikeMoreFacts.v
theories/PropAlikeMore.v
theories/GrowRec.v
theories/SpecPeak.v
theories/ExPeak.v
theories/PeakFacts.v
theories/PropPeak.v
theories/SpecLabel.v
theories/LabelFacts.v
theories/PropLabel.v
theories/GrowStd.v
theories/SpecPeakStd.v
theories/ExPeakStd.v
theories/PeakStdFacts.v
theories/PropPeakStd.v
theories/SpecHeld.v
theories/HeldMoreFacts.v
theories/PropHeld.v
theories/GrowHeader.v
theories/SpecGrowHeader.v
theories/GrowHeaderFacts.v
theories/PropGrowHeader.v
theories/GrowDerive.v
theories/SpecGrowDerive.v
theories/GrowDeriveFacts.v
theories/HeldDeriveFacts.v
theories/ExGrowDerive.v
theories/PropGrowDerive.v
