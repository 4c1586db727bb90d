-Q theories Verif
theories/Base.v
theories/Parser.v
theories/SpecJson.v
theories/ParserFacts.v
theories/Grammar1.v
theories/Grammar2.v
theories/SpecDespace.v
theories/DespaceProofs.v
theories/ErrPos.v
theories/ParserProps.v
theories/Properties_Parser.v
theories/Out.v
theories/Number.v
theories/SpecNum.v
theories/CodecLaws.v
theories/NumberProofs.v
theories/Properties_Number.v
theories/StringS.v
theories/SpecString.v
theories/StringProofs.v
theories/Properties_String.v
theories/Array.v
theories/SpecSeq.v
theories/ArrayProofs.v
theories/Properties_Seq.v
theories/Unord.v
theories/SpecUnord.v
theories/UnordProofs.v
theories/Properties_Unord.v
theories/Object.v
theories/ObjectArray.v
theories/SpecObject.v
theories/ObjectProofs.v
theories/ObjectArrayProofs.v
theories/Properties_Object.v
theories/Enum.v
theories/SpecEnum.v
theories/EnumProofs.v
theories/Properties_Enum.v
theories/Wrap.v
theories/SpecWrap.v
theories/WrapProofs.v
theories/Properties_Wrap.v
theories/TimeSize.v
theories/SpecTime.v
theories/SpecSize.v
theories/TimeProofs.v
theories/SizeProofs.v
theories/Properties_TimeSize.v
theories/Misc.v
theories/Float.v
theories/SpecMisc.v
theories/MiscProofs.v
theories/FloatProofs.v
theories/Properties_Misc.v
theories/Desc.v
theories/DescProofs.v
theories/Properties_Desc.v
theories/SpecPtr.v
theories/PtrProofs.v
theories/Properties_Ptr.v
theories/SpecEnd.v
theories/EndProofs.v
theories/Properties_End.v
theories/SpecType.v
theories/TypeProofs.v
theories/Properties_Type.v
theories/SpecAccept.v
theories/AcceptProofs.v
theories/Properties_Accept.v
theories/SpecReport.v
theories/ReportProofs.v
theories/Properties_Report.v
theories/IfReportProofs.v
theories/Properties_IfReport.v
theories/SpecIf.v
theories/IfHoldProofs.v
theories/Properties_IfHold.v
theories/IfExclProofs.v
theories/Properties_IfExcl.v
theories/FrameProofs.v
theories/Properties_Frame.v
theories/SpecRespace.v
theories/RespaceProofs.v
theories/Properties_Respace.v
theories/SpecExact.v
theories/ExactProofs.v
theories/ObjExactProofs.v
theories/WrapExactProofs.v
theories/Properties_Exact.v
theories/Conformance.v
theories/SpecRefuse.v
theories/RefuseProofs.v
theories/Properties_Refuse.v
theories/SpecFail.v
theories/FailProofs.v
theories/FailWrapProofs.v
theories/Properties_Fail.v
theories/SpecUnits.v
theories/UnitProofs.v
theories/Properties_Units.v
theories/SpecFlags.v
theories/FlagProofs.v
theories/Properties_Flags.v
theories/SpecRun.v
theories/RunProofs.v
theories/ObjRunProofs.v
theories/Properties_Run.v
theories/SpecOld.v
theories/OldProofs.v
theories/Properties_Old.v
theories/SpecRound.v
theories/RoundProofs.v
theories/Properties_Round.v
theories/SpecNear.v
theories/NearProofs.v
theories/Properties_Near.v
theories/SpecTimeRound.v
theories/TimeRoundProofs.v
theories/Properties_TimeRound.v
theories/SpecSizeRound.v
theories/SizeRoundProofs.v
theories/Properties_SizeRound.v
theories/SpecMulti.v
theories/MultiProofs.v
theories/Properties_Multi.v
theories/SpecUndef.v
theories/UndefProofs.v
theories/SpecUndefAll.v
theories/UndefAllProofs.v
theories/UndefWrapProofs.v
theories/Properties_Undef.v
theories/SpecInject.v
theories/InjectProofs.v
theories/Properties_Inject.v
theories/SpecCompact.v
theories/CompactProofs.v
theories/Properties_Compact.v
theories/SpecPass.v
theories/PassProofs.v
theories/Properties_Pass.v
theories/SpecLater.v
theories/LaterProofs.v
theories/Properties_Later.v
theories/SpecKinds.v
theories/KindProofs.v
theories/Properties_Kinds.v
theories/Programs.v
theories/SpecPrograms.v
theories/ProgramProofs.v
theories/SpecShow.v
theories/ShowProofs.v
theories/Properties_Programs.v
theories/SpecAlike.v
theories/AlikeProofs.v
theories/Properties_Alike.v
theories/SpecLength.v
theories/LengthProofs.v
theories/Properties_Length.v
theories/SpecTree.v
theories/TreeProofs.v
theories/TreeUnique.v
theories/Properties_Tree.v
theories/SpecSettle.v
theories/SettleProofs.v
theories/Properties_Settle.v
theories/SpecStream.v
theories/CutProofs.v
theories/StreamProofs.v
theories/Properties_Stream.v
theories/SpecDepth.v
theories/DepthProofs.v
theories/Properties_Depth.v
theories/SpecWeight.v
theories/WeightProofs.v
theories/Properties_Weight.v
theories/Fp.v
theories/SpecFp.v
theories/FpProofs.v
theories/FpTextProofs.v
theories/FpWriteProofs.v
theories/FpSciProofs.v
theories/FpExactProofs.v
theories/FpOrderProofs.v
theories/Properties_Fp.v
theories/Properties_FpOrder.v
theories/SpecTwin.v
theories/TwinProofs.v
theories/Properties_Twin.v
theories/SpecUtf8.v
theories/Utf8Proofs.v
theories/Properties_Utf8.v
