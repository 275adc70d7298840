-Q theories Verif
theories/Bytes.v
theories/Tables.v
theories/Types.v
theories/JsonSpec.v
theories/Parser.v
theories/LexProofs.v
theories/ParserProofs.v
theories/ParserErr.v
theories/Doc.v
theories/DocSpec.v
theories/DocProofs.v
theories/ParserThms.v
theories/RfcOne.v
theories/PropsParser.v
theories/CopyProofs.v
theories/Api.v
theories/InvProofs.v
theories/OpProofs.v
theories/HistSpec.v
theories/HistProofs.v
theories/HistThms.v
theories/OpThms.v
theories/TravThms.v
theories/DocDec.v
theories/DocExamples.v
theories/PropsDoc.v
theories/Utf8.v
theories/Strjson.v
theories/StrSpec.v
theories/Utf8Proofs.v
theories/StrProofs.v
theories/StrThms.v
theories/Bytemaper.v
theories/TableThms.v
theories/StrExamples.v
theories/PropsStr.v
theories/DocStr.v
theories/OkProofs.v
theories/ApiSpec.v
theories/OkThms.v
theories/TypeThms.v
theories/PropsApi.v
theories/Float.v
theories/FloatSpec.v
theories/FloatProofs.v
theories/Num.v
theories/NumSpec.v
theories/NumProofs.v
theories/FloatOps.v
theories/NumThms.v
theories/NumClose.v
theories/NumWide.v
theories/NumInt.v
theories/NumFrac.v
theories/NumExact.v
theories/FmtSpec.v
theories/FmtThms.v
theories/SetThms.v
theories/Iface.v
theories/IfaceSpec.v
theories/IfaceThms.v
theories/NumExamples.v
theories/FloatBack.v
theories/PropsNum.v
theories/Wrap.v
theories/WrapThms.v
theories/PropsWrap.v
theories/OptSpec.v
theories/Options.v
theories/OptThms.v
theories/PropsTag.v
theories/Stream.v
theories/StreamSpec.v
theories/StreamThms.v
theories/PropsStream.v
theories/Pool.v
theories/PoolSpec.v
theories/PoolThms.v
theories/PropsPool.v
theories/Cache.v
theories/CacheSpec.v
theories/CacheThms.v
theories/PropsCache.v
theories/Mem.v
theories/MemSpec.v
theories/MemHeap.v
theories/MemEff.v
theories/MemParse.v
theories/MemCopy.v
theories/MemInv.v
theories/MemOps.v
theories/MemMut.v
theories/MemThms.v
theories/MemExamples.v
theories/PropsMem.v
theories/Codec.v
theories/CodecSpec.v
theories/CodecMerge.v
theories/CodecBase.v
theories/CodecBuild.v
theories/CodecOmit.v
theories/CodecEnc.v
theories/CodecJson.v
theories/CodecExamples.v
theories/PropsCodec.v
theories/DecodeSpec.v
theories/DecodeTree.v
theories/DecodeThms.v
theories/DecodeExamples.v
theories/PropsDecode.v
theories/RoundSpec.v
theories/RoundThms.v
theories/RoundExamples.v
theories/PropsRound.v
theories/MethodSpec.v
theories/MethodThms.v
theories/MethodExamples.v
theories/PropsMethod.v
theories/Coder.v
theories/CoderSpec.v
theories/CoderThms.v
theories/CoderExamples.v
theories/DecodeFirst.v
theories/PropsCoder.v
theories/Lines.v
theories/LinesSpec.v
theories/LinesThms.v
theories/LinesExamples.v
theories/PropsLines.v
theories/GoLit.v
theories/GoLitSpec.v
theories/GoLitThms.v
theories/Gen.v
theories/GenSpec.v
theories/GenMake.v
theories/GenMakeU.v
theories/GenApp.v
theories/GenDec.v
theories/GenOrder.v
theories/GenFields.v
theories/GenRound.v
theories/GenExamples.v
theories/GenRoundEx.v
theories/PropsGen.v
theories/ErrText.v
theories/ErrSpec.v
theories/ErrThms.v
theories/PropsErr.v
theories/GenFile.v
theories/GenFileSpec.v
theories/GenFileThms.v
theories/PropsFile.v
theories/NjTest.v
theories/NjTestSpec.v
theories/NjTestThms.v
theories/NjTestExamples.v
theories/PropsTest.v
theories/Tag.v
theories/TagSpec.v
theories/TagThms.v
theories/PropsTagText.v
theories/TreeSpec.v
theories/TreeThms.v
theories/TreeDet.v
theories/TreeCoder.v
theories/TreeExamples.v
theories/PropsTree.v
theories/NewSpec.v
theories/NewThms.v
theories/PropsNew.v
theories/CmdOpts.v
theories/CmdSpec.v
theories/CmdThms.v
theories/PropsCmd.v
theories/AgreeSpec.v
theories/AgreeThms.v
theories/AgreeExamples.v
theories/PropsAgree.v
theories/MapCmd.v
theories/MapSpec.v
theories/MapThms.v
theories/PropsMap.v
theories/AgreeUSpec.v
theories/AgreeUThms.v
theories/AgreeUExamples.v
theories/PropsAgreeU.v
theories/ResSpec.v
theories/ResThms.v
theories/MemCost.v
theories/MemReuse.v
theories/ReuseThms.v
theories/PropsRes.v
theories/StdSpec.v
theories/StdFields.v
theories/StdThms.v
theories/StdOne.v
theories/StdExamples.v
theories/PropsStd.v
theories/StdUSpec.v
theories/StdUThms.v
theories/StdUExamples.v
theories/PropsStdU.v
theories/ErrPosSpec.v
theories/ParsePos.v
theories/PropsPos.v
