-Q theories Verif
theories/Base.v
theories/BaseProofs.v
theories/CommonModel.v
theories/SemverModel.v
theories/SemverSpec.v
theories/SemverOrder.v
theories/SemverParse.v
theories/SemverVersion.v
theories/SemverReq.v
theories/SemverText.v
theories/SemverEval.v
theories/SemverErr.v
theories/SemverProfile.v
theories/PropSemver.v
theories/CommonSpec.v
theories/CommonProofs.v
theories/PropCommon.v
theories/InlineModel.v
theories/InlineSpec.v
theories/InlineProofs.v
theories/PropInline.v
theories/TomlError.v
theories/LitModel.v
theories/LitSpec.v
theories/LitNum.v
theories/LitInt.v
theories/LitWhole.v
theories/LitDate.v
theories/LitErr.v
theories/LitMore.v
theories/PropLit.v
theories/LexModel.v
theories/LexTests.v
theories/LexSpec.v
theories/LexBase.v
theories/LexStr.v
theories/LexQuote.v
theories/LexEsc.v
theories/LexUni.v
theories/LexLoop.v
theories/LexSound.v
theories/LexMain.v
theories/LexTop.v
theories/LexCStr.v
theories/LexCMain.v
theories/LexPre.v
theories/LexProps.v
theories/LexIllegal.v
theories/PropLex.v
theories/ParseModel.v
theories/ParseTests.v
theories/ParseSpec.v
theories/CommentSpec.v
theories/ParsePlace.v
theories/ParseItems.v
theories/ParseKey.v
theories/ParseLit.v
theories/ParseVal.v
theories/ParseValue.v
theories/ParseAssoc.v
theories/ParseHead.v
theories/ParseRoot.v
theories/ParseTop.v
theories/ParseCVal.v
theories/ParseCValue.v
theories/ParseCTop.v
theories/ParsePre.v
theories/ParseUniq.v
theories/ParseMarks.v
theories/ParseOrder.v
theories/ParseKeep.v
theories/ParseAbove.v
theories/PropAbove.v
theories/OrderItems.v
theories/PropParse.v
theories/MapModel.v
theories/MapTests.v
theories/MapSpec.v
theories/MapWf.v
theories/MapRel.v
theories/MapDecl.v
theories/MapExt.v
theories/MapPre.v
theories/PropMap.v
theories/MapPlace.v
theories/PropOrder.v
theories/MapNice.v
theories/IdeModel.v
theories/IdeSpec.v
theories/IdeProofs.v
theories/PropIde.v
theories/IndexModel.v
theories/IndexSpec.v
theories/IndexProofs.v
theories/PropIndex.v
theories/DisplayModel.v
theories/DisplaySpec.v
theories/DisplayProofs.v
theories/PropDisplay.v
theories/DiagModel.v
theories/CliModel.v
theories/CliSpec.v
theories/IdePlace.v
theories/MeanSpec.v
theories/MeanProofs.v
theories/ManifestSpec.v
theories/ManifestProofs.v
theories/PropCli.v
theories/PropManifest.v
theories/PropManOrder.v
theories/PropPre.v
theories/ManifestFine.v
theories/PropFine.v
theories/NvimModel.v
theories/NvimSpec.v
theories/PropNvim.v
theories/FetchModel.v
theories/FetchSpec.v
theories/FetchProofs.v
theories/PropFetch.v
theories/MsgSpec.v
theories/PropMsg.v
theories/MsgSpec2.v
theories/PropMsg2.v
theories/MainModel.v
theories/MainSpec.v
theories/PropMain.v
theories/ContainerModel.v
theories/ContainerSpec.v
theories/PropContainer.v
theories/LowLit.v
theories/LowLex.v
theories/LowParse.v
theories/LowMap.v
theories/LowAdds.v
theories/PropLow.v
theories/PropLines.v
theories/PropLayout.v
theories/PropGap.v
theories/DebugModel.v
theories/DebugSpec.v
theories/PropDebug.v
theories/WriteSpec.v
theories/PropWrite.v
theories/OnLit.v
theories/OnParse.v
theories/ParseCGen.v
theories/LexCGen.v
theories/OnLex.v
theories/LexLine.v
theories/PropLine.v
theories/MapFocus.v
theories/MeanList.v
theories/AboutStmts.v
theories/PropFocus.v
theories/PropFocusLine.v
