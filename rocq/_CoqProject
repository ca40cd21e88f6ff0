-Q theories Verif
theories/Base.v
theories/Lex.v
theories/Attr.v
theories/Block.v
theories/Inline.v
theories/Doc.v
theories/Html.v
theories/Lib.v
theories/SpecAttr.v
theories/PAttr.v
theories/PAttr2.v
theories/PAttr3.v
theories/PAttr4.v
theories/PAttr5.v
theories/PropsAttr.v
theories/SpecDoc.v
theories/SpecHtml.v
theories/PHtml.v
theories/PHtml2.v
theories/PHtml3.v
theories/PHtml4.v
theories/PHtml5.v
theories/PHtml6.v
theories/PHtml7.v
theories/PropsHtml.v
theories/SpecBlock.v
theories/SpecLex.v
theories/PSafe.v
theories/PBlock1.v
theories/PBlock2.v
theories/SpecOpen.v
theories/POpen.v
theories/PMark.v
theories/PLex.v
theories/PBlock3.v
theories/PBlock4.v
theories/PropsLine.v
theories/PTab0.v
theories/PTick.v
theories/SpecView.v
theories/PGram.v
theories/PView.v
theories/PTree1.v
theories/PTree2.v
theories/PTable.v
theories/PTree3.v
theories/PTree4.v
theories/PTree5.v
theories/PTree6.v
theories/PTree7.v
theories/PTree8.v
theories/PropsPunct.v
theories/PIds.v
theories/PropsIds.v
theories/SpecSrc.v
theories/SpecMark.v
theories/PInl1.v
theories/PInl2.v
theories/PInl3.v
theories/PInl4.v
theories/PInl5.v
theories/PInl6.v
theories/PInl7.v
theories/PInl8.v
theories/PInl9.v
theories/PInl10.v
theories/PInl11.v
theories/PInl12.v
theories/PDoc1.v
theories/PDoc2.v
theories/PDoc3.v
theories/PDoc4.v
theories/PDoc5.v
theories/PDoc6.v
theories/PropsDoc.v
theories/SpecTable.v
theories/PropsTable.v
theories/PDoc7.v
theories/PropsRefs.v
theories/SpecCanon.v
theories/PCan1.v
theories/PCan2.v
theories/PCan3.v
theories/PCan4.v
theories/PCan5.v
theories/PCan6.v
theories/PCan7.v
theories/PCan8.v
theories/PCan9.v
theories/PCan10.v
theories/PCan11.v
theories/PCan12.v
theories/PCan13.v
theories/PCan14.v
theories/PCan15.v
theories/PCan16.v
theories/PCan17.v
theories/PCan18.v
theories/PCan19.v
theories/PCan20.v
theories/PCan21.v
theories/PropsCanon.v
theories/SpecWf.v
theories/PWf.v
theories/PWf2.v
theories/PWf3.v
theories/PWf4.v
theories/PropsWf.v
theories/PropsPage.v
theories/PropsConsume.v
theories/PropsView.v
theories/SpecOut.v
theories/POut.v
theories/PropsOut.v
theories/PropsSrc.v
theories/PropsMark.v
theories/SpecCover.v
theories/PCov0.v
theories/PCov1.v
theories/PCov2.v
theories/PCov3.v
theories/PCov4.v
theories/PCov5.v
theories/PCov6.v
theories/PCov7.v
theories/PCov8.v
theories/PCov9.v
theories/PCov10.v
theories/SpecApart.v
theories/PApart.v
theories/PropsApart.v
theories/PropsOpen.v
theories/PropsCover.v
theories/Sink.v
theories/SpecSink.v
theories/PSink.v
theories/PropsSink.v
theories/Cli.v
theories/SpecCli.v
theories/PropsCli.v
