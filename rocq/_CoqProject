-Q theories Verif
theories/BTree.v
theories/Model.v
theories/Strings.v
theories/Grammars.v
theories/Wop.v
theories/WopSpec.v
theories/WopP.v
theories/WopType.v
theories/WopNames.v
theories/WopRead.v
theories/WopProc.v
theories/WopDump.v
theories/WopBoot.v
theories/WopFront.v
theories/Base.v
theories/Spec.v
theories/SpecP.v
theories/GrammarP.v
theories/FirstFollow.v
theories/Closure.v
theories/Merged.v
theories/Canon.v
theories/ActTab.v
theories/LR.v
theories/Sound.v
theories/CanonLR.v
theories/Lalr.v
theories/LalrLR.v
theories/Agree.v
theories/Complete.v
theories/Locality.v
theories/Prefix.v
theories/Halt.v
theories/RunFacts.v
theories/Interface.v
theories/Wrap.v
theories/Reduce.v
theories/Total.v
theories/Mono.v
theories/Bogus.v
theories/DfaParse.v
theories/Check.v
theories/Final.v
theories/More.v
theories/Show.v
theories/StartRed.v
theories/Export.v
theories/AgreeLalr.v
theories/Acyclic.v
theories/ShowP.v
theories/Examples.v
theories/Bundled.v
theories/WopParse.v
theories/WopExport.v
theories/WopText.v
theories/WopTextSpec.v
theories/WopTextP.v
theories/WopMain.v
theories/WopAlias.v
theories/WopLex.v
theories/WopLexSpec.v
theories/WopLexP.v
theories/WopStr.v
theories/WopRun.v
theories/WopEx.v
theories/WopEx2.v
theories/WopSum.v
theories/RustSpec.v
theories/RustP.v
theories/RustItems.v
theories/RustRun.v
theories/RustFile.v
theories/RustEx.v
theories/Refute.v
theories/Refute2.v
theories/Expect.v
theories/Iter.v
theories/Values.v
theories/Refute3.v
theories/Prop_Grammar.v
theories/Prop_FirstFollow.v
theories/Prop_Closure.v
theories/Prop_Build.v
theories/Prop_Sound.v
theories/Prop_Complete.v
theories/Prop_Run.v
theories/Prop_Table.v
theories/Prop_Show.v
theories/Prop_Bundled.v
theories/WopShape.v
theories/WopExactSpec.v
theories/WopExact.v
theories/WopExactT.v
theories/WopExactB.v
theories/WopRef.v
theories/WopExactEx.v
theories/Prop_Wop.v
theories/WopGen.v
theories/WopMeansSpec.v
theories/WopMeans.v
theories/WopMeansEx.v
theories/Prop_WopMeans.v
theories/WopComment.v
theories/WopReadme.v
theories/WopOrder.v
theories/WopOrderSpec.v
theories/WopOrderR.v
theories/WopOrderEx.v
theories/WopWide.v
theories/WopSelf.v
theories/WopSelfP.v
theories/WopOut.v
theories/Prop_WopMore.v
theories/Prop_Rust.v
theories/LR1Spec.v
theories/Handle.v
theories/HandleF.v
theories/LalrClr.v
theories/Cores.v
theories/Refute4.v
theories/RenameSpec.v
theories/Rename.v
theories/Refute5.v
theories/Trace.v
theories/TraceSpec.v
theories/TraceP.v
theories/TraceRow.v
theories/Binary.v
theories/BinarySpec.v
theories/BinaryP.v
theories/TraceEx.v
theories/Prop_Extra.v
theories/Quotient.v
theories/Prop_Classes.v
theories/Prop_Rename.v
theories/RenameRun.v
theories/RenameRunEx.v
theories/Prop_RenameRun.v
theories/Prop_Trace.v
theories/WopPrint.v
theories/WopPrintSpec.v
theories/WopUtf.v
theories/WopSpans.v
theories/WopExt.v
theories/WopPrintP.v
theories/WopFields.v
theories/WopCut.v
theories/WopPrintEx.v
theories/Prop_Print.v
theories/StatesSpec.v
theories/StatesP.v
theories/Text.v
theories/TextSpec.v
theories/TextP.v
theories/TextF.v
theories/TextEx.v
theories/Prop_Text.v
theories/StopsSpec.v
theories/Stops.v
theories/StopsLoop.v
theories/StopsEx.v
theories/Prop_Stops.v
theories/Unique.v
theories/UniqueEx.v
theories/Prop_Unique.v
theories/DilemmaSpec.v
theories/Dilemma.v
theories/DilemmaEx.v
theories/Prop_Dilemma.v
theories/ValidSpec.v
theories/Valid.v
theories/Pass.v
theories/PassB.v
theories/Textbook.v
theories/ValidEx.v
theories/PassEx.v
theories/Prop_Valid.v
theories/Prop_Pass.v
theories/Dead.v
theories/DeadEx.v
theories/Prop_Dead.v
theories/CompareSpec.v
theories/Compare.v
theories/CompareEx.v
theories/Prop_Compare.v
theories/CircleSpec.v
theories/Circle.v
theories/CircleEx.v
theories/Prop_Circle.v
theories/HeightSpec.v
theories/Height.v
theories/HeightEx.v
theories/Prop_Height.v
theories/LiveSpec.v
theories/Live.v
theories/LiveEx.v
theories/Prop_Live.v
theories/Work.v
theories/WorkStates.v
theories/Expo.v
theories/WorkEx.v
theories/Prop_Work.v
theories/StatesText.v
theories/StatesTextEx.v
theories/Prop_StatesText.v
theories/CanonSpec.v
theories/ClrStates.v
theories/ClrStatesEx.v
theories/Prop_ClrStates.v
theories/BinaryTables.v
theories/LostSpec.v
theories/Lost.v
theories/LostEx.v
theories/Prop_Lost.v
theories/TokensTab.v
theories/WithinSpec.v
theories/LalrWork.v
theories/WithinEx.v
theories/Prop_Within.v
theories/UsedSpec.v
theories/Used.v
theories/Reduces.v
theories/UsedEx.v
theories/Prop_Used.v
theories/FewerSpec.v
theories/Fewer.v
theories/FewerEx.v
theories/Prop_Fewer.v
theories/FoldSpec.v
theories/Fold.v
theories/FoldEx.v
theories/Prop_Fold.v
theories/LalrKern.v
theories/Above.v
theories/AboveEx.v
theories/Prop_Above.v
theories/WopWordSpec.v
theories/WopWord.v
theories/Prop_WopWord.v
theories/OrderSpec.v
theories/OrderP.v
theories/Prop_Order.v
