-Q theories Verif
theories/Py.v
theories/M_Graph.v
theories/M_Node.v
theories/M_Pptc.v
theories/Spec.v
theories/L_Base.v
theories/L_PD.v
theories/L_Sums.v
theories/L_Table.v
theories/L_Tree.v
theories/L_Walk.v
theories/L_Forest.v
theories/L_Root.v
theories/L_Good.v
theories/L_Prop.v
theories/L_Init.v
theories/L_Joint.v
theories/L_Post.v
theories/L_Read.v
theories/L_Ids.v
theories/L_Trans.v
theories/L_Elim.v
theories/L_UG.v
theories/L_Tri.v
theories/L_Moral.v
theories/SpecNet.v
theories/SpecEv.v
theories/L_Build.v
theories/L_Exact.v
theories/L_Apply.v
theories/L_Net.v
theories/L_Evid.v
theories/L_Hist.v
theories/L_Check.v
theories/L_Rip.v
theories/L_Claims.v
theories/L_Shape.v
theories/L_Shown.v
theories/Ex.v
theories/L_P1.v
theories/L_R1.v
theories/PropInfer.v
theories/PropTree.v
theories/L_P2.v
theories/L_R2.v
theories/PropEv.v
theories/SpecGraph.v
theories/L_P3.v
theories/L_R3.v
theories/SpecPot.v
theories/L_Dag.v
theories/L_P4.v
theories/L_R4.v
theories/PropPot.v
theories/M_Sampling.v
theories/SpecSamp.v
theories/L_Samp.v
theories/L_Sort.v
theories/L_Samp2.v
theories/L_P5.v
theories/L_SampEx.v
theories/L_Samp3.v
theories/PropSamp.v
theories/M_Nx.v
theories/M_Gen.v
theories/SpecNx.v
theories/L_Nx.v
theories/L_Gen.v
theories/L_Gen2.v
theories/L_R5.v
theories/PropGen.v
theories/M_Do.v
theories/SpecDo.v
theories/L_Do.v
theories/L_Do2.v
theories/L_R6.v
theories/L_Do3.v
theories/PropDo.v
theories/M_Util.v
theories/SpecUtil.v
theories/L_Util.v
theories/PropUtil.v
theories/M_GraphNx.v
theories/L_P6.v
theories/PropGraph.v
theories/SpecRe.v
theories/L_R7.v
theories/L_Reapply.v
theories/PropRe.v
theories/M_Serde.v
theories/SpecSer.v
theories/L_Rebuild.v
theories/L_Serde.v
theories/L_P8.v
theories/L_R8.v
theories/SpecLost.v
theories/L_Lost.v
theories/L_Lost2.v
theories/L_Lost3.v
theories/L_Lost4.v
theories/L_LostEx.v
theories/PropSer.v
theories/M_Ace.v
theories/SpecAce.v
theories/L_Cut.v
theories/L_Ace.v
theories/L_P9.v
theories/M_Gauss.v
theories/SpecGauss.v
theories/L_Gauss.v
theories/L_Gauss2.v
theories/L_Gauss3.v
theories/L_Gauss4.v
theories/L_P10.v
theories/L_Inv.v
theories/L_P11.v
theories/PropGauss.v
theories/M_Factory.v
theories/SpecFactory.v
theories/L_Plain.v
theories/L_Kahn.v
theories/L_Fac.v
theories/L_Lib.v
theories/L_Data.v
theories/L_Data2.v
theories/L_R12.v
theories/PropFactory.v
theories/M_Csv.v
theories/SpecCsv.v
theories/L_Csv.v
theories/L_Csv2.v
theories/L_R13.v
theories/PropCsv.v
theories/L_Det.v
theories/SpecAgain.v
theories/L_Again.v
theories/L_Again2.v
theories/L_Again3.v
theories/L_R14.v
theories/SpecMute.v
theories/L_Mute.v
theories/L_Mute2.v
theories/L_Mute3.v
theories/L_Mute4.v
theories/L_MuteEx.v
theories/SpecPart.v
theories/SpecDet.v
theories/L_Part.v
theories/L_Part2.v
theories/L_Part3.v
theories/L_Part4.v
theories/L_Part5.v
theories/L_Part6.v
theories/L_Det2.v
theories/PropAgain.v
theories/M_Text.v
theories/M_Samples.v
theories/SpecDne.v
theories/SpecText.v
theories/SpecSamples.v
theories/L_Dne.v
theories/L_Text.v
theories/L_Samples.v
theories/L_P15.v
theories/PropText.v
theories/SpecMany.v
theories/L_Many.v
theories/L_Many2.v
theories/L_Many3.v
theories/L_Alias.v
theories/L_Alias2.v
theories/SpecSep.v
theories/L_Sep1.v
theories/L_Sep2.v
theories/L_Sep3.v
theories/L_Sep4.v
theories/L_SepEx.v
theories/PropSep.v
theories/SpecDoor.v
theories/L_Door.v
theories/L_Door2.v
theories/L_DoorEx.v
theories/PropDoor.v
theories/PropAce.v
theories/M_GenFile.v
theories/L_GenFile.v
theories/L_GenFile2.v
theories/PropGenFile.v
theories/SpecMsg.v
theories/L_Msg.v
theories/L_MsgEx.v
theories/PropMsg.v
theories/SpecIso.v
theories/L_Iso.v
theories/L_IsoEx.v
theories/PropIso.v
theories/SpecChord.v
theories/L_Dirac.v
theories/L_Chord.v
theories/L_Chord2.v
theories/L_R18.v
theories/PropChord.v
theories/M_Evb.v
theories/SpecEvb.v
theories/L_Evb.v
theories/PropEvb.v
theories/SpecJoint.v
theories/L_Joint2.v
theories/PropJoint.v
theories/SpecSub.v
theories/L_Sub.v
theories/L_SubEx.v
theories/PropSub.v
theories/SpecRun.v
theories/L_Run.v
theories/L_RunEx.v
theories/PropRun.v
theories/M_Flat.v
theories/L_Flat.v
theories/PropFlat.v
theories/SpecFlow.v
theories/L_Flow.v
theories/L_Flow2.v
theories/L_Flow3.v
theories/PropFlow.v
theories/M_Copy.v
theories/M_Copy2.v
theories/SpecCopy.v
theories/L_Copy.v
theories/L_Copy2.v
theories/L_CopyEx.v
theories/L_Shallow.v
theories/PropCopy.v
theories/M_Str.v
theories/Tests.v
theories/SpecStr.v
theories/L_Str.v
theories/L_Str2.v
theories/L_StrEx.v
theories/PropStr.v
theories/M_Round.v
theories/M_Round2.v
theories/SpecRound.v
theories/L_Round.v
theories/L_Round2.v
theories/L_Round3.v
theories/L_Round4.v
theories/L_Size.v
theories/L_Steady.v
theories/L_Round5.v
theories/L_RoundEx.v
theories/L_Range.v
theories/L_RangeEx.v
theories/PropRange.v
theories/L_RoundRe.v
theories/L_RoundReEx.v
theories/PropRoundRe.v
theories/SpecSize.v
theories/L_Size2.v
theories/PropSize.v
theories/L_Change.v
theories/PropChange.v
theories/PropRound.v
theories/SpecBest.v
theories/L_Best.v
theories/L_BestEx.v
theories/PropBest.v
theories/SpecKeys.v
theories/L_Keys.v
theories/L_Keys2.v
theories/PropKeys.v
theories/L_Late.v
theories/L_LateEx.v
theories/PropMany.v
theories/SpecTry.v
theories/L_Try.v
theories/L_Try2.v
theories/L_TryEx.v
theories/PropTry.v
theories/SpecName.v
theories/L_Name.v
theories/L_NameEx.v
theories/PropName.v
theories/SpecKept.v
theories/L_Kept.v
theories/L_Kept2.v
theories/L_Kept3.v
theories/L_KeptEx.v
theories/PropKept.v
theories/SpecWhole.v
theories/L_Whole.v
theories/L_WholeEx.v
theories/PropWhole.v
theories/M_Depth.v
theories/SpecDepth.v
theories/L_Depth.v
theories/L_Depth2.v
theories/L_Chain.v
theories/L_Chain2.v
theories/L_Depth3.v
theories/L_Depth4.v
theories/PropDepth.v
theories/SpecPrint.v
theories/L_Print.v
theories/L_PrintEx.v
theories/PropPrint.v
theories/SpecCohere.v
theories/L_Cohere.v
theories/L_CohereEx.v
theories/PropCohere.v
theories/SpecVirt.v
theories/L_Virt.v
theories/L_VirtEx.v
theories/PropVirt.v
theories/SpecSort.v
theories/L_Stable.v
theories/PropSort.v
theories/SpecMarg.v
theories/L_Marg.v
theories/PropMarg.v
theories/SpecChain.v
theories/L_Rule.v
theories/L_RuleEx.v
theories/PropChain.v
theories/SpecRow.v
theories/L_Row.v
theories/L_RowEx.v
theories/PropRow.v
theories/SpecMix.v
theories/L_Mix.v
theories/L_MixEx.v
theories/PropMix.v
theories/SpecCov.v
theories/L_Cov.v
theories/L_CovEx.v
theories/PropCov.v
theories/SpecShow.v
theories/M_Show.v
theories/L_Show.v
theories/L_Show2.v
theories/L_ShowEx.v
theories/PropShow.v
theories/SpecCause.v
theories/L_Cause.v
theories/L_Cause2.v
theories/L_CauseEx.v
theories/PropCause.v
theories/SpecLeft.v
theories/L_Left.v
theories/L_Left2.v
theories/L_LeftEx.v
theories/PropLeft.v
theories/L_Weigh.v
theories/L_Weigh2.v
theories/L_WeighEx.v
theories/PropWeigh.v
theories/PropOrder.v
theories/M_GenAlpha.v
theories/SpecDraw.v
theories/L_Draw.v
theories/L_Draw2.v
theories/L_DrawEx.v
theories/PropDraw.v
theories/M_RoundSamp.v
theories/SpecStored.v
theories/L_RS.v
theories/L_RS2.v
theories/L_RS3.v
theories/L_RS4.v
theories/L_RSEx.v
theories/PropRS.v
theories/L_RS5.v
theories/SpecOrderly.v
theories/L_Ord1.v
theories/L_Ord2.v
theories/L_Ord3.v
theories/L_OrdEx.v
theories/PropOrderly.v
theories/SpecBlanket.v
theories/L_Blanket.v
theories/L_BlanketEx.v
theories/PropBlanket.v
theories/M_Json.v
theories/SpecJson.v
theories/L_Json.v
theories/L_Json2.v
theories/M_Json2.v
theories/L_Json3.v
theories/L_JsonEx.v
theories/PropJson.v
theories/SpecShuf.v
theories/L_Shuf.v
theories/L_Shuf2.v
theories/PropShuf.v
theories/L_Shuf3.v
theories/L_Shuf4.v
theories/PropShuf2.v
theories/M_LibJson.v
theories/SpecLibJson.v
theories/L_LibJson.v
theories/PropLibJson.v
theories/M_FileText.v
theories/L_FileText.v
theories/PropFileText.v
theories/SpecLines.v
theories/L_Lines.v
theories/PropLines.v
theories/SpecLearn.v
theories/L_Learn.v
theories/PropLearn.v
theories/SpecMle.v
theories/L_Mle.v
theories/PropMle.v
