-Q theories Verif
theories/AnnotProofs.v
theories/Api.v
theories/Base.v
theories/BaseProofs.v
theories/CollapseProofs.v
theories/ConllModel.v
theories/ConllProofs.v
theories/ConvModel.v
theories/ConvPipe.v
theories/ConvProofs.v
theories/ConvSpec.v
theories/DecGraph.v
theories/DecPure.v
theories/DfsProofs.v
theories/EditProofs.v
theories/EncConv.v
theories/EncExact.v
theories/EncModel.v
theories/EncSpec.v
theories/EncTree.v
theories/EncTree2.v
theories/EqProofs.v
theories/ExpProofs.v
theories/FeatModel.v
theories/FeatProofs.v
theories/FilterProofs.v
theories/GraphModel.v
theories/GraphProofs.v
theories/InterProofs.v
theories/IsoRose.v
theories/ItProofs.v
theories/ModModel.v
theories/MoveProofs.v
theories/NavProofs.v
theories/NegraAccept.v
theories/NegraExact.v
theories/NegraModel.v
theories/NegraRead.v
theories/NegraRound.v
theories/NegraRound2.v
theories/NegraRound3.v
theories/NegraRound4.v
theories/NegraSpec.v
theories/NegraStep.v
theories/NegraWF.v
theories/NegraWritable.v
theories/NegraWrite.v
theories/NodeModel.v
theories/Ordered.v
theories/ProjProofs.v
theories/PropsClimb.v
theories/PropsClimbRoot.v
theories/PropsConll.v
theories/PropsConll2.v
theories/PropsConv.v
theories/PropsDec.v
theories/PropsDec2.v
theories/PropsEnc.v
theories/PropsEq.v
theories/PropsFeat.v
theories/PropsInter.v
theories/PropsMod.v
theories/PropsMod2.v
theories/PropsMod3.v
theories/PropsNegra.v
theories/PropsNegra2.v
theories/PropsNegraStable.v
theories/PropsNegraText.v
theories/PropsNegraTool.v
theories/PropsPanic.v
theories/PropsPos.v
theories/PropsPtb.v
theories/PropsQuery.v
theories/PropsRead.v
theories/PropsReadWF.v
theories/PropsSame.v
theories/PropsSec.v
theories/PropsSpan.v
theories/PropsStable.v
theories/PropsTag.v
theories/PropsTagText.v
theories/PropsText.v
theories/PropsText2.v
theories/PropsText3.v
theories/PropsTool.v
theories/PropsTotal.v
theories/PropsTree.v
theories/PtbBuild.v
theories/PtbModel.v
theories/PtbPrint.v
theories/PtbProofs.v
theories/PtbReader.v
theories/PtbRound.v
theories/PtbSpec.v
theories/ReattTermProofs.v
theories/ReattachProofs.v
theories/RemoveProofs.v
theories/ResetProofs.v
theories/RestoreProofs.v
theories/RoseProofs.v
theories/RoseSpec.v
theories/SecProofs.v
theories/SegProofs.v
theories/ShapeOps.v
theories/ShapeProofs.v
theories/SortProofs.v
theories/SpanModel.v
theories/SpanProofs.v
theories/TreeModel.v
theories/TreeOps.v
theories/TreeSpec.v
theories/UnaryProofs.v
theories/UtilModel.v
