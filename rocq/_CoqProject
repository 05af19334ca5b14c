-Q theories Verif
theories/Res.v
theories/ResP.v
theories/SMap.v
theories/Vec.v
theories/VecP.v
theories/Sva.v
theories/SvaP.v
theories/Mat.v
theories/JointM.v
theories/MultiBodyM.v
theories/KinM.v
theories/DynM.v
theories/Spec.v
theories/JointP.v
theories/KinP.v
theories/KinPathP.v
theories/MbP.v
theories/Ex.v
theories/KinFinP.v
theories/Prop_Kin.v
theories/TreeP.v
theories/DynP.v
theories/SpecDyn.v
theories/DynCP.v
theories/DynHP.v
theories/DynFinP.v
theories/ConvP.v
theories/SolveP.v
theories/DynFin2P.v
theories/DynExP.v
theories/Prop_Dyn.v
theories/SpecDeriv.v
theories/DerivP.v
theories/DerivTreeP.v
theories/DerivExP.v
theories/Prop_Deriv.v
theories/JointFinP.v
theories/Prop_Joint.v
theories/SpecConf.v
theories/ConfFinP.v
theories/Prop_Config.v
theories/JacM.v
theories/SpecJac.v
theories/JacP.v
theories/JacFinP.v
theories/JacFin2P.v
theories/JacDerivP.v
theories/JacBlkP.v
theories/JacTopP.v
theories/JacExP.v
theories/Prop_Jac.v
theories/CoMM.v
theories/MomM.v
theories/SpecCoM.v
theories/CoMP.v
theories/CoMLoopP.v
theories/CoMCtorP.v
theories/CoMFinP.v
theories/CoMTopP.v
theories/MomP.v
theories/MomTopP.v
theories/CoMExP.v
theories/Prop_CoM.v
theories/IDIMM.v
theories/ZMPM.v
theories/SpecIDIM.v
theories/IDIMP.v
theories/ISM.v
theories/SpecAlg.v
theories/ISP.v
theories/Prop_Alg.v
theories/CoriolisM.v
theories/SpecCor.v
theories/CoriolisP.v
theories/CorDerivP.v
theories/CorExP.v
theories/Prop_Cor.v
theories/GraphM.v
theories/SpecGraph.v
theories/GraphP.v
theories/GraphWalkP.v
theories/GraphTreeP.v
theories/GraphUseP.v
theories/GraphTopP.v
theories/GraphPoseP.v
theories/SpecGraphOp.v
theories/GraphHistP.v
theories/GraphRmP.v
theories/GraphCutP.v
theories/GraphMergeP.v
theories/GraphExP.v
theories/Prop_Graph.v
theories/GraphSimP.v
theories/GraphCopyP.v
theories/GraphSepP.v
theories/GraphApartP.v
theories/GraphFixP.v
theories/GraphOpExP.v
theories/GraphCopyExP.v
theories/Prop_GraphOp.v
theories/Prop_GraphCopy.v
theories/GraphLegalP.v
theories/GraphLegalExP.v
theories/Prop_GraphHist.v
theories/IntegM.v
theories/SpecInteg.v
theories/IntegP.v
theories/IntegJointP.v
theories/IntegAllP.v
theories/IntegExactP.v
theories/IntegEndP.v
theories/IntegExP.v
theories/Prop_Integ.v
theories/IkM.v
theories/SpecIk.v
theories/IkP.v
theories/IkExP.v
theories/Prop_Ik.v
theories/VisM.v
theories/SpecVis.v
theories/VisP.v
theories/EulerP.v
theories/VisExP.v
theories/Prop_Vis.v
theories/ParserM.v
theories/YamlM.v
theories/SpecParser.v
theories/ParserP.v
theories/ParserRotP.v
theories/ParserRtP.v
theories/ParserBodyP.v
theories/ParserJointP.v
theories/ParserExP.v
theories/Prop_Parser.v
theories/SpecDoc.v
theories/DocGraphP.v
theories/DocP.v
theories/DocReadP.v
theories/DocYamlP.v
theories/DocUrdfP.v
theories/DocWholeP.v
theories/DocRtP.v
theories/DocRefP.v
theories/DocExP.v
theories/SpecIS.v
theories/IsDerivP.v
theories/IsLoopP.v
theories/IsTopP.v
theories/IsExP.v
theories/Prop_IS.v
theories/SpecRel.v
theories/RelP.v
theories/RelTopP.v
theories/RelFinP.v
theories/RelExP.v
theories/Prop_Rel.v
theories/SpecSub.v
theories/SubP.v
theories/SubTopP.v
theories/SubRelP.v
theories/SubExP.v
theories/Prop_Sub.v
theories/SpecSafe.v
theories/SafeP.v
theories/SafeTopP.v
theories/SafeCoMP.v
theories/SafeComTopP.v
theories/SafeExP.v
theories/Prop_Safe.v
theories/GeomM.v
theories/SpecGeom.v
theories/GeomP.v
theories/GeomYamlP.v
theories/GeomRtP.v
theories/GeomExP.v
theories/Prop_Geom.v
theories/SpecRead.v
theories/ReadSafeP.v
theories/ReadRefP.v
theories/Prop_Read.v
theories/UConvM.v
theories/SpecUConv.v
theories/UConvP.v
theories/UConvRtP.v
theories/Prop_UConv.v
theories/SpecNewton.v
theories/NewtonP.v
theories/Newton2P.v
theories/Newton3P.v
theories/NewtonExP.v
theories/NewtonEx2P.v
theories/Prop_Newton.v
theories/SpecReuse.v
theories/Reuse1P.v
theories/Reuse2P.v
theories/Reuse3P.v
theories/Reuse4P.v
theories/Reuse5P.v
theories/Reuse6P.v
theories/ReuseExP.v
theories/Prop_Reuse.v
theories/SpecFrame.v
theories/FrameP.v
theories/Frame2P.v
theories/FrameExP.v
theories/Prop_Frame.v
theories/SpecBase.v
theories/BaseP.v
theories/BaseExP.v
theories/Prop_Base.v
theories/SpecPrec.v
theories/SimpsonP.v
theories/PrecP.v
theories/Prec2P.v
theories/Prec3P.v
theories/Prec4P.v
theories/PrecExP.v
theories/Prop_Prec.v
theories/SpecIne.v
theories/InertiaP.v
theories/SpecElem.v
theories/ElemP.v
theories/RefBaseP.v
theories/SpecFilter.v
theories/FilterP.v
theories/ForestP.v
theories/PruneP.v
theories/FilterExP.v
theories/Prop_Filter.v
theories/SpecReroot.v
theories/RerootP.v
theories/RerootExP.v
theories/Prop_Reroot.v
theories/Prop_Doc.v
theories/Prop_Inertia.v
theories/AccM.v
theories/SpecAcc.v
theories/AccP.v
theories/Prop_Acc.v
theories/SpecHold.v
theories/HoldP.v
theories/HoldTopP.v
theories/HoldExP.v
theories/SpecUnits.v
theories/UnitsP.v
theories/UnitsTopP.v
theories/UnitsExP.v
theories/Prop_Units.v
theories/SpecLength.v
theories/LengthP.v
theories/LengthTreeP.v
theories/LengthTopP.v
theories/LengthExP.v
theories/Prop_Length.v
theories/SpecRenum.v
theories/RenumP.v
theories/RenumTopP.v
theories/RenumJacP.v
theories/RenumMatP.v
theories/RenumIdP.v
theories/RenumExP.v
theories/Prop_Renum.v
theories/SpecTurn.v
theories/TurnP.v
theories/TurnTopP.v
theories/TurnJacP.v
theories/TurnMomP.v
theories/TurnExP.v
theories/Prop_Turn.v
theories/Prop_Hold.v
