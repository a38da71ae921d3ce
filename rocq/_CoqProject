-Q theories Verif
theories/AsmCalls.v
theories/AsmFinal.v
theories/AsmLists.v
theories/AsmModel.v
theories/AsmProofs.v
theories/AsmRun.v
theories/BalMore.v
theories/BalProofs.v
theories/Base.v
theories/BaseProofs.v
theories/BlockModel.v
theories/BlockProofs.v
theories/BodyExample.v
theories/BodyFinal.v
theories/BodyModel.v
theories/BodyMore.v
theories/BodyProofs.v
theories/DofModel.v
theories/DofProofs.v
theories/DumpModel.v
theories/DumpProofs.v
theories/EigModel.v
theories/EigProofs.v
theories/ElemBase.v
theories/ElemModel.v
theories/ElemMore.v
theories/ElemProofs.v
theories/EqsCases.v
theories/EqsFinal.v
theories/EqsModel.v
theories/EqsProofs.v
theories/Floats.v
theories/GaussModel.v
theories/GaussProofs.v
theories/HeapFinal.v
theories/HeapModel.v
theories/HeapProofs.v
theories/HeapWrong.v
theories/HeatCases.v
theories/HeatFinal.v
theories/HeatModel.v
theories/HeatMore.v
theories/HeatProofs.v
theories/HeatTransCases.v
theories/HeatTransFinal.v
theories/HeatTransLaws.v
theories/HeatTransModel.v
theories/HeatTransProofs.v
theories/HyperBalance.v
theories/HyperBalance2.v
theories/HyperElem.v
theories/HyperFinal.v
theories/HyperModel.v
theories/HyperMore.v
theories/HyperPlane.v
theories/HyperProofs.v
theories/HyperQuery.v
theories/HyperTangent.v
theories/InterModel.v
theories/InterMore.v
theories/InterProofs.v
theories/IsoHex.v
theories/IsoModel.v
theories/IsoProofs.v
theories/IsoQuad.v
theories/LawsBoth.v
theories/LawsEnergy.v
theories/LawsMore.v
theories/LawsProofs.v
theories/LawsSolve.v
theories/LinearProofs.v
theories/MatDet.v
theories/MatElem.v
theories/MatModel.v
theories/MatProofs.v
theories/MovedLinear.v
theories/MovedProofs.v
theories/MpcDer.v
theories/MpcFinal.v
theories/MpcModel.v
theories/MpcProofs.v
theories/MpcSmall.v
theories/NewtonEnds.v
theories/NewtonProofs.v
theories/NewtonTotal.v
theories/NonlinFinal.v
theories/NonlinModel.v
theories/NonlinProofs.v
theories/NumberingProofs.v
theories/PartProofs.v
theories/PatchProofs.v
theories/PiecesProofs.v
theories/ProgCurve.v
theories/ProgFinal.v
theories/ProgModel.v
theories/ProgProofs.v
theories/Prop_Asm.v
theories/Prop_Bal.v
theories/Prop_Block.v
theories/Prop_Body.v
theories/Prop_Dof.v
theories/Prop_Dump.v
theories/Prop_Eig.v
theories/Prop_Elem.v
theories/Prop_Eqs.v
theories/Prop_Heap.v
theories/Prop_Heat.v
theories/Prop_HeatTrans.v
theories/Prop_Hyper.v
theories/Prop_Inter.v
theories/Prop_Iso.v
theories/Prop_Laws.v
theories/Prop_Mat.v
theories/Prop_Moved.v
theories/Prop_Mpc.v
theories/Prop_Nonlin.v
theories/Prop_Pieces.v
theories/Prop_Prog.v
theories/Prop_React.v
theories/Prop_Reader.v
theories/Prop_Renum.v
theories/Prop_Solve.v
theories/Prop_Sparse.v
theories/Prop_Still.v
theories/Prop_Therm.v
theories/Prop_Time.v
theories/Prop_Tools.v
theories/Prop_Trans.v
theories/Prop_Turned.v
theories/Prop_TurnedSolid.v
theories/Prop_Units.v
theories/Prop_Vec.v
theories/Prop_Vtk.v
theories/Prop_Whole.v
theories/QcTac.v
theories/ReactFinal.v
theories/ReactModel.v
theories/ReactProofs.v
theories/ReaderEnd.v
theories/ReaderFile.v
theories/ReaderMesh.v
theories/ReaderModel.v
theories/ReaderNum.v
theories/ReaderProofs.v
theories/RealBase.v
theories/RenumProofs.v
theories/SolveModel.v
theories/SolveProofs.v
theories/SparseFinal.v
theories/SparseMatProofs.v
theories/SparseModel.v
theories/SparseMoreProofs.v
theories/SparseProofs.v
theories/SpecAsm.v
theories/SpecBal.v
theories/SpecBlock.v
theories/SpecBody.v
theories/SpecCdb.v
theories/SpecDelta.v
theories/SpecDof.v
theories/SpecDump.v
theories/SpecEig.v
theories/SpecElem.v
theories/SpecEnergy.v
theories/SpecEqs.v
theories/SpecGauss.v
theories/SpecHeap.v
theories/SpecHeat.v
theories/SpecHeatTrans.v
theories/SpecHyper.v
theories/SpecInter.v
theories/SpecIso.v
theories/SpecLaws.v
theories/SpecMoved.v
theories/SpecMpc.v
theories/SpecNewton.v
theories/SpecNonlin.v
theories/SpecPieces.v
theories/SpecProg.v
theories/SpecReact.v
theories/SpecReader.v
theories/SpecRenum.v
theories/SpecSolve.v
theories/SpecSparse.v
theories/SpecStill.v
theories/SpecStruct.v
theories/SpecTherm.v
theories/SpecTime.v
theories/SpecTools.v
theories/SpecTrans.v
theories/SpecTransKeys.v
theories/SpecTurned.v
theories/SpecTurnedSolid.v
theories/SpecUnits.v
theories/SpecVec.v
theories/SpecVtk.v
theories/SpecWhole.v
theories/StillProofs.v
theories/StructFinal.v
theories/StructModel.v
theories/StructMore.v
theories/StructProofs.v
theories/ThermModel.v
theories/ThermMore.v
theories/ThermProofs.v
theories/TimeDelta.v
theories/TimeModel.v
theories/TimeProofs.v
theories/ToolsModel.v
theories/ToolsMore.v
theories/ToolsProofs.v
theories/TransFinal.v
theories/TransKeys.v
theories/TransModel.v
theories/TransProofs.v
theories/TrussModel.v
theories/TrussProofs.v
theories/TurnedHeat.v
theories/TurnedProofs.v
theories/TurnedSolid.v
theories/UnitsProofs.v
theories/VecFinal.v
theories/VecModel.v
theories/VecOps.v
theories/VecProofs.v
theories/VtkFinal.v
theories/VtkModel.v
theories/VtkProofs.v
theories/VtkWrite.v
theories/WholeFinal.v
theories/WholeModel.v
theories/WholeProofs.v
