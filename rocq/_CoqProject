-Q theories Verif
theories/Prelude.v
theories/PreludeFacts.v
theories/MeshModel.v
theories/MeshSpec.v
theories/MeshProofs.v
theories/MeshProps.v
theories/LbmModel.v
theories/LbmSpec.v
theories/LbmProofs.v
theories/LbmMassProofs.v
theories/LbmPhaseProofs.v
theories/LbmQuietProofs.v
theories/LbmStepProofs.v
theories/LbmProps.v
theories/LbmAuxModel.v
theories/LbmAuxSpec.v
theories/LbmAuxProofs.v
theories/LbmAuxProps.v
theories/GrainModel.v
theories/GrainSpec.v
theories/GrainProofs.v
theories/GrainVolProofs.v
theories/GrainProps.v
theories/PfModel.v
theories/PfSpec.v
theories/PfProofs.v
theories/PfAuxProofs.v
theories/PfProps.v
theories/GridFacts.v
theories/CfdMeshModel.v
theories/CfdMeshSpec.v
theories/CfdMeshProofs.v
theories/CfdModel.v
theories/CfdSpec.v
theories/CfdProofs.v
theories/CfdOpProofs.v
theories/CfdEqProofs.v
theories/CfdSolveProofs.v
theories/CfdRestProofs.v
theories/CfdProps.v
theories/GammaModel.v
theories/GammaSpec.v
theories/GammaProofs.v
theories/GammaProps.v
theories/FemModel.v
theories/FemFacts.v
theories/FemSpec.v
theories/FemProofs.v
theories/FemAsmProofs.v
theories/FemMatProofs.v
theories/FemGeoProofs.v
theories/FemExamples.v
theories/FemProps.v
theories/SolverModel.v
theories/SolverSpec.v
theories/SolverProofs.v
theories/SolverLmProofs.v
theories/SolverAdProofs.v
theories/SolverFemProofs.v
theories/SolverExamples.v
theories/SolverProps.v
theories/MmaModel.v
theories/MmaSpec.v
theories/MmaProofs.v
theories/MmaNewtonProofs.v
theories/MmaOptProofs.v
theories/MmaStepProofs.v
theories/MmaFilterProofs.v
theories/MmaExamples.v
theories/MmaProps.v
theories/BasisModel.v
theories/BasisSpec.v
theories/BasisProofs.v
theories/BasisFaceProofs.v
theories/BasisQuadProofs.v
theories/BasisExamples.v
theories/BasisMeshProofs.v
theories/BasisProps.v
theories/MatModel.v
theories/MatSpec.v
theories/MatProofs.v
theories/MatPlasticProofs.v
theories/MatFemProofs.v
theories/MatHyperProofs.v
theories/MatPostProofs.v
theories/MatThermoProofs.v
theories/MatTopProofs.v
theories/MatFractureProofs.v
theories/MatEigenProofs.v
theories/MatLawProofs.v
theories/MatExamples.v
theories/MatProps.v
theories/ActModel.v
theories/ActSpec.v
theories/ActProofs.v
theories/ActThermalProofs.v
theories/ActProps.v
theories/SjacModel.v
theories/SjacSpec.v
theories/SjacProofs.v
theories/SjacProps.v
theories/CrysModel.v
theories/CrysSpec.v
theories/CrysTensorProofs.v
theories/CrysProofs.v
theories/CrysFemProofs.v
theories/CrysDiffProofs.v
theories/CrysHistProofs.v
theories/CrysExamples.v
theories/CrysProps.v
theories/RveModel.v
theories/RveSpec.v
theories/RveProofs.v
theories/RveMeanProofs.v
theories/RveDataProofs.v
theories/RveSolveProofs.v
theories/RveExamples.v
theories/RveProps.v
theories/BoxSpec.v
theories/BoxProofs.v
theories/BoxPatchProofs.v
theories/BoxRveProofs.v
theories/BoxExamples.v
theories/BoxProps.v
theories/FormModel.v
theories/FormSpec.v
theories/FormProofs.v
theories/FormHistProofs.v
theories/FormCexProofs.v
theories/FormFemProofs.v
theories/FormExamples.v
theories/FormProps.v
theories/TopModel.v
theories/TopSpec.v
theories/TopLProofs.v
theories/TopEigenProofs.v
theories/TopPlasticProofs.v
theories/TopExamples.v
theories/TopProps.v
theories/LinFacts.v
theories/WellSpec.v
theories/WellProofs.v
theories/WellBoxProofs.v
theories/WellMainProofs.v
theories/WellExamples.v
theories/WellProps.v
theories/InfModel.v
theories/InfSpec.v
theories/InfProofs.v
theories/InfMainProofs.v
theories/InfExamples.v
theories/InfProps.v
theories/InvModel.v
theories/InvSpec.v
theories/InvProofs.v
theories/InvGradProofs.v
theories/InvRestProofs.v
theories/InvBalanceProofs.v
theories/InvExamples.v
theories/InvProps.v
theories/RlxModel.v
theories/RlxSpec.v
theories/RlxProofs.v
theories/RlxTermProofs.v
theories/RlxExamples.v
theories/RlxProps.v
theories/ManSpec.v
theories/ManProofs.v
theories/ManMainProofs.v
theories/ManExamples.v
theories/ManProps.v
theories/MaxSpec.v
theories/MaxProofs.v
theories/MaxRefProofs.v
theories/MaxExamples.v
theories/MaxProps.v
theories/HeatModel.v
theories/HeatSpec.v
theories/HeatWellProofs.v
theories/HeatStepProofs.v
theories/HeatMainProofs.v
theories/HeatPickProofs.v
theories/HeatLayerProofs.v
theories/HeatBoxProofs.v
theories/HeatExamples.v
theories/HeatProps.v
theories/ConnSpec.v
theories/ConnRankProofs.v
theories/ConnMainProofs.v
theories/ConnStepProofs.v
theories/ConnElastProofs.v
theories/ConnExamples.v
theories/ConnProps.v
theories/SaddleSpec.v
theories/SaddleModel.v
theories/SaddleProofs.v
theories/SaddleFemProofs.v
theories/SaddleDemoProofs.v
theories/SaddleExamples.v
theories/SaddleProps.v
theories/ProjSpec.v
theories/ProjProofs.v
theories/ProjPredProofs.v
theories/ProjExamples.v
theories/ProjProps.v
theories/RobModel.v
theories/RobSpec.v
theories/RobWellProofs.v
theories/RobProofs.v
theories/RobDemoProofs.v
theories/RobExamples.v
theories/RobProps.v
theories/CylModel.v
theories/CylSpec.v
theories/CylProofs.v
theories/CylSymProofs.v
theories/CylExamples.v
theories/CylProps.v
theories/NumModel.v
theories/NumSpec.v
theories/NumProofs.v
theories/NumExamples.v
theories/NumProps.v
theories/MarSpec.v
theories/MarProofs.v
theories/MarExamples.v
theories/MarProps.v
theories/CurModel.v
theories/CurSpec.v
theories/CurProofs.v
theories/CurExamples.v
theories/CurProps.v
theories/StyModel.v
theories/StySpec.v
theories/StyProofs.v
theories/StyExamples.v
theories/StyProps.v
