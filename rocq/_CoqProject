-Q theories Verif
theories/Scalar.v
theories/Vec.v
theories/Loop.v
theories/LopSpec.v
theories/LopModel.v
theories/LopModel2D.v
theories/LopModel3.v
theories/LopOpSpec.v
theories/LopLemmas.v
theories/LopProofs.v
theories/LopProofs2.v
theories/LopProofs3.v
theories/LopProofs4.v
theories/LopProofs5.v
theories/LopProps.v
theories/RVec.v
theories/FourierModel.v
theories/FourierProofs.v
theories/FourierProofs2.v
theories/BasisSpec.v
theories/BasisModel.v
theories/BasisProofs.v
theories/FourierProps.v
theories/RMat.v
theories/XReal.v
theories/OptSpec.v
theories/OptModel.v
theories/OptProofs.v
theories/OptProofs2.v
theories/OptProofs3.v
theories/OptProofs4.v
theories/OptProofs5.v
theories/SortedL1Model.v
theories/SortedL1Proofs.v
theories/OptLemmas.v
theories/OptProps.v
theories/SolverSpec.v
theories/CGModel.v
theories/CGSpec.v
theories/LoopLemmas.v
theories/LinDep.v
theories/CGProofs.v
theories/SolverLemmas.v
theories/SolverProps.v
theories/SlsModel.v
theories/SlsSpec.v
theories/SlsProofs.v
theories/SlsLemmas.v
theories/SlsProps.v
theories/LsqrModel.v
theories/LsqrSpec.v
theories/LsqrProofs.v
theories/LsqrLemmas.v
theories/LsqrProps.v
theories/SelModel.v
theories/SelSpec.v
theories/SelProofs.v
theories/DictModel.v
theories/DictSpec.v
theories/DictProofs.v
theories/DictProofs2.v
theories/DictProofs3.v
theories/DictProps.v
theories/LsqrMinNorm.v
theories/PursuitLemmas.v
theories/PursuitLemmas2.v
theories/PursuitLemmas3.v
theories/PursuitModel.v
theories/PursuitProofs.v
theories/PursuitProofs2.v
theories/PursuitProofs3.v
theories/PursuitProofs4.v
theories/PursuitProofs5.v
theories/PursuitProps.v
theories/PursuitRefute.v
theories/PursuitSpec.v
theories/ClusterModel.v
theories/ClusterProofs.v
theories/ClusterProps.v
theories/ClusterProps2.v
theories/ClusterSpec.v
theories/KMeansModel.v
theories/KMeansProofs.v
theories/KMeansSpec.v
theories/LaplacianProofs.v
theories/SscModel.v
theories/SscProofs.v
theories/SscProofs2.v
theories/SscSpec.v
theories/SpgModel.v
theories/SpgProofs.v
theories/SpgProofs2.v
theories/SpgProps.v
theories/SpgSpec.v
theories/FomModel.v
theories/FomProofs.v
theories/FomProofs2.v
theories/FomProps.v
theories/FomSpec.v
theories/SpglModel.v
theories/SpglProofs.v
theories/SpglProofs2.v
theories/SpglProofs3.v
theories/SpglProofs4.v
theories/SpglProps.v
theories/SpglSpec.v
theories/L1lsModel.v
theories/L1lsProofs.v
theories/L1lsProofs2.v
theories/L1lsProofs3.v
theories/L1lsProofs4.v
theories/L1lsProps.v
theories/L1lsSpec.v
theories/YallModel.v
theories/YallProofs.v
theories/YallProofs2.v
theories/YallProofs3.v
theories/YallProofs4.v
theories/YallProofs5.v
theories/YallProps.v
theories/YallSpec.v
theories/OneBitModel.v
theories/OneBitProofs.v
theories/OneBitProps.v
theories/OneBitSpec.v
theories/PhaseModel.v
theories/PhaseProofs.v
theories/PhaseProps.v
theories/PhaseSpec.v
theories/SynthModel.v
theories/SynthProofs.v
theories/SynthProps.v
theories/SynthSpec.v
theories/BsblModel.v
theories/BsblProofs.v
theories/BsblProofs2.v
theories/BsblProofs3.v
theories/BsblProofs4.v
theories/BsblProofs5.v
theories/BsblProofs6.v
theories/BsblProofs7.v
theories/BsblProps.v
theories/BsblSpec.v
theories/PursuitStep.v
theories/FocussModel.v
theories/FocussProofs.v
theories/FocussProofs2.v
theories/FocussProofs3.v
theories/FocussProps.v
theories/FocussSpec.v
theories/LinAlg.v
theories/SubspModel.v
theories/SubspProofs.v
theories/SubspProps.v
theories/SubspSpec.v
theories/LanModel.v
theories/LanProofs.v
theories/LanProofs2.v
theories/LanProps.v
theories/LanSpec.v
theories/PerfModel.v
theories/PerfProofs.v
theories/PerfProps.v
theories/TightProofs.v
theories/TightProps.v
theories/SpectralModel.v
theories/SpectralProofs.v
theories/SpectralProofs2.v
theories/SpectralProofs3.v
theories/SpectralProps.v
theories/SpectralSpec.v
theories/LogdetModel.v
theories/LogdetProofs.v
theories/LogdetProps.v
theories/LogdetSpec.v
theories/ProblemModel.v
theories/ProblemProofs.v
theories/ProblemProofs2.v
theories/ProblemProps.v
theories/ProblemSpec.v
theories/ScdModel.v
theories/ScdProofs.v
theories/TrackerModel.v
theories/TrackerProps.v
theories/VisionModel.v
theories/VisionProps.v
theories/Dwt2Model.v
theories/Dwt2Proofs.v
theories/Dwt2Props.v
theories/Dwt2Spec.v
theories/NeighbourModel.v
theories/NeighbourProofs.v
theories/NeighbourProps.v
theories/NeighbourSpec.v
theories/OwlModel.v
theories/OwlProofs.v
theories/OwlProps.v
theories/ScdProps.v
theories/SensingModel.v
theories/SensingProofs.v
theories/SensingProps.v
theories/SensingSpec.v
theories/FrameModel.v
theories/FrameProofs.v
theories/FrameProps.v
theories/FrameSpec.v
theories/NdModel.v
theories/NdProofs.v
theories/NdProofs2.v
theories/NdProofs3.v
theories/NdProps.v
theories/NdSpec.v
theories/FpLinModel.v
theories/FpModel.v
theories/FpProofs.v
theories/FpProofs2.v
theories/FpProofs3.v
theories/FpProofs4.v
theories/FpProofs5.v
theories/FpProps.v
theories/FpSpec.v
theories/BsblProofs8.v
theories/BsblProofs9.v
theories/BsblProps2.v
theories/BsblSpec2.v
theories/FrameProofs2.v
theories/PursuitProofs6.v
theories/PursuitProofs7.v
theories/PursuitProofs8.v
theories/PursuitProps2.v
theories/PursuitRefute2.v
theories/PursuitSpec2.v
theories/PowerProofs.v
theories/PowerProofs2.v
theories/PowerProofs3.v
theories/PowerProps.v
theories/PowerSpec.v
theories/L1RecProofs.v
theories/L1RecProofs2.v
theories/L1RecProps.v
theories/L1RecRefute.v
theories/L1RecSpec.v
theories/ConvProofs.v
theories/ConvProofs2.v
theories/ConvProofs3.v
theories/ConvProps.v
theories/SeqProofs.v
theories/SeqProofs2.v
theories/SeqSpec.v
theories/YallConvProofs.v
theories/YallConvProofs2.v
theories/YallConvProofs3.v
theories/ChebProofs.v
theories/CondLemmas.v
theories/CondProofs.v
theories/CondProofs2.v
theories/CondProofs3.v
theories/CondProps.v
theories/CondSpec.v
theories/EigenProofs.v
theories/EigenSpec.v
theories/LopProofs6.v
theories/LopProps2.v
theories/WalshModel.v
theories/WalshProps.v
theories/PowerProofs4.v
theories/PowerProps2.v
theories/PowerSpec2.v
theories/BasisProps2.v
theories/FourierMatModel.v
theories/OptProps2.v
theories/SpectralModel2.v
theories/PursuitConv.v
theories/PursuitNoise.v
theories/PursuitProps3.v
theories/SpgConv.v
theories/SpgProps2.v
theories/KMeansProps2.v
theories/KMeansStab.v
theories/SpglConv.v
theories/SpglProps2.v
theories/CxCgModel.v
theories/CxCgProofs.v
theories/CxCgProofs2.v
theories/CxCgProps.v
theories/CxModel.v
theories/CxProofs.v
theories/CxProofs2.v
theories/CxProps.v
theories/CxSpec.v
theories/CxSpec2.v
theories/CxSpglModel.v
theories/CxSpglProofs.v
theories/CxSpglProofs2.v
theories/CxSpglProofs3.v
theories/CxSpglProps.v
theories/CxSpglSpec.v
theories/GSpglProofs.v
theories/CxPursuitModel.v
theories/CxPursuitProofs.v
theories/CxPursuitProofs2.v
theories/CxPursuitProps.v
theories/CxPursuitSpec.v
theories/CxLsModel.v
theories/CxLsProofs.v
theories/CxLsProofs2.v
theories/CxLsProofs3.v
theories/CxLsProofs4.v
theories/CxLsProofs5.v
theories/CxLsProps.v
theories/CxLsSpec.v
theories/SpreadModel.v
theories/SpreadProofs.v
theories/SpreadProps.v
theories/SpreadSpec.v
theories/CxBpModel.v
theories/CxBpProofs.v
theories/CxBpProofs2.v
theories/CxBpProps.v
theories/CxBpSpec.v
theories/GBpProofs.v
theories/AnalyzeModel.v
theories/AnalyzeProofs.v
theories/AnalyzeProps.v
theories/AnalyzeSpec.v
theories/SmoothProps.v
theories/CxTypesModel.v
theories/CxTypesProps.v
theories/CxRealProps.v
theories/CxFomModel.v
theories/CxFomProofs.v
theories/CxFomProofs2.v
theories/CxFomProps.v
theories/CxFomProps2.v
theories/CxFomSpec.v
theories/CxProjModel.v
theories/CxProjProofs.v
theories/CxProjProofs2.v
theories/CxProjProps.v
theories/CxProjSpec.v
theories/CxMatPursuitModel.v
theories/CxMatPursuitProofs.v
theories/CxMatPursuitProofs2.v
theories/CxMatPursuitProps.v
theories/CxMatPursuitSpec.v
theories/CxMatPursuitProofs3.v
theories/CxMatPursuitProofs4.v
theories/CxPursuitProofs3.v
theories/DictProofs4.v
theories/SscProofs3.v
theories/DefaultProps.v
