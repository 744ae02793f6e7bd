-Q theories Verif

theories/Base/CRing.v
theories/Base/Index.v
theories/Base/LinAlg.v
theories/Base/ListAux.v
theories/Base/Poly.v
theories/Base/RealAux.v
theories/Model/AltMin.v
theories/Model/BSplines.v
theories/Model/BasisArray.v
theories/Model/Canonical.v
theories/Model/Conversions.v
theories/Model/DensityL2.v
theories/Model/Diagonal.v
theories/Model/DimensionTree.v
theories/Model/FullTensor.v
theories/Model/FuncGrad.v
theories/Model/FuncSobol.v
theories/Model/FuncStats.v
theories/Model/FunctionalBases.v
theories/Model/Functions.v
theories/Model/HSVD.v
theories/Model/HsvdTree.v
theories/Model/Learning.v
theories/Model/Losses.v
theories/Model/MagicIndices.v
theories/Model/Measures.v
theories/Model/ModelSelection.v
theories/Model/MultiIndices.v
theories/Model/Numpy.v
theories/Model/OrthNode.v
theories/Model/PiecewisePoly.v
theories/Model/Polynomials.v
theories/Model/RandomTree.v
theories/Model/RankAdapt.v
theories/Model/SingularValues.v
theories/Model/Sorting.v
theories/Model/Sparse.v
theories/Model/SubOrth.v
theories/Model/TensorPCA.v
theories/Model/Tensorizer.v
theories/Model/TreeBased.v
theories/Model/TreeCreate.v
theories/Model/TreeEval.v
theories/Model/TreeGrad.v
theories/Model/TreeReduce.v
theories/Model/TreeRoot.v
theories/Model/Truncator.v
theories/Model/UniformRV.v
theories/Model/UnivPoly.v
theories/Model/Utils.v
theories/Spec/AltMinSpec.v
theories/Spec/ArraySpec.v
theories/Spec/BSplineSpec.v
theories/Spec/DensitySpec.v
theories/Spec/FuncGradSpec.v
theories/Spec/FunctionSpec.v
theories/Spec/FunctionalSpec.v
theories/Spec/GradSpec.v
theories/Spec/GramSpec.v
theories/Spec/LearningSpec.v
theories/Spec/MagicSpec.v
theories/Spec/MeasureSpec.v
theories/Spec/ModelSelectionSpec.v
theories/Spec/MultiIndicesSpec.v
theories/Spec/OrthNodeSpec.v
theories/Spec/PCASpec.v
theories/Spec/PolySpec.v
theories/Spec/RankSpec.v
theories/Spec/SingularSpec.v
theories/Spec/TensorSpec.v
theories/Spec/TensorizerSpec.v
theories/Spec/TrainSpec.v
theories/Spec/TreeSpec.v
theories/Spec/TreeTensorSpec.v
theories/Spec/TruncatorSpec.v
theories/Proofs/AltMinP1.v
theories/Proofs/AltMinP2.v
theories/Proofs/AltMinP3.v
theories/Proofs/AltMinP4.v
theories/Proofs/AltMinP5.v
theories/Proofs/BSplinesP.v
theories/Proofs/BSplinesP2.v
theories/Proofs/BasisArrayP1.v
theories/Proofs/CanonicalP.v
theories/Proofs/CanonicalP2.v
theories/Proofs/ConversionsP.v
theories/Proofs/DensityP.v
theories/Proofs/DiagonalP.v
theories/Proofs/DimTreeP.v
theories/Proofs/DimTreeP2.v
theories/Proofs/DimTreeP3.v
theories/Proofs/DimTreeP4.v
theories/Proofs/DimTreeP5.v
theories/Proofs/EckartP.v
theories/Proofs/EinsumP.v
theories/Proofs/EinsumP2.v
theories/Proofs/EinsumP3.v
theories/Proofs/FullTensorP.v
theories/Proofs/FullTensorP2.v
theories/Proofs/FullTensorP3.v
theories/Proofs/FullTensorP4.v
theories/Proofs/FuncGradP0.v
theories/Proofs/FuncGradP1.v
theories/Proofs/FuncGradP2.v
theories/Proofs/FuncGradP3.v
theories/Proofs/FuncSobolP1.v
theories/Proofs/FuncStatsP1.v
theories/Proofs/FunctionalP.v
theories/Proofs/FunctionalP2.v
theories/Proofs/FunctionalP3.v
theories/Proofs/FunctionalP4.v
theories/Proofs/FunctionalP5.v
theories/Proofs/FunctionalP6.v
theories/Proofs/FunctionalP7.v
theories/Proofs/FunctionsP.v
theories/Proofs/FunctionsP2.v
theories/Proofs/FunctionsP3.v
theories/Proofs/HsvdP.v
theories/Proofs/HsvdP2.v
theories/Proofs/HsvdP3.v
theories/Proofs/HsvdP4.v
theories/Proofs/HsvdP5.v
theories/Proofs/HsvdP6.v
theories/Proofs/HsvdP7.v
theories/Proofs/HsvdP8.v
theories/Proofs/HsvdP9.v
theories/Proofs/HsvdTreeP1.v
theories/Proofs/HsvdTreeP10.v
theories/Proofs/HsvdTreeP11.v
theories/Proofs/HsvdTreeP12.v
theories/Proofs/HsvdTreeP13.v
theories/Proofs/HsvdTreeP2.v
theories/Proofs/HsvdTreeP3.v
theories/Proofs/HsvdTreeP4.v
theories/Proofs/HsvdTreeP5.v
theories/Proofs/HsvdTreeP6.v
theories/Proofs/HsvdTreeP7.v
theories/Proofs/HsvdTreeP8.v
theories/Proofs/HsvdTreeP9.v
theories/Proofs/LapackP.v
theories/Proofs/LearningP.v
theories/Proofs/LearningP2.v
theories/Proofs/LearningP3.v
theories/Proofs/LossesP.v
theories/Proofs/MIGrowP.v
theories/Proofs/MIMoreP.v
theories/Proofs/MagicP.v
theories/Proofs/MeasuresP.v
theories/Proofs/MeasuresP2.v
theories/Proofs/MeasuresP3.v
theories/Proofs/ModelSelectionP.v
theories/Proofs/MultiIndicesP.v
theories/Proofs/NumpyP.v
theories/Proofs/OrthNodeP1.v
theories/Proofs/OrthNodeP2.v
theories/Proofs/OrthNodeP3.v
theories/Proofs/OrthNodeP4.v
theories/Proofs/OrthNodeP5.v
theories/Proofs/OrthNodeP6.v
theories/Proofs/PolyP.v
theories/Proofs/PolyP2.v
theories/Proofs/PolyP3.v
theories/Proofs/PolyP4.v
theories/Proofs/PolyP5.v
theories/Proofs/PolyP6.v
theories/Proofs/ProjP.v
theories/Proofs/RandomTreeP.v
theories/Proofs/RankP1.v
theories/Proofs/RankP2.v
theories/Proofs/RankP3.v
theories/Proofs/RankP4.v
theories/Proofs/RankP5.v
theories/Proofs/RankP6.v
theories/Proofs/SingularP1.v
theories/Proofs/SingularP2.v
theories/Proofs/SingularP3.v
theories/Proofs/SingularP4.v
theories/Proofs/SortingP.v
theories/Proofs/SparseP.v
theories/Proofs/SparseP2.v
theories/Proofs/SparseP3.v
theories/Proofs/SpectralP.v
theories/Proofs/SpectralP2.v
theories/Proofs/SubOrthP1.v
theories/Proofs/TensorPCAP1.v
theories/Proofs/TensorPCAP10.v
theories/Proofs/TensorPCAP11.v
theories/Proofs/TensorPCAP12.v
theories/Proofs/TensorPCAP13.v
theories/Proofs/TensorPCAP2.v
theories/Proofs/TensorPCAP3.v
theories/Proofs/TensorPCAP4.v
theories/Proofs/TensorPCAP5.v
theories/Proofs/TensorPCAP6.v
theories/Proofs/TensorPCAP7.v
theories/Proofs/TensorPCAP8.v
theories/Proofs/TensorPCAP9.v
theories/Proofs/TensorizerP.v
theories/Proofs/TreeCreateP1.v
theories/Proofs/TreeCreateP2.v
theories/Proofs/TreeCreateP3.v
theories/Proofs/TreeCreateP4.v
theories/Proofs/TreeCreateP5.v
theories/Proofs/TreeGradP1.v
theories/Proofs/TreeGradP10.v
theories/Proofs/TreeGradP11.v
theories/Proofs/TreeGradP2.v
theories/Proofs/TreeGradP3.v
theories/Proofs/TreeGradP4.v
theories/Proofs/TreeGradP5.v
theories/Proofs/TreeGradP6.v
theories/Proofs/TreeGradP7.v
theories/Proofs/TreeGradP8.v
theories/Proofs/TreeGradP9.v
theories/Proofs/TreeRootP1.v
theories/Proofs/TreeRootP2.v
theories/Proofs/TreeRootP3.v
theories/Proofs/TreeRootP4.v
theories/Proofs/TreeRootP5.v
theories/Proofs/TreeTensorP.v
theories/Proofs/TreeTensorP10.v
theories/Proofs/TreeTensorP11.v
theories/Proofs/TreeTensorP12.v
theories/Proofs/TreeTensorP13.v
theories/Proofs/TreeTensorP14.v
theories/Proofs/TreeTensorP15.v
theories/Proofs/TreeTensorP16.v
theories/Proofs/TreeTensorP17.v
theories/Proofs/TreeTensorP18.v
theories/Proofs/TreeTensorP19.v
theories/Proofs/TreeTensorP2.v
theories/Proofs/TreeTensorP20.v
theories/Proofs/TreeTensorP21.v
theories/Proofs/TreeTensorP22.v
theories/Proofs/TreeTensorP23.v
theories/Proofs/TreeTensorP24.v
theories/Proofs/TreeTensorP25.v
theories/Proofs/TreeTensorP26.v
theories/Proofs/TreeTensorP27.v
theories/Proofs/TreeTensorP28.v
theories/Proofs/TreeTensorP29.v
theories/Proofs/TreeTensorP3.v
theories/Proofs/TreeTensorP4.v
theories/Proofs/TreeTensorP5.v
theories/Proofs/TreeTensorP6.v
theories/Proofs/TreeTensorP7.v
theories/Proofs/TreeTensorP8.v
theories/Proofs/TreeTensorP9.v
theories/Proofs/TruncatorP.v
theories/Proofs/TruncatorP2.v
theories/Proofs/TruncatorP3.v
theories/Proofs/TruncatorP4.v
theories/Proofs/TruncatorP5.v
theories/Proofs/TruncatorP6.v
theories/Proofs/UnivPolyP.v
theories/Props/P01_MultiIndices.v
theories/Props/P02_Utils.v
theories/Props/P03_FullTensor.v
theories/Props/P04_Formats.v
theories/Props/P05_Trees.v
theories/Props/P06_TreeBased.v
theories/Props/P07_Truncator.v
theories/Props/P08_Tensorizer.v
theories/Props/P09_Polynomials.v
theories/Props/P10_Measures.v
theories/Props/P11_Functions.v
theories/Props/P12_Learning.v
theories/Props/P13_ModelSelection.v
theories/Props/P14_MagicIndices.v
theories/Props/P15_Losses.v
theories/Props/P16_Conversions.v
theories/Props/P17_BSplines.v
theories/Props/P18_FunctionalBases.v
theories/Props/P19_Hsvd.v
theories/Props/P20_TreeReduce.v
theories/Props/P21_HsvdTree.v
theories/Props/P22_OrthNode.v
theories/Props/P23_TreeGrad.v
theories/Props/P24_FuncGrad.v
theories/Props/P25_AltMin.v
theories/Props/P26_Ranks.v
theories/Props/P27_TreeCreate.v
theories/Props/P28_TreeRoot.v
theories/Props/P29_TensorPCA.v
theories/Props/P30_SingularValues.v
theories/Props/P31_BasisArray.v
theories/Props/P32_FuncStats.v
theories/Props/P33_FuncSobol.v
theories/Props/P34_SubOrth.v
theories/Props/P35_UniformRV.v
theories/Props/P36_PiecewisePoly.v
