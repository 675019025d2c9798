-Q theories Verif
theories/Base.v
theories/BaseFacts.v
theories/Simplex.v
theories/SimplexFacts.v
theories/PropertiesSimplex.v
theories/Matrix.v
theories/SpecMatrix.v
theories/ReductionFacts.v
theories/AlgorithmFacts.v
theories/PairingFacts.v
theories/DualFacts.v
theories/RepFacts.v
theories/PropertiesMatrix.v
theories/SpecComplex.v
theories/Complex.v
theories/ComplexFacts.v
theories/ClosureFacts.v
theories/WeightFacts.v
theories/FiltrationFacts.v
theories/History.v
theories/Subcomplex.v
theories/SubcomplexFacts.v
theories/PropertiesComplex.v
theories/SpecHomology.v
theories/HomologyFacts.v
theories/PropertiesHomology.v
theories/UnionFind.v
theories/SpecUnionFind.v
theories/UnionFindFacts.v
theories/PropertiesUnionFind.v
theories/SpecDiagram.v
theories/Diagram.v
theories/DiagramFacts.v
theories/PropertiesDiagram.v
theories/SpecComponents.v
theories/Components.v
theories/ComponentFacts.v
theories/PropertiesComponents.v
theories/Function.v
theories/FunctionFacts.v
theories/PropertiesFunction.v
theories/SpecText.v
theories/LoadMatrix.v
theories/LoadFacts.v
theories/PropertiesLoad.v
theories/Rips.v
theories/SpecRips.v
theories/RipsFacts.v
theories/PropertiesRips.v
theories/SymmetricMatrix.v
theories/Quantiles.v
theories/Euler.v
theories/Perversity.v
theories/Envelope.v
theories/PropertiesSmall.v
theories/FloydWarshall.v
theories/SpecGraph.v
theories/FloydFacts.v
theories/PropertiesGraph.v
theories/Quotient.v
theories/PropertiesQuotient.v
theories/CliqueGraph.v
theories/PropertiesCliqueGraph.v
theories/MaximalCliques.v
theories/SpecCliques.v
theories/CliqueFacts.v
theories/PropertiesCliques.v
theories/TopDown.v
theories/CombinationFacts.v
theories/PropertiesTopDown.v
theories/Spine.v
theories/SpecCollapse.v
theories/SpineFacts.v
theories/PropertiesSpine.v
theories/Hausdorff.v
theories/PropertiesHausdorff.v
theories/StepFunction.v
theories/StepFacts.v
theories/PropertiesStep.v
theories/PiecewiseLinear.v
theories/LinearFacts.v
theories/PropertiesLinear.v
theories/Munkres.v
theories/MunkresFacts.v
theories/PropertiesMunkres.v
theories/Wasserstein.v
theories/PropertiesWasserstein.v
theories/PropertiesWassersteinMetric.v
theories/Bottleneck.v
theories/BottleneckFacts.v
theories/PropertiesBottleneck.v
theories/SpecCombine.v
theories/Combine.v
theories/CombineFacts.v
theories/PropertiesCombine.v
theories/Intersections.v
theories/PropertiesIntersections.v
theories/SpecDowker.v
theories/Dowker.v
theories/DowkerFacts.v
theories/PropertiesDowker.v
theories/VietorisRips.v
theories/PropertiesVietorisRips.v
theories/SpecBarycentric.v
theories/Barycentric.v
theories/BarycentricFacts.v
theories/PropertiesBarycentric.v
theories/SpecVector.v
theories/VectorDistances.v
theories/PropertiesVector.v
theories/SpecNorms.v
theories/Norms.v
theories/PropertiesNorms.v
theories/SpecStatistics.v
theories/Statistics.v
theories/PropertiesStatistics.v
theories/Mean.v
theories/PropertiesMean.v
theories/SpecCurvature.v
theories/Curvature.v
theories/PropertiesCurvature.v
theories/TwistFacts.v
theories/AllowableFacts.v
theories/SpecAllowable.v
theories/IntersectionHomology.v
theories/PropertiesIntersectionHomology.v
theories/GraphComplexFacts.v
theories/Witness.v
theories/PropertiesWitness.v
theories/PointSet.v
theories/PropertiesPointSet.v
theories/Entropy.v
theories/PropertiesEntropy.v
theories/StringUtilities.v
theories/PropertiesString.v
theories/PointCloud.v
theories/PropertiesPointCloud.v
theories/ReadMatrices.v
theories/ReadFacts.v
theories/WeightedGraphFacts.v
theories/PropertiesReadMatrix.v
theories/PropertiesReadAdjacency.v
theories/ReadEdges.v
theories/PropertiesReadEdges.v
theories/Triangulations.v
theories/PropertiesTriangulations.v
theories/ExtendedHierarchy.v
theories/SearchFacts.v
theories/ExtendedFacts.v
theories/InterlevelFacts.v
theories/PathFacts.v
theories/HierarchyFacts.v
theories/PropertiesExtendedHierarchy.v
theories/CoverTree.v
theories/CoverTreeFacts.v
theories/PropertiesCoverTree.v
theories/Mesh.v
theories/MeshFacts.v
theories/PolygonFacts.v
theories/PropertiesMesh.v
theories/Permute.v
theories/SpecPermute.v
theories/PermuteFacts.v
theories/EnumerateFacts.v
theories/Combine3Facts.v
theories/ReversibleFacts.v
theories/NaturalFacts.v
theories/TemplateFacts.v
theories/PropertiesPermute.v
theories/PropertiesPermuteCount.v
theories/BetaSkeleton.v
theories/SpecBeta.v
theories/PropertiesBeta.v
theories/Bootstrap.v
theories/PropertiesBootstrap.v
theories/Laplacian.v
theories/SpecLaplacian.v
theories/PropertiesLaplacian.v
theories/PropertiesBisect.v
theories/HeatKernel.v
theories/PropertiesHeat.v
theories/Descriptors.v
theories/PropertiesDescriptors.v
theories/PropertiesMeanShift.v
theories/PropertiesDimensionality.v
theories/RealDescriptors.v
theories/PropertiesRealDescriptors.v
theories/PropertiesMLE.v
theories/Kernels.v
theories/SemidefiniteFacts.v
theories/PropertiesKernels.v
theories/MathReal.v
theories/PropertiesMathReal.v
theories/RandomGraph.v
theories/PropertiesRandomGraph.v
theories/MorseSmale.v
theories/PropertiesMorseSmale.v
theories/DiagramIO.v
theories/PropertiesRaw.v
theories/PropertiesJSON.v
theories/Sampling.v
theories/PropertiesSampling.v
theories/PropertiesStar.v
theories/Filesystem.v
theories/PropertiesFilesystem.v
theories/LinesAndPoints.v
theories/PropertiesLinesAndPoints.v
theories/FlexSpectrum.v
theories/PropertiesFlexSpectrum.v
theories/Pajek.v
theories/PropertiesPajek.v
theories/SparseAdjacency.v
theories/PropertiesSparseAdjacency.v
theories/Gml.v
theories/PropertiesGml.v
theories/Vtk.v
theories/PropertiesVtk.v
theories/Ply.v
theories/PropertiesPly.v
theories/Hdf5.v
theories/PropertiesHdf5.v
theories/ComplexReader.v
theories/PropertiesComplexReader.v
theories/GraphMl.v
theories/PropertiesGraphMl.v
theories/PointUtilities.v
theories/PropertiesPointUtilities.v
theories/Tikz.v
theories/PropertiesTikz.v
theories/PrincipalComponents.v
theories/SpecSvd.v
theories/PropertiesPca.v
theories/TangentSpace.v
theories/PropertiesTangent.v
theories/StepNorm.v
theories/PropertiesStepNorm.v
theories/StepText.v
theories/PropertiesStepText.v
theories/Signatures.v
theories/PropertiesSignatures.v
theories/StratifiedGraph.v
theories/PropertiesStratified.v
theories/PropertiesStratifiedWeights.v
theories/StratifiedNormalization.v
theories/PropertiesStratifiedNormalization.v
theories/DistanceMatrix.v
theories/PropertiesDistanceMatrix.v
theories/DataSets.v
theories/PropertiesDataSets.v
theories/DiagramDistances.v
theories/PropertiesDiagramDistances.v
theories/Postprocess.v
theories/PropertiesPostprocess.v
theories/Functors.v
theories/SpecFunctors.v
theories/FunctorFacts.v
theories/PropertiesFunctors.v
theories/CliqueCommunities.v
theories/PropertiesCliqueCommunities.v
theories/StratifiedDiagrams.v
theories/PropertiesStratifiedDiagrams.v
theories/Glyph.v
theories/PropertiesGlyph.v
theories/MakeSignature.v
theories/PropertiesMakeSignature.v
theories/PropertiesLevels.v
theories/FunctionAnalysis.v
theories/PropertiesFunctionAnalysis.v
theories/SparseTool.v
theories/PropertiesSparseTool.v
theories/PropertiesDiagramDims.v
theories/ImagePatches.v
theories/PropertiesImagePatches.v
theories/BettiNumbers.v
theories/PropertiesBettiNumbers.v
theories/ConnectivityTools.v
theories/PropertiesConnectivity.v
theories/GraphTool.v
theories/PropertiesGraphTool.v
theories/PointCloudTools.v
theories/PropertiesPointCloudTools.v
theories/InterlevelTool.v
theories/PropertiesInterlevelTool.v
theories/CommunitiesJSON.v
theories/PropertiesCommunitiesJSON.v
theories/IntersectionTool.v
theories/PropertiesIntersectionTool.v
theories/NetworkExample.v
theories/PropertiesNetworkExample.v
theories/SpectralTool.v
theories/PropertiesSpectralTool.v
theories/MultiScale.v
theories/PropertiesMultiScale.v
theories/IndicatorTool.v
theories/PropertiesIndicatorTool.v
theories/SpecSimplicial.v
theories/SimplicialFacts.v
theories/PropertiesSpineHomology.v
theories/SpineTool.v
theories/PropertiesSpineTool.v
theories/JoinFacts.v
theories/PropertiesJoinHomology.v
theories/WickedTool.v
theories/PropertiesWickedTool.v
theories/SublevelFacts.v
theories/PropertiesSublevel.v
theories/ImageTool.v
theories/PropertiesImage.v
theories/PlyTool.v
theories/PropertiesPlyTool.v
theories/VtkTool.v
theories/PropertiesVtkTool.v
theories/RipsTool.v
theories/PropertiesRipsTool.v
theories/WitnessTool.v
theories/PropertiesWitnessTool.v
theories/EccentricityTool.v
theories/PropertiesEccentricityTool.v
theories/ConfidenceBand.v
theories/PropertiesConfidenceBand.v
