-Q theories Verif
theories/Base.v
theories/ListLemmas.v
theories/Parallel.v
theories/ParallelProofs.v
theories/Machine.v
theories/MachineProofs.v
theories/PropParallel.v
theories/Index.v
theories/IndexProofs.v
theories/PropIndex.v
theories/RSum.v
theories/CSum.v
theories/Wigner.v
theories/SpecWigner.v
theories/WignerProofs.v
theories/Job.v
theories/JobProofs.v
theories/Fault.v
theories/FaultProofs.v
theories/PolarMatrix.v
theories/SpecPolar.v
theories/PolarMatrixProofs.v
theories/Integration.v
theories/ArbitraryMatrix.v
theories/ArbitraryMatrixProofs.v
theories/MatrixFaultProofs.v
theories/PropMatrix.v
theories/PyNum.v
theories/PyNumProofs.v
theories/Region.v
theories/SpecRegion.v
theories/RegionProofs.v
theories/Mask.v
theories/MaskProofs.v
theories/PropRegion.v
theories/Eigen.v
theories/SpecEigen.v
theories/EigenProofs.v
theories/PolarEigenProofs.v
theories/PropEigen.v
theories/Cache.v
theories/SpecCache.v
theories/CacheProofs.v
theories/SelectProofs.v
theories/RegionJob.v
theories/PropCache.v
theories/Numpy.v
theories/Noise.v
theories/SpecField.v
theories/NoiseProofs.v
theories/EarthProofs.v
theories/PropNoise.v
theories/Convolution.v
theories/ConvolutionProofs.v
theories/PropConvolution.v
theories/Quadrature.v
theories/QuadratureProofs.v
theories/PropSampling.v
theories/Transform.v
theories/OrthoProofs.v
theories/SpecTransform.v
theories/TransformProofs.v
theories/PropTransform.v
theories/Functions.v
theories/FunctionsProofs.v
theories/PropFunctions.v
theories/Wavelet.v
theories/WaveletProofs.v
theories/PropWavelet.v
theories/Threshold.v
theories/PropThreshold.v
theories/SigmaProofs.v
theories/PropSigma.v
theories/RealOrtho.v
theories/Mesh.v
theories/SpecMesh.v
theories/MeshProofs.v
theories/PropMesh.v
theories/PropMeshSlepian.v
theories/Plot.v
theories/PlotProofs.v
theories/PropPlot.v
theories/PropFigure.v
theories/Names.v
theories/NamesProofs.v
theories/PropNames.v
theories/Args.v
theories/PropArgs.v
theories/FnNames.v
theories/FnNamesProofs.v
theories/PropFnNames.v
theories/Cli.v
theories/PropCli.v
theories/PropPlotNames.v
theories/LatLon.v
theories/SpecLatLon.v
theories/LatLonIntegrals.v
theories/LatLonProofs.v
theories/PropLatLon.v
theories/LatLonParallel.v
theories/LatLonParallelProofs.v
theories/LatLonSolve.v
theories/SpecConcentration.v
theories/ConcentrationProofs.v
theories/PropConcentration.v
theories/SpecLegendre.v
theories/LegendreProofs.v
theories/CapProofs.v
theories/PropCap.v
theories/SpecArbitrary.v
theories/ArbitrarySolve.v
theories/ArbitrarySolveProofs.v
theories/PropArbitrary.v
theories/SpecHarmonics.v
theories/ThreeJProofs.v
theories/AssocProofs.v
theories/TextbookProofs.v
theories/ThreeJOrtho.v
theories/LegendreTriple.v
theories/PropThreeJ.v
theories/Objects.v
theories/SpecObjects.v
theories/ObjectsProofs.v
theories/PropObjects.v
theories/Demos.v
theories/DemosProofs.v
theories/PropDemos.v
theories/SpecWignerD.v
theories/WignerDProofs.v
theories/PropWignerD.v
theories/MeshObjects.v
theories/PropMeshObjects.v
theories/CompactProofs.v
theories/SpectralProofs.v
theories/WeylProofs.v
theories/MotionProofs.v
theories/PropSpectral.v
theories/Figures.v
theories/FiguresProofs.v
theories/PropFigures.v
theories/SpecRounding.v
theories/RoundingProofs.v
theories/PropRounding.v
theories/MeshSpectralProofs.v
theories/PropMeshSpectral.v
theories/Argparse.v
theories/Commands.v
theories/SpecCommands.v
theories/ArgparseProofs.v
theories/CommandsProofs.v
theories/PropCommands.v
theories/RefusedProofs.v
theories/Registry.v
theories/PropRegistry.v
theories/MeshGeometry.v
theories/SpecMeshGeometry.v
theories/MeshGeometryProofs.v
theories/PropMeshGeometry.v
theories/SpecMeshShape.v
theories/MeshShapeProofs.v
theories/PropMeshShape.v
theories/IdentityProofs.v
theories/PropStrict.v
theories/MaskedFlm.v
theories/SpecMaskedFlm.v
theories/PropMaskedFlm.v
theories/SpecConvergence.v
theories/ConvergenceProofs.v
theories/PropConvergence.v
theories/PropSigmaField.v
theories/PropShannonLimit.v
theories/SpecInt.v
theories/IntProofs.v
theories/PropWaveletFrame.v
theories/SpecTiling.v
theories/TilingProofs.v
theories/PropTiling.v
theories/PropTilingMesh.v
