-Q theories Verif
theories/M_Base.v
theories/L_Base.v
theories/M_DenseLA.v
theories/S_DenseLA.v
theories/L_DenseLA.v
theories/P_DenseLA.v
theories/M_Lapack.v
theories/S_Lapack.v
theories/L_Lapack.v
theories/P_Lapack.v
theories/M_Index.v
theories/S_Index.v
theories/L_Index.v
theories/P_Index.v
theories/M_SparseLA.v
theories/S_SparseLA.v
theories/L_SparseLA.v
theories/P_SparseLA.v
theories/M_Global.v
theories/S_Global.v
theories/L_Global.v
theories/L_Global2.v
theories/L_Global3.v
theories/P_Global.v
theories/M_Topology.v
theories/S_Topology.v
theories/L_Topology.v
theories/L_Topology2.v
theories/P_Topology.v
theories/M_Geometry.v
theories/S_Geometry.v
theories/L_Geometry.v
theories/L_Geometry2.v
theories/L_Geometry3.v
theories/L_Geometry4.v
theories/L_Geometry5.v
theories/L_Geometry6.v
theories/L_Geometry7.v
theories/L_Geometry8.v
theories/L_Geometry9.v
theories/L_Geometry10.v
theories/L_Geometry11.v
theories/L_Geometry12.v
theories/L_Geometry13.v
theories/L_Geometry14.v
theories/P_Geometry.v
theories/S_Tpp.v
theories/L_Poly.v
theories/S_Hdg.v
theories/L_Hdg.v
theories/M_DiffusionUniform.v
theories/M_Diffusion.v
theories/S_LocalSolver.v
theories/S_Diffusion.v
theories/S_TppGeo.v
theories/L_Tens.v
theories/L_LocalBase.v
theories/L_LocalBlock.v
theories/L_LocalLink.v
theories/L_HdgSrc.v
theories/L_DiffusionUniform.v
theories/L_DiffusionUniform2.v
theories/L_Diffusion.v
theories/L_TppGeo.v
theories/L_Diffusion2.v
theories/L_Diffusion3.v
theories/L_Global4.v
theories/L_GlobalUniform.v
theories/L_GlobalDiffusion.v
theories/L_GeoOk.v
theories/L_DiffusionEx.v
theories/P_LocalSolver.v
theories/P_Diffusion.v
theories/M_Text.v
theories/M_ReadDomain.v
theories/S_ReadDomain.v
theories/L_Text.v
theories/L_ReadDomain.v
theories/M_EpsGraph.v
theories/M_Plot.v
theories/S_Plot.v
theories/L_PlotText.v
theories/L_PlotGrid.v
theories/L_PlotFile.v
theories/L_PlotTags.v
theories/L_PlotArrays.v
theories/L_PlotMain.v
theories/L_PlotValues.v
theories/L_PlotTop.v
theories/L_PlotProps.v
theories/L_PlotProps2.v
theories/P_Plot.v
theories/L_PlotOptions.v
theories/S_PlotOptions.v
theories/S_EpsGraph.v
theories/L_EpsGraph.v
theories/L_GeoText.v
theories/L_EpsFile.v
theories/L_EpsEx.v
theories/P_ReadDomain.v
theories/S_GeoFile.v
theories/L_GeoFile.v
theories/P_GeoFile.v
theories/M_Import.v
theories/S_Import.v
theories/L_Import.v
theories/L_ImportEx.v
theories/L_ImportClass.v
theories/P_Import.v
theories/M_DiffusionParab.v
theories/S_DiffusionParab.v
theories/L_Theta.v
theories/L_BlockLink.v
theories/L_DiffusionParab.v
theories/L_DiffusionParab2.v
theories/L_DiffusionParab3.v
theories/L_DiffusionParab4.v
theories/L_DiffusionParab5.v
theories/L_GlobalMasked.v
theories/S_GlobalParab.v
theories/L_GlobalParab.v
theories/L_ParabEx.v
theories/M_DiffusionEigs.v
theories/L_FluxChecks.v
theories/P_DiffusionParab.v
theories/S_DiffusionEigs.v
theories/L_EigHdg.v
theories/L_DiffusionEigs.v
theories/L_DiffusionEigs2.v
theories/L_DiffusionEigs3.v
theories/S_GlobalEigs.v
theories/L_EigsEx.v
theories/L_GlobalEigs.v
theories/L_GlobalEigs2.v
theories/P_DiffusionEigs.v
theories/M_Bilaplacian.v
theories/M_BilaplacianUniform.v
theories/M_AdvectionParab.v
theories/S_AdvectionParab.v
theories/L_AdvectionParab.v
theories/L_AdvectionParab2.v
theories/L_AdvectionParab3.v
theories/S_GlobalAdvection.v
theories/L_GlobalAdvection.v
theories/L_AdvectionEx.v
theories/P_AdvectionParab.v
theories/S_Bilaplacian.v
theories/L_BiLink.v
theories/L_Bilaplacian.v
theories/L_Bilaplacian2.v
theories/L_Bilaplacian3.v
theories/L_Bilaplacian4.v
theories/L_Bilaplacian5.v
theories/L_Bilaplacian6.v
theories/L_Bilaplacian7.v
theories/L_GlobalBilaplacian.v
theories/L_BilaplacianUniform.v
theories/S_BilaplacianUniform.v
theories/L_BilaplacianUniform2.v
theories/P_Bilaplacian.v
theories/P_BilaplacianUniform.v
theories/M_Timoshenko.v
theories/S_Beam.v
theories/S_Timoshenko.v
theories/S_GlobalBeam.v
theories/L_Beam.v
theories/L_Segment.v
theories/L_Timoshenko.v
theories/L_TimoshenkoFlux.v
theories/L_Cross.v
theories/L_TimoshenkoMech.v
theories/L_TimoshenkoMech2.v
theories/L_TimoshenkoFrame.v
theories/L_TimoshenkoEx.v
theories/L_GlobalBeam.v
theories/P_Timoshenko.v
theories/M_AdvReact.v
theories/S_AdvReact.v
theories/L_ArHdg.v
theories/L_AdvReact.v
theories/L_AdvReact2.v
theories/L_AdvReact3.v
theories/L_AdvReact4.v
theories/L_AdvReact5.v
theories/L_GlobalShift.v
theories/L_GlobalAdvReact.v
theories/L_AdvReactEx.v
theories/P_AdvReact.v
theories/S_Gradient.v
theories/L_Gradient.v
theories/M_DiffusionPp.v
theories/S_DiffusionPp.v
theories/L_DiffusionPp.v
theories/L_DiffusionPp2.v
theories/L_PpEx.v
theories/P_DiffusionPp.v
theories/M_DiffusionIP.v
theories/S_DiffusionIP.v
theories/L_DiffusionIP.v
theories/L_DiffusionIP2.v
theories/L_IpGeo.v
theories/L_IpEnergy.v
theories/L_IpConsist.v
theories/L_IpWeak.v
theories/L_DiffusionIP3.v
theories/L_DiffusionIP4.v
theories/L_IpEx.v
theories/L_GlobalIP.v
theories/P_DiffusionIP.v
theories/M_BilapParab.v
theories/S_BiReact.v
theories/L_BiReact.v
theories/L_BilapReact.v
theories/S_BilapParab.v
theories/L_BilapParab.v
theories/L_BiReg.v
theories/L_BiFlux.v
theories/L_BilapParab2.v
theories/L_BilapParab3.v
theories/L_BilapParabEx.v
theories/L_GlobalBiReact.v
theories/L_GlobalBilapParab.v
theories/P_BilapParab.v
theories/M_BilapEigs.v
theories/S_BilapEigs.v
theories/L_BilapEigs.v
theories/L_BiNear.v
theories/L_BilapEigs2.v
theories/S_GlobalBilapEigs.v
theories/L_GlobalBilapEigs.v
theories/L_BilapSquare.v
theories/L_BilapEigsEx.v
theories/P_BilapEigs.v
theories/L_BilapClamped.v
theories/L_GlobalClamped.v
theories/L_Fredholm.v
theories/L_GlobalClamped3.v
theories/L_GlobalClamped2.v
theories/L_BilapUnsolvable.v
theories/P_BilapClamped.v
theories/M_Drivers.v
theories/S_Drivers.v
theories/L_Drivers.v
theories/L_Drivers2.v
theories/L_Drivers3.v
theories/L_Drivers4.v
theories/L_Newton.v
theories/L_DriversNewt.v
theories/L_DriversNewt2.v
theories/L_Drivers5.v
theories/L_DriversNorm.v
theories/P_Drivers.v
theories/M_Params.v
theories/S_Params.v
theories/L_Params.v
theories/L_Params2.v
theories/P_Params.v
theories/M_TimeDrivers.v
theories/S_TimeDrivers.v
theories/L_TimeDrivers.v
theories/L_TimeDrivers2.v
theories/L_TimeDrivers3.v
theories/L_TimeDrivers4.v
theories/P_TimeDrivers.v
