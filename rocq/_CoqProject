-Q theories Verif
theories/ListAux.v
theories/Lattice.v
theories/LatticeFacts.v
theories/Base.v
theories/Tensor.v
theories/P01_Lattice.v
theories/Evolve.v
theories/P02_Evolve.v
theories/Gate.v
theories/P03_Gate.v
theories/GateSum.v
theories/P04_GateSum.v
theories/Mover.v
theories/P05_Mover.v
theories/Dist.v
theories/P06_Dist.v
theories/Process.v
theories/P07_Process.v
theories/AlsLoop.v
theories/Strides.v
theories/Lambda.v
theories/Runtime.v
theories/Config.v
theories/Neel.v
theories/P08_Control.v
theories/TN.v
theories/Rdm.v
theories/RdmFacts.v
theories/Fits.v
theories/P09_Rdm.v
theories/FullUpdate.v
theories/NormFacts.v
theories/P10_Norm.v
theories/Measure.v
theories/MeasureFacts.v
theories/EinsumLin.v
theories/P11_Measure.v
theories/Pauli.v
theories/P12_Pauli.v
theories/Linalg.v
theories/Rsvd.v
theories/RsvdFacts.v
theories/Renorm.v
theories/RenormFacts.v
theories/MoveShape.v
theories/Mat.v
theories/ProjFacts.v
theories/Spectral.v
theories/InitFacts.v
theories/ProductState.v
theories/P13_Renorm.v
theories/P14_Projector.v
theories/P15_Rsvd.v
theories/Als.v
theories/Psd.v
theories/AlsFacts.v
theories/EighChol.v
theories/P16_Als.v
theories/UpdFacts.v
theories/P17_Reduced.v
theories/P18_Positive.v
theories/P19_Gauge.v
theories/Eckart.v
theories/P20_Simple.v
theories/P21_Absorb.v
theories/P22_SimpleUpdate.v
theories/P23_Solver.v
theories/P24_FullUpdate.v
theories/P25_DistRun.v
theories/P26_SiteUpdate.v
theories/Cutensor.v
theories/CutensorFacts.v
theories/P27_Cutensor.v
theories/Group.v
theories/P28_Group.v
theories/Session.v
theories/P29_Session.v
theories/Ring.v
theories/ProductFacts.v
theories/P30_Product.v
theories/P31_Calls.v
theories/Layer.v
theories/Basis.v
theories/P32_Basis.v
theories/P33_Optimal.v
theories/CoverFacts.v
theories/Torus.v
theories/P34_State.v
theories/P35_Norm.v
theories/FreeCount.v
theories/P36_Free.v
theories/P37_FreeState.v
theories/P38_Cutoff.v
theories/P39_Classical.v
theories/Samples.v
theories/P40_Samples.v
theories/RealNet.v
theories/RealUpd.v
theories/P41_FullState.v
theories/P42_ClassicalFull.v
theories/P43_FreeFull.v
theories/P44_Symmetry.v
theories/Front.v
theories/P45_Front.v
theories/P46_Cooling.v
theories/Observables.v
theories/P47_Range.v
theories/P48_Steady.v
theories/P49_Mean.v
theories/Startup.v
theories/P50_Startup.v
theories/P51_FreeCooling.v
theories/P52_FreeStrict.v
