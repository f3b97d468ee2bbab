-Q theories Verif
theories/Base.v
theories/BaseLemmas.v
theories/GridModel.v
theories/Poly.v
theories/GridSpec.v
theories/GridProofs.v
theories/NCProofs.v
theories/FDProofs.v
theories/OpProofs.v
theories/LapCont.v
theories/GridWitness.v
theories/GridMore.v
theories/AxisProofs.v
theories/Properties_Grid.v
theories/HartreeModel.v
theories/HartreeSpec.v
theories/HartreeProofs.v
theories/LinAlg.v
theories/MaxPrinciple.v
theories/HartreeThms.v
theories/Properties_Hartree.v
theories/SolverModel.v
theories/SolverSpec.v
theories/SolverProofs.v
theories/SolverThms.v
theories/SolverResp.v
theories/SolverWitness.v
theories/SolverCases.v
theories/SolverMoreCases.v
theories/Properties_Solver.v
theories/Green.v
theories/LibxcModel.v
theories/LibxcSpec.v
theories/LibxcProofs.v
theories/LibxcThms.v
theories/Properties_Libxc.v
theories/OptionsModel.v
theories/OptionsProofs.v
theories/OptionsMore.v
theories/KSModel.v
theories/KSSpec.v
theories/KSProofs.v
theories/KSThms.v
theories/KSLoop.v
theories/KSEnergy.v
theories/KSTotal.v
theories/KSWit.v
theories/Properties_KS.v
theories/InverterModel.v
theories/InverterSpec.v
theories/InverterOrb.v
theories/InverterLoop.v
theories/InverterRun.v
theories/InverterThms.v
theories/InverterMore.v
theories/InverterWit.v
theories/InverterTotal.v
theories/InverterStep.v
theories/Properties_Inverter.v
theories/PartitionModel.v
theories/PartitionSpec.v
theories/PartitionBase.v
theories/PartitionConstr.v
theories/PartitionDens.v
theories/PartitionFrame.v
theories/PartitionEnergy.v
theories/PartitionEp.v
theories/PartitionTotal.v
theories/PartitionKin.v
theories/PartitionPot.v
theories/PartitionChem.v
theories/PartitionLoop.v
theories/PartitionStep.v
theories/PartitionKeep.v
theories/PartitionPass.v
theories/PartitionScf.v
theories/PartitionRun.v
theories/Gauss.v
theories/PartitionFinal.v
theories/PartitionOverlap.v
theories/PartitionModes.v
theories/PartitionNew.v
theories/PartitionGood.v
theories/PartitionWit.v
theories/PartitionWit2.v
theories/PartitionRefute.v
theories/PartitionMain.v
theories/Properties_Partition.v
theories/ExtraModel.v
theories/ExtraProofs.v
theories/PartitionTwo.v
theories/PartitionTwoPot.v
theories/PartitionTwoWit.v
theories/PartitionTwoDer.v
theories/Properties_Extra.v
theories/PartitionGuess.v
theories/PartitionGuessWit.v
theories/PartitionInvKin.v
theories/PartitionInvKinWit.v
theories/Properties_Guess.v
theories/PartitionCount.v
theories/OptionsSettings.v
theories/SelfConsistent.v
theories/NonInteracting.v
theories/Isolated.v
theories/IsolatedWit.v
theories/Properties_Runs.v
theories/Transport.v
theories/MirrorRun.v
theories/MirrorPart.v
theories/MirrorWit.v
theories/ClosedShell.v
theories/ClosedRun.v
theories/EmbedPot.v
theories/EmbedEnergy.v
theories/MirrorEmbed.v
theories/MirrorEnergy.v
theories/EmbedWit.v
theories/Properties_Symmetry.v
theories/Accuracy.v
theories/AccuracyOp.v
theories/AccuracyWit.v
theories/AccuracyInt.v
theories/AccuracyIntWit.v
theories/Properties_Accuracy.v
theories/PartitionCorr.v
theories/PartitionCorrWit.v
theories/PartitionCorrCase.v
theories/PartitionTarget.v
theories/Properties_Corr.v
theories/Convergence.v
theories/ConvergenceWit.v
theories/Properties_Convergence.v
theories/KSMemory.v
theories/KSMemoryWit.v
theories/Properties_Memory.v
theories/Scaling.v
theories/ScalingThms.v
theories/ScalingRun.v
theories/ScalingWit.v
theories/Properties_Scaling.v
theories/AccuracyGrad.v
theories/AccuracyDiv.v
theories/Properties_Gradient.v
theories/Legendre.v
theories/Multipole.v
theories/MultipoleThms.v
theories/Properties_Multipole.v
theories/NCSigns.v
theories/NCSignsThms.v
theories/Properties_Signs.v
theories/ZMatrix.v
theories/Ground.v
theories/GroundThms.v
theories/GroundSolve.v
theories/ZSym.v
theories/GroundSym.v
theories/Properties_Ground.v
theories/GroundErr.v
theories/Properties_Levels.v
theories/Contraction.v
theories/ContractionWit.v
theories/Properties_Contraction.v
theories/BalanceErr.v
theories/Properties_Levels2.v
theories/EmptyFrag.v
theories/EmptyWit.v
theories/Properties_Empty.v
theories/PartitionMemory.v
theories/PartitionResume.v
theories/PartitionMemoryWit.v
theories/Properties_PartMemory.v
theories/Gauge.v
theories/GaugeWit.v
theories/Properties_Gauge.v
theories/LevelBounds.v
theories/LevelWit.v
theories/Properties_LevelBounds.v
theories/PingPong.v
theories/Properties_Oscillation.v
theories/Binding.v
theories/BindingWit.v
theories/Properties_Binding.v
theories/EnergySigns.v
theories/Properties_EnergySigns.v
theories/BindingMany.v
theories/Properties_BindingMany.v
theories/DensityMap.v
theories/Properties_DensityMap.v
theories/PotentialShift.v
theories/Properties_PotentialShift.v
theories/ElectronNumber.v
theories/Properties_ElectronNumber.v
theories/LastElectron.v
theories/Properties_LastElectron.v
