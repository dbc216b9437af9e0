-Q theories Verif
theories/Prelude.v
theories/Vec.v
theories/ModelBase.v
theories/ModelController.v
theories/ModelSimplex.v
theories/SpecCore.v
theories/ProofsBase.v
theories/SpecHistory.v
theories/SpecSimplex.v
theories/ProofsHistory.v
theories/ProofsSimplex.v
theories/ProofsSimplex2.v
theories/ProofsSimplex3.v
theories/ModelAsif.v
theories/SpecAsif.v
theories/ProofsVec.v
theories/ProofsAsif.v
theories/ProofsAsif2.v
theories/ProofsAsif3.v
theories/ProofsAsif4.v
theories/ProofsAsif5.v
theories/ExampleTools.v
theories/ExampleQP.v
theories/PropertiesBase.v
theories/PropertiesSimplex.v
theories/PropertiesAsif.v
theories/SpecImplicit.v
theories/ProofsImplicit.v
theories/ProofsImplicit2.v
theories/ProofsImplicit3.v
theories/ProofsImplicit4.v
theories/ProofsImplicit5.v
theories/PropertiesImplicit.v
theories/ModelDiscrete.v
theories/SpecDiscrete.v
theories/ProofsSim.v
theories/SpecAsifHistory.v
theories/ProofsAsifHistory.v
theories/ProofsAsifHistory2.v
theories/PropertiesAsifHistory.v
theories/ProofsDiscrete.v
theories/ProofsDiscrete2.v
theories/PropertiesDiscrete.v
theories/ModelConstraint.v
theories/SpecConstraint.v
theories/ProofsConstraint.v
theories/PropertiesConstraint.v
theories/ModelCwh.v
theories/SpecCwh.v
theories/ProofsCwh.v
theories/ProofsCwh2.v
theories/ProofsCwh3.v
theories/PropertiesCwh.v
theories/ModelInspect.v
theories/SpecInspect.v
theories/ProofsInspect.v
theories/PropertiesInspect.v
theories/ModelIntegrator.v
theories/SpecIntegrator.v
theories/ProofsIntegrator.v
theories/PropertiesIntegrator.v
theories/ModelSampling.v
theories/SpecSampling.v
theories/ProofsSampling.v
theories/PropertiesSampling.v
theories/ModelHeap.v
theories/SpecHeap.v
theories/ProofsHeap.v
theories/PropertiesHeap.v
theories/ModelFloat.v
theories/PropertiesFloat.v
theories/ModelConic.v
theories/SpecConic.v
theories/ProofsConic.v
theories/ProofsConic2.v
theories/PropertiesConic.v
theories/ModelZoo.v
theories/SpecZoo.v
theories/ProofsZoo.v
theories/ProofsZoo2.v
theories/ProofsZoo3.v
theories/PropertiesZoo.v
theories/ModelDock.v
theories/SpecDock.v
theories/ProofsDock.v
theories/ProofsDock2.v
theories/ProofsSolver.v
theories/PropertiesSolver.v
theories/PropertiesDock.v
theories/ModelJit.v
theories/SpecJit.v
theories/ProofsJit.v
theories/ProofsJitImplicit.v
theories/PropertiesJit.v
theories/PropertiesJitImplicit.v
theories/SpecSampled.v
theories/ProofsSampled.v
theories/PropertiesSampled.v
theories/ModelTime.v
theories/SpecTime.v
theories/ProofsTime.v
theories/PropertiesTime.v
theories/ModelLqr.v
theories/SpecLqr.v
theories/ProofsLqr.v
theories/PropertiesLqr.v
theories/SpecTable.v
theories/ProofsTable.v
theories/PropertiesTable.v
theories/PropertiesStrength.v
theories/ModelInsp.v
theories/ProofsInsp.v
theories/PropertiesInsp.v
theories/ProofsInspSpeed.v
theories/PropertiesInspSpeed.v
theories/ModelArgs.v
theories/SpecArgs.v
theories/ProofsArgs.v
theories/PropertiesArgs.v
theories/ModelShare.v
theories/SpecShare.v
theories/ProofsShare.v
theories/PropertiesShare.v
theories/ProofsMore.v
theories/PropertiesMore.v
theories/ModelPool.v
theories/SpecPool.v
theories/ProofsPool.v
theories/PropertiesPool.v
theories/ModelFloatRun.v
theories/PropertiesFloatRun.v
theories/ProofsStop.v
theories/ProofsStop2.v
theories/ProofsStop3.v
theories/ProofsUnique.v
theories/ProofsStop4.v
theories/ProofsExist.v
theories/ProofsExist2.v
theories/PropertiesStop.v
theories/ProofsHold.v
theories/ModelSwitch.v
theories/SpecSwitch.v
theories/ProofsHold2.v
theories/ProofsGlide.v
theories/PropertiesSwitch.v
theories/ModelGain.v
theories/SpecGain.v
theories/ProofsGain.v
theories/PropertiesGain.v
theories/ModelSun.v
theories/SpecSun.v
theories/ProofsSun.v
theories/PropertiesSun.v
theories/ModelDiscJit.v
theories/SpecDiscJit.v
theories/ProofsDiscJit.v
theories/PropertiesDiscJit.v
theories/ModelWarn.v
theories/SpecWarn.v
theories/ProofsWarn.v
theories/PropertiesWarn.v
theories/ModelDiscInsp.v
theories/SpecDiscInsp.v
theories/ProofsDiscInsp.v
theories/ProofsDiscInsp2.v
theories/ExampleDiscInsp.v
theories/PropertiesDiscInsp.v
theories/PropertiesWindow.v
theories/ModelIntImplicit.v
theories/SpecIntImplicit.v
theories/PropertiesIntImplicit.v
theories/PropertiesIntImplicit2.v
theories/PropertiesIntImplicit3.v
theories/PropertiesIntFlight.v
theories/ModelOneStep.v
theories/PropertiesOneStep.v
