-Q theories Verif
theories/Net.v
theories/NetProofs.v
theories/NetFifo.v
theories/NetExec.v
theories/NetPhase.v
theories/NetSim.v
theories/PyList.v
theories/Setup.v
theories/Mgrit.v
theories/Heap.v
theories/ListFacts.v
theories/SplitProofs.v
theories/SplitFloat.v
theories/Spec.v
theories/OrderProofs.v
theories/PySet.v
theories/PySetProofs.v
theories/SetupProofs.v
theories/SetupProps.v
theories/SimpleSetup.v
theories/SimpleSetupProofs.v
theories/CheckProofs.v
theories/Reference.v
theories/RefProofs.v
theories/Collect.v
theories/Sim.v
theories/Pipeline.v
theories/LocalOps.v
theories/LocalMatch.v
theories/LocalRun.v
theories/Main.v
theories/LocalValues.v
theories/ParallelProofs.v
theories/ExampleApp.v
theories/Algebra.v
theories/Causality.v
theories/PropParallel.v
theories/PropSetup.v
theories/PropSplitFloat.v
theories/PropAlgebra.v
theories/TagProofs.v
theories/PropTags.v
theories/FlagProofs.v
theories/PropPhases.v
theories/PropAtMgrit.v
theories/WorldCrit.v
theories/PropWorld.v
theories/PropHistory.v
theories/PropRefuted.v
theories/PropSet.v
theories/PropLocal.v
theories/PropLocalRun.v
theories/PropLocalValues.v
theories/PropLevels.v
theories/HeapProofs.v
theories/PropHeap.v
theories/LinAlg.v
theories/Vectors.v
theories/PropVectors.v
theories/Getdp.v
theories/PropGetdp.v
theories/Mesh.v
theories/PropMesh.v
theories/Machine.v
theories/PropMachine.v
theories/Parareal.v
theories/PropParareal.v
theories/Linspace.v
theories/PropLinspace.v
theories/Plots.v
theories/PropPlots.v
theories/Apps.v
theories/AppProofs.v
theories/PropApps.v
theories/PropBdf.v
theories/PropAllenCahn.v
theories/Petsc.v
theories/PropPetsc.v
theories/Storage.v
theories/PropStorage.v
theories/Arenstorf.v
theories/PropArenstorf.v
theories/Msh.v
theories/PropMsh.v
theories/PropWeights.v
theories/GetdpRun.v
theories/PropGetdpRun.v
theories/Spatial.v
theories/PropSpatial.v
theories/Custom.v
theories/CustomProofs.v
theories/PropCustom.v
theories/PropAccuracy.v
theories/Faults.v
theories/PropFaults.v
theories/PropHeatError.v
theories/Workflow.v
theories/WorkflowProofs.v
theories/PropWorkflow.v
theories/OutputFiles.v
theories/PropOutputFiles.v
theories/PropAdvectionError.v
theories/PropHeat2DError.v
theories/Firedrake.v
theories/PropFiredrake.v
theories/PropConserved.v
theories/Log.v
theories/PropLog.v
