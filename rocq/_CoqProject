-Q theories Verif
theories/Base.v
theories/MeshModel.v
theories/MeshSpec.v
theories/MeshProof.v
theories/MeshReadProof.v
theories/MeshProof2.v
theories/PropMesh.v
theories/CommModel.v
theories/CommSpec.v
theories/CommProof.v
theories/CommInv.v
theories/CommRun.v
theories/PropComm.v
theories/RBase.v
theories/LinAlgModel.v
theories/LinAlgProof.v
theories/PropLinAlg.v
theories/QuadTables.v
theories/QuadModel.v
theories/QuadProof.v
theories/QuadCheck.v
theories/PropQuad.v
theories/BasisModel.v
theories/BasisProof.v
theories/PropBasis.v
theories/ShapeModel.v
theories/ShapeProof.v
theories/PropShape.v
theories/PropNormals.v
theories/PhysModel.v
theories/PhysSpec.v
theories/PhysProof.v
theories/PropPhys.v
theories/PropVortex.v
theories/SolverModel.v
theories/SolverProof.v
theories/SolverFaces.v
theories/SolverSpec.v
theories/SolverMesh.v
theories/SolverConserve.v
theories/SolverFlux.v
theories/PropSolver.v
theories/PropConserve.v
theories/PropResidual.v
theories/StepModel.v
theories/StepProof.v
theories/PropStep.v
theories/TimeModel.v
theories/PropTime.v
theories/PropIntegral.v
theories/UtilModel.v
theories/PropUtil.v
theories/SizeModel.v
theories/PropSize.v
theories/IOModel.v
theories/IOProof.v
theories/IOProof2.v
theories/IOProof3.v
theories/IOProof4.v
theories/PropIO.v
theories/MassProof.v
theories/SetupModel.v
theories/SetupSpec.v
theories/SetupProof.v
theories/SetupPass.v
theories/SetupFaces.v
theories/PropSetup.v
theories/PropMeshRun.v
theories/ReadModel.v
theories/PropRead.v
theories/PropInit.v
theories/PostModel.v
theories/PropPost.v
theories/PropCtor.v
theories/DGSpec.v
theories/DGProof.v
theories/PropDG.v
theories/PropOutput.v
theories/PolySize.v
theories/PropFree.v
theories/TeamModel.v
theories/TeamProof.v
theories/TeamKernels.v
theories/TeamKernelProof.v
theories/TeamLaunch.v
theories/PropTeam.v
theories/TeamNormals.v
theories/PropTeamNormals.v
theories/PropHex.v
theories/PropHexDemo.v
theories/PropHexNormals.v
theories/PropHexOutput.v
theories/ProgramModel.v
theories/PropProgram.v
theories/PropWhole.v
theories/PropTotal.v
theories/PropHexCase.v
theories/PropBalance.v
theories/PropBalanceDemo.v
theories/TeamPhases.v
theories/TeamSetup.v
theories/TeamSetupProof.v
theories/PropTeamSetup.v
theories/PropQuadHex.v
theories/TeamStep.v
theories/PropTeamStep.v
theories/PropDevice.v
theories/AsyncModel.v
theories/AsyncProof.v
theories/PropAsync.v
theories/PropEnd.v
theories/PropHexFree.v
theories/PropHexFreeDemo.v
theories/PropRenumber.v
theories/PropRenumberDemo.v
theories/PropClock.v
theories/PropSimilar.v
theories/PropSimilarG.v
theories/PropSimilarDemo.v
theories/PropPositive.v
theories/PropPositiveG.v
theories/PropPositiveDemo.v
theories/ArithModel.v
theories/ArithProof.v
theories/ArithSetup.v
theories/ArithRun.v
theories/PropArith.v
theories/ArithLibrary.v
theories/ArithDouble.v
theories/PropDouble.v
theories/PropDoubleHex.v
theories/ArithRenumber.v
theories/ArithTurn.v
theories/PropBits.v
theories/PropBitsTurn.v
theories/PropBitsDemo.v
theories/PropVortex3.v
theories/ArithReal.v
theories/PropReal.v
theories/ArithExact.v
theories/PropExact.v
theories/HllcPositive.v
theories/PropHllcPositive.v
theories/PropHllcDemo.v
theories/PropParts.v
theories/PropRest.v
theories/PropRestDemo.v
theories/PropSymmetry.v
theories/PropSymmetryDemo.v
theories/PropLocal.v
theories/PropLocalDemo.v
theories/Converge.v
theories/PropConverge.v
theories/Smooth.v
theories/PropConvergeDemo.v
theories/PropCorner.v
theories/PropCornerDemo.v
theories/PropCornerHex.v
theories/PropCornerHexDemo.v
theories/PropListing.v
theories/PropListingDemo.v
theories/PropListingHex.v
theories/PropListingHexDemo.v
theories/PropSizeTri.v
