-Q theories Verif
theories/Prelude.v
theories/PySet.v
theories/GroupGen.v
theories/GroupGenProofs.v
theories/SubgroupProofs.v
theories/DiscSymProofs.v
theories/PGE.v
theories/PGEProofs.v
theories/PGEGroup.v
theories/GroupSpec.v
theories/PropGroups.v
theories/ModelCore.v
theories/ModelProofs.v
theories/PropModel.v
theories/ModelShape.v
theories/PropShape.v
theories/Keys.v
theories/KeysProofs.v
theories/PropApply.v
theories/PropCGG.v
theories/RealLemmas.v
theories/Tolerance.v
theories/PropTol.v
theories/PGERep.v
theories/PropRep.v
theories/LinSpan.v
theories/NullSpec.v
theories/Linalg.v
theories/MatBasisProofs.v
theories/PropLinalg.v
theories/Rref.v
theories/PropRref.v
theories/Star.v
theories/Nullspace.v
theories/PropNull.v
theories/SparseProofs.v
theories/Family.v
theories/FamilyProofs.v
theories/PropFamily.v
theories/FamilyOps.v
theories/PropConstrain.v
theories/Complement.v
theories/FamilyTools.v
theories/PropFamilyTools.v
theories/PropPretty.v
theories/Continuum.v
theories/GradedOps.v
theories/PolyExt.v
theories/PropContinuum.v
theories/Symmetrize.v
theories/Average.v
theories/StrictGroup.v
theories/PropSymmetrize.v
theories/PropBloch.v
theories/RingTac.v
theories/Spin.v
theories/LMatrices.v
theories/PropSpin.v
theories/PropBlochSpan.v
theories/PermSym.v
theories/PropPermSym.v
theories/Factories.v
theories/PropFactories.v
theories/PointGroups.v
theories/PropPointGroups.v
theories/PropHexagonal.v
theories/KwantContinuum.v
theories/PropKwantContinuum.v
theories/Version.v
theories/PropVersion.v
theories/Cache.v
theories/PropCache.v
theories/ModelSubs.v
theories/PropSubs.v
theories/Printing.v
theories/PropPrinting.v
theories/Pairing.v
theories/PropPairing.v
theories/LLL.v
theories/PropLLL.v
theories/CVP.v
theories/PropCVP.v
theories/PropVoronoi.v
theories/Bravais.v
theories/PropBravais.v
theories/Rmt.v
theories/PropRmt.v
theories/PropCircular.v
theories/SymBlocks.v
theories/PropBlocks.v
theories/PropConserved.v
theories/Lie.v
theories/PropLie.v
theories/SimultDiag.v
theories/PropSimult.v
theories/Oracles.v
theories/PropOracles.v
theories/ContSym.v
theories/PropContSym.v
theories/PropNames.v
theories/StarAlg.v
theories/Sun.v
theories/PropSun.v
theories/PropReduce.v
theories/PropFind.v
theories/Symmetries.v
theories/PropSymmetries.v
theories/ActionProofs.v
theories/Discrete.v
theories/PropDiscrete.v
theories/PropDriver.v
theories/PropBravais2.v
theories/PropLLL2.v
theories/Bravais3.v
theories/Space3.v
theories/Branch3.v
theories/Rhomb3.v
theories/Mono3.v
theories/Lattice3.v
theories/PropBravais3.v
theories/PropThin3.v
theories/PropRod3.v
theories/PropPrism3.v
theories/Cases.v
