-Q theories Verif
theories/BackCol.v
theories/BackErr.v
theories/BackLoop.v
theories/BackTop.v
theories/Base.v
theories/BlocksSeysen.v
theories/Cache.v
theories/Cache2.v
theories/Cache3.v
theories/Cache4.v
theories/Cache5.v
theories/Cache6.v
theories/Cache7.v
theories/Certify.v
theories/Counters.v
theories/DblCol.v
theories/DblErr.v
theories/DblHV.v
theories/DblReal.v
theories/DblTop.v
theories/Det.v
theories/Double.v
theories/DoubleAgree.v
theories/DoubleDouble.v
theories/DriverSafe.v
theories/ExIsred.v
theories/Exact.v
theories/ExactHH.v
theories/ExactLoop.v
theories/ExactLoop2.v
theories/ExactPot.v
theories/ExactTop.v
theories/Examples.v
theories/FP.v
theories/FPTuple.v
theories/Fgas.v
theories/FgasExact.v
theories/FgasInt.v
theories/FgasSafe.v
theories/FgasSafe2.v
theories/Fresh.v
theories/Fuel.v
theories/GObject.v
theories/Gen3Facts.v
theories/Gen3r2s.v
theories/Growth.v
theories/GrowthM.v
theories/HHMath.v
theories/Hjls.v
theories/HjlsBound.v
theories/HjlsEnd.v
theories/HjlsEnd2.v
theories/HjlsFind.v
theories/HjlsHit.v
theories/HjlsTurn.v
theories/HjlsTurn2.v
theories/Hlll.v
theories/Hlll2.v
theories/HlllInt.v
theories/HlllM.v
theories/HlllMInt.v
theories/Hlllp.v
theories/IntSteps.v
theories/Isred2.v
theories/IsredExact.v
theories/IsredPrec.v
theories/IsredRep.v
theories/IsredTop.v
theories/KernelLA.v
theories/Lcond.v
theories/LcondCases.v
theories/LcondFacts.v
theories/LcondTop.v
theories/LcondTri.v
theories/Ldpe.v
theories/LdpeConv.v
theories/LdpeFacts.v
theories/Lehmer.v
theories/LehmerExact.v
theories/Lift.v
theories/LinDep.v
theories/LongFlag.v
theories/MachInt.v
theories/MachRef.v
theories/Machine.v
theories/Mat.v
theories/MatOps.v
theories/MatOpsFacts.v
theories/MatPar.v
theories/MatPar2.v
theories/MatPar3.v
theories/MatRZ.v
theories/Matpe.v
theories/MatpeExact.v
theories/MatpeFacts.v
theories/Ntl.v
theories/NullExact.v
theories/NullFp.v
theories/NullHjls.v
theories/Nullspace.v
theories/Object.v
theories/Par.v
theories/Plain.v
theories/PotBound.v
theories/Program.v
theories/ProgramFacts.v
theories/PropBack.v
theories/PropCache.v
theories/PropCert.v
theories/PropDblBack.v
theories/PropDouble.v
theories/PropDriverSafe.v
theories/PropDrivers.v
theories/PropExact.v
theories/PropFgas.v
theories/PropFgasSafe.v
theories/PropGen.v
theories/PropGen3.v
theories/PropHjls.v
theories/PropHjlsEnd.v
theories/PropHjlsFind.v
theories/PropHlll.v
theories/PropInt.v
theories/PropIsred.v
theories/PropIsredPrec.v
theories/PropKernel.v
theories/PropKernel2.v
theories/PropLcond.v
theories/PropLcondPrec.v
theories/PropLdpe.v
theories/PropLehmerExact.v
theories/PropLift.v
theories/PropMach.v
theories/PropMat.v
theories/PropMatpe.v
theories/PropMatpe2.v
theories/PropMatpe3.v
theories/PropNtl.v
theories/PropNullExact.v
theories/PropNullFp.v
theories/PropNumbers.v
theories/PropProgram.v
theories/PropRZ.v
theories/PropRelF.v
theories/PropRestart.v
theories/PropRound.v
theories/PropSeysen.v
theories/PropSlll.v
theories/PropSlllSafe.v
theories/PropThreads.v
theories/PropTuple.v
theories/PropWrap.v
theories/PropWrapExact.v
theories/Put.v
theories/RGram.v
theories/RInd.v
theories/RatioExact.v
theories/Relation.v
theories/RelationF.v
theories/Restart.v
theories/Rounded.v
theories/Safety.v
theories/SeysenExact.v
theories/SeysenTop.v
theories/ShortMinima.v
theories/ShortVec.v
theories/Sim.v
theories/Sim2.v
theories/Sim3.v
theories/Sim4.v
theories/Sim5.v
theories/Slll.v
theories/SlllInt.v
theories/SlllPad.v
theories/SlllPar.v
theories/SlllSafe.v
theories/Spec.v
theories/SpecBack.v
theories/SpecCert.v
theories/SpecIsred.v
theories/SpecProg.v
theories/SpecReal.v
theories/SpecSeysen.v
theories/Stale.v
theories/StaleTop.v
theories/Structure.v
theories/Threads.v
theories/Trunc.v
theories/Trunc10.v
theories/TruncFloat.v
theories/UOnly.v
theories/Wrap.v
theories/WrapExact.v
theories/WrapFacts.v
theories/ZFgas.v
theories/ZFgasSafe.v
