-Q theories Verif
theories/Arf.v
theories/Arb.v
theories/SpecArf.v
theories/ArfProofs.v
theories/ArbProofs.v
theories/Real.v
theories/Fast48.v
theories/SpecReal.v
theories/RealProofs.v
theories/RealProofs2.v
theories/RealProofs3.v
theories/RealProofs4.v
theories/RealProofs5.v
theories/RealRefuted.v
theories/RealProofs6.v
theories/RealProofs7.v
theories/PropArith.v
theories/PropReal.v

theories/Rand48Proofs.v
theories/Rand48Rational.v
theories/Cache.v
theories/CacheProofs.v
theories/Seed.v
theories/SpecSeed.v
theories/SeedProofs.v
theories/PropProcess.v
theories/Gen.v
theories/SpecGen.v
theories/GenProofs.v
theories/Factory.v
theories/SpecFactory.v
theories/FactoryProofs.v
theories/PropGen.v
theories/Ring.v
theories/SpecRing.v
theories/RingProofs.v
theories/Module.v
theories/Element.v
theories/SpecModule.v
theories/ModuleProofs.v
theories/ElementProofs.v
theories/Independence.v
theories/ElementProofs2.v
theories/SpanProofs.v
theories/ElementProofs3.v
theories/Leading.v
theories/FloorProofs.v
theories/ElementProofs4.v
theories/PropModule.v
theories/NumberField.v
theories/NumberFieldProofs.v
theories/PropElement.v
theories/PropField.v
theories/Division.v
theories/DivisionProofs.v
theories/PropDivision.v
theories/SpecLoops.v
theories/Loops.v
theories/Near.v
theories/Near2.v
theories/LoopsProofs.v
theories/LoopsProofs2.v
theories/LoopsProofs3.v
theories/LoopsProofs4.v
theories/LoopsProofs5.v
theories/Balls.v
theories/PropOrder.v
theories/PropFloor.v
theories/PropDouble.v
theories/LoopsCases.v
theories/PropLoops.v
theories/RandomIn.v
theories/SpecRandom.v
theories/RandomInProofs.v
theories/PropRandom.v
theories/Serial.v
theories/SpecSerial.v
theories/SerialProofs.v
theories/PropSerial.v
theories/Yap.v
theories/SpecYap.v
theories/YapProofs.v
theories/PropYap.v
theories/Native.v
theories/SpecNative.v
theories/NativeProofs.v
theories/PropNative.v
theories/Print.v
theories/SpecPrint.v
theories/PrintProofs.v
theories/PropPrint.v
theories/Compare.v
theories/SpecCompare.v
theories/PropCompare.v
theories/ModuleFactory.v
theories/SpecModuleFactory.v
theories/ModuleFactoryProofs.v
theories/PropModuleFactory.v
theories/Text.v
theories/SpecText.v
theories/PropText.v
theories/Construct.v
theories/PropConstruct.v
theories/Shared.v
theories/SpecShared.v
theories/SharedProofs.v
theories/PropShared.v
theories/SharedMany.v
theories/SpecSharedMany.v
theories/SharedManyProofs.v
theories/PropSharedMany.v
theories/SpecSharedSafe.v
theories/SharedSafeProofs.v
theories/PropSharedSafe.v
theories/Double.v
theories/SpecDouble.v
theories/PropIeee.v
theories/Special.v
theories/SpecSpecial.v
theories/SpecialProofs.v
theories/SpecialProofs2.v
theories/PropSpecial.v
theories/Output.v
theories/SpecOutput.v
theories/OutputProofs.v
theories/OutputProofs2.v
theories/OutputProofs3.v
theories/PropOutput.v
theories/PropEqual.v
theories/Py.v
theories/SpecPy.v
theories/PyProofs.v
theories/PropPy.v
theories/PyYap.v
theories/SpecPyYap.v
theories/PyYapProofs.v
theories/PropPyYap.v
theories/Store.v
theories/SpecStore.v
theories/StoreProofs.v
theories/PropStore.v
theories/PartialProofs.v
theories/PropPartial.v
theories/PropMore.v
theories/Life.v
theories/SpecLife.v
theories/LifeProofs.v
theories/PropLife.v
theories/PyBall.v
theories/SpecPyBall.v
theories/PropPyBall.v
theories/SpecArchive.v
theories/ArchiveProofs.v
theories/PropArchive.v
theories/Expr.v
theories/SpecExpr.v
theories/ExprProofs.v
theories/PropExpr.v
theories/Threads.v
theories/SpecThreads.v
theories/ThreadsProofs.v
theories/PropThreads.v
theories/ThreadsNumbers.v
theories/SpecThreadsNumbers.v
theories/ThreadsNumbersProofs.v
theories/PropThreadsNumbers.v
theories/PropOperators.v
theories/PropLaws.v
theories/PropOrdered.v
theories/PropConvert.v
theories/SpecCost.v
theories/CostProofs.v
theories/PropCost.v
theories/SpecDraw.v
theories/DrawProofs.v
theories/PropDraw.v
theories/Machine.v
theories/SpecMachine.v
theories/MachineProofs.v
theories/PropMachine.v
theories/MachineElement.v
theories/SpecMachineElement.v
theories/MachineElementProofs.v
theories/PropMachineElement.v
theories/FloatLog.v
theories/SpecFloatLog.v
theories/PropFloatLog.v
theories/PrintText.v
theories/SpecPrintText.v
theories/PrintTextProofs.v
theories/PropPrintText.v
theories/PropExact.v
theories/PropRationalCmp.v
theories/SpecStuck.v
theories/PropStuck.v
theories/RawRational.v
theories/SpecRawRational.v
theories/PropRawRational.v
theories/IntExponents.v
theories/SpecIntExponents.v
theories/PropIntExponents.v
theories/PropUnits.v
theories/PropPromote.v
theories/PropScale.v
theories/Documented.v
theories/Assumptions.v
