-Q theories Verif
theories/Base/Arr.v
theories/Base/Each.v
theories/Base/IType.v
theories/Base/LoopRes.v
theories/Base/Par.v
theories/Base/Res.v
theories/Base/Word.v
theories/Base/Zl.v
theories/Model/Accum.v
theories/Model/BitSieve.v
theories/Model/Calculator.v
theories/Model/DelegliseRivat.v
theories/Model/Double.v
theories/Model/FactorTable.v
theories/Model/Fenwick.v
theories/Model/Imath.v
theories/Model/Int256.v
theories/Model/LMO.v
theories/Model/LMO1.v
theories/Model/LMOParallel.v
theories/Model/Libdivide.v
theories/Model/Main.v
theories/Model/Options.v
theories/Model/Oracles.v
theories/Model/P2.v
theories/Model/Phi.v
theories/Model/PhiSum.v
theories/Model/PhiTiny.v
theories/Model/PiTable.v
theories/Model/Popcnt.v
theories/Model/Primesieve.v
theories/Model/PsCache.v
theories/Model/PsErat.v
theories/Model/PsGen.v
theories/Model/PsMath.v
theories/Model/PsTables.v
theories/Model/S1.v
theories/Model/S2.v
theories/Model/S2Hard.v
theories/Model/S2LoadBalancer.v
theories/Model/SelfTest.v
theories/Model/Status.v
theories/Model/Tables.v
theories/Model/Tuning.v
theories/Model/Wheel.v
theories/Proofs/Accum.v
theories/Proofs/BitSieve.v
theories/Proofs/Bounds.v
theories/Proofs/CalcCorrect.v
theories/Proofs/CalcParse.v
theories/Proofs/Calculator.v
theories/Proofs/DelegliseRivat.v
theories/Proofs/Double.v
theories/Proofs/EasyBound.v
theories/Proofs/FactorTable.v
theories/Proofs/Fenwick.v
theories/Proofs/Fermat.v
theories/Proofs/HardBound.v
theories/Proofs/HardLeaf.v
theories/Proofs/HardLoops.v
theories/Proofs/HardSieve.v
theories/Proofs/Imath.v
theories/Proofs/Int256.v
theories/Proofs/Int256b.v
theories/Proofs/Int256c.v
theories/Proofs/LMO.v
theories/Proofs/LMO1.v
theories/Proofs/LMO25.v
theories/Proofs/LMOLeaf.v
theories/Proofs/LMOPar.v
theories/Proofs/LMOQuery.v
theories/Proofs/LMOSeg.v
theories/Proofs/LMOSieve.v
theories/Proofs/Leaf.v
theories/Proofs/Libdivide.v
theories/Proofs/Main.v
theories/Proofs/Measured.v
theories/Proofs/NT.v
theories/Proofs/Options.v
theories/Proofs/P2.v
theories/Proofs/Phi.v
theories/Proofs/PhiSum.v
theories/Proofs/PhiTiny.v
theories/Proofs/PiTable.v
theories/Proofs/Popcnt.v
theories/Proofs/PrimeGap.v
theories/Proofs/Primes.v
theories/Proofs/Primesieve.v
theories/Proofs/PsAdd.v
theories/Proofs/PsBig.v
theories/Proofs/PsCross.v
theories/Proofs/PsErat.v
theories/Proofs/PsFirst.v
theories/Proofs/PsGenP.v
theories/Proofs/PsIter.v
theories/Proofs/PsMathP.v
theories/Proofs/PsMedium.v
theories/Proofs/PsPre.v
theories/Proofs/PsRun.v
theories/Proofs/PsSeg.v
theories/Proofs/PsSmall.v
theories/Proofs/PsStore.v
theories/Proofs/PsSvp.v
theories/Proofs/PsWheel.v
theories/Proofs/PsWord.v
theories/Proofs/S1.v
theories/Proofs/S2.v
theories/Proofs/S2Hard.v
theories/Proofs/S2Leaf.v
theories/Proofs/S2LoadBalancer.v
theories/Proofs/SelfTest.v
theories/Proofs/Status.v
theories/Proofs/Tables.v
theories/Proofs/Tuning.v
theories/Proofs/Wheel.v
theories/Properties/CalcProps.v
theories/Properties/DRProps.v
theories/Properties/DoubleProps.v
theories/Properties/FactorProps.v
theories/Properties/GeneratorProps.v
theories/Properties/ImathProps.v
theories/Properties/Int256Props.v
theories/Properties/LMOProps.v
theories/Properties/LeafProps.v
theories/Properties/LibdivideProps.v
theories/Properties/MainProps.v
theories/Properties/OptionProps.v
theories/Properties/PhiProps.v
theories/Properties/PhiSumProps.v
theories/Properties/PrimesieveProps.v
theories/Properties/S2HardProps.v
theories/Properties/S2Props.v
theories/Properties/SieveProps.v
theories/Properties/StatusProps.v
theories/Properties/TableProps.v
theories/Spec/BitSpec.v
theories/Spec/ExprSpec.v
theories/Spec/IntSpec.v
theories/Spec/LMOSpec.v
theories/Spec/MainSpec.v
theories/Spec/OptionSpec.v
theories/Spec/PhiSumSpec.v
theories/Spec/Primes.v
theories/Spec/PsGenSpec.v
theories/Spec/PsRunSpec.v
theories/Spec/PsSpec.v
theories/Spec/S2Spec.v
theories/Spec/SieveSpec.v
theories/Spec/TilingSpec.v
theories/Spec/WheelSpec.v
