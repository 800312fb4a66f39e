-Q theories Verif
theories/Base.v
theories/LoopsModel.v
theories/LoopsProofs.v
theories/Properties_Loops.v
theories/Field.v
theories/FPS.v
theories/FieldInst.v
theories/SeriesModel.v
theories/SeriesSpec.v
theories/SeriesProofs.v
theories/NewtonProofs.v
theories/AlgoProofs.v
theories/CodeletModel.v
theories/CodeletProofs.v
theories/SeriesOps.v
theories/SeriesOpsProofs.v
theories/SeriesExtra.v
theories/SeriesExamples.v
theories/AlgoExtra.v
theories/Properties_Series.v
theories/Properties_Algos.v
theories/BottcherMath.v
theories/AreaModel.v
theories/AreaProofs.v
theories/Properties_Area.v
theories/FFTModel.v
theories/FFTLoop.v
theories/FFTMath.v
theories/FFTTwiddle.v
theories/FFTPerm.v
theories/FFTSpec.v
theories/FFTProofs.v
theories/FFTReal.v
theories/FFTShift.v
theories/FFTShift2.v
theories/FFTShift3.v
theories/FFTShift4.v
theories/FFTMulSpec.v
theories/FFTMul.v
theories/FFTExtra.v
theories/FFTKernel.v
theories/FFTMemModel.v
theories/FFTMem.v
theories/FFTExamples.v
theories/Properties_FFT.v
theories/SigModel.v
theories/SigProofs.v
theories/SigField.v
theories/SigRoots.v
theories/SigPrime.v
theories/Properties_Sig.v
theories/ExpModel.v
theories/ExpProofs.v
theories/ExpSig.v
theories/BlockProofs.v
theories/ShowModel.v
theories/CppSpec.v
theories/ShowProofs.v
theories/ShowBuild.v
theories/ExpToy.v
theories/Properties_Exp.v
theories/ExpansionModel.v
theories/ExpansionFloat.v
theories/ExpansionProofs.v
theories/ExpansionMul.v
theories/ExpansionBasic.v
theories/ExpansionRange.v
theories/Properties_Expansion.v
theories/FilesModel.v
theories/FilesProofs.v
theories/FilesRead.v
theories/FilesResume.v
theories/NpyProofs.v
theories/FilesBottcher.v
theories/Properties_Files.v
theories/NearestModel.v
theories/NearestProofs.v
theories/NearestArea.v
theories/NearestInst.v
theories/Properties_Nearest.v
theories/LogoModel.v
theories/LogoProofs.v
theories/LogoCanvas.v
theories/Properties_Logo.v
theories/PolyModel.v
theories/PolySpec.v
theories/PolyProofs.v
theories/PolyInst.v
theories/PolyAlias.v
theories/Properties_Poly.v
theories/AliasModel.v
theories/AliasProofs.v
theories/Properties_Alias.v
theories/GradSpec.v
theories/GradProofs.v
theories/GradReal.v
theories/Properties_Grad.v
theories/GenModel.v
theories/GenProofs.v
theories/GenBack.v
theories/GenCheck.v
theories/Properties_Gen.v
theories/GenRun.v
theories/GenScope.v
theories/GenProg.v
theories/GenExec.v
theories/GenDriver.v
theories/GenWhole.v
theories/GenFast.v
theories/Properties_Prog.v
theories/ExpnGenModel.v
theories/ExpnGenProofs.v
theories/Properties_ExpnGen.v
theories/BaseGenModel.v
theories/BaseGenRun.v
theories/BaseGenProofs.v
theories/Properties_BaseGen.v
theories/SeriesExpModel.v
theories/Properties_SeriesExp.v
theories/SerGenModel.v
theories/SerGenSim.v
theories/SerGenProofs.v
theories/SerGenCheck.v
theories/Properties_SerGen.v
theories/MulProgModel.v
theories/MulProgProofs.v
theories/MulProgKernel.v
theories/Properties_MulProg.v
theories/ExpansionDivModel.v
theories/ExpansionDiv.v
theories/Properties_ExpDiv.v
theories/SigFieldsModel.v
theories/Pocklington.v
theories/SigFields.v
theories/SigFieldsEnd.v
theories/Properties_Fields.v
theories/FFTRoundModel.v
theories/FFTRound.v
theories/FFTRoundD.v
theories/FFTRoundInst.v
theories/Properties_FFTRound.v
theories/ArbAreaModel.v
theories/ArbAreaSpec.v
theories/ArbExpProofs.v
theories/ArbAreaProofs.v
theories/ArbMean.v
theories/ArbSound.v
theories/ArbAreaInst.v
theories/Properties_ArbArea.v
theories/SeriesErrModel.v
theories/SeriesErrSpec.v
theories/SeriesErrProofs.v
theories/Properties_SeriesErr.v
theories/DriverModel.v
theories/DriverProofs.v
theories/Properties_Driver.v
theories/TestRunModel.v
theories/Properties_TestRun.v
theories/BaseRoundModel.v
theories/BaseRound.v
theories/Properties_BaseRound.v
theories/CacheModel.v
theories/CacheSpec.v
theories/CacheProofs.v
theories/Properties_Cache.v
theories/WrapModel.v
theories/WrapSpec.v
theories/WrapProofs.v
theories/Properties_Wrap.v
theories/LifeModel.v
theories/LifeSpec.v
theories/LifeProofs.v
theories/Properties_Life.v
