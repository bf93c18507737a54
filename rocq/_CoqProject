-Q theories Verif
theories/Base.v
theories/XReal.v
theories/Tensor.v
theories/TensorFacts.v
theories/TensorFacts2.v
theories/BroadcastFacts.v
theories/Support.v
theories/SupportSpec.v
theories/PlaneFacts.v
theories/Dist.v
theories/DictFacts.v
theories/Iteration.v
theories/Structure.v
theories/Spec.v
theories/FlattenSpec.v
theories/StructFacts.v
theories/AssembleFacts.v
theories/ParamFacts.v
theories/ReplaceFacts.v
theories/SupportFacts.v
theories/SupportRt.v
theories/ClampThms.v
theories/FlattenFacts.v
theories/RefillFacts.v
theories/FlattenThms.v
theories/Tools.v
theories/ToolThms.v
theories/MappingFacts.v
theories/Joint.v
theories/SpecFun.v
theories/GammaFn.v
theories/BesselFn.v
theories/Expr.v
theories/Fam.v
theories/ExprFacts.v
theories/FamTy.v
theories/FamFacts.v
theories/SearchFacts.v
theories/DotFacts.v
theories/StructThms.v
theories/Laws.v
theories/SumSpec.v
theories/SumFacts.v
theories/MapFacts.v
theories/JointThms.v
theories/JointThms2.v
theories/LogPdfThms.v
theories/DotSpec.v
theories/DotLaws.v
theories/KlThms.v
theories/Examples.v
theories/Refute1.v
theories/StructProofs.v
theories/FlatObs.v
theories/PropStruct.v
theories/BatchFacts.v
theories/PointSpec.v
theories/PointFacts.v
theories/Val.v
theories/FamR.v
theories/DetFacts.v
theories/MatFacts.v
theories/MatVal.v
theories/FamVal.v
theories/ConvFacts.v
theories/LeafVal.v
theories/ConvThms.v
theories/DerivFacts.v
theories/MatDeriv.v
theories/MatHess.v
theories/DerivThms.v
theories/JointProofs.v
theories/JointEx.v
theories/PropJoint.v
theories/BatchThms.v
theories/BatchProofs.v
theories/PropBatch.v
theories/ConvEx.v
theories/MatEx.v
theories/MatEx2.v
theories/PropConv.v
theories/PropDeriv.v
theories/ClampEx.v
theories/Generate.v
theories/GenSpec.v
theories/GenFacts.v
theories/GenThms.v
theories/GenEx.v
theories/PropSupport.v
theories/Var.v
theories/VarSpec.v
theories/VarThms.v
theories/VarEx.v
theories/PropVar.v
theories/DensSpec.v
theories/DensVal.v
theories/DensThms.v
theories/DensEx.v
theories/PropDens.v
theories/RootSpec.v
theories/RootVal.v
theories/RootThms.v
theories/RootEx.v
theories/PropRoot.v
theories/TrigammaFn.v
theories/BesselFn2.v
theories/BregFacts.v
theories/BregThms.v
theories/MatBreg.v
theories/KlSpec.v
theories/KlPos.v
theories/InjThms.v
theories/KlEx.v
theories/KlEx2.v
theories/PropKl.v
theories/MleSpec.v
theories/MleThms.v
theories/MleEx.v
theories/PropMle.v
theories/KlExp.v
theories/Conj.v
theories/ConjSpec.v
theories/ConjThms.v
theories/ConjGen.v
theories/ConjEx.v
theories/PropConj.v
theories/HessFacts.v
theories/Fisher.v
theories/FisherSpec.v
theories/FisherThms.v
theories/FisherDiag.v
theories/FisherEx.v
theories/PropFisher.v
theories/TraceSpec.v
theories/FisherTrace.v
theories/FlatLin.v
theories/Jeffreys.v
theories/FisherMat.v
theories/FisherMat2.v
theories/TraceEx.v
theories/PropTrace.v
theories/Sample.v
theories/SampleSpec.v
theories/SampleFacts.v
theories/SampleShape.v
theories/SampleVal.v
theories/SampleThms.v
theories/SampleTop.v
theories/SampleEx.v
theories/PropSample.v
theories/IntSpec.v
theories/IntFacts.v
theories/GammaInt.v
theories/IntNorm.v
theories/IntGen.v
theories/IntMulti.v
theories/IntFam.v
theories/IntSimplex.v
theories/IntOne.v
theories/IntMat.v
theories/SphereInt.v
theories/IntSphere.v
theories/IntThms.v
theories/IntEx.v
theories/JointIntSpec.v
theories/JointInt.v
theories/JointKl.v
theories/PropInt.v
theories/PropKlInt.v
theories/MethodSpec.v
theories/Category.v
theories/CategoryThms.v
theories/Kappa.v
theories/KappaThms.v
theories/Moment.v
theories/MomentThms.v
theories/MethodEx.v
theories/PropMethods.v
theories/JeffreysEx.v
theories/PropJeffreys.v
theories/DomConv.v
theories/DomConv2.v
theories/Moments.v
theories/CovSpec.v
theories/Covar.v
theories/Covar2.v
theories/CovEx.v
theories/PropCov.v
theories/LawSpec.v
theories/LawFacts.v
theories/Law.v
theories/Law2.v
theories/LawThms.v
theories/Law3.v
theories/Law4.v
theories/PropLaw.v
theories/VarMean.v
theories/PropMoment.v
theories/FisherCovSpec.v
theories/FisherCov.v
theories/FisherCovEx.v
theories/PropFisherCov.v
theories/MeanFacts.v
theories/MeanSpec.v
theories/MeanThms.v
theories/MeanEx.v
theories/PropMean.v
theories/GradSpec.v
theories/GradFacts.v
theories/GradThms.v
theories/GradEx.v
theories/BoxFacts.v
theories/SearchCont.v
theories/SearchDir.v
theories/GradSearchSpec.v
theories/GradSearch.v
theories/GradSearchEx.v
theories/PropGrad.v
theories/KlTri.v
theories/KlTriEx.v
theories/PropTri.v
theories/MixThms.v
theories/MixEx.v
theories/PropMix.v
theories/CentSpec.v
theories/CentThms.v
theories/CentConv.v
theories/CentEx.v
theories/PropCent.v
theories/ResidSpec.v
theories/ResidThms.v
theories/BracketThms.v
theories/ResidEx.v
theories/PropResid.v
theories/Optim.v
theories/OptimSpec.v
theories/OptimFacts.v
theories/OptimThms.v
theories/OptimEx.v
theories/PropOptim.v
theories/DetInv.v
theories/TextSpec.v
theories/TextFacts.v
theories/TextVec.v
theories/TextMat.v
theories/TextThms.v
theories/TextEx.v
theories/PropText.v
theories/BlockDet.v
theories/Scipy.v
theories/ScipyShaped.v
theories/ScipyFacts.v
theories/ScipyThms.v
theories/EntSpec.v
theories/ScipyAgree.v
theories/ScipyRest.v
theories/ScipyDir.v
theories/ScipyRvs.v
theories/ScipyEx.v
theories/PropScipy.v
theories/ScipyMv.v
theories/ScipyMvFacts.v
theories/ScipyVm.v
theories/ScipyMvEx.v
theories/PropScipyMv.v
theories/EntFacts.v
theories/EntThms.v
theories/ScipyEnt.v
theories/EntEx.v
theories/PropEnt.v
theories/DivSpec.v
theories/DivFacts.v
theories/DivThms.v
theories/DivEx.v
theories/PropDiv.v
theories/ParSpec.v
theories/ParFacts.v
theories/ParThms.v
theories/PropPar.v
theories/Combine.v
theories/CombSpec.v
theories/CombThms.v
theories/CombEx.v
theories/PropCombine.v
theories/BayesSpec.v
theories/ConjBayes.v
theories/BayesEx.v
theories/PropBayes.v
theories/EstThms.v
theories/PropEst.v
theories/HistThms.v
theories/HistEx.v
theories/PropHist.v
theories/ScipyJoinSpec.v
theories/ScipyJoin.v
theories/ScipyJoinEx.v
theories/PropScipyJoin.v
theories/ProjSpec.v
theories/ProjThms.v
theories/MaxEnt.v
theories/ProjEx.v
theories/PropProj.v
theories/Bisect.v
theories/BisectThms.v
theories/BisectEx.v
theories/PropBisect.v
theories/Initial.v
theories/InitialThms.v
theories/LogBisect.v
theories/InitBatch.v
theories/InitEx.v
theories/LogEx.v
theories/Choice.v
theories/InitSpec.v
theories/NatBisect.v
theories/NatBisectEx.v
theories/NatBatch.v
theories/InitJoint.v
theories/InitJointEx.v
theories/NatSpec.v
theories/NatJoint.v
theories/PropInitial.v
