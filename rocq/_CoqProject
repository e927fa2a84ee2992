-Q theories Verif
theories/Base.v
theories/GraphModel.v
theories/GraphSpec.v
theories/TopoProofs.v
theories/BasicProofs.v
theories/DTProofs.v
theories/SortProofs.v
theories/OrderProofs.v
theories/Basic2Proofs.v
theories/WitnessProofs.v
theories/LabelProofs.v
theories/PropGraph1.v
theories/ExGraph1.v
theories/CompelledProofs.v
theories/CpdagProofs.v
theories/EnumProofs.v
theories/MeekProofs.v
theories/PropGraph2.v
theories/ExGraph2.v
theories/PathProofs.v
theories/EdgeProofs.v
theories/PropGraph3.v
theories/ExGraph3.v
theories/ListModel.v
theories/ListSpec.v
theories/ListProofs.v
theories/PropList.v
theories/ExList.v
theories/NumModel.v
theories/NumSpec.v
theories/ScoreModel.v
theories/LinAlgProofs.v
theories/NumProofs.v
theories/NdModel.v
theories/ArraySpec.v
theories/SampleProofs.v
theories/NdProofs.v
theories/HeapModel.v
theories/HeapSpec.v
theories/HeapProofs.v
theories/PropNum.v
theories/ExNum.v
theories/CacheSpec.v
theories/CacheProofs.v
theories/ScoreSpec.v
theories/GDProofs.v
theories/ScoreProofs.v
theories/HistProofs.v
theories/LoopProofs.v
theories/Lr0Proofs.v
theories/NoErrProofs.v
theories/RunProofs.v
theories/Run2Proofs.v
theories/PropScore.v
theories/ExScore.v
theories/MainModel.v
theories/MainSpec.v
theories/PruneProofs.v
theories/PruneIProofs.v
theories/SelectProofs.v
theories/FitProofs.v
theories/TotalProofs.v
theories/MainRunProofs.v
theories/SeedProofs.v
theories/ScreeProofs.v
theories/ClassProofs.v
theories/PropMain.v
theories/ExMainDefs.v
theories/ExMain.v
theories/GenModel.v
theories/GenSpec.v
theories/GenProofs.v
theories/Gen2Proofs.v
theories/Gen3Proofs.v
theories/IncoProofs.v
theories/GenRunProofs.v
theories/PropGen.v
theories/ExGen.v
theories/MaxProofs.v
theories/Max2Proofs.v
theories/Max3Proofs.v
theories/PropMax.v
theories/ExMax.v
theories/FieldTac.v
theories/GradSpec.v
theories/DerivProofs.v
theories/Deriv2Proofs.v
theories/GradProofs.v
theories/Grad2Proofs.v
theories/BsolveProofs.v
theories/Bsolve2Proofs.v
theories/Bsolve3Proofs.v
theories/Bsolve4Proofs.v
theories/Bsolve5Proofs.v
theories/OptSpec.v
theories/OptProofs.v
theories/ConsistProofs.v
theories/TermProofs.v
theories/Term2Proofs.v
theories/PropGrad.v
theories/ExGrad.v
theories/PropOpt.v
theories/ExOpt.v
theories/TermSpec.v
theories/MainTermProofs.v
theories/MainTerm2Proofs.v
theories/PropTerm.v
theories/ExTerm.v
theories/CoveredProofs.v
theories/RenameSpec.v
theories/RenameProofs.v
theories/PropRename.v
theories/ExRename.v
theories/EquivProofs.v
theories/RenScoreProofs.v
theories/PropEquiv.v
theories/ExEquiv.v
theories/UtilModel.v
theories/UtilSpec.v
theories/UtilProofs.v
theories/PropUtil.v
theories/ExUtil.v
theories/UtilNumModel.v
theories/UtilNumSpec.v
theories/UtilNumProofs.v
theories/PropUtilNum.v
theories/ExUtilNum.v
theories/DescentSpec.v
theories/DescentProofs.v
theories/Descent2Proofs.v
theories/PropDescent.v
theories/ExDescent.v
theories/CovModel.v
theories/CovSpec.v
theories/FoldProofs.v
theories/CovProofs.v
theories/UnitProofs.v
theories/FoldRunProofs.v
theories/Units2Proofs.v
theories/AnyEdgeProofs.v
theories/PropFold.v
theories/PropCov.v
theories/ExCov.v
theories/NumsLatentSpec.v
theories/NumsLatentProofs.v
theories/PropNumsLatent.v
theories/ExNumsLatent.v
theories/FullModel.v
theories/FullSpec.v
theories/RecordProofs.v
theories/FullProofs.v
theories/PropFull.v
theories/ExFull.v
theories/InitModel.v
theories/InitSpec.v
theories/InitProofs.v
theories/Init2Proofs.v
theories/PropInit.v
theories/ExInit.v
theories/AliasModel.v
theories/AliasSpec.v
theories/AliasProofs.v
theories/PropAlias.v
theories/ExAlias.v
theories/RealProofs.v
theories/IdentSpec.v
theories/IdentProofs.v
theories/Ident2Proofs.v
theories/PropIdent.v
theories/ExIdent.v
theories/RefineSpec.v
theories/RefineProofs.v
theories/PropRefine.v
theories/ExRefine.v
theories/LimitSpec.v
theories/LimitProofs.v
theories/LimitRunProofs.v
theories/PropLimit.v
theories/ExLimit.v
theories/CostSpec.v
theories/CostProofs.v
theories/PropCost.v
theories/ExCost.v
theories/NamesSpec.v
theories/NamesProofs.v
theories/PropNames.v
theories/ExNames.v
theories/ShapeModel.v
theories/ShapeSpec.v
theories/ShapeProofs.v
theories/PropShape.v
theories/ExShape.v
theories/WeightSpec.v
theories/WeightProofs.v
theories/PropWeight.v
theories/ExWeight.v
theories/DrawSpec.v
theories/DrawProofs.v
theories/PropDraw.v
theories/ExDraw.v
theories/ClassNamesSpec.v
theories/ClassNamesProofs.v
theories/PropClassNames.v
theories/ExClassNames.v
theories/CandSpec.v
theories/CandProofs.v
theories/QFieldProofs.v
theories/ExactSpec.v
theories/DupProofs.v
theories/PropCand.v
theories/ExCand.v
theories/StatSpec.v
theories/StatProofs.v
theories/GesMeanProofs.v
theories/PropStat.v
theories/ExStat.v
theories/MemModel.v
theories/MemSpec.v
theories/MemProofs.v
theories/PropMem.v
theories/ExMem.v
theories/Weight2Proofs.v
theories/PropWeight2.v
theories/ExWeight2.v
theories/LeakSpec.v
theories/LeakProofs.v
theories/PropLeak.v
theories/ExLeak.v
theories/EnvProofs.v
theories/PropEnv.v
theories/ExEnv.v
theories/WCandSpec.v
theories/NegProofs.v
theories/WCandProofs.v
theories/WDupProofs.v
theories/WNegProofs.v
theories/PropWCand.v
theories/ExWCand.v
theories/ScreeUnitSpec.v
theories/ScreeUnitProofs.v
theories/PropScreeUnit.v
theories/ExScreeUnit.v
theories/NestSpec.v
theories/NestProofs.v
theories/NestRunProofs.v
theories/PropNest.v
theories/ExNest.v
theories/SingleSpec.v
theories/SingleProofs.v
theories/PropSingle.v
theories/ExSingle.v
theories/FixedSpec.v
theories/FixedProofs.v
theories/PropFixed.v
theories/ExFixed.v
theories/MemberSpec.v
theories/MemberProofs.v
theories/PropMember.v
theories/ExMember.v
theories/ExReal.v
theories/BoundSpec.v
theories/BoundProofs.v
theories/PropBound.v
theories/ExBound.v
theories/AgainSpec.v
theories/AgainProofs.v
theories/PropAgain.v
theories/ExAgain.v
theories/MoreSpec.v
theories/MoreProofs.v
theories/PropMore.v
theories/ExMore.v
theories/FrontModel.v
theories/FrontSpec.v
theories/FrontProofs.v
theories/PropFront.v
theories/ExFront.v
theories/FloatModel.v
theories/FloatSpec.v
theories/FloatProofs.v
theories/PropFloat.v
theories/ExFloat.v
theories/IncoSpec.v
theories/Inco2Proofs.v
theories/PropInco.v
theories/ExInco.v
theories/MetricSpec.v
theories/MetricProofs.v
theories/PropMetric.v
theories/ExMetric.v
theories/BasisSpec.v
theories/BasisProofs.v
theories/PropBasis.v
theories/ExBasis.v
