-Q theories Verif
theories/StrOrd.v
theories/JsonModel.v
theories/MergeModel.v
theories/MergeSpec.v
theories/MergeProofs.v
theories/MergeProps.v
theories/Ast.v
theories/AstHashModel.v
theories/AstHashProofs.v
theories/AstHashProps.v
theories/AstHashSpec.v
theories/CacheControlModel.v
theories/CacheControlProofs.v
theories/CacheControlProps.v
theories/CacheControlSpec.v
theories/HeadersModel.v
theories/HeadersProofs.v
theories/HeadersProps.v
theories/HeadersSpec.v
theories/StrUtil.v
theories/StreamModel.v
theories/StreamProofs.v
theories/StreamProps.v
theories/StreamSpec.v
theories/Utf8.v
theories/AuthDecision.v
theories/AuthFilterProofs.v
theories/AuthModel.v
theories/AuthProofs.v
theories/AuthProps.v
theories/AuthSpec.v
theories/TrieModel.v
theories/TrieProofs.v
theories/JsonText.v
theories/JsonWriterModel.v
theories/JsonWriterProofs.v
theories/ProjAgree.v
theories/ProjCond.v
theories/ProjErrs.v
theories/ProjFacts.v
theories/ProjModel.v
theories/ProjProofs.v
theories/ProjProps.v
theories/ProjSpec.v
theories/ProjTextProofs.v
theories/RequestModel.v
theories/RequestProofs.v
theories/RequestProps.v
theories/RequestSpec.v
theories/RequiresModel.v
theories/RequiresProofs.v
theories/RequiresSpec.v
theories/RewriteModel.v
theories/RewriteProofs.v
theories/RewriteSpec.v
theories/TraverseModel.v
theories/TraverseProofs.v
theories/TraverseProps.v
theories/TraverseSpec.v
theories/RequiresFacts.v
theories/RequiresHash.v
theories/RequiresProps.v
theories/EntityBatch.v
theories/EntityFacts.v
theories/EntityModel.v
theories/EntityProofs.v
theories/EntityProps.v
theories/EntitySpec.v
theories/ExecModel.v
theories/ExecProofs.v
theories/ExecProps.v
theories/ExecRun.v
theories/ExecSpec.v
theories/GraphMerge.v
theories/GraphModel.v
theories/GraphMutations.v
theories/GraphPasses.v
theories/GraphProofs.v
theories/GraphProps.v
theories/GraphSpec.v
theories/GraphWaves.v
theories/QplanEnd.v
theories/QplanGroup.v
theories/QplanModel.v
theories/QplanParallel.v
theories/QplanProps.v
theories/QplanRun.v
theories/QplanSpec.v
theories/QplanWave.v
theories/InflightEx.v
theories/InflightModel.v
theories/InflightProofs.v
theories/InflightProps.v
theories/InflightSpec.v
theories/SubModel.v
theories/SubProofs.v
theories/SubProps.v
theories/SubSpec.v
theories/FingerModel.v
theories/FingerProofs.v
theories/FingerProps.v
theories/FingerSpec.v
theories/ExtsModel.v
theories/ExtsProofs.v
theories/ExtsProps.v
theories/ExtsSpec.v
theories/MaskModel.v
theories/MaskProofs.v
theories/MaskProps.v
theories/MaskSpec.v
theories/CorsModel.v
theories/CorsProofs.v
theories/CorsProps.v
theories/CorsSpec.v
theories/CsrfModel.v
theories/CsrfProofs.v
theories/CsrfProps.v
theories/CsrfSpec.v
theories/CoerceModel.v
theories/CoerceProofs.v
theories/CoerceProps.v
theories/CoerceSpec.v
theories/LimitsModel.v
theories/LimitsProofs.v
theories/LimitsProps.v
theories/LimitsSpec.v
theories/CondModel.v
theories/CondProofs.v
theories/CondProps.v
theories/CondSpec.v
theories/SlotsModel.v
theories/SlotsProofs.v
theories/SlotsProps.v
theories/SlotsSpec.v
theories/SubresModel.v
theories/SubresProofs.v
theories/SubresProps.v
theories/SubresSpec.v
theories/OverrideModel.v
theories/OverrideProofs.v
theories/OverrideProps.v
theories/OverrideSpec.v
theories/NormDocs.v
theories/NormMeaning.v
theories/NormModel.v
theories/NormPasses.v
theories/NormProofs.v
theories/NormProps.v
theories/NormSpec.v
theories/NormTyped.v
theories/NormExamples.v
theories/NormTotal.v
theories/ExecErrors.v
theories/CostExpr.v
theories/CostModel.v
theories/CostMono.v
theories/CostPlan.v
theories/CostProofs.v
theories/CostProps.v
theories/CostSpec.v
theories/CostWitness.v
theories/NullProofs.v
theories/NullProps.v
theories/NullRefute.v
theories/NullSpec.v
theories/PlanBuild.v
theories/PlanCond.v
theories/PlanMatch.v
theories/PlanMerge.v
theories/PlanModel.v
theories/PlanOperation.v
theories/PlanProps.v
theories/PlanRefute.v
theories/PlanShown.v
theories/PlanSpec.v
theories/GqlCases.v
theories/GqlChars.v
theories/GqlComplete.v
theories/GqlGrammar.v
theories/GqlLex.v
theories/GqlModel.v
theories/GqlProps.v
theories/GqlSafe.v
theories/GqlScan.v
theories/GqlSpec.v
theories/GqlText.v
theories/PrintCases.v
theories/PrintClient.v
theories/PrintModel.v
theories/PrintProofs.v
theories/PrintProps.v
theories/PrintRead.v
theories/PrintSpec.v
theories/PrintWrites.v
theories/GqlBlockProofs.v
theories/MinifyModel.v
theories/MinifyProofs.v
theories/MinifyCases.v
theories/MinifyDoc.v
theories/MinifyProps.v
theories/MinifyRead.v
theories/MinifySpec.v
theories/MinifyText.v
theories/FragCases.v
theories/FragDoc.v
theories/FragModel.v
theories/FragProofs.v
theories/FragProps.v
theories/FragSpec.v
theories/ConsumerCases.v
theories/ConsumerModel.v
theories/ConsumerParts.v
theories/ConsumerProofs.v
theories/ConsumerProps.v
theories/ConsumerSpec.v
theories/IntroCases.v
theories/IntroFields.v
theories/IntroMain.v
theories/IntroModel.v
theories/IntroProofs.v
theories/IntroProps.v
theories/IntroSpec.v
theories/IntroTypes.v
theories/SplitModel.v
theories/SplitProofs.v
theories/SplitProps.v
theories/SplitSpec.v
theories/BestMain.v
theories/BestModel.v
theories/BestProofs.v
theories/BestProps.v
theories/BestSpec.v
theories/BestTree.v
theories/JwtCases.v
theories/JwtModel.v
theories/JwtProofs.v
theories/JwtProps.v
theories/JwtSpec.v
theories/JwtText.v
theories/OverlapBase.v
theories/OverlapCases.v
theories/OverlapComplete.v
theories/OverlapEnds.v
theories/OverlapMain.v
theories/OverlapModel.v
theories/OverlapProps.v
theories/OverlapSound.v
theories/OverlapSpec.v
theories/OverlapSteps.v
theories/OverlapTop.v
theories/OverlapValues.v
theories/SafeBase.v
theories/SafeMain.v
theories/SafeModel.v
theories/SafePlain.v
theories/SafeProps.v
theories/SafeScan.v
theories/SafeSpec.v
theories/SafeWrong.v
theories/DocidModel.v
theories/DocidProofs.v
theories/DocidProps.v
theories/DocidSpec.v
theories/DocidText.v
theories/DocstoreModel.v
theories/DocstoreProofs.v
theories/DocstoreProps.v
theories/DocstoreSpec.v
theories/LocalBase.v
theories/LocalModel.v
theories/LocalMore.v
theories/LocalProofs.v
theories/LocalProps.v
theories/LocalRun.v
theories/LocalSpec.v
theories/LocalState.v
theories/WalkModel.v
theories/WalkProofs.v
theories/ReachBase.v
theories/ReachCalls.v
theories/ReachCycle.v
theories/ReachModel.v
theories/ReachPos.v
theories/ReachProps.v
theories/ReachSpec.v
theories/ReachTop.v
theories/ReachVars.v
theories/PathModel.v
theories/ValsFits.v
theories/ValsModel.v
theories/ValsProofs.v
theories/ValsProps.v
theories/ValsSpec.v
theories/PathBase.v
theories/PathBest.v
theories/PathCycle.v
theories/PathMain.v
theories/PathProps.v
theories/PathSound.v
theories/PathSpec.v
theories/PathTotal.v
theories/OpwalkBase.v
theories/OpwalkCases.v
theories/OpwalkMain.v
theories/OpwalkModel.v
theories/OpwalkProps.v
theories/OpwalkSound.v
theories/OpwalkSpec.v
theories/OpwalkSteps.v
theories/OpwalkTotal.v
theories/OpwalkFieldProofs.v
theories/OpwalkFieldSpec.v
theories/QgraphBase.v
theories/QgraphCases.v
theories/QgraphGraph.v
theories/QgraphMain.v
theories/QgraphModel.v
theories/QgraphPhases.v
theories/QgraphProps.v
theories/QgraphRun.v
theories/QgraphSpec.v
theories/QgraphTotal.v
theories/QgraphViews.v
theories/WsBase.v
theories/WsCancel.v
theories/WsCases.v
theories/WsMain.v
theories/WsModel.v
theories/WsProofs.v
theories/WsProps.v
theories/WsSpec.v
theories/WsSteps.v
theories/PoolMain.v
theories/PoolModel.v
theories/PoolProofs.v
theories/PoolProps.v
theories/PoolSpec.v
theories/WcBase.v
theories/WcCases.v
theories/WcMain.v
theories/WcModel.v
theories/WcProofs.v
theories/WcProps.v
theories/WcSpec.v
theories/MsgModel.v
theories/MsgProofs.v
theories/MsgProps.v
theories/MsgSpec.v
theories/OwnerMain.v
theories/OwnerModel.v
theories/OwnerProofs.v
theories/OwnerProps.v
theories/OwnerSpec.v
theories/WhModel.v
theories/WhProofs.v
theories/WhProps.v
theories/WhSpec.v
theories/OpnormMain.v
theories/OpnormModel.v
theories/OpnormProofs.v
theories/OpnormProps.v
theories/OpnormSpec.v
theories/UsageMain.v
theories/UsageModel.v
theories/UsageProofs.v
theories/UsageProps.v
theories/UsageSpec.v
theories/CoordCases.v
theories/CoordFinal.v
theories/CoordMain.v
theories/CoordModel.v
theories/CoordProofs.v
theories/CoordProps.v
theories/CoordSpec.v
theories/CallbackCases.v
theories/CallbackModel.v
theories/CallbackProofs.v
theories/CallbackProps.v
theories/CallbackSpec.v
theories/CtxModel.v
theories/CtxProofs.v
theories/CtxProps.v
theories/CtxSpec.v
theories/CopMain.v
theories/CopModel.v
theories/CopProofs.v
theories/CopProps.v
theories/CopSpec.v
theories/NegModel.v
theories/NegProofs.v
theories/NegProps.v
theories/NegSpec.v
