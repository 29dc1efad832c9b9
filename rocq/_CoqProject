-Q theories Verif
theories/Base.v
theories/Lines.v
theories/Sexp.v
theories/Reader.v
theories/Pattern.v
theories/Filter.v
theories/Workload.v
theories/Recipe.v
theories/EnumSpec.v
theories/BaseProofs.v
theories/SexpProofs.v
theories/CanonProofs.v
theories/PatternProofs.v
theories/FilterProofs.v
theories/WorkloadProofs.v
theories/ReaderProofs.v
theories/RecipeProofs.v
theories/Lang.v
theories/Util.v
theories/BV.v
theories/BVSpec.v
theories/BoolDom.v
theories/Syntax.v
theories/Rule.v
theories/Ruleset.v
theories/RuleSpec.v
theories/NatDom.v
theories/PosDom.v
theories/BVText.v
theories/BvBoolDom.v
theories/DomainSpec.v
theories/LangProofs.v
theories/UtilProofs.v
theories/BVProofs.v
theories/BoolProofs.v
theories/NatProofs.v
theories/LiftProofs.v
theories/SyntaxProofs.v
theories/PropertiesEnum.v
theories/PropertiesDomains.v
theories/PropertiesNumbers.v
theories/ModelTests.v
theories/RuleTextProofs.v
theories/RulesetProofs.v
theories/Analysis.v
theories/Generalize.v
theories/AnalysisSpec.v
theories/AnalysisProofs.v
theories/GeneralizeProofs.v
theories/PropertiesData.v
theories/PropertiesRules.v
theories/Number.v
theories/Rational.v
theories/RationalSpec.v
theories/RationalProofs.v
theories/RationalValidate.v
theories/PropertiesRational.v
theories/Halide.v
theories/HalideSpec.v
theories/HalideProofs.v
theories/PropertiesHalide.v
theories/Egraph.v
theories/EgraphSpec.v
theories/EgraphProofs.v
theories/EgraphSound.v
theories/Synth.v
theories/Apply.v
theories/Sched.v
theories/SynthSpec.v
theories/SafeSpec.v
theories/SafeProofs.v
theories/SynthProofs.v
theories/DeriveProofs.v
theories/Domains.v
theories/DomainAlg.v
theories/DomainSound.v
theories/PropertiesSat.v
theories/Minimize.v
theories/MinimizeProofs.v
theories/MinimizeSpec.v
theories/ScoreProofs.v
theories/MinimizeLoop.v
theories/MinimizeSem.v
theories/CheckRules.v
theories/PropertiesMinimize.v
theories/Extract.v
theories/ExtractProofs.v
theories/Match.v
theories/MatchSpec.v
theories/MatchProofs.v
theories/PropertiesMatch.v
theories/Cover.v
theories/CalmSpec.v
theories/Calm.v
theories/CalmRun.v
theories/CompressProofs.v
theories/CalmDomains.v
theories/ApplySpec.v
theories/ApplyProofs.v
theories/PartsProofs.v
theories/PlainSpec.v
theories/PlainProofs.v
theories/PlainDomains.v
theories/PropertiesSched.v
theories/SaturateSpec.v
theories/SaturateProofs.v
theories/DataProofs.v
theories/VectorSpec.v
theories/VectorProofs.v
theories/PropertiesSaturate.v
theories/TotalSpec.v
theories/TotalProofs.v
theories/TotalDomains.v
theories/PropertiesTotal.v
theories/Infer.v
theories/InferSpec.v
theories/GrammarProofs.v
theories/InferProofs.v
theories/PropertiesInfer.v
theories/Logger.v
theories/LoggerSpec.v
theories/LoggerProofs.v
theories/Report.v
theories/PropertiesLogger.v
theories/TextSpec.v
theories/TextProofs.v
theories/SampleSpec.v
theories/SampleProofs.v
theories/PropertiesText.v
theories/InvProofs.v
theories/LearnSpec.v
theories/SettleProofs.v
theories/SampledDomains.v
theories/LearnProofs.v
theories/LearnDomains.v
theories/PropertiesLearn.v
theories/OpsSpec.v
theories/OpsProofs.v
theories/OpsDomains.v
theories/SaveProofs.v
theories/SaveDomains.v
theories/LearntSpec.v
theories/LearntProofs.v
theories/StrictProofs.v
theories/PropertiesLearnt.v
theories/ForwardSpec.v
theories/ForwardProofs.v
theories/ForwardDomains.v
theories/PropertiesForward.v
theories/PartialSpec.v
theories/PartialProofs.v
theories/Trig.v
theories/TrigSpec.v
theories/TrigField.v
theories/TrigRules.v
theories/TrigProofs.v
theories/Script.v
theories/PropertiesTrig.v
theories/Exp.v
theories/ExpSpec.v
theories/ExpRules.v
theories/ExpProofs.v
theories/PropertiesExp.v
theories/Conditional.v
theories/ConditionalSpec.v
theories/ConditionalProofs.v
theories/ProposedProofs.v
theories/ConditionalLearn.v
theories/PropertiesConditional.v
theories/CompleteSpec.v
theories/CompleteProofs.v
theories/CompleteDomains.v
theories/PropertiesComplete.v
theories/Solid.v
theories/SolidSpec.v
theories/SolidProofs.v
theories/PropertiesSolid.v
theories/Baselines.v
theories/BaselineSpec.v
theories/BaselineProofs.v
theories/BaselineHalide.v
theories/BaselineHalideA.v
theories/BaselineHalideB.v
theories/BaselineBV.v
theories/BaselineRational.v
theories/BaselineDerive.v
theories/PropertiesBaseline.v
theories/Recipes.v
theories/RecipesSpec.v
theories/RecipesSig.v
theories/RecipesProofs.v
theories/RecipesDomains.v
theories/RecipesLayers.v
theories/RecipesExact.v
theories/RecipesLayer2.v
theories/RecipesKept.v
theories/PropertiesRecipes.v
theories/LiveSpec.v
theories/LiveProofs.v
theories/LivePower.v
theories/LiveQuiet.v
theories/LiveDomains.v
theories/PropertiesLive.v
theories/FinishSpec.v
theories/FinishProofs.v
theories/FinishRun.v
theories/FinishDomains.v
theories/FinishRecursive.v
theories/PropertiesFinish.v
theories/MaxMin.v
theories/MaxMinSpec.v
theories/MaxMinProofs.v
theories/PropertiesMaxMin.v
theories/Herbie.v
theories/HerbieSpec.v
theories/HerbiePow.v
theories/HerbieDerive.v
theories/HerbieTrig.v
theories/HerbieExp.v
theories/HerbiePos.v
theories/PropertiesHerbie.v
theories/Phases.v
theories/PhasesSpec.v
theories/PhasesProofs.v
theories/PropertiesPhases.v
theories/SizedTests.v
theories/SizedSpec.v
theories/SizedProofs.v
theories/SizedDomains.v
theories/SizedFinish.v
theories/SizedKept.v
theories/PropertiesSized.v
theories/LiveLinks.v
theories/FinishLinks.v
theories/FinishExpSpec.v
theories/FinishExp.v
theories/PropertiesMore.v
theories/SolidTest.v
theories/SolidTestSpec.v
theories/SolidTestTerms.v
theories/SolidTestProofs.v
theories/PropertiesSolidTest.v
theories/SolidExport.v
theories/SolidExportSpec.v
theories/SolidExportProofs.v
theories/SolidExportLearned.v
theories/PropertiesSolidExport.v
