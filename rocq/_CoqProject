-Q theories Verif
theories/Base.v
theories/Util.v
theories/UtilProofs.v
theories/IntervalSet.v
theories/IntervalSetProofs.v
theories/Prop_Util.v
theories/Terms.v
theories/TermsSpec.v
theories/TermsProofs.v
theories/TermsProofs2.v
theories/TermsProofs3.v
theories/TermsProofs4.v
theories/Statements.v
theories/StatementsSpec.v
theories/DenFun.v
theories/StatementsProofs.v
theories/StatementsMain.v
theories/Prop_Terms.v
theories/VarState.v
theories/VarStateProofs.v
theories/Prop_Store.v
theories/Solver.v
theories/OrderSpec.v
theories/OrderProofs1.v
theories/OrderProofs2.v
theories/OrderProofs3.v
theories/OrderProofs4.v
theories/OrderProofs5.v
theories/OrderProofs6.v
theories/OrderProofs7.v
theories/Orders.v
theories/OrderProofs8.v
theories/Demo.v
theories/Prop_Order.v
theories/Sum.v
theories/PropProofs.v
theories/ConSpec.v
theories/SumProofs.v
theories/SumProofs2.v
theories/Translate.v
theories/TranslateProofs.v
theories/Prop_Sum.v
theories/DemoReady.v
theories/Distinct.v
theories/DistinctProofs.v
theories/DistinctProofs2.v
theories/Prop_Distinct.v
theories/Nonlin.v
theories/NonlinProofs.v
theories/Prop_Nonlin.v
theories/Disjoint.v
theories/DisjointProofs.v
theories/Prop_Disjoint.v
theories/Interface.v
theories/InterfaceSpec.v
theories/InterfaceProofs.v
theories/StatProofs.v
theories/Options.v
theories/OptionsSpec.v
theories/OptionsProofs.v
theories/Creator.v
theories/CreatorSpec.v
theories/CreatorProofs.v
theories/Prop_Interface.v
theories/Rewrite.v
theories/RewriteSpec.v
theories/RewriteProofs.v
theories/Prop_Rewrite.v
theories/Objective.v
theories/ObjectiveSpec.v
theories/ObjectiveProofs.v
theories/Prop_Objective.v
theories/Search.v
theories/SearchSpec.v
theories/SearchFrame.v
theories/SearchGrow.v
theories/SearchInv.v
theories/SearchInv2.v
theories/SearchInv3.v
theories/SearchInv4.v
theories/SearchInv5.v
theories/SearchUndo.v
theories/SearchSetup.v
theories/SearchMain.v
theories/DemoSearch.v
theories/Prop_Search.v
theories/Builder.v
theories/BuilderSpec.v
theories/BuilderProofs.v
theories/BuilderProofs2.v
theories/BuilderProofs3.v
theories/Prop_Builder.v
theories/Translation.v
theories/TranslationSpec.v
theories/TranslationProofs.v
theories/TranslationProofs2.v
theories/Prop_Translation.v
theories/CheckSpec.v
theories/CheckFrame.v
theories/CheckGrow.v
theories/CheckSays.v
theories/CheckProofs.v
theories/Prop_Check.v
theories/EndSpec.v
theories/EndProofs.v
theories/EndSimplify.v
theories/Prop_End.v
theories/FreshInv.v
theories/FreshCalls.v
theories/FreshSearch.v
theories/Prop_Fresh.v
theories/KeepCons.v
theories/KeepSpec.v
theories/KeepProofs.v
theories/KeepLoop.v
theories/KeepSearch.v
theories/KeepMain.v
theories/Prop_Keep.v
theories/Init.v
theories/InitFrame.v
theories/InitSpec.v
theories/InitBuild.v
theories/InitReady.v
theories/InitObjective.v
theories/InitDist.v
theories/InitSimplify.v
theories/InitRun.v
theories/InitMain.v
theories/InitTranslate.v
theories/InitSession.v
theories/InitProofs.v
theories/InitAnswers.v
theories/Prop_Init.v
theories/SumMachine.v
theories/MachineSpec.v
theories/SumMachineProofs.v
theories/MachineInv.v
theories/MachineSearch.v
theories/MachineProofs.v
theories/MachineParse.v
theories/Prop_Machine.v
theories/ParseRun.v
theories/ParseRunSpec.v
theories/ParseRunProofs.v
theories/ParseRunProofs2.v
theories/ParseRunProofs3.v
theories/ParseRunNonlin.v
theories/ParseRunProofs4.v
theories/ParseRunMain.v
theories/ParseRunFail.v
theories/ParseRunDefined.v
theories/Prop_Answers.v
theories/EndInit.v
theories/Prop_EndInit.v
theories/Estimate.v
theories/EstimateSpec.v
theories/EstimateProofs.v
theories/EstimateDistinct.v
theories/Prop_Estimate.v
theories/ObjectiveLimit.v
theories/Prop_ObjectiveLimit.v
