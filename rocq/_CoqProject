-Q theories Verif
theories/Base.v
theories/BMap.v
theories/M_Agenda.v
theories/M_Search.v
theories/S_Search.v
theories/S_Heaps.v
theories/P_Agenda.v
theories/P_Search.v
theories/P_Heaps.v
theories/Properties_Search.v
theories/M_Util.v
theories/S_Util.v
theories/P_Util.v
theories/Properties_Util.v
theories/M_Recog.v
theories/S_Recog.v
theories/P_Recog.v
theories/Properties_Recog.v
theories/M_Automata.v
theories/S_Automata.v
theories/P_Automata.v
theories/P_PDA.v
theories/M_CFG.v
theories/S_CFG.v
theories/P_CFG.v
theories/P_Beam.v
theories/P_CfgEnds.v
theories/Properties_Automata.v
theories/Properties_CFG.v
theories/M_TreeStack.v
theories/S_TreeStack.v
theories/P_TreeStack.v
theories/P_TSA.v
theories/Properties_TreeStack.v
theories/M_Grammar.v
theories/S_Grammar.v
theories/P_Grammar.v
theories/P_GrammarCFG.v
theories/M_Conversion.v
theories/P_Conversion.v
theories/Properties_Grammar.v
theories/M_Negra.v
theories/P_Separate.v
theories/S_Negra.v
theories/P_Negra.v
theories/Properties_Negra.v
theories/M_Chart.v
theories/S_Chart.v
theories/P_Chart.v
theories/M_CSAuto.v
theories/S_CS.v
theories/P_CSAuto.v
theories/P_FillChart.v
theories/Properties_Chart.v
theories/M_Estimates.v
theories/S_Estimates.v
theories/P_Estimates.v
theories/Properties_Estimates.v
theories/M_RuleMask.v
theories/S_RuleMask.v
theories/P_RuleMask.v
theories/Properties_RuleMask.v
theories/M_ToDeriv.v
theories/P_ToDeriv.v
theories/Properties_CSRep.v
theories/M_KBest.v
theories/P_KBest.v
theories/P_KBestChart.v
theories/M_Cow.v
theories/S_Cow.v
theories/P_Cow.v
theories/M_CSParse.v
theories/P_CSParse.v
theories/P_Once.v
theories/S_CSParse.v
theories/Properties_CSParse.v
theories/M_Approx.v
theories/S_Approx.v
theories/P_Approx.v
theories/Properties_Approx.v
theories/M_Dyck.v
theories/S_Dyck.v
theories/P_Dyck.v
theories/Properties_Dyck.v
theories/M_FromPmcfg.v
theories/S_FromPmcfg.v
theories/P_FromPmcfg.v
theories/P_FromPmcfg2.v
theories/P_FromPmcfg3.v
theories/P_FromPmcfg4.v
theories/P_FromPmcfg5.v
theories/Properties_FromPmcfg.v
theories/Properties_Beam.v
theories/Properties_CfgEnds.v
theories/M_Nom.v
theories/M_Text.v
theories/S_Text.v
theories/P_Text.v
theories/Properties_Text.v
theories/Properties_TextWeight.v
theories/M_Import.v
theories/S_Import.v
theories/P_Import.v
theories/Properties_Import.v
theories/M_AutText.v
theories/S_AutText.v
theories/P_AutText.v
theories/Properties_AutText.v
theories/M_Command.v
theories/S_Command.v
theories/P_Command.v
theories/Properties_Command.v
theories/M_Mcfg.v
theories/S_Mcfg.v
theories/S_ConfText.v
theories/P_ConfText.v
theories/P_Mcfg.v
theories/Properties_Mcfg.v
theories/M_CfgCommand.v
theories/S_CfgCommand.v
theories/P_CfgCommand.v
theories/Properties_CfgCommand.v
theories/M_TsaCommand.v
theories/S_TsaCommand.v
theories/P_TsaCommand.v
theories/Properties_TsaCommand.v
theories/M_ApproxCommand.v
theories/S_ApproxCommand.v
theories/P_ApproxCommand.v
theories/Properties_ApproxCommand.v
theories/M_Stacked.v
theories/S_Stacked.v
theories/P_Stacked.v
theories/Properties_Stacked.v
theories/M_PdaText.v
theories/S_PdaText.v
theories/P_PdaText.v
theories/Properties_PdaText.v
theories/M_Disco.v
theories/S_Disco.v
theories/P_Broken.v
theories/P_Disco.v
theories/Properties_Disco.v
theories/S_Loose.v
theories/P_Loose.v
theories/Properties_Loose.v
theories/P_Total.v
theories/Properties_Total.v
theories/M_Gorn.v
theories/S_Gorn.v
theories/P_Gorn.v
theories/Properties_Gorn.v
theories/M_Order.v
theories/S_Order.v
theories/P_Order.v
theories/Properties_Order.v
theories/S_LooseCommand.v
theories/Properties_LooseCommand.v
theories/P_Repeated.v
theories/Properties_Repeated.v
theories/S_Fading.v
theories/P_Finds.v
theories/Properties_Finds.v
theories/P_Finds2.v
theories/Properties_Finds2.v
theories/P_Loops.v
theories/Properties_Loops.v
theories/M_ConfText.v
theories/P_ConfText2.v
theories/Properties_ConfText.v
theories/M_Float.v
theories/P_Float.v
theories/Properties_Float.v
theories/M_Main.v
theories/S_Main.v
theories/P_Main.v
theories/Properties_Main.v
theories/S_Chars.v
theories/P_Chars.v
theories/Properties_Chars.v
theories/Properties_Edges.v
theories/Properties_FloatCfg.v
theories/S_Clap.v
theories/M_Clap.v
theories/P_Clap.v
theories/Properties_Clap.v
theories/Properties_Panic.v
theories/Properties_Complete.v
theories/Properties_Cut.v
theories/Properties_Witness.v
theories/Properties_NewPanic.v
theories/S_Enter.v
theories/P_Enter.v
theories/P_EnterConv.v
theories/Properties_Enter.v
theories/M_Rename.v
theories/Properties_Rename.v
theories/P_CfgWords.v
theories/Properties_CfgWords.v
theories/M_Consistent.v
theories/S_Consistent.v
theories/P_Consistent.v
theories/Properties_Consistent.v
theories/M_Drain.v
theories/Properties_Drain.v
theories/Properties_CowDeriv.v
theories/Properties_DrainHeaps.v
theories/Properties_CowWords.v
