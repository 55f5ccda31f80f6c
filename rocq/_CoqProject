-Q theories Verif
theories/Base.v
theories/Peekables.v
theories/Tree.v
theories/Errors.v
theories/ParseFuncs.v
theories/SimpleGraph.v
theories/NamedGraph.v
theories/Sets.v
theories/ParserData.v
theories/Vm.v
theories/SimpleStackVm.v
theories/StackVm.v
theories/RuleParsing.v
theories/FirstSets.v
theories/FollowSets.v
theories/SteuerMap.v
theories/ScriptParser.v
theories/Samples.v
theories/Sanity.v
theories/SpecText.v
theories/Display.v
theories/DebugFmt.v
theories/Streams_proofs.v
theories/ParseFuncs_proofs.v
theories/Terminal_proofs.v
theories/Props_text.v
theories/SpecData.v
theories/ParserData_proofs.v
theories/Props_data.v
theories/SpecGraph.v
theories/Graph_proofs.v
theories/Named_proofs.v
theories/Props_graph.v
theories/SpecGrammar.v
theories/Grammar_proofs.v
theories/First_proofs.v
theories/Props_first.v
theories/Follow_proofs.v
theories/Props_follow.v
theories/Steuer_proofs.v
theories/SpecParser.v
theories/Construct_proofs.v
theories/Checks.v
theories/Props_steuer.v
theories/SpecTree.v
theories/Tree_proofs.v
theories/SpecScript.v
theories/Script_proofs.v
theories/Parse_proofs.v
theories/Expected_proofs.v
theories/SpecContract.v
theories/Props_script.v
theories/Prune_proofs.v
theories/TreeHistory_proofs.v
theories/Props_tree.v
theories/SpecWeave.v
theories/Weave_proofs.v
theories/Props_weave.v
theories/SpecRules.v
theories/VmText_proofs.v
theories/RuleText_proofs.v
theories/RuleRead_proofs.v
theories/RuleBuild_proofs.v
theories/Props_rules.v
theories/SpecNames.v
theories/Names_proofs.v
theories/Props_names.v
theories/SpecMath.v
theories/Math_proofs.v
theories/Props_math.v
theories/SpecVm.v
theories/Vm_proofs.v
theories/Props_vm.v
theories/SpecRpn.v
theories/Rpn_proofs.v
theories/Props_rpn.v
theories/SpecLanguage.v
theories/Language_proofs.v
theories/Accept_proofs.v
theories/Props_language.v
theories/Props_errors.v
theories/Debug_proofs.v
theories/Blame_proofs.v
theories/Main.v
theories/Props_main.v
theories/Props_custom.v
theories/SpecCalc.v
theories/CalcFail_proofs.v
theories/Broken_proofs.v
theories/Props_calc.v
theories/Examples.v
theories/Props_examples.v
theories/SpecPoints.v
theories/VmPoints_proofs.v
theories/RuleErr_proofs.v
theories/Props_points.v
theories/Props_same.v
theories/Props_count.v
theories/Payload.v
theories/SpecComplaint.v
theories/Props_debug.v
theories/Local_proofs.v
theories/Props_local.v
theories/SpecSize.v
theories/Size_proofs.v
theories/Props_size.v
theories/Helpers.v
theories/Props_members.v
theories/SpecSyntax.v
theories/Syntax_proofs.v
theories/Bare_proofs.v
theories/Props_syntax.v
theories/SpecRename.v
theories/Rename_proofs.v
theories/Props_rename.v
theories/SpecExtend.v
theories/Extend_proofs.v
theories/Props_extend.v
theories/UnitTests.v
theories/SpecFence.v
theories/Fence_proofs.v
theories/Props_fence.v
theories/SpecAttr.v
theories/Attr_proofs.v
theories/Props_attr.v
theories/SpecSim.v
theories/Sim_proofs.v
theories/Props_sim.v
theories/Modes_proofs.v
theories/Props_modes.v
theories/SpecStart.v
theories/Start_proofs.v
theories/Props_start.v
theories/SpecIgnore.v
theories/Ignore_proofs.v
theories/Props_ignore.v
theories/Props_escape.v
theories/SpecNaming.v
theories/Naming_proofs.v
theories/NamingAll_proofs.v
theories/Props_naming.v
theories/SpecFewer.v
theories/Fewer_proofs.v
theories/Props_fewer.v
theories/SpecCost.v
theories/Cost_proofs.v
theories/Props_cost.v
theories/SpecCompose.v
theories/Compose_proofs.v
theories/SpecEffect.v
theories/Effect_proofs.v
theories/Props_effect.v
theories/Props_compose.v
theories/SpecWhole.v
theories/Whole_proofs.v
theories/Props_whole.v
theories/SpecAutomaton.v
theories/Automaton_proofs.v
theories/Props_automaton.v
theories/SpecAnnounced.v
theories/Props_announced.v
theories/SpecAwaits.v
theories/Awaits_proofs.v
theories/Props_awaits.v
theories/SpecMessages.v
theories/Props_messages.v
theories/DebugData.v
theories/Props_debug_data.v
theories/SpecRecode.v
theories/Recode_proofs.v
theories/Props_recode.v
theories/SpecLists.v
theories/Lists_proofs.v
theories/Props_lists.v
theories/SpecSpelling.v
theories/Spelling_proofs.v
theories/Props_spelling.v
theories/SpecNested.v
theories/Nested_proofs.v
theories/Props_nested.v
theories/SpecRecipes.v
theories/Recipes_proofs.v
theories/Props_recipes.v
theories/SpecEmbed.v
theories/Embed_proofs.v
theories/Props_embed.v
theories/SpecExpr.v
theories/Expr_proofs.v
theories/ExprTree_proofs.v
theories/ExprText_proofs.v
theories/Props_expr.v
theories/Props_match.v
theories/Depth_proofs.v
theories/SpecDepth.v
theories/Props_depth.v
theories/SpecReads.v
theories/Reads_proofs.v
theories/Props_reads.v
theories/SpecTyping.v
theories/Props_typing.v
theories/SpecWalk.v
theories/Walk_proofs.v
theories/Props_walk.v
theories/SpecResidue.v
theories/Residue_proofs.v
theories/Props_residue.v
theories/SpecReached.v
theories/Props_reached.v
theories/Props_again.v
theories/SpecAlive.v
theories/Alive_proofs.v
theories/Props_alive.v
theories/SpecClean.v
theories/Clean_proofs.v
theories/Props_clean.v
theories/SpecSuite.v
theories/Props_suite.v
theories/Props_unique.v
theories/SpecFailed.v
theories/Failed_proofs.v
theories/Props_failed.v
theories/SpecHeights.v
theories/Heights_proofs.v
theories/Props_heights.v
theories/SpecHoare.v
theories/Props_hoare.v
theories/SpecRelation.v
theories/Props_relation.v
theories/SpecSigned.v
theories/Props_signed.v
theories/SpecExpr2.v
theories/Props_expr2.v
