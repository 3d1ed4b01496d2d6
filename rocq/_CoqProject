-Q theories Verif

theories/Model/Text.v
theories/Model/Fix.v
theories/Model/Driver.v
theories/Spec/FixSpec.v
theories/Spec/DriverSpec.v
theories/Proofs/TextProofs.v
theories/Proofs/FixProofs.v
theories/Proofs/FixWitness.v
theories/Proofs/DriverProofs.v
theories/Proofs/DriverWitness.v
theories/Proofs/ExtensionProofs.v
theories/Properties/FixProperties.v
theories/Model/RowCol.v
theories/Spec/RowColSpec.v
theories/Proofs/RowColProofs.v
theories/Properties/RowColProperties.v
theories/Model/Base.v
theories/Model/Rules.v
theories/Model/Description.v
theories/Model/Config.v
theories/Model/RuleOptions.v
theories/Spec/RuleOptionsSpec.v
theories/Spec/ConfigSpec.v
theories/Spec/DescriptionSpec.v
theories/Proofs/RulesProofs.v
theories/Proofs/ConfigProofs.v
theories/Proofs/TableProofs.v
theories/Proofs/SplitProofs.v
theories/Proofs/DescriptionProofs.v
theories/Proofs/RuleOptionsProofs.v
theories/Properties/ConfigProperties.v
theories/Properties/TableProperties.v
theories/Model/Cfg.v
theories/Spec/CfgSpec.v
theories/Proofs/CfgGraph.v
theories/Proofs/CfgSem.v
theories/Proofs/CfgBuild.v
theories/Proofs/CfgReach.v
theories/Proofs/CfgReason.v
theories/Proofs/CfgStraight.v
theories/Proofs/CfgComplete.v
theories/Proofs/CfgCause.v
theories/Proofs/CfgWitness.v
theories/Properties/CfgProperties.v
theories/Model/Directive.v
theories/Spec/DirectiveSpec.v
theories/Proofs/DirectiveProofs.v
theories/Model/Suppress.v
theories/Spec/SuppressSpec.v
theories/Proofs/SuppressProofs.v
theories/Proofs/SuppressFilter.v
theories/Proofs/SuppressMain.v
theories/Proofs/SuppressOrder.v
theories/Proofs/SuppressWitness.v
theories/Model/Document.v
theories/Spec/DocumentSpec.v
theories/Proofs/DocumentProofs.v
theories/Model/SuppressEdit.v
theories/Spec/SuppressEditSpec.v
theories/Proofs/SuppressEditProofs.v
theories/Properties/SuppressProperties.v
theories/Model/Rmd.v
theories/Spec/RmdSpec.v
theories/Proofs/RmdProofs.v
theories/Properties/RmdProperties.v
theories/Model/Lsp.v
theories/Model/Actions.v
theories/Spec/LspSpec.v
theories/Spec/ActionSpec.v
theories/Proofs/LspProofs.v
theories/Proofs/LspSync.v
theories/Proofs/LspDiag.v
theories/Proofs/LspGlob.v
theories/Proofs/LspWitness.v
theories/Properties/LspProperties.v
theories/Model/Cli.v
theories/Model/Paths.v
theories/Spec/CliSpec.v
theories/Spec/PathSpec.v
theories/Proofs/PathProofs.v
theories/Properties/PathProperties.v
theories/Proofs/CliDiscover.v
theories/Proofs/CliReport.v
theories/Proofs/CliFiles.v
theories/Proofs/CliMain.v
theories/Properties/CliProperties.v
theories/Model/Package.v
theories/Spec/PackageSpec.v
theories/Proofs/PackageScan.v
theories/Proofs/PackageDup.v
theories/Proofs/PackageWords.v
theories/Proofs/PackageExports.v
theories/Proofs/PackageUnused.v
theories/Proofs/PackageUnused2.v
theories/Proofs/PackageFiles.v
theories/Proofs/PackageSearch.v
theories/Properties/PackageProperties.v
theories/Model/RExpr.v
theories/Spec/RGrammar.v
theories/Spec/RWellFormed.v
theories/Proofs/RParse.v
theories/Proofs/RParseSound.v
theories/Spec/RPosition.v
theories/Spec/RSemantics.v
theories/Proofs/RContext.v
theories/Proofs/RCongruence.v
theories/Proofs/RAlike.v
theories/Model/Lints.v
theories/Model/MoreLints.v
theories/Spec/RFix.v
theories/Spec/RAlike.v
theories/Spec/RDemo.v
theories/Spec/RMore.v
theories/Spec/RDocumented.v
theories/Proofs/LintSyntax.v
theories/Proofs/LintFixes.v
theories/Proofs/LintNested.v
theories/Proofs/LintLogic.v
theories/Proofs/LintMore.v
theories/Proofs/LintUnits.v
theories/Proofs/LintRefute.v
theories/Properties/LintProperties.v
theories/Proofs/LintDocumented.v
theories/Proofs/LintAssign.v
theories/Proofs/LintConstant.v
theories/Proofs/RuleRefute.v
theories/Properties/RuleProperties.v
theories/Model/Traverse.v
theories/Spec/RSearch.v
theories/Spec/RMention.v
theories/Proofs/MentionProofs.v
theories/Proofs/MentionRules.v
theories/Proofs/MentionKeep.v
theories/Proofs/MentionFile.v
theories/Proofs/RSearchProofs.v
theories/Spec/RStops.v
theories/Proofs/RStopsProofs.v
theories/Proofs/SearchRefute.v
theories/Properties/SearchProperties.v
theories/Spec/RFlagged.v
theories/Proofs/RFlaggedProofs.v
theories/Proofs/RFlaggedCompare.v
theories/Proofs/RFlaggedCalls.v
theories/Proofs/RFlaggedMore.v
theories/Proofs/RFlaggedTestthat.v
theories/Proofs/RFlaggedRest.v
theories/Proofs/RFlaggedLast.v
theories/Proofs/RFlaggedEnd.v
theories/Proofs/RFlaggedSprintf.v
theories/Proofs/RFlaggedAll.v
theories/Proofs/FlagRefute.v
theories/Properties/FlagProperties.v
theories/Spec/RArguments.v
theories/Proofs/RArgumentsProofs.v
theories/Proofs/RArgumentsRules.v
theories/Proofs/ArgumentRefute.v
theories/Properties/ArgumentProperties.v
theories/Spec/RLex.v
theories/Model/Pipeline.v
theories/Spec/RFile.v
theories/Spec/RText.v
theories/Spec/RPass.v
theories/Spec/RDecimals.v
theories/Model/Project.v
theories/Model/ProjectFix.v
theories/Spec/ProjectSpec.v
theories/Spec/RuleTable.v
theories/Proofs/ProjectFiles.v
theories/Proofs/ProjectRuns.v
theories/Proofs/ProjectFixes.v
theories/Proofs/ProjectUnsaved.v
theories/Proofs/RFuel.v
theories/Proofs/RLexProofs.v
theories/Proofs/HangRefute.v
theories/Proofs/InPlace.v
theories/Proofs/CommentProofs.v
theories/Proofs/LocalText.v
theories/Proofs/ReplaceText.v
theories/Proofs/Cuts.v
theories/Proofs/TwoPlaces.v
theories/Proofs/WholeProofs.v
theories/Proofs/PassProofs.v
theories/Proofs/PassExample.v
theories/Proofs/FileProofs.v
theories/Proofs/FileRefute.v
theories/Properties/FileProperties.v
theories/Model/Server.v
theories/Spec/ServerSpec.v
theories/Proofs/ServerProofs.v
theories/Proofs/ServerOrder.v
theories/Proofs/ServerShown.v
theories/Proofs/ServerRefute.v
theories/Properties/ServerProperties.v
theories/Properties/TextProperties.v
theories/Properties/PassProperties.v
theories/Properties/MentionProperties.v
theories/Properties/ProjectProperties.v
theories/Model/Output.v
theories/Model/Warnings.v
theories/Model/Json.v
theories/Model/Messages.v
theories/Spec/JsonSpec.v
theories/Spec/WarningSpec.v
theories/Spec/OutputSpec.v
theories/Proofs/OutputProofs.v
theories/Proofs/WarningProofs.v
theories/Proofs/JsonProofs.v
theories/Proofs/TerminalProofs.v
theories/Properties/OutputProperties.v
theories/Properties/WarningProperties.v
theories/Properties/JsonProperties.v
theories/Spec/RFunctions.v
theories/Spec/RExpect.v
theories/Spec/RLibrary.v
theories/Proofs/FunctionProofs.v
theories/Proofs/LibraryProofs.v
theories/Proofs/ExpectProofs.v
theories/Proofs/ExpectLibrary.v
theories/Properties/FunctionProperties.v
theories/Properties/ExpectProperties.v
theories/Proofs/ActionProofs.v
theories/Properties/ActionProperties.v
theories/Spec/AdviceSpec.v
theories/Proofs/AdviceProofs.v
theories/Proofs/AdviceForms.v
theories/Proofs/AdviceExpect.v
theories/Proofs/AdviceFacts.v
theories/Proofs/AdviceCalls.v
theories/Properties/AdviceProperties.v
theories/Proofs/ZeroSearch.v
theories/Proofs/ZeroFix.v
theories/Proofs/ZeroRun.v
theories/Proofs/ZeroCrash.v
theories/Properties/ZeroProperties.v
theories/Spec/RSpelling.v
theories/Proofs/SpellRun.v
theories/Properties/SpellProperties.v
